(** Properties C01, C02, C03, C62, C63: array layout and progress bar. *)
From Coq Require Import Reals.
From mathcomp Require Import all_ssreflect all_algebra mxtens.
From Verif Require Import Rstruct Base Linalg Spec M_Utils L_Utils.

Set Implicit Arguments.
Unset Strict Implicit.
Unset Printing Implicit Defensive.
Import Order.TTheory GRing.Theory Num.Theory.
Local Open Scope ring_scope.

(** C01: [interlace] of n arrays of common length d. *)
Theorem C01_interlace_layout (T : Type) (x0 : T) (d : nat) (arrays : seq (seq T)) :
  arrays <> [::] -> (forall a, List.In a arrays -> size a = d) ->
  exists s, [/\ interlace x0 arrays = Val s,
    size s = (d * size arrays)%N,
    (forall i k, (i < size arrays)%N -> (k < d)%N ->
       nth x0 s (k * size arrays + i) = nth x0 (nth [::] arrays i) k) &
    (forall i, (i < size arrays)%N -> stride i (size arrays) s = nth [::] arrays i)].
Proof. exact: interlace_layout. Qed.
Print Assumptions C01_interlace_layout.

Example C01_layout_ex :
  interlace 0%N [:: [:: 1; 2; 3]; [:: 4; 5; 6]]%N = Val [:: 1; 4; 2; 5; 3; 6]%N.
Proof. by []. Qed.

Theorem C01_interlace_rejects (T : Type) (x0 : T) (arrays : seq (seq T)) a b :
  List.In a arrays -> List.In b arrays -> size a <> size b ->
  interlace x0 arrays = Raise TypeError.
Proof. exact: interlace_reject. Qed.
Print Assumptions C01_interlace_rejects.

Example C01_rejects_ex : interlace 0%N [:: [:: 1; 2; 3]; [:: 4; 5]]%N = Raise TypeError.
Proof. by []. Qed.

(** The vectors handed to the filters are interlaced in that sense. *)
Theorem C01_state_vector d n (f : 'I_n -> 'cV[R]_d) : (0 < n)%N ->
  interlace 0 [seq entries (f i) | i <- enum 'I_n] = Val (entries (interl f)) /\
  forall i, slice i (interl f) = f i.
Proof. exact: interlace_state_vector. Qed.
Print Assumptions C01_state_vector.

(** C02: the four strided blocks. *)
Theorem C02_interlace_matrix_blocks d (v w x y : 'M[R]_d) :
  [/\ slice2 0 0 (interlace_matrix v w x y) = v,
      slice2 0 1 (interlace_matrix v w x y) = w,
      slice2 1 0 (interlace_matrix v w x y) = x &
      slice2 1 1 (interlace_matrix v w x y) = y].
Proof. exact: interlace_matrix_slices. Qed.
Print Assumptions C02_interlace_matrix_blocks.

(** Outer products of interlaced vectors are interlaced outer products. *)
Theorem C02_interlace_matrix_outer d (a b c e : 'cV[R]_d) :
  interlace_matrix (a *m c^T) (a *m e^T) (b *m c^T) (b *m e^T) =
  interl (pair2 a b) *m (interl (pair2 c e))^T.
Proof. exact: interlace_matrix_outer. Qed.
Print Assumptions C02_interlace_matrix_outer.

(** Quadratic forms, hence symmetry and positivity, are those of the block matrix. *)
Theorem C02_interlace_matrix_psd d (v w x y : 'M[R]_d) :
  (forall a b, qf (interlace_matrix v w x y) (interl (pair2 a b)) =
               qf (block_mx v w x y) (col_mx a b)) /\
  (psd (block_mx v w x y) -> psd (interlace_matrix v w x y)).
Proof. exact: interlace_matrix_form. Qed.
Print Assumptions C02_interlace_matrix_psd.

Example C02_psd_ex d : psd (block_mx (1%:M : 'M[R]_d) 0 0 (1%:M : 'M[R]_d)).
Proof. by rewrite -scalar_mx_block; exact: pd_psd (@pd1 _). Qed.

(** C03: [insert(x, 0, y, axis=0)]. *)
Theorem C03_insert_array T (y0 : T) (x : seq T) (y : T) :
  insert y0 (One x) 0 (One y) = Val (One (y :: x)).
Proof. exact: insert_one. Qed.
Print Assumptions C03_insert_array.

(** On tuples: if [zs] lists the tuples of a trajectory, inserting the tuple [y]
    componentwise gives the components of the trajectory [y :: zs]. *)
Theorem C03_insert_tuple T (y0 : T) (y : seq T) (zs : seq (seq T)) :
  insert y0 (Tup (columns y0 (size y) zs)) 0 (Tup y) =
  Val (Tup (columns y0 (size y) (y :: zs))).
Proof. exact: insert_tup. Qed.
Print Assumptions C03_insert_tuple.

Example C03_ex : insert 0%N (Tup [:: [:: 1; 2]; [:: 3; 4]; [:: 5; 6]])%N 0 (Tup [:: 7; 8; 9])%N
  = Val (Tup [:: [:: 7; 1; 2]; [:: 8; 3; 4]; [:: 9; 5; 6]])%N.
Proof. by []. Qed.

(** C62: what happens to the bar during a scan of [N] iterations with inputs
    (0,x_0), (1,x_1), ... *)
Theorem C62_progress_accounting S I O (body : S -> nat * I -> S * O) (s : S) (xs : seq I) :
  let N := size xs in
  let evs k := (scan_ev (progress_bar N body) s (take k (zip (iota 0 N) xs))).2 in
  [/\ (N = 0%N -> evs N = [::]),
      ((0 < N)%N -> exists mid, [/\ evs N = Define :: rcons mid Close,
          ~~ has is_define mid & ~~ has is_close mid]),
      ev_total (evs N) = N,
      (forall k, (k < N)%N -> (k < ev_total (evs k.+1) <= N)%N) &
      (count is_update (evs N) <= 1999)%N].
Proof. exact: progress_accounting. Qed.
Print Assumptions C62_progress_accounting.

Example C62_ex :
  (scan_ev (progress_bar 3 (fun (c : nat) (x : nat * nat) => (c + x.2, tt))%N)
     0%N [:: (0, 5); (1, 6); (2, 7)]%N).2
  = [:: Define; Update 1; Update 1; Update 1; Close].
Proof. by []. Qed.

(** C63: decorating changes neither carry nor outputs. *)
Theorem C63_progress_transparent S I O N (body : S -> nat * I -> S * O) (s : S)
  (xs : seq (nat * I)) :
  (scan_ev (progress_bar N body) s xs).1 = scan body s xs.
Proof. exact: progress_transparent. Qed.
Print Assumptions C63_progress_transparent.

Example C63_ex :
  (scan_ev (progress_bar 2 (fun (c : nat) (x : nat * nat) => (c + x.2, c * x.2))%N)
     3%N [:: (0, 5); (1, 6)]%N).1 = (14, [:: 15; 48])%N.
Proof. by []. Qed.
