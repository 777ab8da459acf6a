(** Model of bayesian_sde_solver/utils/insert.py, utils/progress_bar.py and
    ode_solvers/probnum/_utils.py. *)
From Coq Require Import Reals.
From mathcomp Require Import all_ssreflect all_algebra mxtens.
From Verif Require Import Rstruct Base.

Set Implicit Arguments.
Unset Strict Implicit.
Unset Printing Implicit Defensive.
Import Order.TTheory GRing.Theory Num.Theory.
Local Open Scope ring_scope.

(** ** ode_solvers/probnum/_utils.py *)

(** [jnp.vstack(arrays)] on 1-D arrays: rows of equal length, at least one. *)
Definition vstack (T : Type) (arrays : seq (seq T)) : res (seq (seq T)) :=
  if arrays is a :: _ then
    if all (fun b => size b == size a) arrays then Val arrays else Raise TypeError
  else Raise ValueError.

(** [M.reshape((-1,), order='F')]: column by column. *)
Definition reshapeF (T : Type) (x0 : T) (rows : seq (seq T)) : seq T :=
  flatten [seq [seq nth x0 r k | r <- rows] | k <- iota 0 (size (nth [::] rows 0))].

(** [interlace], _utils.py lines 7-11. *)
Definition interlace (T : Type) (x0 : T) (arrays : seq (seq T)) : res (seq T) :=
  let! rows := vstack arrays in Val (reshapeF x0 rows).

(** 2-D arrays at the level of indices. *)
Definition arr2 := nat -> nat -> R.
Definition mxget m n (M : 'M[R]_(m, n)) : arr2 := fun i j =>
  if insub i is Some i' then if insub j is Some j' then M i' j' else 0 else 0.
(** [jnp.block([[v, w], [x, y]])] with d x d blocks. *)
Definition block2 (d : nat) (v w x y : arr2) : arr2 := fun p q =>
  if (p < d)%N then if (q < d)%N then v p q else w p (q - d)%N
  else if (q < d)%N then x (p - d)%N q else y (p - d)%N (q - d)%N.
(** [A.at[r::2, c::2].set(B)] *)
Definition set_stride2 (r c : nat) (A B : arr2) : arr2 := fun p q =>
  if ((p %% 2 == r) && (q %% 2 == c))%N then B (p %/ 2)%N (q %/ 2)%N else A p q.
(** [A.at[r:, c:].get()] (upper bounds are implied by the target's shape). *)
Definition sub2 (r c : nat) (A : arr2) : arr2 := fun i j => A (r + i)%N (c + j)%N.

(** [interlace_matrix], _utils.py lines 14-29. *)
Definition interlace_matrix (dim : nat) (v w x y : 'M[R]_dim) : 'M[R]_(dim * 2) :=
  let var := block2 dim (mxget v) (mxget w) (mxget x) (mxget y) in
  let var1 := set_stride2 0 0 var (sub2 0 0 var) in
  let var2 := set_stride2 1 1 var1 (sub2 dim dim var) in
  let var3 := set_stride2 1 0 var2 (sub2 dim 0 var) in
  let var4 := set_stride2 0 1 var3 (sub2 0 dim var) in
  \matrix_(p, q) var4 p q.

(** ** utils/insert.py *)

(** [jnp.insert(x, pos, y, axis=0)] *)
Definition jnp_insert (T : Type) (x : seq T) (pos : nat) (y : T) : seq T :=
  take pos x ++ y :: drop pos x.

(** The argument of [insert]: one array or a tuple of arrays (leading axis = [seq]). *)
Inductive pyarg (T : Type) := One of T | Tup of seq T.

(** [insert], insert.py lines 6-14; a tuple [y] that is too short raises (IndexError
    in Python, reported here as [ValueError]), mixing the two forms is a [TypeError]. *)
Definition insert (T : Type) (y0 : T) (x : pyarg (seq T)) (pos : nat) (y : pyarg T)
  : res (pyarg (seq T)) :=
  match x, y with
  | One x, One y => Val (One (jnp_insert x pos y))
  | Tup x, Tup y =>
      if (size x <= size y)%N then
        Val (Tup (mkseq (fun i => jnp_insert (nth [::] x i) pos (nth y0 y i)) (size x)))
      else Raise ValueError
  | _, _ => Raise TypeError
  end.

(** ** utils/progress_bar.py
    The host callbacks are modelled by the events they perform on the bar
    ([Base.event]): [_define_tqdm] lines 19-21, [_update_tqdm] lines 23-24,
    [_close_tqdm] lines 49-50. *)
Section ProgressBar.
Variable num_samples : nat.
(** lines 13-17 *)
Definition print_rate : nat := if (num_samples > 1000)%N then (num_samples %/ 1000)%N else 1%N.
Definition remainder : nat := (num_samples %% print_rate)%N.

(** [_update_progress_bar], lines 26-47 *)
Definition update_events (iter_num : nat) : seq event :=
  (if iter_num == 0%N then [:: Define] else [::]) ++
  (if (iter_num %% print_rate == 0)%N && (iter_num != num_samples - remainder)%N
   then [:: Update print_rate] else [::]) ++
  (if (iter_num == num_samples - remainder)%N then [:: Update remainder] else [::]).

(** [close_tqdm], lines 52-58; [iter_num == num_samples - 1] *)
Definition close_events (iter_num : nat) : seq event :=
  if iter_num.+1 == num_samples then [:: Close] else [::].

(** [wrapper_progress_bar], lines 67-74: the decorated body, with its events. *)
Definition progress_bar (S I O : Type) (func : S -> nat * I -> S * O)
  (carry : S) (x : nat * I) : (S * O) * seq event :=
  let: (iter_num, _) := x in
  let ev := update_events iter_num in
  let result := func carry x in
  (result, ev ++ close_events iter_num).
End ProgressBar.

(** [lax.scan] of a body with host callbacks: results and events in order. *)
Fixpoint scan_ev S I O (f : S -> I -> (S * O) * seq event) (s : S) (xs : seq I)
  : (S * seq O) * seq event :=
  if xs is x :: xs' then
    let: (r, ev) := f s x in
    let: (t, ev') := scan_ev f r.1 xs' in
    ((t.1, r.2 :: t.2), ev ++ ev')
  else ((s, [::]), [::]).
