(** Primitives of Python / NumPy / JAX used throughout the package:
    results, [lax.scan], [linspace], [cumsum], [trapz], strided slices. *)
From Coq Require Import Reals Lra.
From mathcomp Require Import all_ssreflect all_algebra mxtens.
From Verif Require Import Rstruct.

Set Implicit Arguments.
Unset Strict Implicit.
Unset Printing Implicit Defensive.
Import Order.TTheory GRing.Theory Num.Theory.
Local Open Scope ring_scope.

(** ** Outcomes of a computation
    [Val v]: finite value; [Nan]: an array with non finite entries;
    [Raise e]: a Python exception.  [Nan] and [Raise] absorb. *)
Inductive exn := TypeError | AssertionError | ValueError | ZeroDivisionError.
Inductive res (A : Type) := Val of A | Nan | Raise of exn.
Arguments Nan {A}.
Arguments Raise {A}.

Definition rbind A B (x : res A) (f : A -> res B) : res B :=
  match x with Val a => f a | Nan => Nan | Raise e => Raise e end.
Definition rmap A B (f : A -> B) (x : res A) : res B := rbind x (fun a => Val (f a)).

Declare Scope res_scope.
Delimit Scope res_scope with res.
Notation "'let!' x ':=' m 'in' f" := (rbind m (fun x => f))
  (at level 200, x pattern, m at level 100, f at level 200) : res_scope.
Open Scope res_scope.

Lemma rbind_val A B (a : A) (f : A -> res B) : rbind (Val a) f = f a.
Proof. by []. Qed.

(** ** Visible actions on a progress bar: created, advanced by n, closed. *)
Inductive event := Define | Update of nat | Close.

(** ** [jax.lax.scan]: a left fold that also collects outputs *)
Fixpoint scan S I O (f : S -> I -> S * O) (s : S) (xs : seq I) : S * seq O :=
  if xs is x :: xs' then
    let r := f s x in let t := scan f r.1 xs' in (t.1, r.2 :: t.2)
  else (s, [::]).

Section Scan.
Variables (S I O : Type).
Implicit Types (f : S -> I -> S * O) (s : S) (xs : seq I).

Lemma scan_carry f s xs : (scan f s xs).1 = foldl (fun s x => (f s x).1) s xs.
Proof. by elim: xs s => //= x xs IH s; rewrite IH. Qed.

Lemma scan_size f s xs : size (scan f s xs).2 = size xs.
Proof. by elim: xs s => //= x xs IH s; rewrite IH. Qed.

Lemma scan_cat f s xs ys :
  scan f s (xs ++ ys) =
  let r := scan f s xs in let t := scan f r.1 ys in (t.1, r.2 ++ t.2).
Proof. by elim: xs s => /= [|x xs IH] s; [case: (scan f s ys) | rewrite IH]. Qed.

Lemma scan_nth f s xs (o0 : O) (i0 : I) k : (k < size xs)%N ->
  nth o0 (scan f s xs).2 k = (f (scan f s (take k xs)).1 (nth i0 xs k)).2.
Proof. by elim: xs s k => //= x xs IH s [|k] //= Hk; rewrite IH. Qed.

Lemma scan_take f s xs k : (scan f s (take k xs)).2 = take k (scan f s xs).2.
Proof. by elim: xs s k => //= x xs IH s [|k] //=; rewrite IH. Qed.

Lemma scan_ext f g s xs : (forall s x, f s x = g s x) -> scan f s xs = scan g s xs.
Proof. by move=> E; elim: xs s => //= x xs IH s; rewrite E IH. Qed.

Lemma scan_rcons f s xs x :
  scan f s (rcons xs x) =
  let r := scan f s xs in let t := f r.1 x in (t.1, rcons r.2 t.2).
Proof. by rewrite -cats1 scan_cat /= cats1. Qed.
End Scan.

(** The carry after the first [k] items: the state "at grid point k". *)
Definition carry_at S I O (f : S -> I -> S * O) s xs k := (scan f s (take k xs)).1.

Lemma carry_at0 S I O (f : S -> I -> S * O) s xs : carry_at f s xs 0 = s.
Proof. by rewrite /carry_at take0. Qed.

Lemma carry_atS S I O (f : S -> I -> S * O) s xs k i0 : (k < size xs)%N ->
  carry_at f s xs k.+1 = (f (carry_at f s xs k) (nth i0 xs k)).1.
Proof. by move=> Hk; rewrite /carry_at (take_nth i0 Hk) scan_rcons. Qed.

Lemma carry_at_size S I O (f : S -> I -> S * O) s xs :
  carry_at f s xs (size xs) = (scan f s xs).1.
Proof. by rewrite /carry_at take_size. Qed.

(** When the body returns the new carry as output (as all solvers here do),
    output [k] is the carry after [k+1] items. *)
Lemma scan_nth_carry S I (f : S -> I -> S * S) s xs o0 k :
  (forall s x, (f s x).2 = (f s x).1) -> (k < size xs)%N ->
  nth o0 (scan f s xs).2 k = carry_at f s xs k.+1.
Proof.
move=> Hf; elim: xs s k => //= x xs IH s [|k] Hk; first by rewrite /carry_at /= take0 Hf.
by rewrite /= IH // /carry_at.
Qed.

Lemma eq_in_mkseq T (f g : nat -> T) n : (forall i, (i < n)%N -> f i = g i) -> mkseq f n = mkseq g n.
Proof.
move=> E; case: n E => // n E; apply: (@eq_from_nth _ (f 0%N)); rewrite !size_mkseq // => i Hi.
by rewrite !nth_mkseq // E.
Qed.

(** ** [jnp.linspace(a, b, n)] *)
Definition linspace (a b : R) (n : nat) : seq R :=
  mkseq (fun i => a + i%:R * ((b - a) / n.-1%:R)) n.

Lemma size_linspace a b n : size (linspace a b n) = n.
Proof. exact: size_mkseq. Qed.

Lemma nth_linspace a b n i x0 : (i < n)%N ->
  nth x0 (linspace a b n) i = a + i%:R * ((b - a) / n.-1%:R).
Proof. by move=> Hi; rewrite nth_mkseq. Qed.

(** [ts[:-1]] *)
Definition but_last T (s : seq T) : seq T := take (size s).-1 s.

Lemma size_but_last T (s : seq T) : size (but_last s) = (size s).-1.
Proof. by rewrite /but_last size_take; case: s => //= x s; rewrite ltnS leqnn. Qed.

(** The grid [linspace(0, N*d, N+1)] consists of the multiples of [d]. *)
Lemma linspace_grid (d : R) (N : nat) :
  linspace 0 (N%:R * d) N.+1 = mkseq (fun k => k%:R * d) N.+1.
Proof.
apply: (@eq_from_nth _ 0); rewrite !size_mkseq // => i Hi.
rewrite !nth_mkseq // add0r subr0 /=; case: N Hi => [|N] Hi.
  by rewrite ltnS leqn0 in Hi; rewrite (eqP Hi) !mul0r.
by rewrite (mulrC N.+1%:R) mulfK ?pnatr_eq0.
Qed.

Lemma but_last_grid (d : R) (N : nat) :
  but_last (linspace 0 (N%:R * d) N.+1) = mkseq (fun k => k%:R * d) N.
Proof.
rewrite linspace_grid /but_last size_mkseq /= /mkseq -map_take; congr map.
by rewrite take_iota; congr iota; apply/minn_idPl.
Qed.

(** The grid [linspace(h, N*h, N)] of filter times. *)
Lemma linspace_grid1 (h : R) (N : nat) :
  linspace h (N%:R * h) N = mkseq (fun k => k.+1%:R * h) N.
Proof.
apply: (@eq_from_nth _ 0); rewrite !size_mkseq // => i Hi.
rewrite !nth_mkseq //; case: N Hi => [|[|N]] //= Hi.
  by rewrite ltnS leqn0 in Hi; rewrite (eqP Hi) mul0r addr0 mul1r.
have -> : N.+2%:R * h - h = N.+1%:R * h by rewrite -[N.+2]addn1 natrD mulrDl mul1r addrK.
by rewrite (mulrC N.+1%:R) mulfK ?pnatr_eq0 // -[i.+1]addn1 natrD mulrDl mul1r addrC.
Qed.

(** The grid [linspace(0, N*h-h, N)] of Euler times. *)
Lemma linspace_grid0 (h : R) (N : nat) :
  linspace 0 (N%:R * h - h) N = mkseq (fun k => k%:R * h) N.
Proof.
apply: (@eq_from_nth _ 0); rewrite !size_mkseq // => i Hi.
rewrite !nth_mkseq // subr0 add0r; case: N Hi => [|[|N]] //= Hi.
  by rewrite ltnS leqn0 in Hi; rewrite (eqP Hi) !mul0r.
have -> : N.+2%:R * h - h = N.+1%:R * h by rewrite -[N.+2]addn1 natrD mulrDl mul1r addrK.
by rewrite (mulrC N.+1%:R) mulfK ?pnatr_eq0.
Qed.

(** ** [jnp.cumsum(xs, axis=0)] *)
Definition cumsum (V : zmodType) (xs : seq V) : seq V :=
  mkseq (fun k => \sum_(0 <= i < k.+1) nth 0 xs i) (size xs).

(** ** Indexing as JAX does it: reads out of bounds are clamped
    (to the last element; negative indices do not occur here). *)
Definition get_clamped T (x0 : T) (xs : seq T) (i : nat) : T :=
  nth x0 xs (minn i (size xs).-1).

(** ** [jnp.trapz(ys, dx=dx, axis=0)] and [jnp.trapezoid(ys, xs, axis=0)] *)
Definition trapz_dx (V : lmodType R) (ys : seq V) (dx : R) : V :=
  dx *: \sum_(0 <= i < (size ys).-1) 2%:R^-1 *: (nth 0 ys i + nth 0 ys i.+1).

Definition trapz_x (V : lmodType R) (ys : seq V) (xs : seq R) : V :=
  \sum_(0 <= i < (size ys).-1)
    ((nth 0 xs i.+1 - nth 0 xs i) / 2%:R) *: (nth 0 ys i + nth 0 ys i.+1).

(** Entrywise reading of the matrix operations, one at a time. *)
Lemma addmxE m n (A B : 'M[R]_(m, n)) i j : (A + B) i j = A i j + B i j.
Proof. by rewrite mxE. Qed.
Lemma oppmxE m n (A : 'M[R]_(m, n)) i j : (- A) i j = - A i j.
Proof. by rewrite mxE. Qed.
Lemma submxE m n (A B : 'M[R]_(m, n)) i j : (A - B) i j = A i j - B i j.
Proof. by rewrite !mxE. Qed.
Lemma scalemxE m n (c : R) (A : 'M[R]_(m, n)) i j : (c *: A) i j = c * A i j.
Proof. by rewrite mxE. Qed.
Lemma mulmxE m n p (A : 'M[R]_(m, n)) (B : 'M[R]_(n, p)) i j :
  (A *m B) i j = \sum_k A i k * B k j.
Proof. by rewrite mxE. Qed.
Lemma trmxE m n (A : 'M[R]_(m, n)) i j : A^T i j = A j i.
Proof. by rewrite mxE. Qed.
Lemma zeromxE m n i j : (0 : 'M[R]_(m, n)) i j = 0.
Proof. by rewrite mxE. Qed.
Lemma idmxE n i j : (1%:M : 'M[R]_n) i j = (i == j)%:R.
Proof. by rewrite mxE. Qed.

(** ** Interlaced states
    A state vector of length [d * n] lists, coordinate by coordinate, the [n]
    states of that coordinate: entry [k*n + i] is state [i] of coordinate [k]. *)
Section Slices.
Variables (d n : nat).

(** [x[i::n]] *)
Definition slice (i : 'I_n) (x : 'cV[R]_(d * n)) : 'cV[R]_d :=
  \col_k x (mxtens_index (k, i)) 0.

(** Building the interlaced vector from its [n] slices. *)
Definition interl (f : 'I_n -> 'cV[R]_d) : 'cV[R]_(d * n) :=
  \col_p f (mxtens_unindex p).2 (mxtens_unindex p).1 0.

(** [P[i::n, j::n]] *)
Definition slice2 (i j : 'I_n) (P : 'M[R]_(d * n)) : 'M[R]_d :=
  \matrix_(k, l) P (mxtens_index (k, i)) (mxtens_index (l, j)).

Lemma slice_interl i f : slice i (interl f) = f i.
Proof. by apply/colP=> k; rewrite !mxE mxtens_indexK. Qed.

Lemma interlE f k i : interl f (mxtens_index (k, i)) 0 = f i k 0.
Proof. by rewrite mxE mxtens_indexK. Qed.

Lemma interl_slice x : interl (slice^~ x) = x.
Proof. by apply/colP=> p; rewrite !mxE -surjective_pairing mxtens_unindexK. Qed.

Lemma slice_ext x y : (forall i, slice i x = slice i y) -> x = y.
Proof.
move=> E; rewrite -[x]interl_slice -[y]interl_slice.
by apply/colP=> p; rewrite !mxE; have /colP/(_ (mxtens_unindex p).1) := E (mxtens_unindex p).2; rewrite !mxE.
Qed.

Lemma sliceD i x y : slice i (x + y) = slice i x + slice i y.
Proof. by apply/colP=> k; rewrite !mxE. Qed.
Lemma sliceN i x : slice i (- x) = - slice i x.
Proof. by apply/colP=> k; rewrite !mxE. Qed.
Lemma sliceB i x y : slice i (x - y) = slice i x - slice i y.
Proof. by rewrite sliceD sliceN. Qed.
Lemma sliceZ i c x : slice i (c *: x) = c *: slice i x.
Proof. by apply/colP=> k; rewrite !mxE. Qed.
Lemma slice0 i : slice i 0 = 0.
Proof. by apply/colP=> k; rewrite !mxE. Qed.
End Slices.

(** A sum over interlaced indices is a double sum. *)
Lemma sum_mxtens (d n : nat) (F : 'I_(d * n) -> R) :
  \sum_p F p = \sum_(k < d) \sum_(i < n) F (mxtens_index (k, i)).
Proof.
rewrite pair_big /= (reindex (@mxtens_index d n)) /=; last first.
  by exists (@mxtens_unindex d n) => p _; [exact: mxtens_indexK | exact: mxtens_unindexK].
by apply: eq_bigr => -[k i] _.
Qed.
