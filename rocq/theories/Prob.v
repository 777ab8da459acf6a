(** Random number generation and expectations. *)
From Coq Require Import Reals Lra FunctionalExtensionality.
From mathcomp Require Import all_ssreflect all_algebra mxtens.
From Verif Require Import Rstruct Base Linalg.

Set Implicit Arguments.
Unset Strict Implicit.
Unset Printing Implicit Defensive.
Import Order.TTheory GRing.Theory Num.Theory.
Local Open Scope ring_scope.

(** ** [jax.random]
    [split k n] is [jax.random.split(k, n)];
    [normal k n] is [jax.random.normal(k, shape=(n,))];
    [normal2 k m n] is [jax.random.normal(k, shape=(m, n))]. *)
Record prng := Prng {
  key : Type;
  split : key -> nat -> seq key;
  size_split : forall k n, size (split k n) = n;
  normal : key -> forall n, 'cV[R]_n;
  normal2 : key -> forall m n, 'M[R]_(m, n)
}.

(** [bm_key, sample_key = jax.random.split(key, 2)] *)
Definition split2 (g : prng) (k : key g) : key g * key g :=
  let s := split k 2 in (nth k s 0, nth k s 1).

(** [jax.random.multivariate_normal(key, mean, cov)] with its default method:
    mean + cholesky(cov) @ normal(key, n); NaN if [cov] has no Cholesky factor. *)
Definition mvn (lp : lapack) (g : prng) (k : key g) n (mean : 'cV[R]_n) (cov : 'M[R]_n)
  : res 'cV[R]_n :=
  rbind (cholesky lp cov) (fun L => Val (mean + L *m normal k n)).

(** [jax.random.multivariate_normal(key, zeros(n), eye(n))]: the Cholesky factor
    of the identity is the identity, hence plain standard normals. *)
Definition mvn_std (g : prng) (k : key g) n : 'cV[R]_n := normal k n.

(** ** Expectation operators: linear, normalised.  (Positivity is not needed.) *)
Record expectation (Om : Type) := Expectation {
  EE :> (Om -> R) -> R;
  E_lin : forall (a : R) X Y, EE (fun w => a * X w + Y w) = a * EE X + EE Y;
  E_one : EE (fun _ => 1) = 1
}.

Section Expectation.
Variables (Om : Type) (E : expectation Om).

Lemma E_ext X Y : (forall w, X w = Y w) -> E X = E Y.
Proof. by move=> H; congr (EE E _); apply: functional_extensionality. Qed.

Lemma E_0 : E (fun _ => 0) = 0.
Proof.
have H := E_lin E (-1) (fun _ => 1) (fun _ => 1).
rewrite E_one mulr1 addNr in H; rewrite -[RHS]H.
by apply: E_ext => w; rewrite ?mulr1 ?addNr.
Qed.
Lemma E_add X Y : E (fun w => X w + Y w) = E X + E Y.
Proof.
by have := E_lin E 1 X Y; rewrite mul1r => <-; apply: E_ext => w; rewrite mul1r.
Qed.
Lemma E_scale a X : E (fun w => a * X w) = a * E X.
Proof.
have := E_lin E a X (fun _ => 0); rewrite E_0 addr0 => <-.
by apply: E_ext => w; rewrite addr0.
Qed.
Lemma E_scaler a X : E (fun w => X w * a) = E X * a.
Proof. by rewrite mulrC -E_scale; apply: E_ext => w; rewrite mulrC. Qed.
Lemma E_opp X : E (fun w => - X w) = - E X.
Proof. by rewrite -mulN1r -E_scale; apply: E_ext => w; rewrite mulN1r. Qed.
Lemma E_sub X Y : E (fun w => X w - Y w) = E X - E Y.
Proof. by rewrite E_add E_opp. Qed.
Lemma E_const c : E (fun _ => c) = c.
Proof. by rewrite -[RHS]mulr1 -(E_one E) -E_scale; apply: E_ext => w; rewrite mulr1. Qed.
Lemma E_sum (I : Type) (r : seq I) (p : pred I) (X : I -> Om -> R) :
  E (fun w => \sum_(i <- r | p i) X i w) = \sum_(i <- r | p i) E (X i).
Proof.
elim: r => [|i r IH].
  by rewrite big_nil -[RHS]E_0; apply: E_ext => w; rewrite big_nil.
rewrite big_cons -IH; case: ifP => pi.
  by rewrite -E_add; apply: E_ext => w; rewrite big_cons pi.
by apply: E_ext => w; rewrite big_cons pi.
Qed.

(** Mean vector and second moment matrix of random vectors. *)
Definition Emx m n (X : Om -> 'M[R]_(m, n)) : 'M[R]_(m, n) :=
  \matrix_(i, j) E (fun w => X w i j).

Lemma Emx_ext m n (X Y : Om -> 'M[R]_(m, n)) : (forall w, X w = Y w) -> Emx X = Emx Y.
Proof. by move=> H; apply/matrixP=> i j; rewrite !mxE; apply: E_ext => w; rewrite H. Qed.
Lemma Emx_const m n (A : 'M[R]_(m, n)) : Emx (fun _ => A) = A.
Proof. by apply/matrixP=> i j; rewrite !mxE E_const. Qed.
Lemma EmxD m n (X Y : Om -> 'M[R]_(m, n)) : Emx (fun w => X w + Y w) = Emx X + Emx Y.
Proof. by apply/matrixP=> i j; rewrite !mxE -E_add; apply: E_ext => w; rewrite mxE. Qed.
Lemma EmxZ m n (c : R) (X : Om -> 'M[R]_(m, n)) : Emx (fun w => c *: X w) = c *: Emx X.
Proof. by apply/matrixP=> i j; rewrite !mxE -E_scale; apply: E_ext => w; rewrite mxE. Qed.
Lemma EmxN m n (X : Om -> 'M[R]_(m, n)) : Emx (fun w => - X w) = - Emx X.
Proof. by apply/matrixP=> i j; rewrite !mxE -E_opp; apply: E_ext => w; rewrite mxE. Qed.
Lemma EmxT m n (X : Om -> 'M[R]_(m, n)) : Emx (fun w => (X w)^T) = (Emx X)^T.
Proof. by apply/matrixP=> i j; rewrite !mxE; apply: E_ext => w; rewrite mxE. Qed.
Lemma Emx_mull m n p (A : 'M[R]_(m, n)) (X : Om -> 'M[R]_(n, p)) :
  Emx (fun w => A *m X w) = A *m Emx X.
Proof.
apply/matrixP=> i j; rewrite !mxE.
transitivity (E (fun w => \sum_k A i k * X w k j)); first by apply: E_ext => w; rewrite mxE.
by rewrite E_sum; apply: eq_bigr => k _; rewrite E_scale !mxE.
Qed.
Lemma Emx_mulr m n p (X : Om -> 'M[R]_(m, n)) (A : 'M[R]_(n, p)) :
  Emx (fun w => X w *m A) = Emx X *m A.
Proof.
apply/matrixP=> i j; rewrite !mxE.
transitivity (E (fun w => \sum_k X w i k * A k j)); first by apply: E_ext => w; rewrite mxE.
by rewrite E_sum; apply: eq_bigr => k _; rewrite E_scaler !mxE.
Qed.

(** [xi] is centred with identity covariance ("standard normal" as far as first
    and second moments are concerned). *)
Definition standard n (xi : Om -> 'cV[R]_n) : Prop :=
  Emx xi = 0 /\ Emx (fun w => xi w *m (xi w)^T) = 1%:M.

(** The affine image of a standard vector has mean [m] and covariance [L L^T]. *)
Lemma standard_affine n k (xi : Om -> 'cV[R]_n) (m : 'cV[R]_k) (L : 'M[R]_(k, n)) :
  standard xi ->
  Emx (fun w => m + L *m xi w) = m /\
  Emx (fun w => (m + L *m xi w - m) *m (m + L *m xi w - m)^T) = L *m L^T.
Proof.
move=> [H1 H2]; split; first by rewrite EmxD Emx_const Emx_mull H1 mulmx0 addr0.
rewrite (@Emx_ext _ _ _ (fun w => L *m (xi w *m (xi w)^T) *m L^T)).
  by rewrite Emx_mulr Emx_mull H2 mulmx1.
by move=> w; rewrite addrC addKr trmx_mul !mulmxA.
Qed.

(** ** Independent repetition: the expectation over [n] independent draws. *)
Fixpoint iid (n : nat) (F : seq Om -> R) : R :=
  if n is n'.+1 then E (fun w => iid n' (fun ws => F (w :: ws))) else F [::].

Lemma iid_ext n F G : (forall ws, size ws = n -> F ws = G ws) -> iid n F = iid n G.
Proof.
elim: n F G => [|n IH] F G H /=; first exact: H.
by apply: E_ext => w; apply: IH => ws Hs; apply: H; rewrite /= Hs.
Qed.
Lemma iid_lin n a F G : iid n (fun w => a * F w + G w) = a * iid n F + iid n G.
Proof.
elim: n F G => [|n IH] F G //=.
by rewrite -E_lin; apply: E_ext => w; rewrite IH.
Qed.
Lemma iid_one n : iid n (fun _ => 1) = 1.
Proof. by elim: n => [|n IH] //=; rewrite -[RHS](E_one E); apply: E_ext => w; rewrite IH. Qed.

(** [iid n] is itself an expectation operator. *)
Definition iidE n : expectation (seq Om) :=
  Expectation (fun a X Y => iid_lin n a X Y) (iid_one n).
End Expectation.

(** ** A concrete operator: the average over finitely many equally likely outcomes. *)
Section Uniform.
Variables (T : finType) (t0 : T).
Definition uavg (X : T -> R) : R := (\sum_t X t) / #|T|%:R.
Lemma uavg_lin a X Y : uavg (fun w => a * X w + Y w) = a * uavg X + uavg Y.
Proof. by rewrite /uavg big_split /= -mulr_sumr mulrDl mulrA. Qed.
Lemma uavg_one : uavg (fun _ => 1) = 1.
Proof.
rewrite /uavg sumr_const divff // pnatr_eq0 -lt0n; apply/card_gt0P; by exists t0.
Qed.
Definition uniformE : expectation T := Expectation uavg_lin uavg_one.
End Uniform.

(** Independent fair signs are standard. *)
Definition signs n := {ffun 'I_n -> bool}.
Definition sgn (b : bool) : R := if b then 1 else -1.
Definition rademacher n (w : signs n) : 'cV[R]_n := \col_i sgn (w i).
Definition signsE n : expectation (signs n) := uniformE [ffun _ => true].

Definition flip n (i : 'I_n) (w : signs n) : signs n :=
  [ffun j => if j == i then ~~ w j else w j].
Lemma flipK n (i : 'I_n) : involutive (flip i).
Proof.
by move=> w; apply/ffunP=> j; rewrite !ffunE; case: (j == i) => //; rewrite negbK.
Qed.

Lemma rademacher_standard n : standard (signsE n) (@rademacher n).
Proof.
split.
  apply/matrixP=> i j; rewrite !mxE /signsE /= /uavg.
  have -> : \sum_(w : signs n) rademacher w i j = 0; last by rewrite mul0r.
  set S := \sum_w _; suff : S = - S.
    by exact: eq_opp0.
  rewrite /S [LHS](reindex_inj (inv_inj (flipK i))) /= -sumrN.
  apply: eq_bigr => w _; rewrite !mxE !ffunE eqxx /sgn.
  by case: (w i) => /=; rewrite ?opprK.
apply/matrixP=> i j; rewrite !mxE /signsE /= /uavg.
case: (eqVneq i j) => [->|ij].
  rewrite (eq_bigr (fun _ => 1)); first by rewrite sumr_const divff // pnatr_eq0 -lt0n; apply/card_gt0P; exists [ffun _ => true].
  move=> w _; rewrite mxE big_ord1 !mxE /sgn; case: (w j); first by rewrite mulr1.
  by rewrite mulrNN mulr1.
set S := \sum_w _; suff : S = - S.
  move=> E; suff -> : S = 0 by rewrite mul0r.
  by exact: eq_opp0.
rewrite /S [LHS](reindex_inj (inv_inj (flipK i))) /= -sumrN.
apply: eq_bigr => w _; rewrite !mxE !big_ord1 !mxE !ffunE eqxx eq_sym (negPf ij) /sgn.
by case: (w i) => /=; rewrite ?mulNr ?mul1r ?opprK.
Qed.

(** A random array with centred, uncorrelated, unit variance entries. *)
Definition standard2 (Om : Type) (E : expectation Om) m n (X : Om -> 'M[R]_(m, n)) : Prop :=
  (forall i j, E (fun w => X w i j) = 0) /\
  (forall i j k l, E (fun w => X w i j * X w k l) = ((i == k) && (j == l))%:R).

(** The last of [n.+1] independent draws can be integrated out first. *)
Lemma iid_rcons (Om : Type) (E : expectation Om) n F :
  iid E n.+1 F = iid E n (fun ws => E (fun w => F (rcons ws w))).
Proof.
elim: n F => [|n IH] F //.
rewrite -/(iid E n.+1) [LHS]/=; apply: E_ext => w.
by have /= -> := IH (fun ws => F (w :: ws)).
Qed.

(** ** A concrete generator, for examples: a key is either a table of draws or a
    list of keys to be handed out by [split]. *)
Inductive ktree := Leaf of (nat -> nat -> R) | Node of seq ktree.
Definition kzero := Leaf (fun _ _ => 0).
Definition ksplit (k : ktree) (n : nat) : seq ktree :=
  mkseq (nth kzero (if k is Node ks then ks else [::])) n.
Definition ktable (k : ktree) : nat -> nat -> R := if k is Leaf f then f else fun _ _ => 0.
Lemma size_ksplit k n : size (ksplit k n) = n.
Proof. by rewrite size_mkseq. Qed.
Definition tree_prng : prng :=
  @Prng ktree ksplit size_ksplit (fun k n => \col_i ktable k 0 i)
        (fun k m n => \matrix_(i, j) ktable k i j).

Lemma ksplit_node ks : ksplit (Node ks) (size ks) = ks.
Proof. exact: mkseq_nth. Qed.

(** Keys whose first [m] by [n] draws are independent fair signs. *)
Definition sign_table m n (w : signs (m * n)) : ktree :=
  Leaf (fun i j => if insub i is Some i' then if insub j is Some j' then
    sgn (w (mxtens_index (i' : 'I_m, j' : 'I_n))) else 0 else 0).
Definition pushE (A B : Type) (f : A -> B) (E : expectation A) : expectation B :=
  Expectation (fun a X Y => E_lin E a (fun w => X (f w)) (fun w => Y (f w))) (E_one E).
Definition signkeyE m n : expectation ktree := pushE (@sign_table m n) (signsE (m * n)).
(** ... and keys that split into [N] such keys. *)
Definition nodeE (E : expectation ktree) N : expectation ktree := pushE Node (iidE E N).

Lemma signkey_standard m n : standard2 (signkeyE m n) (fun k => normal2 (k : key tree_prng) m n).
Proof.
have [H1 H2] := rademacher_standard (m * n).
have e (w : signs (m * n)) (i : 'I_m) (j : 'I_n) :
    normal2 (sign_table w : key tree_prng) m n i j = rademacher w (mxtens_index (i, j)) 0.
  by rewrite !mxE /= !valK.
split=> [i j|i j k l].
  have /matrixP/(_ (mxtens_index (i, j)) 0) := H1; rewrite !mxE => <-.
  by apply: (@E_ext _ (signsE (m * n))) => w; exact: e.
have /matrixP/(_ (mxtens_index (i, j)) (mxtens_index (k, l))) := H2.
rewrite !mxE (can_eq (@mxtens_indexK m n)) xpair_eqE => <-.
apply: (@E_ext _ (signsE (m * n))) => w; rewrite [RHS]mxE big_ord1 trmxE; congr (_ * _); exact: e.
Qed.

Lemma nodeE_split (E : expectation ktree) N F :
  nodeE E N (fun k => F (split (k : key tree_prng) N)) = iid E N F.
Proof. by apply: iid_ext => ws Hs; rewrite /= -Hs ksplit_node. Qed.

(** Draws that are not used integrate to one. *)
Lemma iid_take (Om : Type) (E : expectation Om) n k F :
  iid E (n + k) (fun ws => F (take n ws)) = iid E n F.
Proof.
elim: k => [|k IH].
  by rewrite addn0; apply: iid_ext => ws <-; rewrite take_size.
rewrite addnS iid_rcons -IH; apply: iid_ext => ws Hs.
rewrite -[RHS](E_const E); apply: E_ext => w.
by rewrite -cats1 takel_cat // Hs leq_addr.
Qed.

Lemma signkey_standard1 n : standard (signkeyE 1 n) (fun k => normal (k : key tree_prng) n).
Proof.
have [H1 H2] := signkey_standard 1 n.
have e (k : ktree) i : normal (k : key tree_prng) n i 0 = normal2 (k : key tree_prng) 1 n 0 i.
  by rewrite !mxE.
split; apply/matrixP=> i j; rewrite !mxE.
  by rewrite -[RHS](H1 0 i); apply: E_ext => k; rewrite ord1 e.
rewrite -[i == j]andTb -[RHS]/((((0 : 'I_1) == 0) && (i == j))%:R) -H2; apply: E_ext => k.
by rewrite mxE big_ord1 trmxE !e.
Qed.

(** A key that hands out, on [split2], a key with independent fair signs first. *)
Definition stepkeyE n : expectation ktree :=
  pushE (fun l => Node [:: l; kzero]) (signkeyE 1 n).
Lemma stepkey_standard n :
  standard (stepkeyE n) (fun k => normal (split2 (k : key tree_prng)).1 n).
Proof.
have [H1 H2] := signkey_standard1 n; split; [rewrite -[RHS]H1|rewrite -[RHS]H2];
  by apply/matrixP=> i j; rewrite !mxE; apply: (@E_ext _ (signkeyE 1 n)).
Qed.
