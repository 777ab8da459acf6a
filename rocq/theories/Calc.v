(** Differentiation (JAX forward mode) and the matrix exponential. *)
From Coq Require Import Reals Lra FunctionalExtensionality.
From Coquelicot Require Import Coquelicot.
From mathcomp Require Import all_ssreflect all_algebra mxtens.
From Verif Require Import Rstruct Base.

Set Implicit Arguments.
Unset Strict Implicit.
Unset Printing Implicit Defensive.
Import Order.TTheory GRing.Theory Num.Theory.
Local Open Scope ring_scope.

(** [x] moved by [s] along axis [j]. *)
Definition vshift n (x : 'cV[R]_n) (j : 'I_n) (s : R) : 'cV[R]_n := x + s *: delta_mx j 0.

(** Partial derivative of a scalar function along axis [j]. *)
Definition pderiv n (f : 'cV[R]_n -> R) (j : 'I_n) (x : 'cV[R]_n) : R :=
  Derive (fun s => f (vshift x j s)) 0.

(** The partial derivative exists. *)
Definition ex_pderiv n (f : 'cV[R]_n -> R) (j : 'I_n) (x : 'cV[R]_n) : Prop :=
  ex_derive (fun s => f (vshift x j s)) 0.

(** The Jacobian [jax.jacfwd(f)(x)], shape (m, n). *)
Definition jac n m (f : 'cV[R]_n -> 'cV[R]_m) (x : 'cV[R]_n) : 'M[R]_(m, n) :=
  \matrix_(i, j) pderiv (fun z => f z i 0) j x.

(** [jax.hessian(f)(x)[i]], shape (n, n): entry (j,k) is d/dx_k of d/dx_j f_i. *)
Definition hess n m (f : 'cV[R]_n -> 'cV[R]_m) (x : 'cV[R]_n) (i : 'I_m) : 'M[R]_n :=
  \matrix_(j, k) pderiv (fun z => jac f z i j) k x.

(** [jax.jacfwd(f)(t)] for a function of one real variable. *)
Definition jacR m (f : R -> 'cV[R]_m) (t : R) : 'cV[R]_m :=
  \col_i Derive (fun s => f s i 0) t.

(** Gradient of a scalar function as a row, [jax.jacfwd(a)(x)]. *)
Definition grad n (f : 'cV[R]_n -> R) (x : 'cV[R]_n) : 'rV[R]_n :=
  \row_j pderiv f j x.

(** ** Dual numbers: value and tangent.  [jacfwd] runs the program once per
    basis tangent; [lift f] is the forward rule of a user function. *)
Definition dual n := ('cV[R]_n * 'cV[R]_n)%type.
Definition dlift n m (f : 'cV[R]_n -> 'cV[R]_m) (x : dual n) : dual m :=
  (f x.1, jac f x.1 *m x.2).
Definition dsub n (x y : dual n) : dual n := (x.1 - y.1, x.2 - y.2).
Definition dadd n (x y : dual n) : dual n := (x.1 + y.1, x.2 + y.2).
Definition dslice d n (i : 'I_n) (x : dual (d * n)) : dual d := (slice i x.1, slice i x.2).
(** [jax.lax.stop_gradient] *)
Definition stop_gradient n (x : dual n) : dual n := (x.1, 0).
Definition dprimal n m (g : dual n -> dual m) (x : 'cV[R]_n) : 'cV[R]_m := (g (x, 0)).1.
(** [jax.jacfwd(g)(x)] *)
Definition jacfwd n m (g : dual n -> dual m) (x : 'cV[R]_n) : 'M[R]_(m, n) :=
  \matrix_(i, j) (g (x, delta_mx j 0)).2 i 0.

(** ** Elementary rules *)
Section Rules.
Variable n : nat.
Implicit Types (x : 'cV[R]_n).

Lemma vshift0 x j : vshift x j 0 = x.
Proof. by rewrite /vshift scale0r addr0. Qed.

Lemma vshift_same x j s : vshift x j s j 0 = x j 0 + s.
Proof. by rewrite !mxE !eqxx mulr1. Qed.

Lemma vshift_other x j k s : k != j -> vshift x j s k 0 = x k 0.
Proof. by move=> /negPf kj; rewrite !mxE kj mulr0 addr0. Qed.

Lemma vshiftE x j k s : vshift x j s k 0 = x k 0 + (k == j)%:R * s.
Proof. by rewrite !mxE eqxx andbT mulrC. Qed.

Lemma pderiv_ext (f g : 'cV[R]_n -> R) j x : (forall z, f z = g z) -> pderiv f j x = pderiv g j x.
Proof. by move=> E; apply: Derive_ext => t; rewrite E. Qed.

Lemma ex_pderiv_ext (f g : 'cV[R]_n -> R) j x :
  (forall z, f z = g z) -> ex_pderiv f j x -> ex_pderiv g j x.
Proof. by move=> E; apply: ex_derive_ext => t; rewrite E. Qed.

Lemma is_pderiv_unique (f : 'cV[R]_n -> R) j x l :
  is_derive (fun s => f (vshift x j s)) 0 l -> pderiv f j x = l.
Proof. exact: is_derive_unique. Qed.

Lemma pderiv_const c j x : pderiv (fun _ : 'cV[R]_n => c) j x = 0.
Proof. exact: Derive_const. Qed.

Lemma ex_pderiv_const c j x : ex_pderiv (fun _ : 'cV[R]_n => c) j x.
Proof. exact: ex_derive_const. Qed.

Lemma is_derive_coord x j k :
  is_derive (fun s : R => vshift x j s k 0) (0 : R) ((k == j)%:R : R).
Proof.
set c : R := (k == j)%:R; set a : R := x k 0.
apply: (is_derive_ext (fun s : R => (a + c * s)%Re)).
  by move=> t; rewrite vshiftE.
by auto_derive => //; ring.
Qed.

Lemma pderiv_coord j k x : pderiv (fun z => z k 0) j x = (k == j)%:R.
Proof. by apply: is_pderiv_unique; exact: is_derive_coord. Qed.

Lemma ex_pderiv_coord j k x : ex_pderiv (fun z => z k 0) j x.
Proof. by exists ((k == j)%:R : R); exact: is_derive_coord. Qed.

Lemma pderivD (f g : 'cV[R]_n -> R) j x : ex_pderiv f j x -> ex_pderiv g j x ->
  pderiv (fun z => f z + g z) j x = pderiv f j x + pderiv g j x.
Proof. by move=> Hf Hg; rewrite /pderiv Derive_plus. Qed.
Lemma ex_pderivD (f g : 'cV[R]_n -> R) j x : ex_pderiv f j x -> ex_pderiv g j x ->
  ex_pderiv (fun z => f z + g z) j x.
Proof. exact: ex_derive_plus. Qed.

Lemma pderivN (f : 'cV[R]_n -> R) j x : pderiv (fun z => - f z) j x = - pderiv f j x.
Proof. by rewrite /pderiv Derive_opp. Qed.
Lemma ex_pderivN (f : 'cV[R]_n -> R) j x : ex_pderiv f j x -> ex_pderiv (fun z => - f z) j x.
Proof. exact: ex_derive_opp. Qed.

Lemma pderivB (f g : 'cV[R]_n -> R) j x : ex_pderiv f j x -> ex_pderiv g j x ->
  pderiv (fun z => f z - g z) j x = pderiv f j x - pderiv g j x.
Proof. by move=> Hf Hg; rewrite pderivD ?pderivN //; exact: ex_pderivN. Qed.

Lemma pderivZ (c : R) (f : 'cV[R]_n -> R) j x : pderiv (fun z => c * f z) j x = c * pderiv f j x.
Proof. by rewrite /pderiv Derive_scal. Qed.
Lemma ex_pderivZ (c : R) (f : 'cV[R]_n -> R) j x :
  ex_pderiv f j x -> ex_pderiv (fun z => c * f z) j x.
Proof. by move=> Hf; apply: ex_derive_scal. Qed.

Lemma pderivM (f g : 'cV[R]_n -> R) j x : ex_pderiv f j x -> ex_pderiv g j x ->
  pderiv (fun z => f z * g z) j x = pderiv f j x * g x + f x * pderiv g j x.
Proof. by move=> Hf Hg; rewrite /pderiv Derive_mult // vshift0. Qed.
Lemma ex_pderivM (f g : 'cV[R]_n -> R) j x : ex_pderiv f j x -> ex_pderiv g j x ->
  ex_pderiv (fun z => f z * g z) j x.
Proof. by move=> Hf Hg; apply: ex_derive_mult. Qed.

Lemma pderiv_sum (I : Type) (r : seq I) (F : I -> 'cV[R]_n -> R) j x :
  (forall i, ex_pderiv (F i) j x) ->
  pderiv (fun z => \sum_(i <- r) F i z) j x = \sum_(i <- r) pderiv (F i) j x /\
  ex_pderiv (fun z => \sum_(i <- r) F i z) j x.
Proof.
move=> H; elim: r => [|i r [IH1 IH2]].
  rewrite big_nil; split.
    by rewrite -[RHS](pderiv_const 0 j x); apply: pderiv_ext => z; rewrite big_nil.
  by apply: ex_pderiv_ext (ex_pderiv_const 0 j x) => z; rewrite big_nil.
rewrite big_cons -IH1 -pderivD //; split; first by apply: pderiv_ext => z; rewrite big_cons.
by apply: ex_pderiv_ext (ex_pderivD (H i) IH2) => z; rewrite big_cons.
Qed.

Lemma is_derive_sum (I : Type) (r : seq I) (F : I -> R -> R) (D : I -> R) t :
  (forall i, is_derive (F i) t (D i)) ->
  is_derive (fun s => \sum_(i <- r) F i s) t (\sum_(i <- r) D i).
Proof.
move=> H; elim: r => [|i r IH].
  rewrite big_nil; apply: (is_derive_ext (fun _ : R => 0%Re)); last exact: is_derive_const.
  by move=> s; rewrite big_nil.
rewrite big_cons; apply: (is_derive_ext (fun s => F i s + \sum_(k <- r) F k s)).
  by move=> s; rewrite big_cons.
exact: is_derive_plus.
Qed.
End Rules.

Section Jac.
Variables n m : nat.
Implicit Types (f g : 'cV[R]_n -> 'cV[R]_m) (x : 'cV[R]_n).

(** All partial derivatives of [f] exist at [x]. *)
Definition ex_jac f x := forall i j, ex_pderiv (fun z => f z i 0) j x.

Lemma jac_ext f g x : (forall z, f z = g z) -> jac f x = jac g x.
Proof. by move=> E; apply/matrixP=> i j; rewrite !mxE; apply: pderiv_ext => z; rewrite E. Qed.

Lemma jac_const (c : 'cV[R]_m) x : jac (fun _ => c) x = 0.
Proof. by apply/matrixP=> i j; rewrite !mxE pderiv_const. Qed.

Lemma jacD f g x : ex_jac f x -> ex_jac g x -> jac (fun z => f z + g z) x = jac f x + jac g x.
Proof.
move=> Hf Hg; apply/matrixP=> i j; rewrite !mxE -pderivD //.
by apply: pderiv_ext => z; rewrite mxE.
Qed.

Lemma jacN f x : jac (fun z => - f z) x = - jac f x.
Proof.
apply/matrixP=> i j; rewrite !mxE -pderivN.
by apply: pderiv_ext => z; rewrite mxE.
Qed.

Lemma ex_jacN f x : ex_jac f x -> ex_jac (fun z => - f z) x.
Proof.
by move=> Hf i j; apply: ex_pderiv_ext (ex_pderivN (Hf i j)) => z; rewrite mxE.
Qed.

Lemma jacB f g x : ex_jac f x -> ex_jac g x -> jac (fun z => f z - g z) x = jac f x - jac g x.
Proof. by move=> Hf Hg; rewrite jacD ?jacN //; exact: ex_jacN. Qed.

Lemma jacfwd_lift f x : jacfwd (dlift f) x = jac f x.
Proof.
apply/matrixP=> i j; rewrite mxE /= mxE (bigD1 j) //= big1 ?addr0.
  by rewrite !mxE !eqxx mulr1.
by move=> k kj; rewrite !mxE (negPf kj) mulr0.
Qed.
End Jac.

(** Affine maps. *)
Lemma ex_jac_lin n m (A : 'M[R]_(m, n)) (b : 'cV[R]_m) x : ex_jac (fun z => A *m z + b) x.
Proof.
move=> i j; apply: (@ex_pderiv_ext _ (fun z => \sum_k A i k * z k 0 + b i 0)).
  by move=> z; rewrite !mxE.
apply: ex_pderivD; last exact: ex_pderiv_const.
by apply: (pderiv_sum _ _).2 => k; apply: ex_pderivZ; exact: ex_pderiv_coord.
Qed.

Lemma jac_lin n m (A : 'M[R]_(m, n)) (b : 'cV[R]_m) x : jac (fun z => A *m z + b) x = A.
Proof.
apply/matrixP=> i j; rewrite mxE.
rewrite (@pderiv_ext _ _ (fun z => \sum_k A i k * z k 0 + b i 0)); last by move=> z; rewrite !mxE.
have H k : ex_pderiv (fun z : 'cV[R]_n => A i k * z k 0) j x.
  by apply: ex_pderivZ; exact: ex_pderiv_coord.
rewrite pderivD ?pderiv_const ?addr0; first last.
- exact: ex_pderiv_const.
- exact: (pderiv_sum _ H).2.
rewrite (pderiv_sum _ H).1 (bigD1 j) //= pderivZ pderiv_coord eqxx mulr1.
rewrite big1 ?addr0 // => k kj.
by rewrite pderivZ pderiv_coord (negPf kj) mulr0.
Qed.

Lemma jac_mul n m (A : 'M[R]_(m, n)) x : jac (fun z => A *m z) x = A.
Proof. by rewrite -[RHS](jac_lin A 0 x); apply: jac_ext => z; rewrite addr0. Qed.

Lemma hess_ext n m (f g : 'cV[R]_n -> 'cV[R]_m) x i :
  (forall z, f z = g z) -> hess f x i = hess g x i.
Proof. by move=> E; congr hess; apply: functional_extensionality. Qed.

(** Functions of one variable. *)
Lemma Derive_shift (f : R -> R) (x : R) : Derive (fun s => f (x + s)) 0 = Derive f x.
Proof.
rewrite /Derive; congr real; apply: Lim_ext => h.
by rewrite ?(Rplus_0_l, Rplus_0_r) ?addr0 ?add0r.
Qed.

Lemma pderiv_one (f : R -> R) (x : 'cV[R]_1) : pderiv (fun z => f (z 0 0)) 0 x = Derive f (x 0 0).
Proof.
rewrite -Derive_shift; apply: Derive_ext => s.
by rewrite vshiftE eqxx mul1r.
Qed.

(** ** Matrix powers and exponential *)
Definition mxpow n (A : 'M[R]_n) (k : nat) : 'M[R]_n := iter k (mulmx A) 1%:M.

(** [scipy.linalg.expm] as its defining power series (entrywise). *)
Definition expm n (A : 'M[R]_n) : 'M[R]_n :=
  \matrix_(i, j) Series (fun k => mxpow A k i j / k`!%:R).
