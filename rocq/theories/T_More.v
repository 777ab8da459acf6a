(** Properties C76 to C81: initial law of Algorithm 3, its relation to Algorithm 2, polynomial
    solutions, linear stability, quadrature errors, and the harmonic oscillator. *)
From Coq Require Import Reals Lra.
From Coquelicot Require Import Coquelicot.
From mathcomp Require Import all_ssreflect all_algebra mxtens.
From Verif Require Import Rstruct Base Linalg Lapack Calc Prob Spec M_Utils M_Foster M_SdeSolver
  M_Filter M_Prior M_Ivp M_OdeSolvers L_Utils L_OdeSolvers L_Alg3 L_Init L_More L_Stab L_Quad.

Set Implicit Arguments.
Unset Strict Implicit.
Unset Printing Implicit Defensive.
Import Order.TTheory GRing.Theory Num.Theory.
Local Open Scope ring_scope.

(** C76: with no step at all, the returned mean and covariance are those of (X, f m0 + H (X - m0))
    for any X with the mean and covariance given: H = 0 in EKF0, the Jacobian at m0 in EKF1. *)
Theorem C76_initial_law (lp : lapack) (Om : Type) (E : expectation Om) d (f : 'cV[R]_d -> R -> 'cV[R]_d) h sq prior noise
  tr V (EKF0 : bool) (g : prng) (k : option (key g)) s (X : Om -> 'cV[R]_d) m0 P00 :
  get_prior d 0 h prior = Val tr -> get_noise d noise = Val V -> psd P00 ->
  Emx E X = m0 -> Emx E (fun w => (X w - m0) *m (X w - m0)^T) = P00 ->
  let H := if EKF0 then 0 else jac (f^~ 0) m0 in
  let Z w := interl (pair2 (X w) (f m0 0 + H *m (X w - m0))) in
  exists o smp m P a b,
  (if EKF0 then ekf0_2_all lp k (s, m0, P00) f h 0 sq prior noise
   else ekf1_2_all lp k (s, m0, P00) f h 0 sq prior noise) = Val (o, (smp, m, P, a, b)) /\
  [/\ m = Emx E Z, P = Emx E (fun w => (Z w - m) *m (Z w - m)^T), o.1.2 = m0 & o.2 = P00].
Proof. exact: init_law. Qed.
Print Assumptions C76_initial_law.

(** Whatever the number of steps, asking for all outputs does not change the first one. *)
Theorem C76_same_run (lp : lapack) d (f : 'cV[R]_d -> R -> 'cV[R]_d) h N sq prior noise (g : prng) (k : option (key g)) x :
  rmap fst (ekf0_2_all lp k x f h N sq prior noise) = ekf0_2 lp k x f h N sq prior noise /\
  rmap fst (ekf1_2_all lp k x f h N sq prior noise) = ekf1_2 lp k x f h N sq prior noise.
Proof. exact: alg3_all_fst. Qed.
Print Assumptions C76_same_run.

(** Fair signs have mean 0 and covariance 1; with f x = 3 x + 1 the joint covariance has the
    off-diagonal entry 3. *)
Example C76_ex (lp : lapack) (g : prng) : let f (x : 'cV[R]_1) (t : R) := 3%:R%:M *m x + const_mx 1 in
  exists o smp m P a b,
  ekf1_2_all lp (None : option (key g)) (0, 0, 1%:M) f 1 0 true None None = Val (o, (smp, m, P, a, b)) /\
  slice2 0 1 P = 3%:R%:M.
Proof.
move=> f; have [R0 R1] := rademacher_standard 1.
have C : Emx (signsE 1) (fun w => (rademacher w - 0) *m (rademacher w - 0)^T) = 1%:M.
  by rewrite -R1; apply: Emx_ext => w; rewrite subr0.
have [o [smp [m [P [a [b [E [Em EP _ _]]]]]]]] := @init_law lp _ (signsE 1) 1 f 1 true None None _ _ false g None 0
  (@rademacher 1) 0 1%:M erefl erefl (pd_psd (@pd1 1)) R0 C.
exists o, smp, m, P, a, b; split=> //.
have [E1 E2] := @joint_law _ (signsE 1) 1 (@rademacher 1) 0 (f 0 0) 1%:M (jac (f^~ 0) 0) R0 C.
have Em' : m = interl (pair2 0 (f 0 0)) by rewrite Em -E1.
rewrite EP {}Em' E2; have [_ -> _ _] := interlace_matrix_slices (1%:M : 'M[R]_1) (1%:M *m (jac (f^~ 0) 0)^T)
  (jac (f^~ 0) 0 *m 1%:M) (jac (f^~ 0) 0 *m 1%:M *m (jac (f^~ 0) 0)^T).
by rewrite jac_lin mul1mx tr_scalar_mx.
Qed.

(** C77: from a point mass Algorithm 3 returns what Algorithm 2 returns (the same value, sample
    or exception); the sample carried so far plays no role. *)
Theorem C77_ekf0 (lp : lapack) d (f : 'cV[R]_d -> R -> 'cV[R]_d) h N sq (tr : transition (d * 2)) noise
  (g : prng) (k : option (key g)) s x0 : (0 < d)%N ->
  ekf0 lp k x0 f h N sq (a_prior tr) noise =
  rmap (fun r : gauss d => r.1.1) (ekf0_2 lp k (s, x0, 0) f h N sq (a_prior tr) noise).
Proof. exact: point_ekf0. Qed.
Print Assumptions C77_ekf0.

Theorem C77_ekf1 (lp : lapack) d (f : 'cV[R]_d -> R -> 'cV[R]_d) h N sq (tr : transition (d * 2)) noise
  (g : prng) (k : option (key g)) s x0 : (0 < d)%N ->
  ekf1 lp k x0 f h N sq (a_prior tr) noise =
  rmap (fun r : gauss d => r.1.1) (ekf1_2 lp k (s, x0, 0) f h N sq (a_prior tr) noise).
Proof. exact: point_ekf1. Qed.
Print Assumptions C77_ekf1.

(** The common result can be a value: x' = 1 from 5 on [0, 6]. *)
Example C77_ex (lp : lapack) (g : prng) : let f (x : 'cV[R]_1) (t : R) : 'cV[R]_1 := const_mx 1 in
  rmap (fun r : gauss 1 => r.1.1)
    (ekf0_2 lp (None : option (key g)) (0, const_mx 5%:R, 0) f 2%:R 3 false (a_prior (ioup 0 1 1 2%:R 1)) None) =
  Val (const_mx 11%:R).
Proof.
move=> f; rewrite -(@point_ekf0 lp 1 f 2%:R 3 false (ioup 0 1 1 2%:R 1) None g None 0 (const_mx 5%:R) isT).
have [-> _] := @poly_linear lp 1 f 2%:R 1 (const_mx 5%:R) (const_mx 1) 3 false g None isT (ltr0Sn _ _) (oner_neq0 _)
  (or_introl erefl) (fun k _ => erefl).
by congr Val; apply/colP=> i; rewrite !mxE; rring.
Qed.

(** C78: a solution which is a polynomial of degree at most 1 is followed exactly with the order
    1 prior, whatever the noise and the mode; *)
Theorem C78_linear (lp : lapack) d (f : 'cV[R]_d -> R -> 'cV[R]_d) (h sigma : R) (x0 v : 'cV[R]_d) N sq g noise :
  (0 < d)%N -> 0 < h -> sigma != 0 ->
  noise = None \/ (exists2 V : 'M[R]_d, noise = a_noise V & (sq = false -> psd V)) ->
  (forall k, (k <= N)%N -> f (x0 + (k%:R * h) *: v) (k%:R * h) = v) ->
  let tr := ioup 0 sigma 1 h d in
  ekf0 lp (None : option (key g)) x0 f h N sq (a_prior tr) noise = Val (x0 + (N%:R * h) *: v) /\
  ekf1 lp (None : option (key g)) x0 f h N sq (a_prior tr) noise = Val (x0 + (N%:R * h) *: v).
Proof. exact: poly_linear. Qed.
Print Assumptions C78_linear.

(** of degree at most 2 with the priors of order 2 (EKF0) and at least 2 (EKF1), provided the
    solvers' initial second derivative is the true one. *)
Theorem C78_quadratic (lp : lapack) d (f : 'cV[R]_d -> R -> 'cV[R]_d) (h sigma : R) (x0 v w : 'cV[R]_d) N sq g noise n :
  (0 < d)%N -> 0 < h -> sigma != 0 ->
  noise = None \/ (exists2 V : 'M[R]_d, noise = a_noise V & (sq = false -> psd V)) ->
  (forall k, (k <= N)%N -> let t := k%:R * h in f (x0 + t *: v + (t ^+ 2 / 2%:R) *: w) t = v + t *: w) ->
  jac (f^~ 0) x0 *m v = w ->
  let T := N%:R * h in
  let y := x0 + T *: v + (T ^+ 2 / 2%:R) *: w in
  ekf0 lp (None : option (key g)) x0 f h N sq (a_prior (ioup 0 sigma 2 h d)) noise = Val y /\
  ekf1 lp (None : option (key g)) x0 f h N sq (a_prior (ioup 0 sigma n.+2 h d)) noise = Val y.
Proof. exact: poly_quadratic. Qed.
Print Assumptions C78_quadratic.

(** Free fall: x' = y, y' = 1 from rest; after 4 steps of length 1/2 the position is 2. *)
Example C78_ex (lp : lapack) (g : prng) :
  let f (x : 'cV[R]_2) (t : R) := mx 2 2 [:: [:: 0; 1]; [:: 0; 0]] *m x + cv 2 [:: 0; 1] in
  ekf1 lp (None : option (key g)) 0 f 2%:R^-1 4 true (a_prior (ioup 0 1 3 2%:R^-1 2)) None = Val (cv 2 [:: 2%:R; 2%:R]).
Proof.
move=> f.
have h0 : 0 < 2%:R^-1 :> R by rewrite invr_gt0 ltr0Sn.
have Hj : jac (f^~ 0) 0 *m cv 2 [:: 0; 1] = cv 2 [:: 1; 0].
  rewrite jac_lin; apply/colP=> i; rewrite !mxE !big_ord_recl big_ord0 !mxE.
  by case: i => [[|[|i]]] //= H; rring.
have Hf k : (k <= 4)%N -> let t := k%:R * 2%:R^-1 in
  f (0 + t *: cv 2 [:: 0; 1] + (t ^+ 2 / 2%:R) *: cv 2 [:: 1; 0]) t = cv 2 [:: 0; 1] + t *: cv 2 [:: 1; 0].
  move=> _ t; move: t => t; apply/colP=> i; rewrite !mxE !big_ord_recl big_ord0 !mxE.
  by case: i => [[|[|i]]] //= H; rring.
have [_ ->] := @poly_quadratic lp 2 f 2%:R^-1 1 0 (cv 2 [:: 0; 1]) (cv 2 [:: 1; 0]) 4 true g None 1 isT h0 (oner_neq0 _)
  (or_introl erefl) Hf Hj.
congr Val; apply/colP=> i; rewrite !mxE; case: i => [[|[|i]]] //= H; rfield.
Qed.

(** C79: on x' = lam x EKF1 is the scalar recursion [dahlquist], whose covariance has the blocks
    p, lam p, lam^2 p; *)
Theorem C79_recursion (lp : lapack) d (lam h sigma : R) (x0 : 'cV[R]_d) sq (g : prng) N :
  (0 < d)%N -> 0 < h -> sigma != 0 ->
  let f (x : 'cV[R]_d) (t : R) := lam *: x in
  let prior := a_prior (ioup 0 sigma 1 h d) in
  ekf1 lp (None : option (key g)) x0 f h N sq prior None = Val ((dahlquist lam h (sigma ^+ 2) N).1 *: x0) /\
  exists m P, @_solver lp d 0 (init_mean f x0 2, 0) f h N sq false prior None = Val (m, P) /\
    let C := if sq then P *m P^T else P in
    let p := (dahlquist lam h (sigma ^+ 2) N).2 in
    [/\ slice2 0 0 C = p%:M, slice2 0 1 C = (p * lam)%:M, slice2 1 0 C = (p * lam)%:M & slice2 1 1 C = (p * lam ^+ 2)%:M].
Proof. by move=> d0 h0 s0; exact: ekf1_dahlquist. Qed.
Print Assumptions C79_recursion.

(** the first step multiplies by (1 - z^2/6)/(1 - z + z^2/3), z = lam h; *)
Theorem C79_one_step (lp : lapack) d (lam h sigma : R) (x0 : 'cV[R]_d) sq (g : prng) :
  (0 < d)%N -> 0 < h -> sigma != 0 ->
  let z := lam * h in
  ekf1 lp (None : option (key g)) x0 (fun x _ => lam *: x) h 1 sq (a_prior (ioup 0 sigma 1 h d)) None =
  Val (((1 - z ^+ 2 / 6%:R) / (1 - z + z ^+ 2 / 3%:R)) *: x0).
Proof. by move=> d0 h0 s0; exact: ekf1_lin_step. Qed.
Print Assumptions C79_one_step.

(** for lam < 0 every step contracts at least by that factor, for every step length; *)
Theorem C79_stable (lp : lapack) d (lam h sigma : R) (x0 : 'cV[R]_d) sq (g : prng) N :
  (0 < d)%N -> 0 < h -> sigma != 0 -> lam < 0 ->
  let z := lam * h in
  let rho := `|1 - z ^+ 2 / 6%:R| / (1 - z + z ^+ 2 / 3%:R) in
  rho < 1 /\ exists r,
  ekf1 lp (None : option (key g)) x0 (fun x _ => lam *: x) h N sq (a_prior (ioup 0 sigma 1 h d)) None = Val (r *: x0) /\
  `|r| <= rho ^+ N.
Proof. by move=> d0 h0 s0; exact: ekf1_stable. Qed.
Print Assumptions C79_stable.

(** EKF0 explodes as soon as lam h <= -2. *)
Theorem C79_ekf0_unstable (lp : lapack) d (lam h sigma : R) (x0 : 'cV[R]_d) sq (g : prng) N :
  (0 < d)%N -> 0 < h -> sigma != 0 -> lam * h <= - 2%:R -> exists r,
  ekf0 lp (None : option (key g)) x0 (fun x _ => lam *: x) h N.+2 sq (a_prior (ioup 0 sigma 1 h d)) None = Val (r *: x0) /\
  2%:R ^+ N <= `|r|.
Proof. by move=> d0 h0 s0; exact: ekf0_unstable. Qed.
Print Assumptions C79_ekf0_unstable.

(** lam = -3, h = 1: one step of EKF1 multiplies by -1/14; lam = -2 satisfies the last hypothesis. *)
Example C79_ex (lp : lapack) (g : prng) (x0 : 'cV[R]_2) :
  ekf1 lp (None : option (key g)) x0 (fun x _ => (- 3%:R) *: x) 1 1 true (a_prior (ioup 0 5%:R 1 1 2)) None =
    Val ((- 1 / 14%:R) *: x0) /\
  exists r, ekf0 lp (None : option (key g)) x0 (fun x _ => (- 2%:R) *: x) 1 12 true (a_prior (ioup 0 5%:R 1 1 2)) None =
    Val (r *: x0) /\ 1000%:R <= `|r|.
Proof.
have s0 : 5%:R != 0 :> R by rewrite pnatr_eq0.
split; first by rewrite (@ekf1_lin_step lp 2 _ 1 5%:R x0 true g isT ltr01 s0); congr Val; congr (_ *: _); rfield.
have [|r [E H]] := @ekf0_unstable lp 2 (- 2%:R) 1 5%:R x0 true g isT ltr01 s0 10; first by rewrite mulr1.
exists r; split=> //; apply: le_trans H; rewrite -natrX ler_nat; by vm_compute.
Qed.

(** C80: what the quadrature in [transition_function] loses: with n nodes on [0, h] every entry
    of the covariance is within the stated distance of the true transition covariance, *)
Theorem C80_covariance n m (F : 'M[R]_n) u (L : 'M[R]_(n, m)) (h : R) nodes i j (a := \sum_i \sum_j `|F i j|) :
  0 <= h -> (1 < nodes)%N ->
  `|(transition_function F u L h nodes).1.2 i j - lin_sde_cov F L h i j| <=
  a ^+ 2 * exp (2%:R * h * a) * (\sum_k (\sum_l `|L l k|) ^+ 2) * h ^+ 3 / (3%:R * nodes.-1%:R ^+ 2).
Proof. exact: tf_cov. Qed.
Print Assumptions C80_covariance.

(** and so is the mean shift. *)
Theorem C80_shift n m (F : 'M[R]_n) u (L : 'M[R]_(n, m)) (h : R) nodes i (x : R) (a := \sum_i \sum_j `|F i j|) :
  0 <= h -> (1 < nodes)%N ->
  is_RInt (fun s => (expm (s *: F) *m u) i 0) 0 h x ->
  `|(transition_function F u L h nodes).1.1 i 0 - x| <=
  a ^+ 2 * exp (h * a) * (\sum_l `|u l 0|) * h ^+ 3 / (12%:R * nodes.-1%:R ^+ 2).
Proof. exact: tf_xi. Qed.
Print Assumptions C80_shift.

(** The Matern prior away from its closed form: the transition matrix is exact, the covariance is
    block diagonal, and exact up to the quadrature error with 10000 nodes. *)
Theorem C80_matern K (magn len dt : R) d (mc : bool) (k l : 'I_d) (i j : 'I_K.+1) (lam := sqrt (2%:R * K%:R + 1) / len)
  (a := K%:R + (1 + lam^-1) ^+ K.+1 - 1)
  (F := companion K (fun j => - ('C(K.+1, j)%:R * lam^-1 ^+ (K.+1 - j)))) :
  0 < len -> 0 <= dt -> K != 1%N \/ mc ->
  let tr := matern K magn len dt d mc in
  [/\ tr.1.1 = 0,
      tr.2 (mxtens_index (k, i)) (mxtens_index (l, j)) = (k == l)%:R * expm (dt *: F) i j,
      k != l -> tr.1.2 (mxtens_index (k, i)) (mxtens_index (l, j)) = 0 &
      `|tr.1.2 (mxtens_index (k, i)) (mxtens_index (k, j)) - lin_sde_cov F (last_noise K magn) dt i j| <=
        a ^+ 2 * exp (2%:R * dt * a) * magn ^+ 2 * dt ^+ 3 / (3%:R * (10 ^ 4 - 1)%:R ^+ 2)].
Proof. exact: matern_quad. Qed.
Print Assumptions C80_matern.

(** Hypotheses met: order 2, magnitude and scale 1, step 1/10, two dimensions. *)
Example C80_ex : let tr := matern 2 1 1 10%:R^-1 2 false in
  tr.1.1 = 0 /\ tr.1.2 (mxtens_index (0, 0)) (mxtens_index (1, 2%:R)) = 0.
Proof.
have h0 : 0 <= 10%:R^-1 :> R by rewrite invr_ge0 ler0n.
by have [E _ H _] := @matern_quad 2 1 1 10%:R^-1 2 false 0 1 0 2%:R ltr01 h0 (or_introl isT); split; [|exact: H].
Qed.

(** C81: the stated mean of the harmonic oscillator solves the mean equation, its covariance
    integral solves the Lyapunov equation, and the computed variance approximates it. *)
Theorem C81_mean (gamma D t : R) : harm_mean gamma D 0 = harm_x0 /\
  mx_deriv (harm_mean gamma D) t (harm_drift gamma D (harm_mean gamma D t)).
Proof. exact: harm_mean_ode. Qed.
Print Assumptions C81_mean.

Theorem C81_lyapunov (gamma D : R) m (C : 'M[R]_(2, m)) (t : R) (M := harm_M gamma D) : lin_sde_cov M C 0 = 0 /\
  mx_deriv (lin_sde_cov M C) t (M *m lin_sde_cov M C t + lin_sde_cov M C t *m M^T + C *m C^T).
Proof. exact: harm_cov_ode. Qed.
Print Assumptions C81_lyapunov.

Theorem C81_variance (gamma D : R) m (C : 'M[R]_(2, m)) (t : R) nodes i j (a := 1 + `|D| + `|gamma|) :
  0 <= t -> (1 < nodes)%N ->
  `|harm_variance gamma D C nodes t i j - lin_sde_cov (harm_M gamma D) C t i j| <=
  a ^+ 2 * exp (2%:R * t * a) * (\sum_k (\sum_l `|C l k|) ^+ 2) * t ^+ 3 / (3%:R * nodes.-1%:R ^+ 2).
Proof. exact: harm_var_quad. Qed.
Print Assumptions C81_variance.

(** The drift is not zero: the speed at the start is (1, - D - gamma). *)
Example C81_ex (gamma D : R) : mx_deriv (harm_mean gamma D) 0 (cv 2 [:: 1; - D - gamma]).
Proof.
have [E0 H] := harm_mean_ode gamma D 0; move: H; rewrite E0.
suff -> : harm_drift gamma D harm_x0 = cv 2 [:: 1; - D - gamma] by [].
apply/colP=> i; rewrite !mxE !big_ord_recl big_ord0 !mxE; case: i => [[|[|i]]] //= H; rring.
Qed.
