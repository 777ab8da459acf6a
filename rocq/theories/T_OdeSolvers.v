(** Properties C16 and C35 to C39: the EKF0 and EKF1 solvers. *)
From Coq Require Import Reals Lra.
From mathcomp Require Import all_ssreflect all_algebra mxtens.
From Verif Require Import Rstruct Base Linalg Lapack Calc Prob Spec M_Utils M_Foster M_SdeSolver M_Euler
  M_Filter M_Prior M_OdeSolvers L_OdeSolvers L_Alg3 L_Init.

Set Implicit Arguments.
Unset Strict Implicit.
Unset Printing Implicit Defensive.
Import Order.TTheory GRing.Theory Num.Theory.
Local Open Scope ring_scope.

(** C16: pure noise, with the EKF0 exact, ... *)
Theorem C16_pure_noise_ekf0 (lp : lapack) (g : prng) d m (s : 'M[R]_(d, m)) (delta : R) M (sp : R) sq
  (k : key g) (x0 : 'cV[R]_d) N c0 : (0 < d)%N -> 0 < delta -> (0 < M)%N -> sp != 0 ->
  let ode_int (_ : key g) (x : res 'cV[R]_d) f T := let h := T / M%:R in
    let! x := x in ekf0 lp (None : option (key g)) x f h M sq (a_prior (ioup 0 sp 1 h d)) None in
  let: (_, traj, cs) := sde_solver (fun _ _ => 0) (fun _ _ => s) (get_approx g m) delta ode_int k (Val x0) N in
  forall i, (i <= N)%N -> nth (Val x0) traj i = Val (x0 + s *m \sum_(0 <= j < i) (nth c0 cs j).1).
Proof. by move=> d0 del0 M0; exact: pure_noise_ekf0. Qed.
Print Assumptions C16_pure_noise_ekf0.

(** ... with Euler sub-steps off by sqrt(6)/M times the second coefficients. *)
Theorem C16_pure_noise_euler (g : prng) d m (s : 'M[R]_(d, m)) (delta : R) M
  (k : key g) (x0 : 'cV[R]_d) N c0 : 0 < delta -> (0 < M)%N ->
  let ode_int (_ : key g) (x : 'cV[R]_d) f T := euler x f (T / M%:R) M in
  let: (_, traj, cs) := sde_solver (fun _ _ => 0) (fun _ _ => s) (get_approx g m) delta ode_int k x0 N in
  forall i, (i <= N)%N -> nth x0 traj i =
    x0 + s *m \sum_(0 <= j < i) ((nth c0 cs j).1 + (sqrt 6%:R / M%:R) *: (nth c0 cs j).2).
Proof. by move=> del0 M0; exact: pure_noise_euler. Qed.
Print Assumptions C16_pure_noise_euler.

(** From 5 with s = 2, two intervals of length 4 whose first normal draws are 1 and 3 (so that the Brownian
    increments are 2 and 6), two EKF0 steps per interval, prior scale 3: the end point is 5 + 2 * 8 = 21. *)
Example C16_ex (lp : lapack) : let draw z := Node [:: Leaf (fun _ _ => z); kzero] in
  let ode_int (_ : key tree_prng) (x : res 'cV[R]_1) f T := let h := T / 2%:R in
    let! x := x in ekf0 lp (None : option (key tree_prng)) x f h 2 true (a_prior (ioup 0 3%:R 1 h 1)) None in
  nth (Val (const_mx 5%:R)) (sde_solver (fun _ _ => 0) (fun _ _ => 2%:R%:M : 'M[R]_1) (get_approx tree_prng 1) 4%:R ode_int
    (Node [:: draw 1; draw 3%:R]) (Val (const_mx 5%:R)) 2).1.2 2 = Val (const_mx 21%:R).
Proof.
move=> draw ode_int.
have n4 : (0 : R) < 4%:R by rewrite ltr0n.
have n3 : (3%:R : R) != 0 by rewrite pnatr_eq0.
have sq4 : sqrt 4%:R = 2%:R by rewrite (_ : 4%:R = (2%:R * 2%:R)%Re) ?sqrt_square //; toR; lra.
set x := const_mx 5%:R; set k := Node _; set fs := (fun _ _ => _%:M).
have [] : exists cs, nth (Val x) (sde_solver (fun _ _ => 0) fs (get_approx tree_prng 1) 4%:R ode_int k (Val x) 2).1.2 2 =
    Val (x + 2%:R%:M *m \sum_(0 <= j < 2) (nth (0, 0) cs j).1) /\ cs = [seq parabolas 1 (l : key tree_prng) 4%:R | l <-
    [:: Leaf (fun _ _ => 1); Leaf (fun _ _ => 3%:R)]].
  have := @C16_pure_noise_ekf0 lp tree_prng 1 1 2%:R%:M 4%:R 2 3%:R true k x 2 (0, 0) isT n4 isT n3.
  rewrite -/fs -/ode_int; case E : (sde_solver _ _ _ _ _ _ _ _) => [[ts traj] cs] /(_ 2%N isT) e.
  by exists cs; split=> //; rewrite -[cs]/((ts, traj, cs).2) -E.
move=> cs [-> ->].
congr Val; apply/matrixP=> i j; rewrite big_nat_recl // big_nat1 /= /parabolas sq4 mul_scalar_mx !mxE; toR; ring.
Qed.

(** C35: a noise-free update makes the linearised observation hold exactly, with certainty. *)
Theorem C35_filter (lp : lapack) nx ny (obs : dual nx -> R -> dual ny) A Q xi sq init ts t m' P' :
  (sq = false -> psd Q /\ psd init.2) ->
  ekf lp obs A Q xi 0 sq init (rcons ts t) = Val (m', P') ->
  exists m P, ekf lp obs A Q xi 0 sq init ts = Val (m, P) /\
    let mp := A *m m + xi in let H := jacfwd (obs^~ t) mp in
    let C := if sq then P' *m P'^T else P' in
    [/\ dprimal (obs^~ t) mp + H *m (m' - mp) = 0, H *m C = 0 & C *m H^T = 0].
Proof. exact: ekf_exact. Qed.
Print Assumptions C35_filter.

(** For the solvers: after each step the derivative state is the vector field at the predicted
    mean, for EKF1 corrected by its linearisation. *)
Theorem C35_solver (lp : lapack) d n f h sq EKF0 xi Q A init N m' P' :
  (sq = false -> psd Q /\ psd init.2) ->
  @_solver lp d n init f h N.+1 sq EKF0 (a_prior (xi, Q, A)) None = Val (m', P') ->
  exists m P, @_solver lp d n init f h N sq EKF0 (a_prior (xi, Q, A)) None = Val (m, P) /\
    let mp := A *m m + xi in let t := N.+1%:R * h in
    let J := if EKF0 then 0 else jac (f^~ t) (slice 0 mp) in
    let C := if sq then P' *m P'^T else P' in
    [/\ slice 1 m' = f (slice 0 mp) t + J *m (slice 0 m' - slice 0 mp),
        (selector d 1 - J *m selector d 0) *m C = 0 & C *m (selector d 1 - J *m selector d 0)^T = 0].
Proof. exact: solver_exact. Qed.
Print Assumptions C35_solver.

(** The hypothesis is met by every run of ekf0 with the integrated Brownian prior. *)
Example C35_ex (lp : lapack) d (f : 'cV[R]_d -> R -> 'cV[R]_d) x0 N : (0 < d)%N ->
  exists m P, @_solver lp d 0 (init_mean f x0 2, 0) f 1 N.+1 false true (a_prior (ioup 0 1 1 1 d)) None = Val (m, P).
Proof.
by move=> d0; have [m [P [-> _]]] := @ekf0_cov lp d f 1 1 d0 ltr01 (oner_neq0 _) x0 N.+1 false; exists m, P.
Qed.

(** C36 *)
Theorem C36_residual d n (f : 'cV[R]_d -> R -> 'cV[R]_d) EKF0 (m : 'cV[R]_(d * n.+2)) t :
  dprimal (fun x => @observation_function d EKF0 f n x t) m = slice 1 m - f (slice 0 m) t.
Proof. exact: obs_residual. Qed.
Print Assumptions C36_residual.

Theorem C36_ekf0_jacobian d n (f : 'cV[R]_d -> R -> 'cV[R]_d) (m : 'cV[R]_(d * n.+2)) t :
  jacfwd (fun x => @observation_function d true f n x t) m = selector d 1.
Proof. exact: obs_jac0. Qed.
Print Assumptions C36_ekf0_jacobian.

Theorem C36_ekf1_jacobian d n (f : 'cV[R]_d -> R -> 'cV[R]_d) (m : 'cV[R]_(d * n.+2)) t :
  jacfwd (fun x => @observation_function d false f n x t) m =
  selector d 1 - jac (f^~ t) (slice 0 m) *m selector d 0.
Proof. exact: obs_jac1. Qed.
Print Assumptions C36_ekf1_jacobian.

(** EKF1's is the Jacobian of the observation x' - f(x, t). *)
Theorem C36_true_jacobian d n (f : 'cV[R]_d -> R -> 'cV[R]_d) t (m : 'cV[R]_(d * n.+2)) :
  ex_jac (f^~ t) (slice 0 m) ->
  jac (fun x : 'cV[R]_(d * n.+2) => slice 1 x - f (slice 0 x) t) m =
  selector d 1 - jac (f^~ t) (slice 0 m) *m selector d 0.
Proof. exact: jac_obs. Qed.
Print Assumptions C36_true_jacobian.

(** For a linear field, EKF1 sees the matrix of the field. *)
Example C36_ex d n (A : 'M[R]_d) (m : 'cV[R]_(d * n.+2)) t :
  jacfwd (fun x => @observation_function d false (fun x _ => A *m x) n x t) m = selector d 1 - A *m selector d 0.
Proof. by rewrite obs_jac1 jac_mul. Qed.

(** C37 *)
Theorem C37_ekf0_pec (lp : lapack) d (f : 'cV[R]_d -> R -> 'cV[R]_d) (h sigma : R) (g : prng) x0 N sq :
  (0 < d)%N -> 0 < h -> sigma != 0 ->
  ekf0 lp (None : option (key g)) x0 f h N sq (a_prior (ioup 0 sigma 1 h d)) None = Val (pec f h x0 N).1.
Proof. by move=> d0 h0 s0; exact: ekf0_pec. Qed.
Print Assumptions C37_ekf0_pec.

Theorem C37_heun d (f : 'cV[R]_d -> R -> 'cV[R]_d) h x0 : (pec f h x0 1).1 = heun f h x0.
Proof. exact: pec1. Qed.
Print Assumptions C37_heun.

(** x' = x from 1, two steps of size 1. *)
Example C37_ex (lp : lapack) (g : prng) sq :
  ekf0 lp (None : option (key g)) (const_mx 1 : 'cV[R]_1) (fun x _ => x) 1 2 sq (a_prior (ioup 0 1 1 1 1)) None =
  Val (const_mx (23%:R / 4%:R)).
Proof. exact: ekf0_ex. Qed.

(** C38 *)
Theorem C38_ekf0_cov (lp : lapack) d (f : 'cV[R]_d -> R -> 'cV[R]_d) (h sigma : R) x0 N sq :
  (0 < d)%N -> 0 < h -> sigma != 0 ->
  exists m P, @_solver lp d 0 (init_mean f x0 2, 0) f h N sq true (a_prior (ioup 0 sigma 1 h d)) None = Val (m, P) /\
  let C := if sq then P *m P^T else P in
  [/\ slice2 0 0 C = (N%:R * (sigma ^+ 2 * h ^+ 3 / 12%:R))%:M, slice2 0 1 C = 0,
      slice2 1 0 C = 0 & slice2 1 1 C = 0].
Proof. by move=> d0 h0 s0; exact: ekf0_cov. Qed.
Print Assumptions C38_ekf0_cov.

(** The law of the returned sample. *)
Theorem C38_sample_law (lp : lapack) d (f : 'cV[R]_d -> R -> 'cV[R]_d) h sigma (g : prng) (E : expectation (key g))
  x0 N sq : (0 < d)%N -> 0 < h -> sigma != 0 -> standard E (fun k => normal k (d * 2)) ->
  exists X : key g -> 'cV[R]_d,
    let m := (pec f h x0 N).1 in
    [/\ forall k, ekf0 lp (Some k) x0 f h N sq (a_prior (ioup 0 sigma 1 h d)) None = Val (X k), Emx E X = m &
        Emx E (fun k => (X k - m) *m (X k - m)^T) = (N%:R * (sigma ^+ 2 * h ^+ 3 / 12%:R))%:M].
Proof. exact: ekf0_sample_law. Qed.
Print Assumptions C38_sample_law.

(** Expectations with standard draws exist. *)
Example C38_ex d : exists (g : prng) (E : expectation (key g)), standard E (fun k => normal k (d * 2)).
Proof. by exists tree_prng, (signkeyE 1 (d * 2)); exact: signkey_standard1. Qed.

(** C39 *)
Theorem C39_ekf0_order2 (lp : lapack) (g : prng) d (f : 'cV[R]_d -> R -> 'cV[R]_d) (h sigma L K2 K3 : R) (N : nat) sq
  (y y2 y3 : R -> 'cV[R]_d) : (0 < d)%N -> 0 < h -> sigma != 0 -> 0 < L -> lipschitz f L ->
  deriv_on (N%:R * h) y (fun t => f (y t) t) ->
  deriv_on (N%:R * h) (fun t => f (y t) t) y2 -> deriv_on (N%:R * h) y2 y3 ->
  (forall t, 0 <= t -> t <= N%:R * h -> sup_le (y2 t) K2) ->
  (forall t, 0 <= t -> t <= N%:R * h -> sup_le (y3 t) K3) ->
  let C T := (L * K2 / 2%:R + 5%:R / 12%:R * K3) / (2%:R * L) * (exp (2%:R * L * T) - 1) in
  exists x, ekf0 lp (None : option (key g)) (y 0) f h N sq (a_prior (ioup 0 sigma 1 h d)) None = Val x /\
    sup_le (x - y (N%:R * h)) (C (N%:R * h) * h ^+ 2).
Proof. exact: ekf0_order2. Qed.
Print Assumptions C39_ekf0_order2.

(** x' = x with y = y2 = y3 = exp, L = 1, K2 = K3 = exp(N h). *)
Example C39_ex (h : R) (N : nat) : 0 < h ->
  let f (x : 'cV[R]_1) (t : R) := x in let y (t : R) : 'cV[R]_1 := const_mx (exp t) in
  [/\ lipschitz f 1, deriv_on (N%:R * h) y (fun t => f (y t) t), deriv_on (N%:R * h) (fun t => f (y t) t) y,
      deriv_on (N%:R * h) y y & forall t, 0 <= t -> t <= N%:R * h -> sup_le (y t) (exp (N%:R * h))].
Proof. exact: ekf0_exp_example. Qed.
