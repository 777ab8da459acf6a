(** Properties C58-C61 and C73: Algorithm 4 (parabola coefficients in the state). *)
From Coq Require Import Reals Lra.
From Coquelicot Require Import Coquelicot.
From mathcomp Require Import all_ssreflect all_algebra mxtens.
From Verif Require Import Rstruct Base Linalg Calc Prob Spec M_Foster L_Foster M_Prior M_OdeSolvers M_Ssm L_Ssm.

Set Implicit Arguments.
Unset Strict Implicit.
Unset Printing Implicit Defensive.
Import Order.TTheory GRing.Theory Num.Theory.
Local Open Scope ring_scope.

(** C58: the initial mean and covariance are those of (x, drift + sigma dW/dt(0), a, b). *)
Theorem C58_initial_law Om (E : expectation Om) d (x : 'cV[R]_d) (drift : 'cV[R]_d -> R -> 'cV[R]_d)
  (diffusion : 'cV[R]_d -> R -> 'M[R]_d) (delta : R) (a b : Om -> 'cV[R]_d) :
  delta != 0 -> Emx E a = 0 -> Emx E b = 0 ->
  Emx E (fun w => a w *m (a w)^T) = delta%:M -> Emx E (fun w => b w *m (b w)^T) = (delta / 2%:R)%:M ->
  Emx E (fun w => a w *m (b w)^T) = 0 ->
  let v w := drift x 0 + diffusion x 0 *m jacR (fun s => eval_parabola s delta (a w) (b w)) 0 in
  let X w := joint4 x (v w) (a w) (b w) in let m := ssm_mean x drift in
  Emx E X = m /\ Emx E (fun w => (X w - m) *m (X w - m)^T) = ssm_var delta (diffusion x 0).
Proof. exact: initial_law. Qed.
Print Assumptions C58_initial_law.

(** ... in particular for the coefficients the package draws. *)
Theorem C58_parabola_law g d (E : expectation (key g)) (x : 'cV[R]_d) (drift : 'cV[R]_d -> R -> 'cV[R]_d)
  (diffusion : 'cV[R]_d -> R -> 'M[R]_d) (delta : R) :
  standard2 E (fun k => normal2 k 2 d) -> 0 < delta ->
  let bm := get_approx g d in
  let X k := let c := get_coeffs bm k delta in
    joint4 x (drift x 0 + diffusion x 0 *m jacR (fun s => eval_fn s delta c) 0) c.1 c.2 in
  let m := ssm_mean x drift in
  Emx E X = m /\ Emx E (fun k => (X k - m) *m (X k - m)^T) = ssm_var delta (diffusion x 0).
Proof. exact: initial_parabola_law. Qed.
Print Assumptions C58_parabola_law.

Theorem C58_initial_psd d (delta : R) (D : 'M[R]_d) : 0 < delta -> psd (ssm_var delta D).
Proof. exact: var_psd. Qed.
Print Assumptions C58_initial_psd.

Example C58_ex d : standard2 (signkeyE 2 d) (fun k => normal2 (k : key tree_prng) 2 d).
Proof. exact: signkey_standard. Qed.

(** C59: the extended field is the one sde_solver builds from the state's coefficients. *)
Theorem C59_same_field d g (drift : 'cV[R]_d -> R -> 'cV[R]_d) (diffusion : 'cV[R]_d -> R -> 'M[R]_d) (delta t : R)
  (x : 'cV[R]_(d * 4)) : delta != 0 ->
  extended_vector_field drift diffusion delta x t =
  drift (slice 0 x) t + diffusion (slice 0 x) t *m
    jacR (fun s => eval_fn s delta ((slice (inord 2) x, slice (inord 3) x) : coeffs (get_approx g d))) t.
Proof. exact: same_field. Qed.
Print Assumptions C59_same_field.

(** C60: the shipped solvers never return. *)
Theorem C60_runs_refuted EKF0 (lp : lapack) g (k : option (key g)) :
  exists (init : 'cV[R]_1) (drift : 'cV[R]_1 -> R -> 'cV[R]_1) (diffusion : 'cV[R]_1 -> R -> 'M[R]_1) (delta h : R) (N : nat),
    0 < delta /\ forall sqrt, marginal EKF0 lp k init delta drift diffusion h N sqrt None None = Raise TypeError.
Proof. exact: marginal_never. Qed.
Print Assumptions C60_runs_refuted.

(** What they raise, for every input. *)
Theorem C60_outcome (lp : lapack) g d m (k : option (key g)) (init : 'cV[R]_d) (delta : R)
  (drift : 'cV[R]_d -> R -> 'cV[R]_d) (diffusion : 'cV[R]_d -> R -> 'M[R]_(d, m)) (h : R) (N : nat) (sqrt : bool)
  (prior : prior_arg) (noise : noise_arg) :
  let fits := if noise is Some (existT p (existT q _)) then p = d /\ q = d else True in
  let run0 := ekf0_marginal_parabola lp k init delta drift diffusion h N sqrt prior noise in
  let run1 := ekf1_marginal_parabola lp k init delta drift diffusion h N sqrt prior noise in
  [/\ run0 = run1,
      d = m -> fits -> (0 < d)%N -> run0 = Raise TypeError,
      d = m -> fits -> d = 0%N -> run0 = Raise ValueError &
      ~ (d = m /\ fits) -> run0 = Raise AssertionError].
Proof. exact: marginal_raises. Qed.
Print Assumptions C60_outcome.

(** C61: the driver's recursion. *)
Theorem C61_recursion g d m (X C : Type) (drift : 'cV[R]_d -> R -> 'cV[R]_d) (sigma : 'cV[R]_d -> R -> 'M[R]_(d, m)) (delta : R)
  (solver : key g -> X -> ('cV[R]_d -> R -> 'cV[R]_d) -> ('cV[R]_d -> R -> 'M[R]_(d, m)) -> R -> res (X * C))
  (k : key g) (x0 : X) (N : nat) :
  (forall e, solver (child k 2 1) x0 (fun z t => drift z (t + 0)) (fun z t => sigma z (t + 0)) delta <> Raise e) ->
  exists traj, [/\ ssm_parabola_ode_solver drift sigma delta solver k x0 N =
                    Val (mkseq (fun i => i%:R * delta) N.+1, traj),
    size traj = N.+1, nth (Val x0) traj 0 = Val x0 &
    forall i, (i < N)%N -> nth (Val x0) traj i.+1 =
      let! x := nth (Val x0) traj i in
      let! r := solver (child (child k N i) 2 1) x (fun z t => drift z (t + i%:R * delta))
        (fun z t => sigma z (t + i%:R * delta)) delta in Val r.1].
Proof. exact: driver_recursion. Qed.
Print Assumptions C61_recursion.

Theorem C61_exception g d m (X C : Type) (drift : 'cV[R]_d -> R -> 'cV[R]_d) (sigma : 'cV[R]_d -> R -> 'M[R]_(d, m)) (delta : R)
  (solver : key g -> X -> ('cV[R]_d -> R -> 'cV[R]_d) -> ('cV[R]_d -> R -> 'M[R]_(d, m)) -> R -> res (X * C))
  (k : key g) (x0 : X) (N : nat) e :
  solver (child k 2 1) x0 (fun z t => drift z (t + 0)) (fun z t => sigma z (t + 0)) delta = Raise e ->
  ssm_parabola_ode_solver drift sigma delta solver k x0 N = Raise e.
Proof. exact: driver_raise. Qed.
Print Assumptions C61_exception.

(** With Algorithm 4 as the solver the driver raises, for every N (zero included). *)
Theorem C61_algorithm4 EKF0 (lp : lapack) g d (drift : 'cV[R]_d -> R -> 'cV[R]_d) (sigma : 'cV[R]_d -> R -> 'M[R]_d) (delta : R)
  (M : nat) sqrt prior (k : key g) (x0 : 'cV[R]_d) (N : nat) : (0 < d)%N ->
  ssm_parabola_ode_solver drift sigma delta
    (fun k x f s T => marginal EKF0 lp (Some k) x T f s (T / M%:R) M sqrt prior None) k x0 N = Raise TypeError.
Proof. exact: driver_marginal. Qed.
Print Assumptions C61_algorithm4.

(** The Euler step is a solver that never raises. *)
Example C61_ex d (k : key tree_prng) (x0 : 'cV[R]_d) (f : 'cV[R]_d -> R -> 'cV[R]_d) (T : R) :
  forall e, (fun (k : key tree_prng) x f (s : 'cV[R]_d -> R -> 'M[R]_d) T => Val (x + T *: f x 0, tt))
    (child k 2 1) x0 f (fun _ _ => 1%:M) T <> Raise e.
Proof. by []. Qed.

(** C73: the Jacobians of the two observation functions, as linear maps on states. *)
Theorem C73_ekf0_jacobian d (drift : 'cV[R]_d -> R -> 'cV[R]_d) (diffusion : 'cV[R]_d -> R -> 'M[R]_d) (delta t : R)
  (x v a b : 'cV[R]_d) : delta != 0 -> forall dx dv da db : 'cV[R]_d,
  jacfwd (fun z => ssm_observation true drift diffusion delta z t) (joint4 x v a b) *m joint4 dx dv da db =
  dv - diffusion x t *m jacR (fun s => eval_parabola s delta da db) t.
Proof. exact: ssm_ekf0_jac. Qed.
Print Assumptions C73_ekf0_jacobian.

Theorem C73_ekf1_jacobian d (drift : 'cV[R]_d -> R -> 'cV[R]_d) (diffusion : 'cV[R]_d -> R -> 'M[R]_d) (delta t : R)
  (x v a b : 'cV[R]_d) : delta != 0 -> forall dx dv da db : 'cV[R]_d,
  jacfwd (fun z => ssm_observation false drift diffusion delta z t) (joint4 x v a b) *m joint4 dx dv da db =
  dv - diffusion x t *m jacR (fun s => eval_parabola s delta da db) t
     - jac (fun z => drift z t + diffusion z t *m jacR (fun s => eval_parabola s delta a b) t) x *m dx.
Proof. exact: ssm_ekf1_jac. Qed.
Print Assumptions C73_ekf1_jacobian.

Theorem C73_residual d (drift : 'cV[R]_d -> R -> 'cV[R]_d) (diffusion : 'cV[R]_d -> R -> 'M[R]_d) (delta t : R)
  (x v a b : 'cV[R]_d) : delta != 0 -> forall EKF0,
  dprimal (fun z => ssm_observation EKF0 drift diffusion delta z t) (joint4 x v a b) =
  v - (drift x t + diffusion x t *m jacR (fun s => eval_parabola s delta a b) t).
Proof. exact: ssm_residual. Qed.
Print Assumptions C73_residual.

(** Drift 2 x and diffusion x, coefficients a = 3 and b = 0 on an interval of length 2: the field is (2 + 3/2) x. *)
Example C73_ex (x v dx dv : 'cV[R]_1) :
  jacfwd (fun z => ssm_observation false (fun y _ => 2%:R *: y) (fun y _ => y : 'M[R]_1) 2%:R z 0)
    (joint4 x v (const_mx 3%:R) 0) *m joint4 dx dv 0 0 = dv - (7%:R / 2%:R) *: dx.
Proof.
have n2 : (2%:R : R) != 0 by rewrite pnatr_eq0.
have e0 : jacR (fun s => eval_parabola s 2%:R (0 : 'cV[R]_1) 0) 0 = 0.
  by rewrite jacR_eval // scaler0 addr0 scaler0.
have e1 : jacR (fun s => eval_parabola s 2%:R (const_mx 3%:R : 'cV[R]_1) 0) 0 = (3%:R / 2%:R)%:M.
  by rewrite jacR_eval // scaler0 addr0; apply/matrixP=> i j; rewrite !mxE !ord1 mulr1n mulrC.
rewrite ssm_ekf1_jac // e0 mulmx0 subr0; congr (_ - _).
rewrite (@jac_ext _ _ _ (fun z : 'cV[R]_1 => (7%:R / 2%:R)%:M *m z)) ?jac_mul ?mul_scalar_mx // => z.
by rewrite e1 mul_mx_scalar mul_scalar_mx -scalerDl; congr (_ *: _); toR; field.
Qed.
