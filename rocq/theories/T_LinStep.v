(** Property C99: linear equations with sub-stepped Euler or EKF0 in the driver. *)
From Coq Require Import Reals Lra.
From mathcomp Require Import all_ssreflect all_algebra mxtens.
From Verif Require Import Rstruct Base Linalg Expm Calc Prob Spec Spec3 M_Foster M_ItoStrat M_SdeSolver M_Euler
  M_Prior M_OdeSolvers Lapack M_Ivp L_Linear L_LinStep.

Set Implicit Arguments.
Unset Strict Implicit.
Unset Printing Implicit Defensive.
Import Order.TTheory GRing.Theory Num.Theory.
Local Open Scope ring_scope.

Section C99.
Variables (g : prng) (d m : nat) (A : 'M[R]_d) (S : 'M[R]_(d, m)) (h : R) (M N : nat) (x0 : 'cV[R]_d).
Let fs := to_stratonovich (fun z _ => A *m z) (fun _ _ => S).
Let w j : R := 1 - 2%:R * (j%:R / M%:R).
Let ht := h / M%:R.

Section Euler.
Let x n (k : key g) := nth x0 (sde_solver fs.1 fs.2 (get_approx g m) h (fun _ z f T => euler z f (T / M%:R) M) k x0 N).1.2 n.
Let P := 1%:M + ht *: A.
Let mean n := mxpow P (n * M) *m x0.
Let U := M%:R^-1 *: \sum_(0 <= j < M) mxpow P (M - j.+1) *m S.
Let V := (sqrt 6%:R / M%:R) *: \sum_(0 <= j < M) w j *: (mxpow P (M - j.+1) *m S).

(** dX = A X dt + S dW, every random ODE by M Euler steps: each interval is an explicit linear map of the
    state and the two drawn coefficients, which gives the mean (I + h A / M)^(nM) x0 and the covariance. *)
Theorem C99_euler : 0 < h -> (0 < M)%N ->
  (forall n k, (n < N)%N -> let: (a, b) := parabolas m (child (child k N n) 2 0) h in
     x n.+1 k = mxpow P M *m x n k + (U *m a + V *m b)) /\
  forall E F : expectation (key g), (forall G, F (fun k => G (split k N)) = iid E N G) ->
  standard2 E (fun k => normal2 (child k 2 0) 2 m) ->
  let cov n := Emx F (fun k => (x n k - mean n) *m (x n k - mean n)^T) in
  [/\ forall n, (n <= N)%N -> Emx F (x n) = mean n, cov 0%N = 0 &
      forall n, (n < N)%N -> cov n.+1 = mxpow P M *m cov n *m (mxpow P M)^T +
        (h *: (U *m U^T) + (h / 2%:R) *: (V *m V^T))].
Proof. exact: euler_law. Qed.
End Euler.

Section Ekf.
Variables (lp : lapack) (sp : R) (sq : bool).
Let ekf_int (_ : key g) (x : res 'cV[R]_d) f T := let h := T / M%:R in
  let! x := x in ekf0 lp (None : option (key g)) x f h M sq (a_prior (ioup 0 sp 1 h d)) None.
Let traj (k : key g) := (sde_solver fs.1 fs.2 (get_approx g m) h ekf_int k (Val x0) N).1.2.

(** With M steps of EKF0 (integrated Brownian prior of order 1, plain or square-root mode, no
    observation noise) in place of Euler the run never fails, and the three matrices are those of
    predict - evaluate - correct applied to X' = A X from the identity and to the two modes of the noise. *)
Theorem C99_ekf0 :
  let P := (mpec A (fun _ => 0) ht 1%:M M).1 in
  let U := (mpec A (fun _ => h^-1 *: S) ht 0 M).1 in
  let V := (mpec A (fun j => (sqrt 6%:R / h * w j) *: S) ht 0 M).1 in
  let mean n := mxpow P n *m x0 in
  (0 < d)%N -> 0 < h -> (0 < M)%N -> sp != 0 ->
  exists x : nat -> key g -> 'cV[R]_d,
  [/\ forall n k, (n <= N)%N -> nth (Val x0) (traj k) n = Val (x n k),
      forall n k, (n < N)%N -> let: (a, b) := parabolas m (child (child k N n) 2 0) h in
        x n.+1 k = P *m x n k + (U *m a + V *m b) &
  forall E F : expectation (key g), (forall G, F (fun k => G (split k N)) = iid E N G) ->
  standard2 E (fun k => normal2 (child k 2 0) 2 m) ->
  let cov n := Emx F (fun k => (x n k - mean n) *m (x n k - mean n)^T) in
  [/\ forall n, (n <= N)%N -> Emx F (x n) = mean n, cov 0%N = 0 &
      forall n, (n < N)%N -> cov n.+1 = P *m cov n *m P^T + (h *: (U *m U^T) + (h / 2%:R) *: (V *m V^T))]].
Proof. exact: ekf_law. Qed.

(** If A^2 = 0, the run differs from the run with an exact integrator by a multiple of the sum of the
    second coefficients. Its mean is that of the SDE, its covariance is too large by an explicit amount. *)
Theorem C99_nilpotent : (0 < d)%N -> 0 < h -> (0 < M)%N -> sp != 0 -> A *m A = 0 ->
  let c : R := 5%:R / (6%:R * M%:R ^+ 2) - (2%:R * M%:R ^+ 3)^-1 in
  let mean n := expm ((n%:R * h) *: A) *m x0 in
  exists x : nat -> key g -> 'cV[R]_d,
  [/\ forall n k, (n <= N)%N -> nth (Val x0) (traj k) n = Val (x n k),
      forall int n k, solves_affine int h -> (n <= N)%N ->
        x n k - nth x0 (sde_solver fs.1 fs.2 (get_approx g m) h int k x0 N).1.2 n = (sqrt 6%:R * h * c) *:
        (A *m (S *m \sum_(0 <= i < n) (parabolas m (child (child k N i) 2 0) h).2)) &
  forall E F : expectation (key g), (forall G, F (fun k => G (split k N)) = iid E N G) ->
  standard2 E (fun k => normal2 (child k 2 0) 2 m) ->
  forall n, (n <= N)%N -> Emx F (x n) = mean n /\
    Emx F (fun k => (x n k - mean n) *m (x n k - mean n)^T) =
    lin_sde_cov A S (n%:R * h) + (n%:R * h ^+ 3 * (c + 3%:R * c ^+ 2)) *: ((A *m S) *m (A *m S)^T)].
Proof. exact: ekf_nilpotent. Qed.
End Ekf.
End C99.
Print Assumptions C99_euler.
Print Assumptions C99_ekf0.
Print Assumptions C99_nilpotent.

(** Pure noise by Euler steps: the left end point rule on the slope of the parabola inflates the
    variance by the factor 1 + 3 / M^2; a single step per interval quadruples it. *)
Theorem C99_euler_noise (g : prng) d m (S : 'M[R]_(d, m)) (h : R) (M : nat) (N : nat) (x0 : 'cV[R]_d) (E F : expectation (key g)) :
  0 < h -> (0 < M)%N ->
  (forall G, F (fun k => G (split k N)) = iid E N G) -> standard2 E (fun k => normal2 (child k 2 0) 2 m) ->
  let fs := to_stratonovich (fun _ _ => 0) (fun _ _ => S) in
  let x n k := nth x0 (sde_solver fs.1 fs.2 (get_approx g m) h (fun _ z f T => euler z f (T / M%:R) M) k x0 N).1.2 n in
  forall n, (n <= N)%N -> Emx F (x n) = x0 /\
  Emx F (fun k => (x n k - x0) *m (x n k - x0)^T) = (n%:R * h * (1 + 3%:R / M%:R ^+ 2)) *: (S *m S^T).
Proof. exact: euler_noise. Qed.
Print Assumptions C99_euler_noise.

(** The repository's integrated Brownian motion: the EKF0 run has the right mean and the right
    covariance [ibm_var] except for the variance of the first component. *)
Theorem C99_ibm (g : prng) (lp : lapack) (sp h : R) (sq : bool) (M N : nat) (x0 : 'cV[R]_2) :
  0 < h -> (0 < M)%N -> sp != 0 ->
  let fs := to_stratonovich ibm_drift ibm_sigma in
  let int (_ : key g) (x : res 'cV[R]_2) f T := let h := T / M%:R in
    let! x := x in ekf0 lp (None : option (key g)) x f h M sq (a_prior (ioup 0 sp 1 h 2)) None in
  let traj (k : key g) := (sde_solver fs.1 fs.2 (get_approx g 1) h int k (Val x0) N).1.2 in
  let c : R := 5%:R / (6%:R * M%:R ^+ 2) - (2%:R * M%:R ^+ 3)^-1 in
  let mean n := \col_i (if i == 0 then x0 0 0 + n%:R * h * x0 1 0 else x0 1 0) in
  0 < c <= 5%:R / (6%:R * M%:R ^+ 2) /\
  exists x : nat -> key g -> 'cV[R]_2,
  (forall n k, (n <= N)%N -> nth (Val x0) (traj k) n = Val (x n k)) /\
  forall E F : expectation (key g), (forall G, F (fun k => G (split k N)) = iid E N G) ->
  standard2 E (fun k => normal2 (child k 2 0) 2 1) ->
  forall n, (n <= N)%N -> Emx F (x n) = mean n /\
    Emx F (fun k => (x n k - mean n) *m (x n k - mean n)^T) =
    ibm_var (n%:R * h) + \matrix_(i, j) (if (i == 0) && (j == 0) then n%:R * h ^+ 3 * (c + 3%:R * c ^+ 2) else 0).
Proof. exact: ekf_ibm. Qed.
Print Assumptions C99_ibm.

(** Keys with independent standard draws exist, and so do a LAPACK and an exact affine integrator. *)
Example C99_ex m N d :
  [/\ forall G, nodeE (coefkeyE m) N (fun k => G (split (k : key tree_prng) N)) = iid (coefkeyE m) N G,
      standard2 (coefkeyE m) (fun k => normal2 (child (k : key tree_prng) 2 0) 2 m),
      forall h, solves_affine (@affine_solver (key tree_prng) d) h &
      inhabited lapack].
Proof.
split; [move=> G; exact: nodeE_split | exact: coefkey_standard | exact: affine_solver_exact |].
exact: (inhabits some_lapack).
Qed.

(** One EKF0 step per interval of integrated Brownian motion, from rest: c = 1/3, so the variance of the
    first component after one interval is h^3 instead of h^3 / 3. *)
Example C99_ibm_ex (h : R) : 0 < h ->
  let x k := (sde_solver (to_stratonovich ibm_drift ibm_sigma).1 (to_stratonovich ibm_drift ibm_sigma).2
    (get_approx tree_prng 1) h (fun (_ : key tree_prng) (x : res 'cV[R]_2) f T => let! x := x in
       ekf0 some_lapack (None : option (key tree_prng)) x f (T / 1%:R) 1 false (a_prior (ioup 0 1 1 (T / 1%:R) 2)) None)
    k (Val 0) 1).1.2 in
  exists y : key tree_prng -> 'cV[R]_2, (forall k, nth (Val 0) (x k) 1 = Val (y k)) /\
    nodeE (coefkeyE 1) 1 (fun k => y k 0 0 ^+ 2) = h ^+ 3 /\ ibm_var h 0 0 = h ^+ 3 / 3%:R.
Proof.
move=> h0 x.
have [_ [y [Y1 Y2]]] := @C99_ibm tree_prng some_lapack 1 h false 1 1 0 h0 isT (oner_neq0 _).
exists (y 1%N); split; first by move=> k; exact: Y1.
have [_ cv] := Y2 _ _ (fun G => nodeE_split (coefkeyE 1) 1 G) (@coefkey_standard 1) 1%N (leqnn _).
move/matrixP/(_ 0 0): cv; rewrite /Emx mxE => cv.
have V : ibm_var h 0 0 = h ^+ 3 / 3%:R by rewrite !mxE /= /ibm_sig; toR; field.
split=> //; transitivity (nodeE (coefkeyE 1) 1 (fun k : key tree_prng =>
   ((y 1%N k - \col_i (if i == 0 then (0 : 'cV[R]_2) 0 0 + 1%:R * h * (0 : 'cV[R]_2) 1 0 else (0 : 'cV[R]_2) 1 0)) *m
    (y 1%N k - \col_i (if i == 0 then (0 : 'cV[R]_2) 0 0 + 1%:R * h * (0 : 'cV[R]_2) 1 0 else (0 : 'cV[R]_2) 1 0))^T) 0 0)).
  congr (_ _); apply: FunctionalExtensionality.functional_extensionality => k.
  by rewrite mulmxE big_ord1 !mxE /= mulr0 addr0 subr0 expr2.
rewrite cv addmxE mul1r V !mxE /=; toR; field.
Qed.
