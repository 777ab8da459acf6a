(** C113: what a run of the solver does not depend on. *)
From Coq Require Import Reals Lra.
From Coquelicot Require Import Coquelicot.
From mathcomp Require Import all_ssreflect all_algebra mxtens.
From Verif Require Import Rstruct Base Linalg Calc Prob Spec M_Utils M_Foster M_SdeSolver M_Euler M_Prior M_Filter M_OdeSolvers M_Ivp
  L_Euler L_Ivp L_Invariance.

Set Implicit Arguments.
Unset Strict Implicit.
Unset Printing Implicit Defensive.
Import Order.TTheory GRing.Theory Num.Theory.
Local Open Scope ring_scope.

(** Without noise, N intervals of M Euler steps are one run of N M steps, whatever the key and the approximation. *)
Theorem C113_noise_free (g : prng) d m (bm : path_approx g m) (f : 'cV[R]_d -> R -> 'cV[R]_d) (delta : R) (M N : nat)
  (int : key g -> 'cV[R]_d -> ('cV[R]_d -> R -> 'cV[R]_d) -> R -> 'cV[R]_d) (k : key g) x0 :
  (0 < M)%N -> (forall key z F T, int key z F T = euler z F (T / M%:R) M) ->
  forall n, (n <= N)%N ->
  nth x0 (sde_solver f (fun _ _ => 0) bm delta int k x0 N).1.2 n = euler x0 f (delta / M%:R) (n * M).
Proof. exact: noise_free_euler. Qed.
Print Assumptions C113_noise_free.

(** An affine map between two equations maps the runs with the same key onto each other (Euler sub-steps). *)
Theorem C113_coordinates (g : prng) d d' m (bm : path_approx g m) (p : 'M[R]_(d', d)) (c : 'cV[R]_d')
  (f : 'cV[R]_d -> R -> 'cV[R]_d) (s : 'cV[R]_d -> R -> 'M[R]_(d, m)) f' s' (delta : R) (M N : nat) (k : key g) x0 :
  (forall x t, p *m f x t = f' (p *m x + c) t) -> (forall x t, p *m s x t = s' (p *m x + c) t) ->
  let int e (_ : key g) (x : 'cV[R]_e) F T := euler x F (T / M%:R) M in
  forall n, (n <= N)%N ->
  nth (p *m x0 + c) (sde_solver f' s' bm delta (@int d') k (p *m x0 + c) N).1.2 n =
  p *m nth x0 (sde_solver f s bm delta (@int d) k x0 N).1.2 n + c.
Proof. exact: euler_coordinates. Qed.
Print Assumptions C113_coordinates.

(** EKF0 sub-steps: linear maps with orthonormal rows. *)
Theorem C113_coordinates_ekf0 (g : prng) d d' m (bm : path_approx g m) (p : 'M[R]_(d', d))
  (f : 'cV[R]_d -> R -> 'cV[R]_d) (s : 'cV[R]_d -> R -> 'M[R]_(d, m)) f' s' (delta : R) (M N : nat) (k : key g) x0
  (lp : lapack) (A Q : 'M[R]_2) (sq : bool) :
  (0 < d)%N -> (0 < d')%N -> pd Q -> p *m p^T = 1%:M ->
  (forall x t, p *m f x t = f' (p *m x) t) -> (forall x t, p *m s x t = s' (p *m x) t) ->
  let int e (_ : key g) (x : res 'cV[R]_e) F T := let! x := x in
    ekf0 lp (None : option (key g)) x F (T / M%:R) M sq (a_prior (0, kron_eye e Q, kron_eye e A)) None in
  forall n, (n <= N)%N -> exists x,
  nth (Val x0) (sde_solver f s bm delta (@int d) k (Val x0) N).1.2 n = Val x /\
  nth (Val (p *m x0)) (sde_solver f' s' bm delta (@int d') k (Val (p *m x0)) N).1.2 n = Val (p *m x).
Proof. exact: ekf0_coordinates. Qed.
Print Assumptions C113_coordinates_ekf0.

(** With the integrated Brownian prior: every affine map, and whatever the scales of the two priors. *)
Theorem C113_coordinates_ibm (g : prng) (lp : lapack) (sq : bool) (M : nat) : (0 < M)%N ->
  let int (sp : R) e (_ : key g) (x : res 'cV[R]_e) F T := let! x := x in
    ekf0 lp (None : option (key g)) x F (T / M%:R) M sq (a_prior (ioup 0 sp 1 (T / M%:R) e)) None in
  forall d d' m (bm : path_approx g m) (p : 'M[R]_(d', d)) (c : 'cV[R]_d')
  (f : 'cV[R]_d -> R -> 'cV[R]_d) (s : 'cV[R]_d -> R -> 'M[R]_(d, m)) f' s' (delta sp sp' : R) (N : nat) (k : key g) x0,
  (0 < d)%N -> (0 < d')%N -> 0 < delta -> sp != 0 -> sp' != 0 ->
  (forall x t, p *m f x t = f' (p *m x + c) t) -> (forall x t, p *m s x t = s' (p *m x + c) t) ->
  forall n, (n <= N)%N -> exists x,
  nth (Val x0) (sde_solver f s bm delta (int sp d) k (Val x0) N).1.2 n = Val x /\
  nth (Val (p *m x0 + c)) (sde_solver f' s' bm delta (int sp' d') k (Val (p *m x0 + c)) N).1.2 n = Val (p *m x + c).
Proof. exact: ekf0_affine. Qed.
Print Assumptions C113_coordinates_ibm.

(** Euler-Maruyama, all states at once. *)
Theorem C113_coordinates_em (g : prng) d d' m (p : 'M[R]_(d', d)) (c : 'cV[R]_d')
  (f : 'cV[R]_d -> R -> 'cV[R]_d) (s : 'cV[R]_d -> R -> 'M[R]_(d, m)) f' s' (h : R) (N : nat) (k : key g) x0 :
  (forall x t, p *m f x t = f' (p *m x + c) t) -> (forall x t, p *m s x t = s' (p *m x + c) t) ->
  (euler_maruyama f' s' h k (p *m x0 + c) N).2 = [seq p *m x + c | x <- (euler_maruyama f s h k x0 N).2].
Proof. exact: em_coordinates. Qed.
Print Assumptions C113_coordinates_em.

(** Measuring time in another unit (drift times c, diffusion times sqrt c, step divided by c) changes no state. *)
Theorem C113_time_unit (g : prng) d m (f : 'cV[R]_d -> R -> 'cV[R]_d) (s : 'cV[R]_d -> R -> 'M[R]_(d, m))
  (delta c : R) (M N : nat) (k : key g) x0 : 0 < delta -> 0 < c ->
  let int (_ : key g) (x : 'cV[R]_d) F T := euler x F (T / M%:R) M in
  forall n, (n <= N)%N ->
  nth x0 (sde_solver (fun x t => c *: f x (c * t)) (fun x t => sqrt c *: s x (c * t)) (get_approx g m) (delta / c) int k x0 N).1.2 n =
  nth x0 (sde_solver f s (get_approx g m) delta int k x0 N).1.2 n.
Proof. exact: euler_time. Qed.
Print Assumptions C113_time_unit.

(** The same with EKF0 sub-steps, whatever the scales of the two priors. *)
Theorem C113_time_unit_ekf0 (g : prng) (lp : lapack) (sq : bool) (M : nat) : (0 < M)%N ->
  let int (sp : R) e (_ : key g) (x : res 'cV[R]_e) F T := let! x := x in
    ekf0 lp (None : option (key g)) x F (T / M%:R) M sq (a_prior (ioup 0 sp 1 (T / M%:R) e)) None in
  forall d m (f : 'cV[R]_d -> R -> 'cV[R]_d) (s : 'cV[R]_d -> R -> 'M[R]_(d, m))
  (delta c sp sp' : R) (N : nat) (k : key g) x0,
  (0 < d)%N -> 0 < delta -> 0 < c -> sp != 0 -> sp' != 0 ->
  forall n, (n <= N)%N -> exists x,
  nth (Val x0) (sde_solver f s (get_approx g m) delta (int sp d) k (Val x0) N).1.2 n = Val x /\
  nth (Val x0) (sde_solver (fun x t => c *: f x (c * t)) (fun x t => sqrt c *: s x (c * t)) (get_approx g m) (delta / c)
    (int sp' d) k (Val x0) N).1.2 n = Val x.
Proof. exact: ekf0_time. Qed.
Print Assumptions C113_time_unit_ekf0.

Theorem C113_time_unit_em (g : prng) d m (f : 'cV[R]_d -> R -> 'cV[R]_d) (s : 'cV[R]_d -> R -> 'M[R]_(d, m))
  (h c : R) (N : nat) (k : key g) x0 : 0 <= h -> 0 < c ->
  (euler_maruyama (fun x t => c *: f x (c * t)) (fun x t => sqrt c *: s x (c * t)) (h / c) k x0 N).2 =
  (euler_maruyama f s h k x0 N).2.
Proof. exact: em_time. Qed.
Print Assumptions C113_time_unit_em.

(** [ibm] is the lower part of [double_ibm]: with the same key, so are the runs. *)
Example C113_ibm_ex (g : prng) (delta : R) (M N : nat) (k : key g) x0 n : (n <= N)%N ->
  let int e (_ : key g) (x : 'cV[R]_e) F T := euler x F (T / M%:R) M in
  nth (lower *m x0 + 0) (sde_solver ibm_drift ibm_sigma (get_approx g 1) delta (@int 2%N) k (lower *m x0 + 0) N).1.2 n =
  lower *m nth x0 (sde_solver dibm_drift dibm_sigma (get_approx g 1) delta (@int 3%N) k x0 N).1.2 n + 0.
Proof.
have [_ H1 H2] := lower_props; move=> nN int.
by apply: C113_coordinates => // x t; rewrite addr0 ?H1 ?H2.
Qed.

(** The noise-free integrated Brownian motion after one interval of two Euler steps of size 1: (1, 1) has moved to (3, 1). *)
Example C113_ex (g : prng) (k : key g) :
  nth ibm_x0 (sde_solver ibm_drift (fun _ _ => 0) (get_approx g 1) 2%:R (fun _ x F T => euler x F (T / 2%:R) 2) k ibm_x0 1).1.2 1
  = cv 2 [:: 3%:R; 1].
Proof.
rewrite (C113_noise_free (get_approx g 1) ibm_drift 2%:R (M := 2) (N := 1) k ibm_x0) // mul1n divff ?pnatr_eq0 // eulerE /= /estep !scale1r.
apply/colP; apply: ord2P; rewrite !addmxE /ibm_drift !mulmxE !sum2 !addmxE !mulmxE !sum2 !mxE /=; toR; ring.
Qed.
