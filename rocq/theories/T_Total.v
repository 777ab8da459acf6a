(** Properties C74 and C75: totality of the filters, and Algorithm 4 once its call is repaired. *)
From Coq Require Import Reals Lra.
From Coquelicot Require Import Coquelicot.
From mathcomp Require Import all_ssreflect all_algebra mxtens.
From Verif Require Import Rstruct Base Linalg Lapack Calc Prob Spec M_Utils M_Foster M_SdeSolver M_Filter M_Prior
  M_OdeSolvers M_Ssm L_Total.

Set Implicit Arguments.
Unset Strict Implicit.
Unset Printing Implicit Defensive.
Import Order.TTheory GRing.Theory Num.Theory.
Local Open Scope ring_scope.

(** C74: no NaN and no exception, one call ... *)
Theorem C74_ekf0 (lp : lapack) d (f : 'cV[R]_d -> R -> 'cV[R]_d) (h : R) (N : nat) (sq : bool) (g : prng) (k : option (key g))
  (x0 : 'cV[R]_d) n (tr : transition (d * n.+2)) noise :
  (0 < d)%N -> (n < 2)%N -> pd tr.1.2 ->
  noise = None \/ (exists2 V : 'M[R]_d, noise = a_noise V & (sq = false -> psd V)) ->
  exists y, ekf0 lp k x0 f h N sq (a_prior tr) noise = Val y.
Proof. exact: ekf0_total. Qed.
Print Assumptions C74_ekf0.

Theorem C74_ekf1 (lp : lapack) d (f : 'cV[R]_d -> R -> 'cV[R]_d) (h : R) (N : nat) (sq : bool) (g : prng) (k : option (key g))
  (x0 : 'cV[R]_d) n (tr : transition (d * n.+2)) noise :
  (0 < d)%N -> pd tr.1.2 ->
  noise = None \/ (exists2 V : 'M[R]_d, noise = a_noise V & (sq = false -> psd V)) ->
  exists y, ekf1 lp k x0 f h N sq (a_prior tr) noise = Val y.
Proof. exact: ekf1_total. Qed.
Print Assumptions C74_ekf1.

(** ... and whole runs of sde_solver, for every step. *)
Theorem C74_ode_run (lp : lapack) (g : prng) d m (drift : 'cV[R]_d -> R -> 'cV[R]_d) (sigma : 'cV[R]_d -> R -> 'M[R]_(d, m))
  (bm : path_approx g m) (delta : R) (M : nat) (sq : bool) (g' : prng) (phi : key g -> option (key g'))
  (EKF0 : bool) n (tr : transition (d * n.+2)) noise k x0 N :
  (0 < d)%N -> (EKF0 -> (n < 2)%N) -> pd tr.1.2 ->
  noise = None \/ (exists2 V : 'M[R]_d, noise = a_noise V & (sq = false -> psd V)) ->
  let int kk (x : res 'cV[R]_d) f T := let! x := x in
    if EKF0 then ekf0 lp (phi kk) x f (T / M%:R) M sq (a_prior tr) noise
    else ekf1 lp (phi kk) x f (T / M%:R) M sq (a_prior tr) noise in
  forall i, (i <= N)%N -> exists y, nth (Val x0) (sde_solver drift sigma bm delta int k (Val x0) N).1.2 i = Val y.
Proof. exact: ode_runs. Qed.
Print Assumptions C74_ode_run.

(** Algorithm 3: the covariance handed to the next interval is a covariance. *)
Theorem C74_alg3_run (lp : lapack) (g : prng) d m (drift : 'cV[R]_d -> R -> 'cV[R]_d) (sigma : 'cV[R]_d -> R -> 'M[R]_(d, m))
  (bm : path_approx g m) (delta : R) (M : nat) (sq : bool) (g' : prng) (phi : key g -> option (key g'))
  (EKF0 : bool) prior noise (tr : transition (d * 2)) k (s m0 : 'cV[R]_d) P00 N :
  get_prior d 0 (delta / M%:R) prior = Val tr -> pd tr.1.2 -> psd P00 ->
  noise = None \/ (exists2 V : 'M[R]_d, noise = a_noise V & (sq = false -> psd V)) ->
  let int kk (x : res (gauss d)) f T := let! x := x in
    if EKF0 then ekf0_2 lp (phi kk) x f (T / M%:R) M sq prior noise
    else ekf1_2 lp (phi kk) x f (T / M%:R) M sq prior noise in
  forall i, (i <= N)%N -> exists s' m' P', psd P' /\
    nth (Val (s, m0, P00)) (sde_solver drift sigma bm delta int k (Val (s, m0, P00)) N).1.2 i = Val (s', m', P').
Proof. exact: alg3_runs. Qed.
Print Assumptions C74_alg3_run.

(** The default prior of Algorithm 3 on an interval of length 3 cut in two steps. *)
Example C74_ex d : exists2 tr, get_prior d 0 (3%:R / 2%:R) None = Val tr & pd tr.1.2.
Proof.
exists (ioup 0 1 1 (3%:R / 2%:R) d) => //.
by apply: L_Prior.ioup_pd; [exact: oner_neq0 | rewrite divr_gt0 ?ltr0n].
Qed.

(** C75: Algorithm 4 with the missing argument xi = 0 supplied. *)
Theorem C75_returns (lp : lapack) d (drift : 'cV[R]_d -> R -> 'cV[R]_d) (diffusion : 'cV[R]_d -> R -> 'M[R]_d)
  (delta h : R) (sq EKF0 : bool) N (g : prng) (k : option (key g)) x0 prior noise :
  (0 < d)%N -> 0 < delta ->
  (prior = None /\ 0 < h) \/ (exists2 tr : transition 2, prior = a_prior tr & pd tr.1.2) ->
  noise = None \/ (exists2 V : 'M[R]_d, noise = a_noise V & (sq = false -> psd V)) ->
  exists y, marginal_xi (fun _ => Some 0) EKF0 lp k x0 delta drift diffusion h N sq prior noise = Val y.
Proof. exact: marginal_total. Qed.
Print Assumptions C75_returns.

(** The joint posterior of state, slope and path coefficients satisfies the random ODE, linearised
    in the state, at the last grid point. *)
Theorem C75_exact (lp : lapack) d (drift : 'cV[R]_d -> R -> 'cV[R]_d) (diffusion : 'cV[R]_d -> R -> 'M[R]_d)
  (delta h : R) (sq EKF0 : bool) N x0 m' P' : (0 < d)%N -> 0 < delta -> 0 < h ->
  ssm_solver_xi lp x0 drift diffusion delta h N.+1 sq EKF0 None None (Some 0) = Val (m', P') ->
  exists m P, ssm_solver_xi lp x0 drift diffusion delta h N sq EKF0 None None (Some 0) = Val (m, P) /\
    let t := N.+1%:R * h in
    let xp := slice 0 m + h *: slice 1 m in
    let dW c := jacR (fun s => eval_parabola s delta (slice (inord 2) c) (slice (inord 3) c)) t in
    let J := if EKF0 then 0 else jac (fun z => drift z t + diffusion z t *m dW m) xp in
    let C := if sq then P' *m P'^T else P' in
    slice 1 m' = drift xp t + diffusion xp t *m dW m' + J *m (slice 0 m' - xp) /\
    forall y, C *m y = joint4 (slice 0 (C *m y)) (diffusion xp t *m dW (C *m y) + J *m slice 0 (C *m y))
      (slice (inord 2) (C *m y)) (slice (inord 3) (C *m y)).
Proof. exact: ssm_exact. Qed.
Print Assumptions C75_exact.

Example C75_ex : 0 < 2%:R^-1 :> R /\ pd (ioup 0 3%:R 1 2%:R^-1 1 : transition 2).1.2.
Proof.
split; first by rewrite invr_gt0 ltr0n.
by apply: (@L_Prior.ioup_pd 3%:R 1 2%:R^-1 1); rewrite ?pnatr_eq0 // invr_gt0 ltr0n.
Qed.
