(** C111: Algorithm 4 with its missing argument supplied, used as tests/test_ssm_parabola_ode.py uses it. *)
From Coq Require Import Reals Lra.
From mathcomp Require Import all_ssreflect all_algebra mxtens.
From Verif Require Import Rstruct Base Linalg Lapack Calc Prob Spec M_Foster M_Prior M_OdeSolvers M_Ssm Expm M_Ivp L_Alg4Law.

Set Implicit Arguments.
Unset Strict Implicit.
Unset Printing Implicit Defensive.
Import Order.TTheory GRing.Theory Num.Theory.
Local Open Scope ring_scope.

(** One interval, one EKF0 step, constant diffusion [D], any drift: the mean of the returned state is one step of
    Heun's method for the drift, and its covariance is delta D D^T + sg^2 delta^3 / 12, whatever the drift. *)
Theorem C111_heun (lp : lapack) (g : prng) (E : expectation (key g)) d (drift : 'cV[R]_d -> R -> 'cV[R]_d) (D : 'M[R]_d)
  (delta sg : R) (sq : bool) (x0 : 'cV[R]_d) (prior : prior_arg) :
  (0 < d)%N -> 0 < delta -> sg != 0 ->
  (prior = None /\ sg = 1) \/ prior = a_prior (ioup 0 sg 1 delta 1 : transition 2) ->
  standard E (fun k => normal k (d * 4)) ->
  exists X : key g -> 'cV[R]_d,
  [/\ forall k, exists r, marginal_xi (fun _ => Some 0) true lp (Some k) x0 delta drift (fun _ _ => D) delta 1 sq prior None = Val (X k, r),
      Emx E X = heun drift delta x0 &
      Emx E (fun k => (X k - heun drift delta x0) *m (X k - heun drift delta x0)^T) =
      delta *: (D *m D^T) + (sg ^+ 2 * delta ^+ 3 / 12%:R)%:M].
Proof. exact: heun_step. Qed.
Print Assumptions C111_heun.

(** The whole trajectory for dX = A X dt + D dW: mean and covariance at every time. *)
Theorem C111_linear (lp : lapack) (g : prng) d (A D : 'M[R]_d) (delta sg : R) (sq : bool) (prior : prior_arg) (N : nat) (x0 : 'cV[R]_d) :
  (0 < d)%N -> 0 < delta -> sg != 0 ->
  (prior = None /\ sg = 1) \/ prior = a_prior (ioup 0 sg 1 delta 1 : transition 2) ->
  let solver (k : key g) (x : 'cV[R]_d) f s T := marginal_xi (fun _ => Some 0) true lp (Some k) x T f s T 1 sq prior None in
  exists x : nat -> key g -> 'cV[R]_d,
  (forall k, exists2 traj, ssm_parabola_ode_solver (fun y _ => A *m y) (fun _ _ => D) delta solver k x0 N =
                 Val (mkseq (fun i => i%:R * delta) N.+1, traj) &
     size traj = N.+1 /\ forall n, (n <= N)%N -> nth (Val x0) traj n = Val (x n k)) /\
  forall E F : expectation (key g), (forall G, F (fun k => G (split k N)) = iid E N G) ->
  standard E (fun k => normal (child k 2 1) (d * 4)) ->
  let P := 1%:M + delta *: A + (delta ^+ 2 / 2%:R) *: (A *m A) in
  let cov n := Emx F (fun k => (x n k - Emx F (x n)) *m (x n k - Emx F (x n))^T) in
  [/\ forall n, (n <= N)%N -> Emx F (x n) = mxpow P n *m x0, cov 0%N = 0 &
      forall n, (n < N)%N -> cov n.+1 = P *m cov n *m P^T + (delta *: (D *m D^T) + (sg ^+ 2 * delta ^+ 3 / 12%:R)%:M)].
Proof. exact: alg4_linear. Qed.
Print Assumptions C111_linear.

(** dX = a X dt + s dW: the variance of the trajectory is too small by a factor between 1 - z - n z^3 / 3 and
    (1 + sg^2 delta^2 / (12 s^2)) / (1 + z), z = a delta; the mean is as good as that of Algorithm 2 (C109). *)
Theorem C111_weak (lp : lapack) (g : prng) (a s delta sg : R) (sq : bool) (prior : prior_arg) (N : nat) (x0 : R) :
  0 < a -> s != 0 -> 0 < delta -> sg != 0 ->
  (prior = None /\ sg = 1) \/ prior = a_prior (ioup 0 sg 1 delta 1 : transition 2) ->
  let solver (k : key g) (x : 'cV[R]_1) f s T := marginal_xi (fun _ => Some 0) true lp (Some k) x T f s T 1 sq prior None in
  exists x : nat -> key g -> R,
  (forall k, exists2 traj, ssm_parabola_ode_solver (fun (y : 'cV[R]_1) _ => a *: y) (fun _ _ => const_mx s : 'M[R]_1) delta solver k (const_mx x0) N =
                 Val (mkseq (fun i => i%:R * delta) N.+1, traj) &
     forall n, (n <= N)%N -> nth (Val (const_mx x0)) traj n = Val (const_mx (x n k))) /\
  forall E F : expectation (key g), (forall G, F (fun k => G (split k N)) = iid E N G) ->
  standard E (fun k => normal (child k 2 1) (1 * 4)) ->
  forall n, (n <= N)%N ->
  let z := a * delta in let t := n%:R * delta in
  let mean := F (x n) in let var := F (fun k => (x n k - mean) ^+ 2) in
  let v := s ^+ 2 / (2%:R * a) * (exp (2%:R * a * t) - 1) in
  [/\ exists2 r, 1 - n%:R * z ^+ 3 / 6%:R <= r <= 1 & mean = r * (exp (a * t) * x0),
      v * (1 - z - n%:R * z ^+ 3 / 3%:R) <= var &
      var <= v * ((1 + sg ^+ 2 * delta ^+ 2 / (12%:R * s ^+ 2)) / (1 + z))].
Proof. exact: alg4_weak. Qed.
Print Assumptions C111_weak.

(** Hence no bound of second order holds for the variance at time 1, whereas one does for Algorithm 2 (C109_weak). *)
Theorem C111_second_order_refuted (lp : lapack) (g : prng) (sq : bool) (E : expectation (key g)) (F : nat -> expectation (key g)) :
  (forall N G, F N (fun k => G (split k N)) = iid E N G) ->
  standard E (fun k => normal (child k 2 1) (1 * 4)) ->
  let solver (k : key g) (x : 'cV[R]_1) f s T := marginal_xi (fun _ => Some 0) true lp (Some k) x T f s T 1 sq None None in
  forall K : R, exists (N : nat) (x : key g -> R),
  let delta : R := N.+1%:R^-1 in
  (forall k, exists2 r, ssm_parabola_ode_solver (fun (y : 'cV[R]_1) _ => 1 *: y) (fun _ _ => const_mx 1 : 'M[R]_1) delta solver k (const_mx 1) N.+1 = Val r &
     nth (Val (const_mx 1)) r.2 N.+1 = Val (const_mx (x k))) /\
  let var := F N.+1 (fun k => (x k - F N.+1 x) ^+ 2) in
  let v := 2%:R^-1 * (exp 2%:R - 1) in
  var < v * (1 - K * delta ^+ 2).
Proof. exact: alg4_first_order. Qed.
Print Assumptions C111_second_order_refuted.

(** At the parameters of the test both comparisons, made with a relative tolerance of 1/10, hold with 1/1000. *)
Theorem C111_tolerance (lp : lapack) (g : prng) (sq : bool) :
  let delta : R := 1 / 1000%:R in
  let solver (k : key g) (x : 'cV[R]_1) f s T := marginal_xi (fun _ => Some 0) true lp (Some k) x T f s T 1 sq None None in
  exists x : key g -> R,
  (forall k, exists2 r, ssm_parabola_ode_solver (fun (y : 'cV[R]_1) _ => 1 *: y) (fun _ _ => const_mx 1 : 'M[R]_1) delta solver k (const_mx 1) 1000 = Val r &
     nth (Val (const_mx 1)) r.2 1000 = Val (const_mx (x k))) /\
  forall E F : expectation (key g), (forall G, F (fun k => G (split k 1000)) = iid E 1000 G) ->
  standard E (fun k => normal (child k 2 1) (1 * 4)) ->
  let mean := F x in let std := sqrt (F (fun k => (x k - mean) ^+ 2)) in
  let goal := sqrt (2%:R^-1 * (exp 2%:R - 1)) in
  `|mean - exp 1| <= exp 1 / 1000%:R /\ `|std - goal| <= goal / 1000%:R.
Proof. exact: alg4_test. Qed.
Print Assumptions C111_tolerance.

(** Integrated Brownian motion: the mean is exact; the covariance is that of a left-point rule plus the filter's own noise. *)
Theorem C111_ibm (lp : lapack) (g : prng) (sq : bool) (delta : R) (N : nat) : 0 < delta ->
  let solver (k : key g) (x : 'cV[R]_2) f s T := marginal_xi (fun _ => Some 0) true lp (Some k) x T f s T 1 sq None None in
  exists x : nat -> key g -> 'cV[R]_2,
  (forall k, exists2 traj, ssm_parabola_ode_solver ibm_drift square_ibm_sigma delta solver k ibm_x0 N =
                 Val (mkseq (fun i => i%:R * delta) N.+1, traj) &
     forall n, (n <= N)%N -> nth (Val ibm_x0) traj n = Val (x n k)) /\
  forall E F : expectation (key g), (forall G, F (fun k => G (split k N)) = iid E N G) ->
  standard E (fun k => normal (child k 2 1) (2 * 4)) ->
  forall n, (n <= N)%N -> let t := n%:R * delta in let w := delta ^+ 2 / 12%:R in
  let cov := Emx F (fun k => (x n k - Emx F (x n)) *m (x n k - Emx F (x n))^T) in
  [/\ Emx F (x n) = cv 2 [:: 1 + t; 1],
      cov 0 0 = (1 + w) * (t * (t - delta) * (2%:R * t - delta) / 6%:R) + t * w,
      cov 0 1 = (1 + w) * (t * (t - delta) / 2%:R), cov 1 0 = cov 0 1 & cov 1 1 = (1 + w) * t].
Proof. exact: alg4_ibm. Qed.
Print Assumptions C111_ibm.

(** Independent fair signs meet the hypotheses ... *)
Example C111_ex : (forall G, nodeE (halfkeyE 8) 100 (fun k => G (split (k : key tree_prng) 100)) = iid (halfkeyE 8) 100 G) /\
  standard (halfkeyE 8) (fun k => normal (child (k : key tree_prng) 2 1) (2 * 4)).
Proof. by split=> [G|]; [exact: nodeE_split | exact: halfkey_standard]. Qed.

(** ... and the entries of C111_ibm at the test's delta = 1/100 and t = 1 are within one part in fifty of the
    reference [ibm_var], but more than one part in a hundred away for the first. *)
Example C111_ibm_ex : let delta : R := 1 / 100%:R in let w := delta ^+ 2 / 12%:R in
  let c00 := (1 + w) * (1 * (1 - delta) * (2%:R * 1 - delta) / 6%:R) + 1 * w in
  [/\ ibm_var 1 0 0 * (1 - 1 / 50%:R) <= c00, c00 <= ibm_var 1 0 0 * (1 - 1 / 100%:R),
      ibm_var 1 0 1 * (1 - 1 / 50%:R) <= (1 + w) * (1 * (1 - delta) / 2%:R) <= ibm_var 1 0 1 &
      ibm_var 1 1 1 <= (1 + w) * 1 <= ibm_var 1 1 1 * (1 + 1 / 50%:R)].
Proof.
have e1 : (100%:R : R) = 100%Re by rewrite RnatE INR_IZR_INZ.
have e2 : (50%:R : R) = 50%Re by rewrite RnatE INR_IZR_INZ.
move=> delta w c00; have dE : delta = (/ 100)%Re by rewrite /delta e1; toR; lra.
rewrite /c00 /w !dE !mxE /= /ibm_sig !expr1n ?e1 ?e2 !exprS !expr0.
by split; try (apply/andP; split); apply/RleP; toR; lra.
Qed.
