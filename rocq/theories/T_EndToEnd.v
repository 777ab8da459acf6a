(** C109: what tests/test_end_to_end.py measures. *)
From Coq Require Import Reals Lra.
From mathcomp Require Import all_ssreflect all_algebra mxtens.
From Verif Require Import Rstruct Base Linalg Expm Calc Prob Spec Spec3 M_Foster M_ItoStrat M_SdeSolver
  M_Prior M_OdeSolvers Lapack L_Linear L_EndToEnd L_MeanPath.

Set Implicit Arguments.
Unset Strict Implicit.
Unset Printing Implicit Defensive.
Import Order.TTheory GRing.Theory Num.Theory.
Local Open Scope ring_scope.

(** The test calls ekf0 and ekf1 without a prior: every state after the initial one is a TypeError. *)
Theorem C109_default_refuted (lp : lapack) (g : prng) d m (f : 'cV[R]_d -> R -> 'cV[R]_d) (s : 'cV[R]_d -> R -> 'M[R]_(d, m))
  (bm : path_approx g m) (h : R) (M N : nat) (x0 : 'cV[R]_d) (one sq : bool) k n :
  (n < N)%N ->
  let int (_ : key g) (y : res 'cV[R]_d) f T := let! y := y in
    if one then ekf1 lp (None : option (key g)) y f (T / M%:R) M sq None None
    else ekf0 lp (None : option (key g)) y f (T / M%:R) M sq None None in
  nth (Val x0) (sde_solver f s bm h int k (Val x0) N).1.2 n.+1 = Raise TypeError.
Proof. exact: default_raises. Qed.
Print Assumptions C109_default_refuted.

(** With the integrated Brownian prior passed explicitly: on dX = a X dt + s dW, a > 0, the mean and the
    variance of the driver with [M] EKF0 steps per interval are those of the equation up to relative errors of
    order h^2, with explicit constants that do not depend on [M] or on the scale of the prior. *)
Theorem C109_weak (lp : lapack) (g : prng) (a s h sp : R) (sq : bool) (M N : nat) (x0 : R) :
  0 < a -> 0 < h -> (0 < M)%N -> sp != 0 ->
  let fs := to_stratonovich (fun (y : 'cV[R]_1) _ => a *: y) (fun _ _ => const_mx s : 'M[R]_(1, 1)) in
  let int (_ : key g) (y : res 'cV[R]_1) f T := let h := T / M%:R in
    let! y := y in ekf0 lp (None : option (key g)) y f h M sq (a_prior (ioup 0 sp 1 h 1)) None in
  let traj (k : key g) := (sde_solver fs.1 fs.2 (get_approx g 1) h int k (Val (const_mx x0)) N).1.2 in
  exists x : nat -> key g -> R,
  (forall n k, (n <= N)%N -> nth (Val (const_mx x0)) (traj k) n = Val (const_mx (x n k))) /\
  forall E F : expectation (key g), (forall G, F (fun k => G (split k N)) = iid E N G) ->
  standard2 E (fun k => normal2 (child k 2 0) 2 1) ->
  forall n, (n <= N)%N ->
  let z := a * h in let t := n%:R * h in
  let mean := F (x n) in let var := F (fun k => (x n k - mean) ^+ 2) in
  let v := s ^+ 2 / (2%:R * a) * (exp (2%:R * a * t) - 1) in
  [/\ exists2 r, 1 - n%:R * z ^+ 3 / 6%:R <= r <= 1 & mean = r * (exp (a * t) * x0),
      v * (1 - 5%:R / 12%:R * z ^+ 2 - n%:R * z ^+ 3 / 3%:R) <= var &
      var <= v * (1 + 3%:R * (exp z - 1) ^+ 2)].
Proof. exact: ekf0_weak. Qed.
Print Assumptions C109_weak.

(** At the parameters of the test both comparisons, made with a relative tolerance of 1/10, hold with 1/1000. *)
Theorem C109_tolerance (lp : lapack) (g : prng) (sq : bool) :
  let h : R := 1 / 1000%:R in
  let fs := to_stratonovich (fun (y : 'cV[R]_1) _ => 1 *: y) (fun _ _ => const_mx 1 : 'M[R]_(1, 1)) in
  let int (_ : key g) (y : res 'cV[R]_1) f T := let h := T / 5%:R in
    let! y := y in ekf0 lp (None : option (key g)) y f h 5 sq (a_prior (ioup 0 1 1 h 1)) None in
  let traj (k : key g) := (sde_solver fs.1 fs.2 (get_approx g 1) h int k (Val (const_mx 1)) 1000).1.2 in
  exists x : key g -> R,
  (forall k, nth (Val (const_mx 1)) (traj k) 1000 = Val (const_mx (x k))) /\
  forall E F : expectation (key g), (forall G, F (fun k => G (split k 1000)) = iid E 1000 G) ->
  standard2 E (fun k => normal2 (child k 2 0) 2 1) ->
  let mean := F x in let std := sqrt (F (fun k => (x k - mean) ^+ 2)) in
  let goal := sqrt (2%:R^-1 * (exp 2%:R - 1)) in
  `|mean - exp 1| <= exp 1 / 1000%:R /\ `|std - goal| <= goal / 1000%:R.
Proof. exact: ekf0_test. Qed.
Print Assumptions C109_tolerance.

(** The cases of the test for ekf0_2, exactly as written there (no prior, no key, point mass at the start): the sample and the
    mean coincide, the covariance does not depend on the noise, and the comparisons hold with 1/1000. *)
Theorem C109_alg3 (lp : lapack) (g : prng) (sq : bool) :
  let h : R := 1 / 1000%:R in
  let fs := to_stratonovich (fun (y : 'cV[R]_1) _ => 1 *: y) (fun _ _ => const_mx 1 : 'M[R]_(1, 1)) in
  let x0 : gauss 1 := (const_mx 1, const_mx 1, 0) in
  let int (_ : key g) (x : res (gauss 1)) f T := let! x := x in
    ekf0_2 lp (None : option (key g)) x f (T / 5%:R) 5 sq None None in
  let traj (k : key g) := (sde_solver fs.1 fs.2 (get_approx g 1) h int k (Val x0) 1000).1.2 in
  exists (x : key g -> R) P,
  (forall k, nth (Val x0) (traj k) 1000 = Val (const_mx (x k), const_mx (x k), P)) /\
  forall E F : expectation (key g), (forall G, F (fun k => G (split k 1000)) = iid E 1000 G) ->
  standard2 E (fun k => normal2 (child k 2 0) 2 1) ->
  let mean := F x in let std := sqrt (F (fun k => (x k - mean) ^+ 2)) in
  let goal := sqrt (2%:R^-1 * (exp 2%:R - 1)) in
  `|mean - exp 1| <= exp 1 / 1000%:R /\ `|std - goal| <= goal / 1000%:R.
Proof. exact: ekf0_2_test. Qed.
Print Assumptions C109_alg3.

(** Independent fair signs meet the hypotheses; the relative errors over one unit of time with ten intervals
    and a = s = 1: the mean is short by at most 1/600, and the variance between 1 - 3/400 and 1 + 3 (e^(1/10) - 1)^2. *)
Example C109_ex : let h : R := 1 / 10%:R in
  [/\ (forall G, nodeE (coefkeyE 1) 10 (fun k => G (split (k : key tree_prng) 10)) = iid (coefkeyE 1) 10 G),
      standard2 (coefkeyE 1) (fun k => normal2 (child (k : key tree_prng) 2 0) 2 1),
      1 - 10%:R * h ^+ 3 / 6%:R = 1 - 1 / 600%:R &
      1 - 5%:R / 12%:R * h ^+ 2 - 10%:R * h ^+ 3 / 3%:R = 1 - 3%:R / 400%:R].
Proof.
have e1 : (600%:R : R) = 600%Re by rewrite RnatE INR_IZR_INZ.
have e2 : (400%:R : R) = 400%Re by rewrite RnatE INR_IZR_INZ.
move=> h; split; [by move=> G; exact: nodeE_split | exact: coefkey_standard | |];
  rewrite /h !exprS expr0 ?e1 ?e2; toR; field.
Qed.
