(** C110: Algorithm 3 and "one prior for the whole trajectory". *)
From Coq Require Import Reals Lra.
From mathcomp Require Import all_ssreflect all_algebra mxtens.
From Verif Require Import Rstruct Base Linalg Expm Calc Prob Spec Spec3 M_Foster M_ItoStrat M_SdeSolver
  M_Prior M_OdeSolvers Lapack L_Linear L_OdeSolvers L_Prior L_MeanPath.

Set Implicit Arguments.
Unset Strict Implicit.
Unset Printing Implicit Defensive.
Import Order.TTheory GRing.Theory Num.Theory.
Local Open Scope ring_scope.

(** EKF1 without noise on an autonomous affine equation, any prior of order one: the means and covariances of [N] intervals
    of [M] steps are those of one call with all the steps, whatever the arithmetic modes and the sampling keys. *)
Theorem C110_ekf1 (lp : lapack) (g g' : prng) d m (A : 'M[R]_d) (c : 'cV[R]_d) (bm : path_approx g m) (delta : R) (M N : nat)
  (sq sq' : bool) (prior : prior_arg) (tr : transition (d * 2)) (phi : key g -> option (key g')) (k : key g)
  (s m0 : 'cV[R]_d) (P00 : 'M[R]_d) :
  let h := delta / M%:R in get_prior d 0 h prior = Val tr -> pd tr.1.2 -> psd P00 ->
  let f (x : 'cV[R]_d) (t : R) := A *m x + c in
  let int kk (x : res (gauss d)) f T := let! x := x in ekf1_2 lp (phi kk) x f (T / M%:R) M sq prior None in
  let sol := (sde_solver f (fun _ _ => 0 : 'M[R]_(d, m)) bm delta int k (Val (s, m0, P00)) N).1.2 in
  forall n, (n <= N)%N -> exists s' s'' m' P',
  nth (Val (s, m0, P00)) sol n = Val (s', m', P') /\
  ekf1_2 lp (None : option (key g)) (s, m0, P00) f h (n * M) sq' prior None = Val (s'', m', P').
Proof. exact: one_prior. Qed.
Print Assumptions C110_ekf1.

(** EKF0 with an integrated Brownian prior, given or by default: the means are the states of Algorithm 2, whatever the two
    scales, and the covariances add up. *)
Theorem C110_ekf0 (lp : lapack) (g g' : prng) d m (drift : 'cV[R]_d -> R -> 'cV[R]_d) (sigma : 'cV[R]_d -> R -> 'M[R]_(d, m))
  (bm : path_approx g m) (delta : R) (M N : nat) (sp sp' : R) (sq sq' : bool) (prior : prior_arg)
  (phi : key g -> option (key g')) (k : key g) (s m0 : 'cV[R]_d) (P00 : 'M[R]_d) :
  (0 < d)%N -> 0 < delta -> (0 < M)%N -> sp != 0 -> sp' != 0 -> psd P00 ->
  let h := delta / M%:R in
  (prior = None /\ sp = 1 \/ prior = a_prior (ioup 0 sp 1 h d)) ->
  let int3 kk (x : res (gauss d)) f T := let! x := x in ekf0_2 lp (phi kk) x f (T / M%:R) M sq prior None in
  let int2 (_ : key g) (y : res 'cV[R]_d) f T := let! y := y in
    ekf0 lp (None : option (key g)) y f (T / M%:R) M sq' (a_prior (ioup 0 sp' 1 (T / M%:R) d)) None in
  let sol3 := (sde_solver drift sigma bm delta int3 k (Val (s, m0, P00)) N).1.2 in
  let sol2 := (sde_solver drift sigma bm delta int2 k (Val m0) N).1.2 in
  forall n, (n <= N)%N -> exists s' m' P',
  [/\ nth (Val (s, m0, P00)) sol3 n = Val (s', m', P'), nth (Val m0) sol2 n = Val m',
      (forall kk, phi kk = None) -> (0 < n)%N -> s' = m' &
      P' = P00 + (n%:R * (M%:R * (sp ^+ 2 * h ^+ 3 / 12%:R)))%:M].
Proof. exact: alg3_means. Qed.
Print Assumptions C110_ekf0.

(** So with EKF0 it is not one prior: on x' = x from 1, two intervals of length 1 with one step each end at 25/4, one call
    with the two steps ends at 23/4. *)
Theorem C110_ekf0_refuted (lp : lapack) (g : prng) (sq : bool) (k : key g) :
  let f (x : 'cV[R]_1) (t : R) := 1%:M *m x + 0 in
  let sig (_ : 'cV[R]_1) (_ : R) := 0 : 'M[R]_(1, 1) in
  let x0 : 'cV[R]_1 := const_mx 1 in
  let prior := a_prior (ioup 0 1 1 1 1) in
  let int3 (_ : key g) (x : res (gauss 1)) f T := let! x := x in ekf0_2 lp (None : option (key g)) x f (T / 1%:R) 1 sq prior None in
  (exists s P, nth (Val (x0, x0, 0)) (sde_solver f sig (get_approx g 1) 1 int3 k (Val (x0, x0, 0)) 2).1.2 2 =
    Val (s, const_mx (25%:R / 4%:R), P)) /\
  exists s P, ekf0_2 lp (None : option (key g)) (x0, x0, 0) f 1 2 sq prior None = Val (s, const_mx (23%:R / 4%:R), P).
Proof. exact: ekf0_restart. Qed.
Print Assumptions C110_ekf0_refuted.

(** And with EKF1 the means are not the states of Algorithm 2: 25/4 against 25/7. *)
Theorem C110_algorithm2_refuted (lp : lapack) (g : prng) (sq : bool) (k : key g) :
  let f (x : 'cV[R]_1) (t : R) := 1%:M *m x + 0 in
  let sig (_ : 'cV[R]_1) (_ : R) := 0 : 'M[R]_(1, 1) in
  let x0 : 'cV[R]_1 := const_mx 1 in
  let prior := a_prior (ioup 0 1 1 1 1) in
  let int2 (_ : key g) (y : res 'cV[R]_1) f T := let! y := y in ekf1 lp (None : option (key g)) y f (T / 1%:R) 1 sq prior None in
  let int3 (_ : key g) (x : res (gauss 1)) f T := let! x := x in ekf1_2 lp (None : option (key g)) x f (T / 1%:R) 1 sq prior None in
  nth (Val x0) (sde_solver f sig (get_approx g 1) 1 int2 k (Val x0) 2).1.2 2 = Val (const_mx (25%:R / 4%:R)) /\
  exists s P, nth (Val (x0, x0, 0)) (sde_solver f sig (get_approx g 1) 1 int3 k (Val (x0, x0, 0)) 2).1.2 2 =
    Val (s, const_mx (25%:R / 7%:R), P).
Proof. exact: ekf1_restart. Qed.
Print Assumptions C110_algorithm2_refuted.

(** The default prior meets the hypotheses of the first theorem on intervals of length 3 cut in two steps. *)
Example C110_ex d : exists2 tr, get_prior d 0 (3%:R / 2%:R) None = Val tr & pd tr.1.2 /\ psd (1%:M : 'M[R]_d).
Proof.
exists (ioup 0 1 1 (3%:R / 2%:R) d) => //; split; last exact: pd_psd (@pd1 d).
by apply: ioup_pd; [exact: oner_neq0 | rewrite divr_gt0 ?ltr0n].
Qed.
