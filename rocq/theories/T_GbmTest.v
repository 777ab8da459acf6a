(** C114: Euler-Maruyama on geometric Brownian motion. *)
From Coq Require Import Reals Lra.
From Coquelicot Require Import Coquelicot.
From mathcomp Require Import all_ssreflect all_algebra mxtens.
From Verif Require Import Rstruct Base Linalg Calc Prob Spec M_Utils M_Euler M_Ivp L_Euler L_GbmTest.

Set Implicit Arguments.
Unset Strict Implicit.
Unset Printing Implicit Defensive.
Import Order.TTheory GRing.Theory Num.Theory.
Local Open Scope ring_scope.

(** Weak order one, with constants, for the shipped problem (exact values exp T and exp (3 T)). *)
Theorem C114_weak (g : prng) (E F : expectation (key g)) (N : nat) :
  (forall G, F (fun k => G (split k N)) = iid E N G) -> standard E (fun k => normal (child k 2 0) 1) ->
  forall h : R, 0 <= h ->
  let x n (k : key g) := nth 0 (euler_maruyama gbm_drift gbm_sigma h k gbm_x0 N).2 n 0 0 in
  forall n, (n <= N)%N -> let T := n%:R * h in
  exp (T - T * h / 2%:R) <= F (x n) <= exp T /\
  exp (3%:R * T - 7%:R / 2%:R * (T * h)) <= F (fun k => x n k ^+ 2) <= exp (3%:R * T).
Proof. exact: gbm_weak. Qed.
Print Assumptions C114_weak.

(** The four comparisons of [test_gbm_moment] (100 steps of 1/100) hold for the law of the scheme; the test wants less than
    15/100, 15/100, 15/1000 and 15/1000. *)
Theorem C114_test (g : prng) (E F : expectation (key g)) :
  (forall G, F (fun k => G (split k 100)) = iid E 100 G) -> standard E (fun k => normal (child k 2 0) 1) ->
  let h : R := 1 / 100%:R in
  let x n (k : key g) := nth 0 (euler_maruyama gbm_drift gbm_sigma h k gbm_x0 100).2 n 0 0 in
  let var n := F (fun k => (x n k - F (x n)) ^+ 2) in
  [/\ `|F (x 100%N) - gbm_mean 1 0 0| <= 2%:R / 100%:R,
      `|sqrt (var 100%N) - sqrt (gbm_variance 1 0 0)| <= 14%:R / 100%:R,
      `|F (x 1%N) - gbm_mean h 0 0| <= 1 / 1000%:R &
      `|var 1%N - gbm_variance h 0 0| <= 1 / 1000%:R].
Proof. exact: gbm_test. Qed.
Print Assumptions C114_test.

(** Mean-square stability for dX = a X dt + b X dW: the second moment dies out exactly when 2 a + b^2 + a^2 h < 0, whereas
    that of the equation does when 2 a + b^2 < 0. *)
Theorem C114_stability (g : prng) (E F : expectation (key g)) (N d : nat) :
  (forall G, F (fun k => G (split k N)) = iid E N G) -> standard E (fun k => normal (child k 2 0) d) ->
  forall (a b h : R) (init : 'cV[R]_d), 0 <= h ->
  let x n (k : key g) := nth 0 (euler_maruyama (@gbm_drift_ a d) (@gbm_sigma_ b d) h k init N).2 n in
  let s := 2%:R * a + b ^+ 2 + a ^+ 2 * h in
  forall n i, (n <= N)%N -> let T := n%:R * h in
  F (fun k => x n k i 0 ^+ 2) <= exp (s * T) * init i 0 ^+ 2 /\
  (0 <= s -> (1 + s * T) * init i 0 ^+ 2 <= F (fun k => x n k i 0 ^+ 2)).
Proof. exact: gbm_stable. Qed.
Print Assumptions C114_stability.

(** Independent fair signs meet the hypotheses. *)
Example C114_ex N :
  (forall G, nodeE (stepkeyE 1) N (fun k : key tree_prng => G (split k N)) = iid (stepkeyE 1) N G) /\
  standard (stepkeyE 1) (fun k : key tree_prng => normal (child k 2 0) 1).
Proof. by split; [move=> G; exact: nodeE_split | exact: stepkey_standard]. Qed.

(** a = -2, b = 1: the equation contracts (2 a + b^2 = -3), a run with steps of 1 explodes. *)
Example C114_unstable_ex (n : nat) :
  1 + n%:R <= nodeE (stepkeyE 1) n (fun k : key tree_prng =>
    nth 0 (euler_maruyama (@gbm_drift_ (- 2%:R) 1) (@gbm_sigma_ 1 1) 1 k gbm_x0 n).2 n 0 0 ^+ 2).
Proof.
have [sp dr] := C114_ex n; have [_ H] := C114_stability sp dr (- 2%:R) 1 gbm_x0 ler01 0 (leqnn n).
have s1 : 2%:R * - 2%:R + 1 ^+ 2 + (- 2%:R) ^+ 2 * 1 = 1 :> R by rewrite !expr2; toR; ring.
have i1 : gbm_x0 0 0 = 1 by rewrite mxE.
by move: H; rewrite s1 i1 mulr1 mul1r expr1n mulr1 => /(_ ler01).
Qed.
