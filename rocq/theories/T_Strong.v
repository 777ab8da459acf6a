(** Property C105: strong error of the driver for linear equations with additive noise. *)
From Coq Require Import Reals Lra.
From Coquelicot Require Import Coquelicot.
From mathcomp Require Import all_ssreflect all_algebra mxtens.
From Verif Require Import Rstruct Base Linalg Calc Prob Expm Spec Spec3 Spec5 M_Foster M_ItoStrat M_SdeSolver M_Prior
  L_Foster L_Prior L_Linear L_Strong.

Set Implicit Arguments.
Unset Strict Implicit.
Unset Printing Implicit Defensive.
Import Order.TTheory GRing.Theory Num.Theory.
Local Open Scope ring_scope.

(** C105: dX = A X dt + S dW, solved with M intervals of length h along coarse parabolas, each put together from N
    fine parabolas of length h/N.  The coefficients of the fine parabolas are returned by the run (the second ones
    without their factor sqrt 6), and y is the solution of the same equation along the fine path. *)
Section C105.
Variables (g : prng) (d m : nat) (A : 'M[R]_d) (S : 'M[R]_(d, m)) (h : R) (N M : nat).
Variable int : key g -> 'cV[R]_d -> ('cV[R]_d -> R -> 'cV[R]_d) -> R -> 'cV[R]_d.
Variables (x0 : 'cV[R]_d) (y : key g -> nat -> 'cV[R]_d).
Let fs := to_stratonovich (fun z _ => A *m z) (fun _ _ => S).
Let run (k : key g) := sde_solver fs.1 fs.2 (get_approx_fine g m N) h int k x0 M.
Let x n k := nth x0 (run k).1.2 n.
Let coeff k n : 'cV[R]_m * 'cV[R]_m * seq 'cV[R]_m * seq 'cV[R]_m := nth (0, 0, [::], [::]) (run k).2 n.
Let fine_piece k q t :=
  eval_parabola t (h / N%:R) (nth 0 (coeff k (q %/ N)).1.2 (q %% N)) (sqrt 6%:R *: nth 0 (coeff k (q %/ N)).2 (q %% N)).
Let mean n := expm ((n%:R * h) *: A) *m x0.
Let err n k := x n k - y k (n * N).

(** There is exactly one such reference solution. *)
Theorem C105_reference : 0 < h -> (0 < N)%N -> forall k,
  (exists u, u 0%N = x0 /\ follows A S (h / N%:R) (M * N) (fine_piece k) u) /\
  forall u u', u 0%N = u' 0%N -> follows A S (h / N%:R) (M * N) (fine_piece k) u ->
    follows A S (h / N%:R) (M * N) (fine_piece k) u' -> forall q, (q <= M * N)%N -> u q = u' q.
Proof. exact: (fun h0 N0 k => reference A S x0 (M * N) _ _ (div_nat_gt0 h0 N0)). Qed.

(** The mean square error: centred, equal to the covariance that the coarse run loses against the fine one, and of
    order four in h (so the error is of order two); up to order four in h/N it is the covariance that the coarse run
    loses against the SDE itself. *)
Theorem C105_strong (E F E' : expectation (key g)) : 0 < h -> (0 < N)%N -> solves_affine int h ->
  (forall k, y k 0%N = x0) -> (forall k, follows A S (h / N%:R) (M * N) (fine_piece k) (y k)) ->
  (forall G, F (fun k => G (split k M)) = iid E M G) ->
  (forall G, E (fun k => G (split (child k 2 0) N)) = iid E' N G) ->
  standard2 E' (fun k => normal2 k 2 m) -> forall n, (n <= M)%N ->
  let T := n%:R * h in
  let al := \sum_i \sum_j `|A i j| in let ga := \sum_k (\sum_l `|S l k|) ^+ 2 in
  let cov_x := Emx F (fun k => (x n k - mean n) *m (x n k - mean n)^T) in
  let cov_y := Emx F (fun k => (y k (n * N) - mean n) *m (y k (n * N) - mean n)^T) in
  let cov_e := Emx F (fun k => err n k *m (err n k)^T) in
  let c := T * (al ^+ 4 * exp (2%:R * T * al) * ga / 80%:R) in
  [/\ Emx F (err n) = 0, cov_e = cov_y - cov_x, psd (lin_sde_cov A S T - cov_x - cov_e),
      forall i j, `|(lin_sde_cov A S T - cov_x - cov_e) i j| <= c * (h / N%:R) ^+ 4 &
      forall i, F (fun k => err n k i 0 ^+ 2) <= c * h ^+ 4].
Proof. exact: (fun h0 N0 ex y0 yf s1 s2 st => @strong_law g d m A S h N int h0 N0 ex M x0 y y0 yf E F E' s1 s2 st). Qed.

(** Noise that is integrated once is followed without error, for every key ... *)
Theorem C105_once : 0 < h -> (0 < N)%N -> solves_affine int h ->
  (forall k, y k 0%N = x0) -> (forall k, follows A S (h / N%:R) (M * N) (fine_piece k) (y k)) ->
  A *m (A *m S) = 0 -> forall k n, (n <= M)%N -> x n k = y k (n * N).
Proof. exact: (fun h0 N0 ex y0 yf nil k n => @strong_once g d m A S h N int h0 N0 ex M x0 y y0 yf k n nil). Qed.

(** ... noise that is integrated twice is not, and the order two is sharp. *)
Theorem C105_twice (E F E' : expectation (key g)) : 0 < h -> (0 < N)%N -> solves_affine int h ->
  (forall k, y k 0%N = x0) -> (forall k, follows A S (h / N%:R) (M * N) (fine_piece k) (y k)) ->
  (forall G, F (fun k => G (split k M)) = iid E M G) ->
  (forall G, E (fun k => G (split (child k 2 0) N)) = iid E' N G) ->
  standard2 E' (fun k => normal2 k 2 m) -> forall n,
  A *m (A *m (A *m S)) = 0 -> (n <= M)%N ->
  Emx F (fun k => err n k *m (err n k)^T) =
  (n%:R * h * h ^+ 4 / 720%:R * (1 - N%:R ^- 4)) *: ((A *m (A *m S)) *m (A *m (A *m S))^T).
Proof. exact: (fun h0 N0 ex y0 yf s1 s2 st => @strong_twice g d m A S h N int h0 N0 ex M x0 y y0 yf E F E' s1 s2 st). Qed.
End C105.
Print Assumptions C105_reference.
Print Assumptions C105_strong.
Print Assumptions C105_once.
Print Assumptions C105_twice.

(** The hypotheses can be met: an exact affine integrator; keys whose fine draws are independent signs; a
    twice integrated noise. *)
Example C105_ex m N M d : let E := intervalE m N in
  [/\ forall h, solves_affine (@affine_solver (key tree_prng) d) h,
      forall G, nodeE E M (fun k => G (split (k : key tree_prng) M)) = iid E M G,
      forall G, E (fun k => G (split (child (k : key tree_prng) 2 0) N)) = iid (signkeyE 2 m) N G,
      standard2 (signkeyE 2 m) (fun k => normal2 (k : key tree_prng) 2 m) &
      let A := companion 2 (fun _ => 0) in let S := last_noise 2 1 in
      A *m (A *m (A *m S)) = 0 /\ A *m (A *m S) <> 0].
Proof. exact: strong_example. Qed.
