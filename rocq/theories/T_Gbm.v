(** C103: geometric Brownian motion (multiplicative noise) through the driver. *)
From Coq Require Import Reals Lra.
From Coquelicot Require Import Coquelicot.
From mathcomp Require Import all_ssreflect all_algebra mxtens.
From Verif Require Import Rstruct Base Linalg Calc Prob Spec Spec3 Spec4 M_Foster M_ItoStrat M_Euler M_SdeSolver M_Ivp L_Linear L_Gbm.

Set Implicit Arguments.
Unset Strict Implicit.
Unset Printing Implicit Defensive.
Import Order.TTheory GRing.Theory Num.Theory.
Local Open Scope ring_scope.

(** With the converted drift and an integrator that solves the interval equations exactly, every path
    is the closed form of geometric Brownian motion at the sum of the returned increments. *)
Theorem C103_exact (g : prng) d (a b h : R) int (N : nat) (x0 : 'cV[R]_d) :
  let fs := to_stratonovich (@gbm_drift_ a d) (@gbm_sigma_ b d) in
  let run k := sde_solver fs.1 fs.2 (get_approx g d) h int k x0 N in
  0 < h -> solves_diagonal int h -> forall n k i, (n <= N)%N ->
  nth x0 (run k).1.2 n i 0 =
  x0 i 0 * exp ((a - b ^+ 2 / 2%:R) * (n%:R * h) + b * \sum_(0 <= j < n) (nth (0, 0) (run k).2 j).1 i 0).
Proof. exact: gbm_exact. Qed.
Print Assumptions C103_exact.

(** Giving the driver the Ito drift multiplies every path by exp(b^2 t / 2). *)
Theorem C103_unconverted (g : prng) d (a b h : R) int (N : nat) (x0 : 'cV[R]_d) :
  let fs := to_stratonovich (@gbm_drift_ a d) (@gbm_sigma_ b d) in
  let run k := sde_solver fs.1 fs.2 (get_approx g d) h int k x0 N in
  let raw k := sde_solver (@gbm_drift_ a d) (@gbm_sigma_ b d) (get_approx g d) h int k x0 N in
  0 < h -> solves_diagonal int h -> forall n k i, (n <= N)%N ->
  nth x0 (raw k).1.2 n i 0 = exp (b ^+ 2 / 2%:R * (n%:R * h)) * nth x0 (run k).1.2 n i 0.
Proof. exact: gbm_unconverted. Qed.
Print Assumptions C103_unconverted.

(** The mixed moments, for any law of the draws. *)
Theorem C103_law (g : prng) d (a b h : R) int (N : nat) (x0 : 'cV[R]_d) (E F : expectation (key g)) :
  let fs := to_stratonovich (@gbm_drift_ a d) (@gbm_sigma_ b d) in
  0 < h -> solves_diagonal int h ->
  (forall G, F (fun k => G (split k N)) = iid E N G) ->
  let x n k := nth x0 (sde_solver fs.1 fs.2 (get_approx g d) h int k x0 N).1.2 n in
  let xi k i := normal2 (child k 2 0) 2 d 0 i in
  forall n i j p q, (n <= N)%N ->
  F (fun k => x n k i 0 ^+ p * x n k j 0 ^+ q) =
  x0 i 0 ^+ p * x0 j 0 ^+ q *
  (exp ((p + q)%:R * (a - b ^+ 2 / 2%:R) * h) * E (fun k => exp (b * sqrt h * (p%:R * xi k i + q%:R * xi k j)))) ^+ n.
Proof. exact: gbm_law. Qed.
Print Assumptions C103_law.

(** If the draws have the exponential moments of the standard normal at b sqrt h and 2 b sqrt h, then the
    mean and variance are the [mean] and [variance] of the repository's [gbm], for every step size; the
    mean of the run with the Ito drift is too large by the factor exp(b^2 t / 2). *)
Theorem C103_gaussian (g : prng) (a b h : R) int N (E F : expectation (key g)) : 0 < h -> solves_diagonal int h ->
  (forall G, F (fun k => G (split k N)) = iid E N G) ->
  let xi k := normal2 (child k 2 0) 2 1 0 0 in
  E (fun k => exp (b * sqrt h * xi k)) = exp ((b * sqrt h) ^+ 2 / 2%:R) ->
  E (fun k => exp (2%:R * (b * sqrt h) * xi k)) = exp ((2%:R * (b * sqrt h)) ^+ 2 / 2%:R) ->
  let fs := to_stratonovich (@gbm_drift_ a 1) (@gbm_sigma_ b 1) in
  let x n k := nth gbm_x0 (sde_solver fs.1 fs.2 (get_approx g 1) h int k gbm_x0 N).1.2 n 0 0 in
  let y n k := nth gbm_x0 (sde_solver (@gbm_drift_ a 1) (@gbm_sigma_ b 1) (get_approx g 1) h int k gbm_x0 N).1.2 n 0 0 in
  forall n, (n <= N)%N ->
  [/\ F (x n) = gbm_mean_ a (n%:R * h) 0 0,
      F (fun k => x n k ^+ 2) - F (x n) ^+ 2 = gbm_variance_ a b (n%:R * h) 0 0 &
      F (y n) = exp (b ^+ 2 / 2%:R * (n%:R * h)) * gbm_mean_ a (n%:R * h) 0 0].
Proof. exact: gbm_gaussian. Qed.
Print Assumptions C103_gaussian.

(** So without the conversion the mean is wrong. *)
Theorem C103_unconverted_refuted (a b h : R) N : b != 0 -> 0 < h -> (0 < N)%N ->
  exists (g : prng) (int : key g -> 'cV[R]_1 -> ('cV[R]_1 -> R -> 'cV[R]_1) -> R -> 'cV[R]_1) (E F : expectation (key g)),
  let xi k := normal2 (child k 2 0) 2 1 0 0 in
  let y n k := nth gbm_x0 (sde_solver (@gbm_drift_ a 1) (@gbm_sigma_ b 1) (get_approx g 1) h int k gbm_x0 N).1.2 n 0 0 in
  [/\ solves_diagonal int h, forall G, F (fun k => G (split k N)) = iid E N G,
      E (fun k => exp (b * sqrt h * xi k)) = exp ((b * sqrt h) ^+ 2 / 2%:R),
      E (fun k => exp (2%:R * (b * sqrt h) * xi k)) = exp ((2%:R * (b * sqrt h)) ^+ 2 / 2%:R) &
      F (y N) <> gbm_mean_ a (N%:R * h) 0 0].
Proof. exact: gbm_unconverted_refuted. Qed.
Print Assumptions C103_unconverted_refuted.

(** With M Euler steps per interval: the closed form of the run, and its distance to the exact path,
    first order in 1 / M. *)
Theorem C103_euler (g : prng) d (a b h : R) (M N : nat) (x0 : 'cV[R]_d) : 0 < h -> (0 < M)%N ->
  let fs := to_stratonovich (@gbm_drift_ a d) (@gbm_sigma_ b d) in
  let run (k : key g) := sde_solver fs.1 fs.2 (get_approx g d) h (fun _ z f T => euler z f (T / M%:R) M) k x0 N in
  let c := a - b ^+ 2 / 2%:R in
  forall n k i, (n <= N)%N ->
  let al j := (nth (0, 0) (run k).2 j).1 i 0 in
  let be j := (nth (0, 0) (run k).2 j).2 i 0 in
  let v j := `|c * h| + `|b| * (`|al j| + sqrt 6%:R * `|be j|) in
  let x := nth x0 (run k).1.2 n i 0 in
  x = x0 i 0 * \prod_(0 <= j < n) \prod_(0 <= l < M)
        (1 + (c * h + b * (al j + sqrt 6%:R * (1 - 2%:R * (l%:R / M%:R)) * be j)) / M%:R) /\
  `|x - x0 i 0 * exp (c * (n%:R * h) + b * \sum_(0 <= j < n) al j)| <=
  `|x0 i 0| * exp (\sum_(0 <= j < n) v j) *
   ((\sum_(0 <= j < n) v j ^+ 2) / 2%:R + sqrt 6%:R * `|b| * \sum_(0 <= j < n) `|be j|) / M%:R.
Proof. exact: gbm_euler. Qed.
Print Assumptions C103_euler.

(** Integrators, keys and draws satisfying the hypotheses exist; and the run is not constant: from one,
    with a = b = h = 1 and the draw z in the only interval, the exact run ends at exp(1/2 + z). *)
Example C103_ex N (s : R) : s != 0 ->
  [/\ forall d h, solves_diagonal (@diag_solver (key tree_prng) d) h &
      exists E : expectation ktree, let xi (k : key tree_prng) := normal2 (child k 2 0) 2 1 0 0 in
      [/\ forall G, nodeE E N (fun k => G (split (k : key tree_prng) N)) = iid E N G,
          E (fun k => exp (s * xi k)) = exp (s ^+ 2 / 2%:R) &
          E (fun k => exp (2%:R * s * xi k)) = exp ((2%:R * s) ^+ 2 / 2%:R)]].
Proof.
move=> s0; split; first by move=> d h; exact: diag_solver_exact.
have [z [p [_ H1 H2]]] := three_normal s0; exists (threeE (val_key 0) (val_key z) (val_key (- z)) p).
by split=> // G; exact: nodeE_split.
Qed.
Example C103_path_ex (z : R) :
  let fs := to_stratonovich (@gbm_drift_ 1 1) (@gbm_sigma_ 1 1) in
  nth gbm_x0 (sde_solver fs.1 fs.2 (get_approx tree_prng 1) 1 (@diag_solver _ 1) (Node [:: val_key z] : key tree_prng) gbm_x0 1).1.2 1 0 0
  = exp (1 / 2%:R + z).
Proof.
move=> fs.
rewrite (@C103_exact tree_prng 1 1 1 1 (@diag_solver _ 1) 1 gbm_x0 ltr01 (@diag_solver_exact _ 1 1) 1%N _ 0 (leqnn _)).
rewrite big_nat1 ret_coeffs // /parabolas /= !mxE /= mul1r; congr exp.
have s1 : sqrt 1 = 1 by exact: sqrt_1.
by rewrite s1 expr1n !mulr1 !mul1r; toR; field.
Qed.
