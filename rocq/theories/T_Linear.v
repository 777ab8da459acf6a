(** Property C97: linear equations with exactly solved random ODEs. *)
From Coq Require Import Reals Lra.
From mathcomp Require Import all_ssreflect all_algebra mxtens.
From Verif Require Import Rstruct Base Linalg Expm Calc Prob Spec Spec3 M_Foster M_ItoStrat M_SdeSolver L_Linear.

Set Implicit Arguments.
Unset Strict Implicit.
Unset Printing Implicit Defensive.
Import Order.TTheory GRing.Theory Num.Theory.
Local Open Scope ring_scope.

(** C97: dX = A X dt + S dW.  If the integrator solves affine ODEs exactly, one interval is the
    variation of constants formula with the derivative of the drawn parabola as input. *)
Theorem C97_step (g : prng) d m (A : 'M[R]_d) (S : 'M[R]_(d, m)) (h : R)
  (int : key g -> 'cV[R]_d -> ('cV[R]_d -> R -> 'cV[R]_d) -> R -> 'cV[R]_d) :
  0 < h -> solves_affine int h -> forall N x0 n k, (n < N)%N ->
  let fs := to_stratonovich (fun z _ => A *m z) (fun _ _ => S) in
  let x n := nth x0 (sde_solver fs.1 fs.2 (get_approx g m) h int k x0 N).1.2 n in
  let: (a, b) := parabolas m (child (child k N n) 2 0) h in
  x n.+1 = expm (h *: A) *m x n +
    mx_int (fun s => expm ((h - s) *: A) *m (S *m jacR (fun r => eval_parabola r h a b) s)) h.
Proof. exact: lin_step. Qed.
Print Assumptions C97_step.

Section C97.
Variables (g : prng) (d m : nat) (A : 'M[R]_d) (S : 'M[R]_(d, m)) (h : R).
Variable int : key g -> 'cV[R]_d -> ('cV[R]_d -> R -> 'cV[R]_d) -> R -> 'cV[R]_d.
Variables (N : nat) (x0 : 'cV[R]_d) (E F : expectation (key g)).
Let fs := to_stratonovich (fun z _ => A *m z) (fun _ _ => S).
Let x n (k : key g) := nth x0 (sde_solver fs.1 fs.2 (get_approx g m) h int k x0 N).1.2 n.
Let mean n := expm ((n%:R * h) *: A) *m x0.
Let cov n := Emx F (fun k => (x n k - mean n) *m (x n k - mean n)^T).

(** The mean of the SDE is reproduced exactly; the covariance is never too large, and its error
    is of order four in the step. *)
Theorem C97_law : 0 < h -> solves_affine int h ->
  (forall G, F (fun k => G (split k N)) = iid E N G) -> standard2 E (fun k => normal2 (child k 2 0) 2 m) ->
  forall n, (n <= N)%N ->
  let T := n%:R * h in
  let al := \sum_i \sum_j `|A i j| in let ga := \sum_k (\sum_l `|S l k|) ^+ 2 in
  [/\ Emx F (x n) = mean n, psd (lin_sde_cov A S T - cov n) &
      forall i j, `|(lin_sde_cov A S T - cov n) i j| <= T * (al ^+ 4 * exp (2%:R * T * al) * ga / 80%:R) * h ^+ 4].
Proof. exact: linear_law. Qed.

(** The covariance recursion, in closed form. *)
Theorem C97_covariance : 0 < h -> solves_affine int h ->
  (forall G, F (fun k => G (split k N)) = iid E N G) -> standard2 E (fun k => normal2 (child k 2 0) 2 m) ->
  let B s := expm ((h - s) *: A) *m S in
  let I0 := mx_int B h in let I1 := mx_int (fun s => (1 - 2%:R * (s / h)) *: B s) h in
  let P := expm (h *: A) in
  cov 0%N = 0 /\
  forall n, (n < N)%N -> cov n.+1 = P *m cov n *m P^T + (h^-1 *: (I0 *m I0^T) + (3%:R / h) *: (I1 *m I1^T)).
Proof. exact: linear_cov. Qed.

(** It is exact when the noise reaches every component within one integration ... *)
Theorem C97_exact : 0 < h -> solves_affine int h ->
  (forall G, F (fun k => G (split k N)) = iid E N G) -> standard2 E (fun k => normal2 (child k 2 0) 2 m) ->
  forall n, A *m (A *m S) = 0 -> (n <= N)%N -> cov n = lin_sde_cov A S (n%:R * h).
Proof. exact: (fun h0 ex si st => @cov_exact g d m A S h int h0 ex N x0 E F si st). Qed.
End C97.
Print Assumptions C97_law.
Print Assumptions C97_covariance.
Print Assumptions C97_exact.

(** ... and not in general: for twice integrated Brownian motion a step loses h^5/720. *)
Theorem C97_exact_refuted : exists d m (A : 'M[R]_d) (S : 'M[R]_(d, m)) i,
  forall (g : prng) (h : R) int N x0 (E F : expectation (key g)),
  0 < h -> solves_affine int h -> (0 < N)%N ->
  (forall G, F (fun k => G (split k N)) = iid E N G) -> standard2 E (fun k => normal2 (child k 2 0) 2 m) ->
  let fs := to_stratonovich (fun z _ => A *m z) (fun _ _ => S) in
  let x1 k := nth x0 (sde_solver fs.1 fs.2 (get_approx g m) h int k x0 N).1.2 1 in
  let mean := expm (h *: A) *m x0 in
  lin_sde_cov A S h i i - Emx F (fun k => (x1 k - mean) *m (x1 k - mean)^T) i i = h ^+ 5 / 720%:R.
Proof. exact: ibm2_refuted. Qed.
Print Assumptions C97_exact_refuted.

(** The hypotheses can be met: an exact affine integrator, keys with independent signs, and a
    noise that is integrated once (the Kolmogorov equations). *)
Example C97_ex m N d :
  [/\ forall h, solves_affine (@affine_solver (key tree_prng) d) h,
      forall G, nodeE (coefkeyE m) N (fun k => G (split (k : key tree_prng) N)) = iid (coefkeyE m) N G,
      standard2 (coefkeyE m) (fun k => normal2 (child (k : key tree_prng) 2 0) 2 m) &
      companion 1 (fun _ => 0) *m (companion 1 (fun _ => 0) *m last_noise 1 1) = 0 /\ last_noise 1 1 <> 0].
Proof.
split=> [h||| ]; [exact: affine_solver_exact | move=> G; exact: nodeE_split | exact: coefkey_standard |].
split; last by move/matrixP/(_ ord_max 0); rewrite !mxE /= => /eqP; rewrite oner_eq0.
apply/matrixP=> i j; rewrite mulmxE big_ord_recl big_ord1 !mulmxE !big_ord_recl !big_ord0 !mxE /=.
by case: i => -[|[|i]] Hi //=; rewrite !(mul0r, mulr0, mul1r, mulr1, addr0, add0r).
Qed.
