(** C108: the driver on Stratonovich equations with an explicit solution. *)
From Coq Require Import Reals Lra.
From Coquelicot Require Import Coquelicot.
From mathcomp Require Import all_ssreflect all_algebra mxtens.
From Verif Require Import Rstruct Base Linalg Calc Prob Spec Spec3 Spec6 M_Foster M_SdeSolver M_Euler M_ItoStrat L_Doss.

Set Implicit Arguments.
Unset Strict Implicit.
Unset Printing Implicit Defensive.
Import Order.TTheory GRing.Theory Num.Theory.
Local Open Scope ring_scope.

(** If the integrator solves every interval equation exactly, the solver returns the explicit solution evaluated
    at the grid times and at the sum of the drawn increments. *)
Theorem C108_exact (g : prng) d m (bm : path_approx g m) (ca cb : coeffs bm -> 'cV[R]_m)
  (f : 'cV[R]_d -> R -> 'cV[R]_d) (s : 'cV[R]_d -> R -> 'M[R]_(d, m)) (L K delta : R) (N : nat)
  (X : R -> 'cV[R]_m -> 'cV[R]_d) (k : key g) (c0 : coeffs bm)
  (int : key g -> 'cV[R]_d -> ('cV[R]_d -> R -> 'cV[R]_d) -> R -> 'cV[R]_d) :
  0 < delta -> 0 <= L -> 0 <= K -> lipschitz f L -> lipschitz_mx s K ->
  (forall t c, eval_fn t delta c = eval_parabola t delta (ca c) (cb c)) ->
  resolves f s (N%:R * delta) X ->
  let run := sde_solver f s bm delta int k (X 0 0) N in
  let x n := nth (X 0 0) run.1.2 n in let c n := nth c0 run.2 n in
  (forall n, (n < N)%N -> exists y : R -> 'cV[R]_d,
   [/\ y 0 = x n, y delta = x n.+1 & deriv_on delta y (fun t => f (y t) (t + n%:R * delta)
      + s (y t) (t + n%:R * delta) *m jacR (fun r => eval_fn r delta (c n)) t)]) ->
  forall n, (n <= N)%N -> x n = X (n%:R * delta) (\sum_(0 <= j < n) ca (c j)).
Proof. exact: run_exact. Qed.
Print Assumptions C108_exact.

(** If the integrator is off by at most [eps n] on interval [n], the errors add up, each multiplied by the
    exponential of the Lipschitz constants times the variation of the later pieces of the path. *)
Theorem C108_any (g : prng) d m (bm : path_approx g m) (ca cb : coeffs bm -> 'cV[R]_m)
  (f : 'cV[R]_d -> R -> 'cV[R]_d) (s : 'cV[R]_d -> R -> 'M[R]_(d, m)) (L K delta : R) (N : nat)
  (X : R -> 'cV[R]_m -> 'cV[R]_d) (k : key g) (c0 : coeffs bm)
  (int : key g -> 'cV[R]_d -> ('cV[R]_d -> R -> 'cV[R]_d) -> R -> 'cV[R]_d) (eps : nat -> R) :
  0 < delta -> 0 <= L -> 0 <= K -> lipschitz f L -> lipschitz_mx s K ->
  (forall t c, eval_fn t delta c = eval_parabola t delta (ca c) (cb c)) ->
  resolves f s (N%:R * delta) X ->
  let run := sde_solver f s bm delta int k (X 0 0) N in
  let x n := nth (X 0 0) run.1.2 n in let c n := nth c0 run.2 n in
  let W n := \sum_(0 <= j < n) ca (c j) in
  let lam n := L * delta + K * tv (ca (c n)) (cb (c n)) in
  (forall n, 0 <= eps n) ->
  (forall n, (n < N)%N -> exists y : R -> 'cV[R]_d,
   [/\ y 0 = x n, deriv_on delta y (fun t => f (y t) (t + n%:R * delta)
      + s (y t) (t + n%:R * delta) *m jacR (fun r => eval_fn r delta (c n)) t) &
      sup_le (x n.+1 - y delta) (eps n)]) ->
  forall n, (n <= N)%N -> sup_le (x n - X (n%:R * delta) (W n))
    (\sum_(0 <= j < n) eps j * exp (\sum_(j.+1 <= l < n) lam l)).
Proof. exact: doss_any. Qed.
Print Assumptions C108_any.

(** With [M] Euler steps per interval: the error against the explicit solution is O(1/M). *)
Theorem C108_euler (g : prng) d m (bm : path_approx g m) (ca cb : coeffs bm -> 'cV[R]_m)
  (f : 'cV[R]_d -> R -> 'cV[R]_d) (s : 'cV[R]_d -> R -> 'M[R]_(d, m)) (L K delta : R) (N : nat)
  (X : R -> 'cV[R]_m -> 'cV[R]_d) (k : key g) (c0 : coeffs bm)
  (int : key g -> 'cV[R]_d -> ('cV[R]_d -> R -> 'cV[R]_d) -> R -> 'cV[R]_d) (M : nat) (B : nat -> R) :
  0 < delta -> 0 <= L -> 0 <= K -> lipschitz f L -> lipschitz_mx s K ->
  (forall t c, eval_fn t delta c = eval_parabola t delta (ca c) (cb c)) ->
  resolves f s (N%:R * delta) X ->
  let run := sde_solver f s bm delta int k (X 0 0) N in
  let x n := nth (X 0 0) run.1.2 n in let c n := nth c0 run.2 n in
  let W n := \sum_(0 <= j < n) ca (c j) in
  let lam n := L * delta + K * tv (ca (c n)) (cb (c n)) in
  (0 < M)%N -> (forall key z G, int key z G delta = euler z G (delta / M%:R) M) -> (forall n, 0 <= B n) ->
  (forall n, (n < N)%N -> exists y1 y2 : R -> 'cV[R]_d,
   [/\ deriv_on delta (fun t => X (n%:R * delta + t) (W n + eval_parabola t delta (ca (c n)) (cb (c n)))) y1,
      deriv_on delta y1 y2 & forall t : R, 0 <= t -> t <= delta -> sup_le (y2 t) (B n)]) ->
  forall n, (n <= N)%N -> sup_le (x n - X (n%:R * delta) (W n))
    (delta ^+ 2 / (2%:R * M%:R) * \sum_(0 <= j < n) B j * exp (\sum_(j <= l < n) lam l)).
Proof. exact: doss_euler. Qed.
Print Assumptions C108_euler.

(** The Ito equation dX = (sqrt(1 + X^2) + X/2) dt + sqrt(1 + X^2) dW, X(0) = 0, meets the hypotheses, with a
    nonlinear drift and a noise that depends on the state; its solution is sinh(t + W). *)
Example C108_ex :
  [/\ lipschitz (to_stratonovich hyp_drift hyp_sigma).1 1,
      lipschitz_mx (to_stratonovich hyp_drift hyp_sigma).2 1,
      (forall T, resolves (to_stratonovich hyp_drift hyp_sigma).1 (to_stratonovich hyp_drift hyp_sigma).2 T hyp_X),
      (forall k c0 n, (n <= 10)%N ->
       let run := sde_solver (to_stratonovich hyp_drift hyp_sigma).1 (to_stratonovich hyp_drift hyp_sigma).2
         (get_approx tree_prng 1) (1 / 10%:R) (@ode_sol _ _) k 0 10 in
       nth 0 run.1.2 n 0 0 = sinh (n%:R * (1 / 10%:R) + \sum_(0 <= j < n) (nth c0 run.2 j).1 0 0)) &
      (forall (a b w : 'cV[R]_1) (h T : R), 0 < h -> exists (y1 y2 : R -> 'cV[R]_1) (B : R),
       [/\ 0 <= B, deriv_on h (fun t => hyp_X (T + t) (w + eval_parabola t h a b)) y1, deriv_on h y1 y2 &
           forall t : R, 0 <= t -> t <= h -> sup_le (y2 t) B])].
Proof.
have [l1 l2] := hyp_lip; split=> //.
- by move=> T; exact: hyp_resolves.
- move=> k c0 n nN; have d0 : (0 : R) < 1 / 10%:R by rewrite divr_gt0 ?ltr01 ?ltr0n.
  exact: (@hyp_run tree_prng (get_approx tree_prng 1) fst snd _ 10 k c0 d0 _ n nN).
- by move=> a b w h T h0; exact: hyp_smooth.
Qed.
