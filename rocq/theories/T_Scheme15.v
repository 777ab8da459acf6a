(** Properties C25 to C29, C69, C70: the order 1.5 schemes. *)
From Coq Require Import Reals Lra.
From Coquelicot Require Import Coquelicot.
From mathcomp Require Import all_ssreflect all_algebra mxtens.
From Verif Require Import Rstruct Base Linalg Calc Prob Spec M_Utils M_Scheme15 L_Scheme15.

Set Implicit Arguments.
Unset Strict Implicit.
Unset Printing Implicit Defensive.
Import Order.TTheory GRing.Theory Num.Theory.
Local Open Scope ring_scope.

(** C25 *)
Theorem C25_additive_noise d (h : R) (a : 'cV[R]_d -> 'cV[R]_d) (s : 'M[R]_d) (x zeta eta : 'cV[R]_d) :
  (forall i j, i != j -> (s *m s^T) i j = 0) ->
  diag15_step a (fun _ => s) h x zeta eta =
  x + h *: a x + s *m eta + (h ^+ 2 / 2%:R) *: generator a (fun _ => s) a x + jac a x *m s *m zeta.
Proof. exact: diag15_additive. Qed.
Print Assumptions C25_additive_noise.

(** Diagonal matrices (even rotated on the right) satisfy the hypothesis. *)
Example C25_ex d (c : 'rV[R]_d) i j : i != j -> (diag_mx c *m (diag_mx c)^T) i j = 0.
Proof. by move=> /negPf ij; rewrite tr_diag_mx mulmx_diag !mxE ij mulr0n. Qed.

(** C26: the exact difference with the textbook step ... *)
Theorem C26_exact_difference (a s : R -> R) (h x zeta eta : R) :
  let s' := Derive s x in let s'' := Derive (Derive s) x in
  diag15_step (fun z => (a (z 0 0))%:M) (fun z => (s (z 0 0))%:M) h x%:M zeta%:M eta%:M 0 0 =
  kp15 a s x h zeta eta + 2%:R^-1 * s x * (s x * s'' + s' ^+ 2) * (3%:R^-1 * eta ^+ 2 - h) * (1 - eta).
Proof. exact: diag15_one. Qed.
Print Assumptions C26_exact_difference.

(** ... the bias of the one-step mean ... *)
Theorem C26_mean_bias (a s : R -> R) (h : R) (Om : Type) (E : expectation Om) (zeta eta : Om -> R) (x : R) :
  E eta = 0 -> E (fun w => eta w ^+ 2) = h -> E (fun w => eta w ^+ 3) = 0 -> E zeta = 0 ->
  E (fun w => diag15_step (fun z => (a (z 0 0))%:M) (fun z => (s (z 0 0))%:M) h
                x%:M (zeta w)%:M (eta w)%:M 0 0) =
  E (fun w => kp15 a s x h (zeta w) (eta w)) -
  h / 3%:R * (s x * (s x * Derive (Derive s) x + Derive s x ^+ 2)).
Proof. exact: diag15_mean. Qed.
Print Assumptions C26_mean_bias.

(** ... where the textbook step has the right mean. *)
Theorem C26_textbook_mean (a s : R -> R) (h : R) (Om : Type) (E : expectation Om) (zeta eta : Om -> R) (x : R) :
  E eta = 0 -> E (fun w => eta w ^+ 2) = h -> E (fun w => eta w ^+ 3) = 0 -> E zeta = 0 ->
  E (fun w => kp15 a s x h (zeta w) (eta w)) =
  x + h * a x + h ^+ 2 / 2%:R * (a x * Derive a x + 2%:R^-1 * s x ^+ 2 * Derive (Derive a) x).
Proof. exact: kp15_mean. Qed.
Print Assumptions C26_textbook_mean.

(** The expected equality fails: a geometric Brownian motion started at 1. *)
Theorem C26_textbook_step_refuted :
  exists (a s : R -> R) (h x zeta eta : R), 0 < h /\
  diag15_step (fun z => (a (z 0 0))%:M) (fun z => (s (z 0 0))%:M) h x%:M zeta%:M eta%:M 0 0 <>
  kp15 a s x h zeta eta.
Proof. exact: diag15_not_textbook. Qed.
Print Assumptions C26_textbook_step_refuted.

(** Fair signs times sqrt h have the required moments. *)
Example C26_ex (h : R) : 0 <= h ->
  let E := signsE 1 in let eta w := sqrt h * rademacher w 0 0 in let zeta w := h / 2%:R * eta w in
  [/\ E eta = 0, E (fun w => eta w ^+ 2) = h, E (fun w => eta w ^+ 3) = 0 & E zeta = 0].
Proof. exact: signs_moments. Qed.

(** C27 *)
Theorem C27_joint_covariance d (h : R) : 0 <= h ->
  diag15_cov d h = brownian_cov d h /\ psd (diag15_cov d h).
Proof. exact: diag15_joint. Qed.
Print Assumptions C27_joint_covariance.

Theorem C27_closed_form d (h : R) : 0 <= h ->
  brownian_cov d h = block_mx (h ^+ 3 / 3%:R)%:M (h ^+ 2 / 2%:R)%:M (h ^+ 2 / 2%:R)%:M h%:M.
Proof. exact: brownian_covE. Qed.
Print Assumptions C27_closed_form.

(** C28 *)
Theorem C28_hypoelliptic_covariance d m (a : 'cV[R]_(1 + d) -> 'cV[R]_(1 + d))
  (s : 'cV[R]_(1 + d) -> 'M[R]_(1 + d, m)) (h : R) x : 0 <= h ->
  let p : 'rV[R]_d := \row_j pderiv (fun z => a z 0 0) (rshift 1 j) x in
  let G : 'M[R]_(d, m) := dsubmx (s x) in
  let B : 'M[R]_(1 + d, m + m) := block_mx (p *m G) 0 0 G in
  hypo_cov a s h x = B *m brownian_cov m h *m B^T /\ psd (hypo_cov a s h x).
Proof. exact: hypo_cov_brownian. Qed.
Print Assumptions C28_hypoelliptic_covariance.

(** C29 *)
Theorem C29_hypoelliptic_step d m (a : 'cV[R]_(1 + d) -> 'cV[R]_(1 + d))
  (s : 'cV[R]_(1 + d) -> 'M[R]_(1 + d, m)) (h : R) x e :
  hypo_step a s h x e = x + h *: a x + (h ^+ 2 / 2%:R) *: generator a s a x + e.
Proof. exact: hypo_generator. Qed.
Print Assumptions C29_hypoelliptic_step.

Theorem C29_linear_drift_hypoelliptic d m (M : 'M[R]_(1 + d)) (s : 'cV[R]_(1 + d) -> 'M[R]_(1 + d, m)) h x :
  hypo_step (fun z => M *m z) s h x 0 = (1%:M + h *: M + (h ^+ 2 / 2%:R) *: (M *m M)) *m x.
Proof. exact: hypo_linear. Qed.
Print Assumptions C29_linear_drift_hypoelliptic.

Theorem C29_linear_drift_diag d (M s : 'M[R]_d) h x : (forall i j, i != j -> (s *m s^T) i j = 0) ->
  diag15_step (fun z => M *m z) (fun _ => s) h x 0 0 = (1%:M + h *: M + (h ^+ 2 / 2%:R) *: (M *m M)) *m x.
Proof. exact: diag15_linear. Qed.
Print Assumptions C29_linear_drift_diag.

(** C69: the step on geometric Brownian motions, any dimension ... *)
Theorem C69_gbm_step d (a b h : R) (x zeta eta : 'cV[R]_d) i :
  diag15_step (fun z => a *: z) (fun z : 'cV[R]_d => b *: diag_mx z^T) h x zeta eta i 0 =
  (1 + a * h + (a * h) ^+ 2 / 2%:R) * x i 0 + b * x i 0 * eta i 0 + a * b * x i 0 * zeta i 0
  + 2%:R^-1 * b ^+ 2 * x i 0 * (eta i 0 ^+ 2 - h)
  + a * b * (\sum_j x j 0 * (h * eta j 0 - zeta j 0))
  + 2%:R^-1 * b ^+ 3 * x i 0 * (3%:R^-1 * (\sum_j eta j 0 ^+ 2) - h).
Proof. exact: diag15_gbm. Qed.
Print Assumptions C69_gbm_step.

(** ... shows that a coordinate depends on the other ones. *)
Theorem C69_independent_coordinates_refuted :
  let step := diag15_step (fun z : 'cV[R]_2 => 1 *: z) (fun z : 'cV[R]_2 => 1 *: diag_mx z^T) 1 in
  let zeta : 'cV[R]_2 := 0 in let eta : 'cV[R]_2 := const_mx 1 in
  exists x y : 'cV[R]_2, x 0 0 = y 0 0 /\ step x zeta eta 0 0 <> step y zeta eta 0 0.
Proof. exact: diag15_coupled_ex. Qed.
Print Assumptions C69_independent_coordinates_refuted.

(** C70 *)
Theorem C70_hypoelliptic_numbers d m (a : 'cV[R]_(1 + d) -> 'cV[R]_(1 + d))
  (s : 'cV[R]_(1 + d) -> 'M[R]_(1 + d, m)) (h : R) lp (g : prng) (k : key g) x :
  let p : 'rV[R]_d := \row_j pderiv (fun z => a z 0 0) (rshift 1 j) x in
  (exists y, (hypo_body lp a s h (Val x) k).1 = Val y) <->
  [/\ 0 < h, row_free (dsubmx (s x)) & p != 0].
Proof. exact: hypo_numbers. Qed.
Print Assumptions C70_hypoelliptic_numbers.

Theorem C70_diag_numbers d (a : 'cV[R]_d -> 'cV[R]_d) (s : 'cV[R]_d -> 'M[R]_d) (h : R)
  lp (g : prng) (k : key g) x :
  (exists y, (diag15_body lp a s h (Val x) k).1 = Val y) <-> 0 < h \/ d = 0%N.
Proof. exact: diag15_numbers. Qed.
Print Assumptions C70_diag_numbers.
