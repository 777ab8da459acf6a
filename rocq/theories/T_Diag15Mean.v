(** C116: the one-step mean of [diag_15_scheme] in every dimension, and what test_diag_15_scheme.py measures. *)
From Coq Require Import Reals Lra.
From Coquelicot Require Import Coquelicot.
From mathcomp Require Import all_ssreflect all_algebra mxtens.
From Verif Require Import Rstruct Base Linalg Calc Prob Spec M_Utils M_Scheme15 M_Ivp L_Ivp L_Scheme15 L_Diag15Mean.

Set Implicit Arguments.
Unset Strict Implicit.
Unset Printing Implicit Defensive.
Import Order.TTheory GRing.Theory Num.Theory.
Local Open Scope ring_scope.

(** The expansion of the true mean, plus a term of order h that vanishes for d = 3 only by accident: [eta @ eta.T] is the
    sum of the squares, so its mean is d h. *)
Theorem C116_mean d (a : 'cV[R]_d -> 'cV[R]_d) (s : 'cV[R]_d -> 'M[R]_d) (h : R) (x : 'cV[R]_d)
  (Om : Type) (E : expectation Om) (zeta eta : Om -> 'cV[R]_d) :
  (forall i j, i != j -> (s x *m (s x)^T) i j = 0) ->
  (forall i, E (fun w => eta w i 0) = 0) -> (forall i, E (fun w => eta w i 0 ^+ 2) = h) ->
  (forall i, E (fun w => zeta w i 0) = 0) ->
  let D z : 'cV[R]_d := \col_i s z i i in
  forall i, E (fun w => diag15_step a s h x (zeta w) (eta w) i 0) = mean_taylor2 a s x h i 0 +
  h * (d%:R / 3%:R - 1) / 2%:R *
  \sum_j ((jac D x *m jac D x *m s x) i j + \sum_l (s x *m (s x)^T) l l * hess D x j l l).
Proof. exact: diag15_mean_entry. Qed.
Print Assumptions C116_mean.

(** [synaptic_conductance_reduced], all constants: the declared mean plus an explicit error. *)
Theorem C116_synaptic tE tI gE gI sI sE (x : 'cV[R]_2) (h : R) (Om : Type) (E : expectation Om) (zeta eta : Om -> 'cV[R]_2) :
  0 < x 1 0 -> (forall i, E (fun w => eta w i 0) = 0) -> (forall i, E (fun w => eta w i 0 ^+ 2) = h) ->
  (forall i, E (fun w => zeta w i 0) = 0) ->
  Emx E (fun w => diag15_step (synred_drift_ tE tI gE gI) (synred_sigma_ sI sE) h x (zeta w) (eta w)) =
  synred_mean_ tE tI gE gI x h + (h * sI ^+ 2 / (24%:R * sqrt (x 1 0))) *: cv 2 [:: sI; sE].
Proof. exact: syn_step_mean. Qed.
Print Assumptions C116_synaptic.

(** The quantity of test_diag_15_scheme.py (steps of 1/100, first state): the test wants less than 15/1000. *)
Theorem C116_test (Om : Type) (E : expectation Om) (zeta eta : Om -> 'cV[R]_2) (h := 1 / 100%:R : R) :
  (forall i, E (fun w => eta w i 0) = 0) -> (forall i, E (fun w => eta w i 0 ^+ 2) = h) ->
  (forall i, E (fun w => zeta w i 0) = 0) -> forall i,
  `|E (fun w => diag15_step synred_drift synred_sigma h synred_x0 (zeta w) (eta w) i 0) - synred_mean h i 0| <= 1 / 10%:R ^+ 6.
Proof. exact: syn_test. Qed.
Print Assumptions C116_test.

(** The mean is not the declared one, at any step size. *)
Theorem C116_mean_refuted (h : R) (Om : Type) (E : expectation Om) (zeta eta : Om -> 'cV[R]_2) : 0 < h ->
  (forall i, E (fun w => eta w i 0) = 0) -> (forall i, E (fun w => eta w i 0 ^+ 2) = h) ->
  (forall i, E (fun w => zeta w i 0) = 0) ->
  Emx E (fun w => diag15_step synred_drift synred_sigma h synred_x0 (zeta w) (eta w)) <> synred_mean h.
Proof. exact: syn_mean_off. Qed.
Print Assumptions C116_mean_refuted.

(** [synaptic_conductance] has dimension three: the mean of a step is the true expansion, and the declared mean is short by
    27.3 h^2 in the potential; 0.00273 at the step 1/100 of test_exact_hypoelliptic_diffusion_15_scheme.py, which wants less
    than 0.015. *)
Theorem C116_synaptic_full (h : R) (Om : Type) (E : expectation Om) (zeta eta : Om -> 'cV[R]_3) :
  (forall i, E (fun w => eta w i 0) = 0) -> (forall i, E (fun w => eta w i 0 ^+ 2) = h) ->
  (forall i, E (fun w => zeta w i 0) = 0) ->
  Emx E (fun w => diag15_step syn_drift syn_sigma h syn_x0 (zeta w) (eta w)) = mean_taylor2 syn_drift syn_sigma syn_x0 h /\
  Emx E (fun w => diag15_step syn_drift syn_sigma h syn_x0 (zeta w) (eta w)) - syn_mean h =
    cv 3 [:: 273%:R / 10%:R * h ^+ 2; 0; 0].
Proof. exact: syn3_mean. Qed.
Print Assumptions C116_synaptic_full.

(** Scaled fair signs meet the hypotheses. *)
Example C116_ex n (h : R) (eta := fun w => sqrt h *: @rademacher n w) (zeta := fun w => (h / 2%:R) *: eta w) : 0 <= h ->
  [/\ forall i, signsE n (fun w => eta w i 0) = 0, forall i, signsE n (fun w => eta w i 0 ^+ 2) = h &
      forall i, signsE n (fun w => zeta w i 0) = 0].
Proof. exact: signs_hyp. Qed.
