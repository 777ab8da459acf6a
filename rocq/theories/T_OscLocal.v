(** C117: the order 1.5 schemes on linear problems and on the oscillator: covariance of one step. *)
From Coq Require Import Reals Lra.
From Coquelicot Require Import Coquelicot.
From mathcomp Require Import all_ssreflect all_algebra mxtens.
From Verif Require Import Rstruct Base Linalg Calc Prob Spec M_Utils M_Scheme15 M_Ivp L_Ivp Lapack L_Scheme15 L_OscLocal.

Set Implicit Arguments.
Unset Strict Implicit.
Unset Printing Implicit Defensive.
Import Order.TTheory GRing.Theory Num.Theory.
Local Open Scope ring_scope.

(** [diag_15_scheme] on dX = M X dt + s dW: mean and covariance of one step. *)
Theorem C117_linear d (M s : 'M[R]_d) (h : R) x (Om : Type) (E : expectation Om) (ze : Om -> 'cV[R]_(d + d)) :
  (forall i j, i != j -> (s *m s^T) i j = 0) ->
  Emx E ze = 0 -> Emx E (fun w => ze w *m (ze w)^T) = diag15_cov d h ->
  let y w := diag15_step (fun z => M *m z) (fun _ => s) h x (usubmx (ze w)) (dsubmx (ze w)) in
  let m := (1%:M + h *: M + (h ^+ 2 / 2%:R) *: (M *m M)) *m x in
  Emx E y = m /\
  Emx E (fun w => (y w - m) *m (y w - m)^T) =
    h *: (s *m s^T) + (h ^+ 2 / 2%:R) *: (M *m (s *m s^T) + s *m s^T *m M^T) + (h ^+ 3 / 3%:R) *: (M *m (s *m s^T) *m M^T).
Proof. exact: diag15_lin_cov. Qed.
Print Assumptions C117_linear.

(** On the oscillator it differs from the declared local covariance in the third order only. *)
Theorem C117_diag (gamma D sig h : R) (C : 'M[R]_2) x (Om : Type) (E : expectation Om) (ze : Om -> 'cV[R]_(2 + 2)) :
  C *m C^T = mx 2 2 [:: [:: 0; 0]; [:: 0; sig ^+ 2]] ->
  Emx E ze = 0 -> Emx E (fun w => ze w *m (ze w)^T) = diag15_cov 2 h ->
  let y w := diag15_step (harm_drift gamma D) (harm_sigma C) h x (usubmx (ze w)) (dsubmx (ze w)) in
  Emx E (fun w => (y w - Emx E y) *m (y w - Emx E y)^T) = harm_variance3 gamma D sig h +
    (sig ^+ 2 * h ^+ 3) *: mx 2 2 [:: [:: 0; gamma / 6%:R]; [:: gamma / 6%:R; (D - gamma ^+ 2) / 3%:R]].
Proof. exact: osc_diag15. Qed.
Print Assumptions C117_diag.

(** The hypoelliptic scheme leaves the damping out of its noise: the velocity differs in the second order. *)
Theorem C117_hypo (gamma D sig h : R) m (C : 'M[R]_(2, m)) (x : 'cV[R]_2) :
  C *m C^T = mx 2 2 [:: [:: 0; 0]; [:: 0; sig ^+ 2]] ->
  (hypo_cov (d := 1) (harm_drift gamma D) (harm_sigma C) h x : 'M[R]_2) = harm_variance3 gamma D sig h +
    sig ^+ 2 *: mx 2 2 [:: [:: 0; gamma * h ^+ 3 / 2%:R];
                          [:: gamma * h ^+ 3 / 2%:R; gamma * h ^+ 2 - h ^+ 3 / 3%:R * (2%:R * gamma ^+ 2 - D)]].
Proof. exact: osc_hypo. Qed.
Print Assumptions C117_hypo.

(** The local covariances compared by the two [test_harmonic_oscillator] of the 1.5 schemes (steps 1/100 and 2/100): the
    tests want less than 15/1000. *)
Theorem C117_tests (x : 'cV[R]_2) :
  (forall (Om : Type) (E : expectation Om) (ze : Om -> 'cV[R]_(2 + 2)) (h := 1 / 100%:R : R),
   Emx E ze = 0 -> Emx E (fun w => ze w *m (ze w)^T) = diag15_cov 2 h ->
   let y w := diag15_step (harm_drift harm_sq_gamma harm_sq_D) (harm_sigma harm_sq_C) h x (usubmx (ze w)) (dsubmx (ze w)) in
   forall i j, `|(Emx E (fun w => (y w - Emx E y) *m (y w - Emx E y)^T) -
                 harm_variance3 harm_sq_gamma harm_sq_D harm_sq_sig h) i j| <= 1 / 10%:R ^+ 6) /\
  (forall (h := 2%:R / 100%:R : R) i j,
   `|((hypo_cov (d := 1) (harm_drift harm_sq_gamma harm_sq_D) (harm_sigma harm_sq_C) h x : 'M[R]_2) -
      harm_variance3 harm_sq_gamma harm_sq_D harm_sq_sig h) i j| <= 2%:R / 1000%:R).
Proof. exact: osc_tests. Qed.
Print Assumptions C117_tests.

(** Draws with the required moments exist for every positive step. *)
Example C117_ex d (h : R) : 0 < h -> exists L : 'M[R]_(d + d),
  let ze w := L *m @rademacher (d + d) w in
  Emx (signsE (d + d)) ze = 0 /\ Emx (signsE (d + d)) (fun w => ze w *m (ze w)^T) = diag15_cov d h.
Proof.
move=> h0; have [_ /psd_sqrt[L [[sL _] LL]]] := diag15_joint d (ltW h0); exists L => ze.
have [m1 m2] := rademacher_standard (d + d).
split; first by rewrite Emx_mull m1 mulmx0.
have -> : Emx (signsE (d + d)) (fun w => ze w *m (ze w)^T) =
          Emx (signsE (d + d)) (fun w => L *m (rademacher w *m (rademacher w)^T) *m L^T).
  by apply: Emx_ext => w; rewrite /ze trmx_mul !mulmxA.
by rewrite Emx_mulr Emx_mull m2 mulmx1 sL.
Qed.
