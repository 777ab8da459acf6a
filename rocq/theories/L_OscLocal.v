(** Local covariances of the order 1.5 schemes on the oscillator. Proofs for C117. *)
From Coq Require Import Reals Lra.
From Coquelicot Require Import Coquelicot.
From mathcomp Require Import all_ssreflect all_algebra mxtens.
From Verif Require Import Rstruct Base Linalg Calc Prob Spec M_Utils M_Scheme15 M_Ivp L_Ivp L_Scheme15.

Set Implicit Arguments.
Unset Strict Implicit.
Unset Printing Implicit Defensive.
Import Order.TTheory GRing.Theory Num.Theory.
Local Open Scope ring_scope.

(** Linear drift, constant diffusion: the covariance of one step. *)
Lemma diag15_lin_cov d (M s : 'M[R]_d) (h : R) x (Om : Type) (E : expectation Om) (ze : Om -> 'cV[R]_(d + d)) :
  (forall i j, i != j -> (s *m s^T) i j = 0) ->
  Emx E ze = 0 -> Emx E (fun w => ze w *m (ze w)^T) = diag15_cov d h ->
  let y w := diag15_step (fun z => M *m z) (fun _ => s) h x (usubmx (ze w)) (dsubmx (ze w)) in
  let m := (1%:M + h *: M + (h ^+ 2 / 2%:R) *: (M *m M)) *m x in
  Emx E y = m /\
  Emx E (fun w => (y w - m) *m (y w - m)^T) =
    h *: (s *m s^T) + (h ^+ 2 / 2%:R) *: (M *m (s *m s^T) + s *m s^T *m M^T) + (h ^+ 3 / 3%:R) *: (M *m (s *m s^T) *m M^T).
Proof.
move=> dg z0 z2 y m.
pose B : 'M[R]_(d, d + d) := row_mx (M *m s) s.
have yE w : y w = m + B *m ze w.
  rewrite /y /m -(diag15_linear M h x dg) diag15_additive // diag15_additive // !mulmx0 !addr0.
  rewrite /B -{3}(vsubmxK (ze w)) mul_row_col jac_mul [M *m s *m _ + _]addrC.
  by rewrite -!addrA; congr (_ + (_ + _)); rewrite addrCA addrA.
split.
  rewrite (Emx_ext E yE) EmxD Emx_const Emx_mull z0 mulmx0 addr0 //.
have -> : Emx E (fun w => (y w - m) *m (y w - m)^T) = Emx E (fun w => B *m (ze w *m (ze w)^T) *m B^T).
  by apply: Emx_ext => w; rewrite yE addrC addKr trmx_mul !mulmxA.
rewrite Emx_mulr Emx_mull z2 /B /diag15_cov mul_row_block tr_row_mx mul_row_col.
rewrite !scalemx1 !mul_mx_scalar !trmx_mul !mulmxDl -!scalemxAl !mulmxA scalerDr.
rewrite addrC [X in X + _]addrC -!addrA; congr (_ + _).
by rewrite [X in _ + X]addrC addrA.
Qed.

Lemma osc_diag15 (gamma D sig h : R) (C : 'M[R]_2) x (Om : Type) (E : expectation Om) (ze : Om -> 'cV[R]_(2 + 2)) :
  C *m C^T = mx 2 2 [:: [:: 0; 0]; [:: 0; sig ^+ 2]] ->
  Emx E ze = 0 -> Emx E (fun w => ze w *m (ze w)^T) = diag15_cov 2 h ->
  let y w := diag15_step (harm_drift gamma D) (harm_sigma C) h x (usubmx (ze w)) (dsubmx (ze w)) in
  Emx E (fun w => (y w - Emx E y) *m (y w - Emx E y)^T) = harm_variance3 gamma D sig h +
    (sig ^+ 2 * h ^+ 3) *: mx 2 2 [:: [:: 0; gamma / 6%:R]; [:: gamma / 6%:R; (D - gamma ^+ 2) / 3%:R]].
Proof.
move=> CC z0 z2 y.
have dg i j : i != j -> (C *m C^T) i j = 0 by rewrite CC; move: i j; apply: ord2P; apply: ord2P => // _; rewrite mxE.
have [m1 c1] := diag15_lin_cov (harm_M gamma D) x dg z0 z2.
have -> : Emx E y = (1%:M + h *: harm_M gamma D + (h ^+ 2 / 2%:R) *: (harm_M gamma D *m harm_M gamma D)) *m x by exact: m1.
rewrite [LHS]c1 CC; apply/matrixP; apply: ord2P; apply: ord2P;
  rewrite !(addmxE, mulmxE, sum2, mxE) /= !exprS !expr0; apply: (_ : @eq R _ _); toR; field.
Qed.

Lemma osc_hypo (gamma D sig h : R) m (C : 'M[R]_(2, m)) (x : 'cV[R]_2) :
  C *m C^T = mx 2 2 [:: [:: 0; 0]; [:: 0; sig ^+ 2]] ->
  (hypo_cov (d := 1) (harm_drift gamma D) (harm_sigma C) h x : 'M[R]_2) = harm_variance3 gamma D sig h +
    sig ^+ 2 *: mx 2 2 [:: [:: 0; gamma * h ^+ 3 / 2%:R];
                          [:: gamma * h ^+ 3 / 2%:R; gamma * h ^+ 2 - h ^+ 3 / 3%:R * (2%:R * gamma ^+ 2 - D)]].
Proof.
move=> CC.
have p1 : partialua (d := 1) (harm_drift gamma D) x = 1%:M.
  apply/rowP => j; rewrite partialuaE !mxE (ord1 j) mulr1n.
  have -> : rshift 1 (0 : 'I_1) = 1 by apply: val_inj.
  have /matrixP/(_ 0 1) := jac_mul (harm_M gamma D) x; rewrite [LHS]mxE => ->.
  by rewrite mxE.
have g1 : GammaGammaT (d := 1) (harm_sigma C) x = (sig ^+ 2)%:M.
  rewrite /GammaGammaT /Gamma; apply/matrixP => i j; rewrite (ord1 i) (ord1 j).
  have sE : sig ^+ 2 = (C *m C^T) 1 1 by rewrite CC mxE.
  rewrite [RHS]mxE eqxx mulr1n sE !mulmxE; apply: eq_bigr => k _.
  rewrite !trmxE mxE; have -> // : rshift 1 (0 : 'I_1) = 1 by apply: val_inj.
rewrite /hypo_cov p1 g1 mul1mx tr_scalar_mx trmx1 mulmx1.
have B (u v w z : R) : (block_mx (u%:M : 'M[R]_1) v%:M w%:M z%:M : 'M[R]_2) = mx 2 2 [:: [:: u; v]; [:: w; z]].
  apply/matrixP; apply: ord2P; apply: ord2P; rewrite [RHS]mxE /=.
  - have -> : (0 : 'I_2) = lshift 1 (0 : 'I_1) by apply: val_inj.
    by rewrite (@block_mxEul _ 1 1 1 1) mxE eqxx mulr1n.
  - have -> : (0 : 'I_2) = lshift 1 (0 : 'I_1) by apply: val_inj.
    have -> : (1 : 'I_2) = rshift 1 (0 : 'I_1) by apply: val_inj.
    by rewrite (@block_mxEur _ 1 1 1 1) mxE eqxx mulr1n.
  - have -> : (0 : 'I_2) = lshift 1 (0 : 'I_1) by apply: val_inj.
    have -> : (1 : 'I_2) = rshift 1 (0 : 'I_1) by apply: val_inj.
    by rewrite (@block_mxEdl _ 1 1 1 1) mxE eqxx mulr1n.
  have -> : (1 : 'I_2) = rshift 1 (0 : 'I_1) by apply: val_inj.
  by rewrite (@block_mxEdr _ 1 1 1 1) mxE eqxx mulr1n.
rewrite !scale_scalar_mx B; apply/matrixP; apply: ord2P; apply: ord2P;
  rewrite !(addmxE, scalemxE, mxE) /= !exprS !expr0; apply: (_ : @eq R _ _); toR; field.
Qed.

Lemma osc_tests (x : 'cV[R]_2) :
  (forall (Om : Type) (E : expectation Om) (ze : Om -> 'cV[R]_(2 + 2)) (h := 1 / 100%:R : R),
   Emx E ze = 0 -> Emx E (fun w => ze w *m (ze w)^T) = diag15_cov 2 h ->
   let y w := diag15_step (harm_drift harm_sq_gamma harm_sq_D) (harm_sigma harm_sq_C) h x (usubmx (ze w)) (dsubmx (ze w)) in
   forall i j, `|(Emx E (fun w => (y w - Emx E y) *m (y w - Emx E y)^T) -
                 harm_variance3 harm_sq_gamma harm_sq_D harm_sq_sig h) i j| <= 1 / 10%:R ^+ 6) /\
  (forall (h := 2%:R / 100%:R : R) i j,
   `|((hypo_cov (d := 1) (harm_drift harm_sq_gamma harm_sq_D) (harm_sigma harm_sq_C) h x : 'M[R]_2) -
      harm_variance3 harm_sq_gamma harm_sq_D harm_sq_sig h) i j| <= 2%:R / 1000%:R).
Proof.
have CC : harm_sq_C *m harm_sq_C^T = mx 2 2 [:: [:: 0; 0]; [:: 0; harm_sq_sig ^+ 2]].
  apply/matrixP; apply: ord2P; apply: ord2P; rewrite !(mulmxE, sum2, mxE) /= /harm_sq_sig ?expr2; toR; ring.
have e10 : (10%:R : R) = 10%Re by rewrite RnatE INR_IZR_INZ.
have e100 : (100%:R : R) = 100%Re by rewrite RnatE INR_IZR_INZ.
have e1000 : (1000%:R : R) = 1000%Re by rewrite RnatE INR_IZR_INZ.
split=> [Om E ze h z0 z2 y|h]; apply: ord2P; apply: ord2P;
  rewrite ?(osc_diag15 harm_sq_gamma harm_sq_D x CC z0 z2) ?(osc_hypo harm_sq_gamma harm_sq_D h x CC) addrC addKr
    scalemxE mxE /= ler_norml /h /harm_sq_sig /harm_sq_gamma /harm_sq_D ?e10 ?e100 ?e1000 !exprS !expr0;
  apply/andP; split; apply/RleP; toR; lra.
Qed.
