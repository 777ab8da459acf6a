(** Convergence of EKF1 with the integrated Brownian prior. *)
From Coq Require Import Reals Lra FunctionalExtensionality.
From Coquelicot Require Import Coquelicot.
From mathcomp Require Import all_ssreflect all_algebra mxtens.
From Verif Require Import Rstruct Base Linalg Lapack Calc Prob Spec M_Utils L_Utils M_Filter L_Filter M_Prior L_Prior
  M_OdeSolvers L_Ivp L_OdeSolvers L_Alg3 L_Euler.

Set Implicit Arguments.
Unset Strict Implicit.
Unset Printing Implicit Defensive.
Import Order.TTheory GRing.Theory Num.Theory.
Local Open Scope ring_scope.

(** ** One step *)
Section Step.
Variables (lp : lapack) (d : nat) (f : 'cV[R]_d -> R -> 'cV[R]_d) (h sigma : R).
Hypotheses (h0 : 0 < h) (s0 : sigma != 0).
Let A := (ioup 0 sigma 1 h d).2.
Let Q := (ioup 0 sigma 1 h d).1.2.
Let s2 := sigma ^+ 2.

Definition Fj (J : 'M[R]_d) : 'M[R]_(d * 2, d) := (selector d (0 : 'I_2))^T + (selector d (1 : 'I_2))^T *m J.
Definition Gm (J : 'M[R]_d) : 'M[R]_d := 1%:M - (h / 2%:R) *: (J + J^T) + (h ^+ 2 / 3%:R) *: (J *m J^T).
Definition Dm (J J' : 'M[R]_d) : 'M[R]_d := J - J' *m (1%:M + h *: J).
Definition Bm (J J' W : 'M[R]_d) : 'M[R]_d := h *: Gm J' + Dm J J' *m W *m (Dm J J')^T.

Lemma sel0F J : selector d (0 : 'I_2) *m Fj J = 1%:M.
Proof. by rewrite /Fj mulmxDr mulmxA !sel_ortho eqxx /= mul_scalar_mx scale0r addr0. Qed.

Lemma sel1F J : selector d (1 : 'I_2) *m Fj J = J.
Proof. by rewrite /Fj mulmxDr mulmxA !sel_ortho eqxx /= mul1mx scalar0 add0r. Qed.

Lemma sel_A (i : 'I_2) : selector d i *m A = \sum_j slice2 i j A *m selector d j.
Proof.
rewrite -[A in LHS]mulmx1 -sel_full !mulmx_sumr; apply: eq_bigr => j _.
by rewrite !mulmxA sel_slice2.
Qed.

Lemma sel0AF J : selector d (0 : 'I_2) *m A *m Fj J = 1%:M + h *: J.
Proof.
have [e1 e2 e3 e4] := @ibm_A d h sigma.
by rewrite sel_A sum2V e1 e2 mulmxDl -!mulmxA sel0F sel1F mulmx1 mul_scalar_mx.
Qed.

Lemma sel1AF J : selector d (1 : 'I_2) *m A *m Fj J = J.
Proof.
have [e1 e2 e3 e4] := @ibm_A d h sigma.
by rewrite sel_A sum2V e3 e4 mul0mx add0r -mulmxA sel1F mul1mx.
Qed.

Lemma GmE J : Gm J = 4%:R^-1 *: 1%:M + (3%:R / 4%:R) *: ((1%:M - (2%:R * h / 3%:R) *: J) *m (1%:M - (2%:R * h / 3%:R) *: J)^T).
Proof.
have -> : (1%:M - (2%:R * h / 3%:R) *: J)^T = 1%:M - (2%:R * h / 3%:R) *: J^T.
  by apply/matrixP=> i j; rewrite !mxE eq_sym.
rewrite mulmxBl mul1mx mulmxBr mulmx1 -!scalemxAl -scalemxAr scalerA /Gm.
apply/matrixP=> i j; rewrite !(addmxE, oppmxE, scalemxE); move: ((J *m J^T) i j) (J i j) (J^T i j) (1%:M i j) => a b c e.
rfield.
Qed.

Lemma Gm_qf J v : 4%:R^-1 * (v^T *m v) 0 0 <= qf (Gm J) v.
Proof.
rewrite GmE qfD !qfZ {1}/qf mulmx1 ler_addl mulr_ge0 ?divr_ge0 ?ler0n //.
by case: (psd_gram (1%:M - (2%:R * h / 3%:R) *: J)) => _; exact.
Qed.

Lemma Gm_pd J : pd (Gm J).
Proof.
rewrite GmE; apply: pdD; last by apply: psdZ; [rewrite divr_ge0 ?ler0n | exact: psd_gram].
by apply: pdZ; [rewrite invr_gt0 ltr0n | exact: pd1].
Qed.

Lemma Bm_pd J J' W : psd W -> pd (Bm J J' W).
Proof. by move=> pW; apply: pdD; [apply: pdZ => //; exact: Gm_pd | exact: psd_congr]. Qed.

Lemma Bm_qf J J' W v : psd W -> (h / 4%:R) * (v^T *m v) 0 0 <= qf (Bm J J' W) v.
Proof.
move=> pW; rewrite qfD qfZ -mulrA -[X in X <= _]addr0; apply: ler_add; last by case: (psd_congr (Dm J J') pW) => _; exact.
by apply: ler_wpmul2l (Gm_qf _ _); exact: ltW.
Qed.

Lemma e1_s2 : 0 < s2. Proof. by rewrite /s2 exprn_even_gt0. Qed.

(** The posterior covariance is degenerate along the linearised constraint. *)
Lemma cov_factor J' (P : 'M[R]_(d * 2)) : sym P -> (selector d (1 : 'I_2) - J' *m selector d (0 : 'I_2)) *m P = 0 ->
  P = Fj J' *m slice2 (0 : 'I_2) (0 : 'I_2) P *m (Fj J')^T.
Proof.
move=> sP; rewrite mulmxBl -mulmxA => /eqP; rewrite subr_eq0 => /eqP E.
have E1 (j : 'I_2) : slice2 1 j P = J' *m slice2 0 j P by rewrite -!sel_slice2 E !mulmxA.
have E2 (i : 'I_2) : slice2 i 1 P = slice2 i 0 P *m J'^T.
  by rewrite -[P in LHS]sP slice2T E1 trmx_mul -slice2T sP.
apply: slice2_ext => i j; rewrite -[RHS]sel_slice2 !mulmxA.
have -> : selector d i *m Fj J' *m slice2 0 0 P *m (Fj J')^T *m (selector d j)^T =
    (selector d i *m Fj J') *m slice2 0 0 P *m (selector d j *m Fj J')^T by rewrite trmx_mul !mulmxA.
by elim/ord2P: i; elim/ord2P: j; rewrite ?sel0F ?sel1F ?trmx1 ?mulmx1 ?mul1mx ?E1 ?E2 ?mulmxA.
Qed.

Lemma e1_step m W J t : psd W ->
  let p := slice 0 m + h *: slice 1 m in
  let J' := jac (f^~ t) p in
  let M := 1%:M + h *: J in
  exists m' W', [/\ ekf_body lp (@observation_function d false f 0) A Q 0 0 false (m, s2 *: (Fj J *m W *m (Fj J)^T)) t =
      Val (m', s2 *: (Fj J' *m W' *m (Fj J')^T)),
    psd W', \tr W' <= \tr (M *m W *m M^T) + d%:R * (h ^+ 3 / 3%:R),
    slice 0 m' = p + (M *m W *m (Dm J J')^T + (h ^+ 2 / 2%:R)%:M - (h ^+ 3 / 3%:R) *: J'^T) *m (invmx (Bm J J' W) *m (f p t - slice 1 m)) &
    slice 1 m' = f p t + J' *m (slice 0 m' - p)].
Proof.
move=> pW p J' M; rewrite /ekf_body /predict; cbn [fst snd]; rewrite addr0 obs_jac1 obs_residual.
have [E1 E2] := @ibm_Am d h sigma m; rewrite -/A in E1 E2; rewrite E1 E2 -/p -/J'.
set P := A *m _ *m A^T + Q; set H := selector d 1 - _.
have pP : psd P.
  apply: psdD; last by apply: pd_psd; exact: ioup_pd.
  apply: psd_congr; apply: psdZ; [exact: ltW e1_s2 | exact: psd_congr].
have [q1 q2 q3 q4] := @ibm_Q d h sigma; rewrite -/Q -/s2 in q1 q2 q3 q4.
have HAF : H *m A *m Fj J = Dm J J' by rewrite /H !mulmxBl -!mulmxA (mulmxA (selector d 0)) sel0AF (mulmxA (selector d 1)) sel1AF.
have PE : P = s2 *: (A *m Fj J *m W *m (A *m Fj J)^T) + Q by rewrite /P -scalemxAr -scalemxAl trmx_mul !mulmxA.
have HT : H^T = (selector d 1)^T - (selector d 0)^T *m J'^T by rewrite /H linearB /= trmx_mul.
have DT : (A *m Fj J)^T *m H^T = (Dm J J')^T by rewrite -trmx_mul mulmxA HAF.
have Q0 : selector d 0 *m Q *m H^T = s2 *: ((h ^+ 2 / 2%:R)%:M - (h ^+ 3 / 3%:R) *: J'^T).
  rewrite HT mulmxBr mulmxA !sel_slice2 q1 q2 mul_scalar_mx scalerBr scale_scalar_mx scalerA !mulrA.
  by [].
have Q1 : selector d 1 *m Q *m H^T = s2 *: (h%:M - (h ^+ 2 / 2%:R) *: J'^T).
  by rewrite HT mulmxBr mulmxA !sel_slice2 q3 q4 mul_scalar_mx scalerBr scale_scalar_mx scalerA !mulrA.
have E0P : selector d 0 *m P *m H^T = s2 *: (M *m W *m (Dm J J')^T + (h ^+ 2 / 2%:R)%:M - (h ^+ 3 / 3%:R) *: J'^T).
  rewrite PE mulmxDr mulmxDl Q0 -[_ + _ - _]addrA [RHS]scalerDr; congr (_ + _).
  by rewrite -scalemxAr -scalemxAl !mulmxA sel0AF -!mulmxA DT.
have SE : H *m P *m H^T + 0 = s2 *: Bm J J' W.
  rewrite addr0 PE mulmxDr mulmxDl -scalemxAr -scalemxAl !mulmxA HAF -[_ *m (A *m Fj J)^T *m H^T]mulmxA DT /Bm scalerDr addrC; congr (_ + _).
  rewrite {1}/H 2!mulmxBl Q1 -[J' *m _ *m Q]mulmxA -mulmxA Q0 -scalemxAr -scalerBr; congr (_ *: _).
  rewrite /Gm mulmxBr mul_mx_scalar -scalemxAr; apply/matrixP=> i j; rewrite !(addmxE, oppmxE, scalemxE).
  have -> : (h%:M : 'M[R]_d) i j = h * (1%:M : 'M[R]_d) i j by rewrite -scalemxE scalemx1.
  by move: (1%:M i j) (J' i j) (J'^T i j) ((J' *m J'^T) i j) => a b c e; rfield.
have pB := Bm_pd J J' pW.
have s20 : s2 != 0 by rewrite gt_eqF // e1_s2.
have pS : pd (H *m P *m H^T + 0) by rewrite SE; apply: pdZ => //; exact: e1_s2.
have iS : invmx (s2 *: Bm J J' W) = s2^-1 *: invmx (Bm J J' W) by rewrite invmxZ' // pd_unit.
have CE := C_psd pP (@psd0 _) pS; have CL := C_le pP pS.
rewrite (updateE lp _ _ pP pS); cbn [rbind fst].
rewrite SE in CE CL *; set K := P *m H^T *m _ in CE CL *; set C := P - K *m H *m P in CE CL *.
have HK : H *m K = 1%:M.
  by rewrite /K !mulmxA; have := SE; rewrite addr0 => ->; rewrite mulmxV // pd_unit // -SE.
have HC : H *m C = 0 by rewrite /C mulmxBr -(mulmxA K) (mulmxA H K) HK mul1mx subrr.
exists (A *m m - K *m (slice 1 m - f p t)), (s2^-1 *: slice2 0 0 C).
have C0 : psd (slice2 0 0 C) by rewrite -sel_slice2; exact: psd_congr.
split.
- by congr (Val (_, _)); rewrite -scalemxAr -scalemxAl scalerA divff // scale1r; apply: cov_factor => //; exact: CE.1.
- by apply: psdZ => //; rewrite invr_ge0 ltW // e1_s2.
- have -> : \tr (s2^-1 *: slice2 0 0 C) = s2^-1 * \tr (slice2 0 0 C) by rewrite mxtraceZ.
  rewrite -(ler_pmul2l e1_s2) (mulrA s2 s2^-1) divff // mul1r.
  have := psd_congr (selector d 0) CL; rewrite mulmxBr mulmxBl !sel_slice2 => pl.
  have t0 : 0 <= \tr (slice2 0 0 P - slice2 0 0 C) by rewrite /mxtrace; apply: sumr_ge0 => i _; exact: psd_entry.
  rewrite raddfB /= subr_ge0 in t0; apply: le_trans t0 _.
  rewrite PE slice2D q1 -sel_slice2 -scalemxAr -scalemxAl.
  have -> : selector d 0 *m (A *m Fj J *m W *m (A *m Fj J)^T) *m (selector d 0)^T = M *m W *m M^T.
    by rewrite !mulmxA sel0AF -mulmxA -trmx_mul mulmxA sel0AF.
  rewrite mxtraceD mxtraceZ mxtrace_scalar -mulr_natl mulrDr ler_add2l le_eqVlt; apply/orP; left; apply/eqP.
  by rewrite -mulrA mulrCA.
- rewrite -sel_slice mulmxBr sel_slice E1 -/p.
  rewrite -[f p t - _]opprB !mulmxN; congr (_ - _).
  by rewrite /K iS !mulmxA E0P; set X := _ - _ *: J'^T; rewrite -scalemxAr -(scalemxAl s2 X) scalerA mulVf // scale1r.
have H1 : H *m (A *m m - K *m (slice 1 m - f p t)) = f p t - J' *m p.
  rewrite mulmxBr (mulmxA H K) HK mul1mx mulmxA.
  have -> : H *m A *m m = slice 1 m - J' *m p by rewrite /H -mulmxA mulmxBl -mulmxA !sel_slice E1 E2.
  by rewrite opprB addrC addrA subrK.
rewrite /H mulmxBl -mulmxA !sel_slice in H1.
move: H1; set m' := A *m m - _ => H1.
by rewrite mulmxBr addrCA -H1 addrC subrK.
Qed.
End Step.

(** ** Entrywise bounds *)
Definition mx_le m n (A : 'M[R]_(m, n)) (e : R) := forall i j, `|A i j| <= e.

Section MxLe.
Lemma mx_leD m n (A B : 'M[R]_(m, n)) a b : mx_le A a -> mx_le B b -> mx_le (A + B) (a + b).
Proof. by move=> Ha Hb i j; rewrite addmxE; apply: le_trans (ler_norm_add _ _) (ler_add (Ha i j) (Hb i j)). Qed.
Lemma mx_leN m n (A : 'M[R]_(m, n)) a : mx_le A a -> mx_le (- A) a.
Proof. by move=> Ha i j; rewrite oppmxE normrN. Qed.
Lemma mx_leB m n (A B : 'M[R]_(m, n)) a b : mx_le A a -> mx_le B b -> mx_le (A - B) (a + b).
Proof. by move=> Ha Hb; apply: mx_leD => //; exact: mx_leN. Qed.
Lemma mx_leZ m n (A : 'M[R]_(m, n)) a c : 0 <= c -> mx_le A a -> mx_le (c *: A) (c * a).
Proof. by move=> c0 Ha i j; rewrite scalemxE normrM ger0_norm // ler_wpmul2l. Qed.
Lemma mx_leT m n (A : 'M[R]_(m, n)) a : mx_le A a -> mx_le A^T a.
Proof. by move=> Ha i j; rewrite trmxE. Qed.
Lemma mx_le_trans m n (A : 'M[R]_(m, n)) a b : mx_le A a -> a <= b -> mx_le A b.
Proof. by move=> Ha ab i j; apply: le_trans ab. Qed.
Lemma mx_leM m n p (A : 'M[R]_(m, n)) (B : 'M[R]_(n, p)) a b : mx_le A a -> mx_le B b -> mx_le (A *m B) (n%:R * (a * b)).
Proof.
move=> Ha Hb i j; rewrite mulmxE; apply: le_trans (ler_norm_sum _ _ _) _.
apply: le_trans (_ : \sum_(k < n) a * b <= _); last by rewrite sumr_const card_ord mulr_natl.
by apply: ler_sum => k _; rewrite normrM ler_pmul.
Qed.
Lemma mx_leMv m n (A : 'M[R]_(m, n)) (v : 'cV[R]_n) a b : mx_le A a -> sup_le v b -> sup_le (A *m v) (n%:R * (a * b)).
Proof.
move=> Ha Hb i; apply: (mx_leM Ha) => {}i j; rewrite ord1; exact: Hb.
Qed.

Lemma psd_le_tr d (W : 'M[R]_d) : psd W -> mx_le W (\tr W).
Proof.
move=> pW i j.
have D k : 0 <= W k k by exact: psd_entry.
have T k : W k k <= \tr W.
  by rewrite /mxtrace (bigD1 k) //= ler_addl; apply: sumr_ge0 => l _.
have Q (s : R) : s * s = 1 -> 0 <= W i i + W j j + 2%:R * s * W i j.
  move=> s1; have := pW.2 (delta_mx i 0 + s *: delta_mx j 0).
  rewrite qf_lin; last exact: pW.1.
  have qd k : qf W (delta_mx k 0) = W k k.
    by rewrite /qf trmx_delta -rowE -colE !mxE.
  have -> : ((delta_mx j (0 : 'I_1))^T *m W *m delta_mx i (0 : 'I_1)) 0 0 = W i j.
    by rewrite trmx_delta -rowE -colE !mxE -[W in LHS]pW.1 mxE.
  rewrite !qd expr2 s1 mul1r -mulr_natl mulrCA mulrA => H; apply: le_trans H _.
  by rewrite le_eqVlt; apply/orP; left; apply/eqP; rring.
have := Q 1 (mulr1 _); have := Q (-1) _; rewrite mulrNN mulr1 => /(_ erefl).
have := T i; have := T j; rewrite ler_norml; move: (W i i) (W j j) (W i j) (\tr W) => a b c t.
by move=> /RleP H1 /RleP H2 /RleP H3 /RleP H4; apply/andP; split; apply/RleP; move: H1 H2 H3 H4; toR; lra.
Qed.

Lemma inv_le d (B : 'M[R]_d) (c : R) v e : pd B -> 0 < c -> (forall u, c * (u^T *m u) 0 0 <= qf B u) ->
  sup_le v e -> sup_le (invmx B *m v) (d%:R * e / c).
Proof.
move=> pB c0 cB ve i; set u := invmx B *m v.
have e0 : 0 <= e by apply: le_trans (normr_ge0 _) (ve i).
have sq (z : 'cV[R]_d) : (z^T *m z) 0 0 = \sum_k z k 0 ^+ 2.
  by rewrite mulmxE; apply: eq_bigr => k _; rewrite trmxE expr2.
have quv : qf B u = \sum_k u k 0 * v k 0.
  have Bu : B *m u = v by rewrite /u mulmxA mulmxV ?pd_unit // mul1mx.
  rewrite /qf -mulmxA Bu mulmxE.
  by apply: eq_bigr => k _; rewrite trmxE.
have H1 : c * (\sum_k u k 0 ^+ 2) <= c / 2%:R * (\sum_k u k 0 ^+ 2) + (2%:R * c)^-1 * (\sum_k v k 0 ^+ 2).
  apply: le_trans (_ : qf B u <= _); first by rewrite -(sq u); exact: cB.
  rewrite quv !mulr_sumr -big_split /=; apply: ler_sum => k _.
  rewrite -subr_ge0.
  have -> : c / 2%:R * u k 0 ^+ 2 + (2%:R * c)^-1 * v k 0 ^+ 2 - u k 0 * v k 0 =
     c / 2%:R * (u k 0 - v k 0 / c) ^+ 2.
    have cn : c <> 0 by apply/eqP; rewrite gt_eqF.
    by toR; field.
  by rewrite mulr_ge0 ?divr_ge0 ?ler0n ?sqr_ge0 // ltW.
have H2 : \sum_k u k 0 ^+ 2 <= (d%:R * e / c) ^+ 2.
  have vb : \sum_k v k 0 ^+ 2 <= d%:R * e ^+ 2.
    apply: le_trans (_ : \sum_(k < d) e ^+ 2 <= _); last by rewrite sumr_const card_ord mulr_natl.
    by apply: ler_sum => k _; rewrite -real_normK ?num_real // ler_expn2r ?nnegrE.
  have d1 : d%:R <= d%:R ^+ 2 :> R by rewrite -natrX ler_nat; case: (d) => // n; rewrite leq_pmulr.
  have c2 : 0 < c / 2%:R by rewrite divr_gt0 ?ltr0n.
  rewrite -(ler_pmul2l c2).
  have := ler_wpmul2l (ltW (_ : 0 < (2%:R * c)^-1)) vb; rewrite invr_gt0 mulr_gt0 ?ltr0n // => /(_ isT) H3.
  have i0 : 0 <= (2%:R * c)^-1 by rewrite invr_ge0 mulr_ge0 ?ler0n ?ltW.
  have H4 := ler_wpmul2l i0 (ler_wpmul2r (exprn_ge0 2 e0) d1).
  have -> : c / 2%:R * (d%:R * e / c) ^+ 2 = (2%:R * c)^-1 * (d%:R ^+ 2 * e ^+ 2).
    have cn : c <> 0 by apply/eqP; rewrite gt_eqF.
    by move: (d%:R : R) => dd; toR; field.
  apply: le_trans H4; apply: le_trans H3.
  by rewrite -(ler_add2l (c / 2%:R * (\sum_k u k 0 ^+ 2))) -mulrDl -splitr.
have b0 : 0 <= d%:R * e / c by rewrite divr_ge0 ?mulr_ge0 ?ler0n // ltW.
rewrite -(ger0_norm b0) -ler_sqr ?nnegrE // !real_normK ?num_real //.
apply: le_trans H2; rewrite (bigD1 i) //= ler_addl; apply: sumr_ge0 => k _; exact: sqr_ge0.
Qed.

Lemma tr_le d (W J : 'M[R]_d) (h L : R) : psd W -> 0 <= h -> 0 <= L -> mx_le J L ->
  \tr ((1%:M + h *: J) *m W *m (1%:M + h *: J)^T) <= (1 + h * (d%:R ^+ 2 * L)) ^+ 2 * \tr W.
Proof.
move=> pW h0 L0 JL; have Ww := psd_le_tr pW; set w := \tr W in Ww *.
have w0 : 0 <= w by rewrite /w /mxtrace; apply: sumr_ge0 => k _; exact: psd_entry.
have tl (X : 'M[R]_d) x : mx_le X x -> \tr X <= d%:R * x.
  move=> Xx; apply: le_trans (_ : \sum_(k < d) x <= _); last by rewrite sumr_const card_ord mulr_natl.
  by apply: ler_sum => k _; apply: le_trans (ler_norm _) (Xx k k).
have -> : (1%:M + h *: J) *m W *m (1%:M + h *: J)^T = W + h *: (J *m W) + h *: (W *m J^T) + (h * h) *: (J *m W *m J^T).
  have -> : (1%:M + h *: J)^T = 1%:M + h *: J^T by apply/matrixP=> i j; rewrite !mxE eq_sym.
  rewrite mulmxDl mul1mx mulmxDr mulmx1 -!scalemxAl -scalemxAr mulmxDl scalerDr -scalemxAl scalerA.
  by apply/matrixP=> i j; rewrite !(addmxE, scalemxE); rring.
rewrite !mxtraceD !mxtraceZ -/w.
have H1 := tl _ _ (mx_leM JL Ww); have H2 := tl _ _ (mx_leM Ww (mx_leT JL)).
have H3 := tl _ _ (mx_leM (mx_leM JL Ww) (mx_leT JL)).
have d0 : 0 <= d%:R :> R by exact: ler0n.
have d1 : d%:R ^+ 3 <= d%:R ^+ 4 :> R by rewrite -!natrX ler_nat; case: (d) => // n; rewrite [X in (_ <= X)%N]expnS leq_pmull.
apply: le_trans (ler_add (ler_add (ler_add (lexx w) (ler_wpmul2l h0 H1)) (ler_wpmul2l h0 H2)) (ler_wpmul2l (mulr_ge0 h0 h0) H3)) _.
have := ler_wpmul2r (mulr_ge0 (mulr_ge0 (mulr_ge0 h0 h0) (mulr_ge0 L0 L0)) w0) d1.
by move: (d%:R : R) => dd /RleP H; apply/RleP; move: H; toR; nra.
Qed.
End MxLe.

(** ** The gain is that of the trapezoidal rule up to second order *)
Section Gain.
Variables (d : nat) (h L w dl : R) (J J' W : 'M[R]_d).
Hypotheses (h0 : 0 < h) (L0 : 0 <= L) (pW : psd W) (JL : mx_le J L) (JL' : mx_le J' L).
Let D := Dm h J J'.
Hypotheses (Ww : \tr W <= w) (Dd : mx_le D dl).
Let N := (1%:M + h *: J) *m W *m D^T + (h ^+ 2 / 2%:R)%:M - (h ^+ 3 / 3%:R) *: J'^T.
Let dd : R := d%:R.
Let nu := dd * (w * dl) + h * (dd * (L * (dd * (w * dl)))) + h / 2%:R * (dd * (dd * (dl * w) * dl)) +
  h ^+ 3 / 4%:R * (L + L) + h ^+ 3 / 3%:R * L + h ^+ 4 / 6%:R * (dd * (L * L)).

Lemma num_le : mx_le (N - (h / 2%:R) *: Bm h J J' W) nu.
Proof.
have hh := ltW h0.
have -> : N - (h / 2%:R) *: Bm h J J' W = W *m D^T + h *: (J *m (W *m D^T)) - (h / 2%:R) *: (D *m W *m D^T) +
   (h ^+ 3 / 4%:R) *: (J' + J'^T) - (h ^+ 3 / 3%:R) *: J'^T - (h ^+ 4 / 6%:R) *: (J' *m J'^T).
  rewrite /N /Bm -/D /Gm !mulmxDl mul1mx -!scalemxAl mulmxA; apply/matrixP=> i j; rewrite !(addmxE, oppmxE, scalemxE).
  have -> : ((h ^+ 2 / 2%:R)%:M : 'M[R]_d) i j = h ^+ 2 / 2%:R * (1%:M : 'M[R]_d) i j by rewrite -scalemxE scalemx1.
  move: (1%:M i j) ((W *m D^T) i j) ((J *m W *m D^T) i j) ((D *m W *m D^T) i j) (J' i j) (J'^T i j) ((J' *m J'^T) i j) => a b c e u v z.
  rfield.
have Ww' := mx_le_trans (psd_le_tr pW) Ww.
have WD := mx_leM Ww' (mx_leT Dd).
apply: mx_leB; last first.
  by apply: mx_leZ; [nonneg | exact: mx_leM JL' (mx_leT JL')].
apply: mx_leB; last by apply: mx_leZ; [nonneg | exact: mx_leT].
apply: mx_leD; last by apply: mx_leZ; [nonneg | exact: mx_leD JL' (mx_leT JL')].
apply: mx_leB; last by apply: mx_leZ; [nonneg | exact: mx_leM (mx_leM Dd Ww') (mx_leT Dd)].
by apply: mx_leD => //; apply: mx_leZ => //; exact: mx_leM.
Qed.

Lemma gain_le r rho : sup_le r rho ->
  sup_le (N *m (invmx (Bm h J J' W) *m r) - (h / 2%:R) *: r) (4%:R * dd ^+ 2 / h * (nu * rho)).
Proof.
move=> rr; have pB := Bm_pd h0 J J' pW.
have E : N *m (invmx (Bm h J J' W) *m r) - (h / 2%:R) *: r = (N - (h / 2%:R) *: Bm h J J' W) *m (invmx (Bm h J J' W) *m r).
  by rewrite [RHS]mulmxBl; congr (_ - _); rewrite -scalemxAl mulmxA mulmxV ?pd_unit // mul1mx.
rewrite E; have c0 : 0 < h / 4%:R by rewrite divr_gt0 ?ltr0n.
have I := inv_le pB c0 (fun u => Bm_qf h0 J J' u pW) rr.
have := mx_leMv num_le I; congr sup_le.
have hn : h <> 0 by apply/eqP; rewrite gt_eqF.
by rewrite /dd; move: (d%:R : R) nu => x y; toR; field.
Qed.

Lemma nu_le T cw d0 : 0 <= dl -> dl <= d0 -> h <= T -> 0 <= cw -> w = cw * h ^+ 2 ->
  nu <= h ^+ 2 * (dd * cw * (1 + T * dd * L + T * dd * d0 / 2%:R) * dl + (5%:R * L / 6%:R + T * dd * L ^+ 2 / 6%:R) * h).
Proof.
move=> dl0 dd0 hT cw0 Ew; rewrite /nu Ew.
have dd0' : 0 <= dd by exact: ler0n.
have hh := ltW h0; have d00 : 0 <= d0 by exact: le_trans dd0.
have A1 : 0 <= (T - h) * (dd * dd * L * cw * dl * h ^+ 2) by apply: mulr_ge0; [rewrite subr_ge0 | nonneg].
have A2 : 0 <= (T - h) * (dd * dd * cw * dl * d0 * h ^+ 2).
  by apply: mulr_ge0; [rewrite subr_ge0 | nonneg].
have A3 : 0 <= h * (dd * dd * cw * dl * h ^+ 2) * (d0 - dl) by apply: mulr_ge0; [nonneg | rewrite subr_ge0].
have A4 : 0 <= (T - h) * (h ^+ 3 * dd * L ^+ 2) by apply: mulr_ge0; [rewrite subr_ge0 | nonneg].
rewrite -subr_ge0.
have -> : h ^+ 2 * (dd * cw * (1 + T * dd * L + T * dd * d0 / 2%:R) * dl + (5%:R * L / 6%:R + T * dd * L ^+ 2 / 6%:R) * h) -
  (dd * (cw * h ^+ 2 * dl) + h * (dd * (L * (dd * (cw * h ^+ 2 * dl)))) + h / 2%:R * (dd * (dd * (dl * (cw * h ^+ 2)) * dl)) +
  h ^+ 3 / 4%:R * (L + L) + h ^+ 3 / 3%:R * L + h ^+ 4 / 6%:R * (dd * (L * L))) =
  (T - h) * (dd * dd * L * cw * dl * h ^+ 2) + (T - h) * (dd * dd * cw * dl * d0 * h ^+ 2) / 2%:R +
  h * (dd * dd * cw * dl * h ^+ 2) * (d0 - dl) / 2%:R + (T - h) * (h ^+ 3 * dd * L ^+ 2) / 6%:R.
  move: dd => x; rfield.
by apply: addr_ge0; [apply: addr_ge0; [apply: addr_ge0 => //|]|]; apply: divr_ge0 => //; exact: ler0n.
Qed.
Lemma gain_le2 T cw d0 r rho : 0 <= dl -> dl <= d0 -> h <= T -> 0 <= cw -> w = cw * h ^+ 2 -> sup_le r rho -> 0 <= rho ->
  sup_le (N *m (invmx (Bm h J J' W) *m r) - (h / 2%:R) *: r)
    (4%:R * dd ^+ 2 * (h * (dd * cw * (1 + T * dd * L + T * dd * d0 / 2%:R) * dl + (5%:R * L / 6%:R + T * dd * L ^+ 2 / 6%:R) * h)) * rho).
Proof.
move=> H1 H2 H3 H4 H5 rr r0; apply: sup_le_trans (gain_le rr) _.
have NU := nu_le H1 H2 H3 H4 H5; have hn : h <> 0 by apply/eqP; rewrite gt_eqF.
have dd0 : 0 <= dd by exact: ler0n.
have i0 : 0 <= h^-1 by rewrite invr_ge0 ltW.
apply: le_trans (_ : 4%:R * dd ^+ 2 / h * ((h ^+ 2 * (dd * cw * (1 + T * dd * L + T * dd * d0 / 2%:R) * dl + (5%:R * L / 6%:R + T * dd * L ^+ 2 / 6%:R) * h)) * rho) <= _).
  by apply: ler_wpmul2l; [nonneg | apply: ler_wpmul2r].
rewrite le_eqVlt; apply/orP; left; apply/eqP.
move: (_ * dl + _ * h) => X; move: dd => x; toR; field.
by [].
Qed.
End Gain.

(** ** Propagation of the errors *)
Section Rec.
Variables (dd h T L K2 Ke K3 C3 C4 : R).
Hypotheses (dd0 : 0 <= dd) (h0 : 0 <= h) (hT : h <= T) (L0 : 0 <= L) (K20 : 0 <= K2) (Ke0 : 0 <= Ke) (K30 : 0 <= K3).
Hypotheses (C30 : 0 <= C3) (C40 : 0 <= C4).
Let a1 := 1 + K2 / 2%:R.
Let a2 := C3 * L * a1 + C4 * (1 + T * a1).
Let a3 := L * a1 / 2%:R + a2 + 5%:R / 12%:R * K3.
Let a4 := L * a1 + dd * L * (T * L * a1 / 2%:R + 2%:R^-1 + Ke / 2%:R + a2 * T + C3).
Definition rec_B := 1 + C3.
Definition rec_G := a3 + rec_B * (a4 + a1).

Lemma rec_step (e g q : R)
  (q' := e + h * g + h ^+ 2 * K2 / 2%:R)
  (ep := C3 * (h * (L * q' + g)) + C4 * (h ^+ 2 * (h + q + q')))
  (e' := e + h / 2%:R * (g + L * q') + ep + h ^+ 3 * K3 * (5%:R / 12%:R))
  (g' := L * q' + dd * (L * (h / 2%:R * (L * q' + g + h * Ke) + ep))) : 0 <= e -> 0 <= g -> 0 <= q ->
  e' + rec_B * (h * (g' + q')) <= (1 + h * rec_G) * (e + rec_B * (h * (g + q))) + rec_G * h ^+ 3.
Proof.
move=> e0 g0 q0; pose s := e + h * g + h * q + h ^+ 2.
have T0 : 0 <= T by exact: le_trans hT.
have i2 : 0 <= 2%:R^-1 :> R by rewrite invr_ge0 ler0n.
have hg : 0 <= h * g by nonneg. have hq : 0 <= h * q by nonneg. have hh : 0 <= h ^+ 2 by nonneg.
have s0 : 0 <= s by rewrite /s; nonneg.
have a10 : 0 <= a1 by rewrite /a1; nonneg.
have a20 : 0 <= a2 by rewrite /a2; nonneg.
have Q' : q' <= a1 * s.
  rewrite -subr_ge0.
  have -> : a1 * s - q' = h * q + h ^+ 2 + (e + h * g + h * q) * K2 / 2%:R by rewrite /a1 /s /q'; rfield.
  by nonneg.
have hs : h * s <= T * s by exact: ler_wpmul2r.
have Ep : ep <= a2 * (h * s) + C3 * (h * g).
  rewrite -subr_ge0.
  have -> : a2 * (h * s) + C3 * (h * g) - ep = (C3 * L * h) * (a1 * s - q') + C4 * h * ((e + h * g) + h * (a1 * s - q') + a1 * (T * s - h * s)).
    by rewrite /a2 /ep /s; rfield.
  rewrite -subr_ge0 in Q'; rewrite -subr_ge0 in hs; by nonneg.
have E' : e' <= e + (2%:R^-1 + C3) * (h * g) + a3 * (h * s).
  rewrite -subr_ge0.
  have -> : e + (2%:R^-1 + C3) * (h * g) + a3 * (h * s) - e' = (a2 * (h * s) + C3 * (h * g) - ep) +
      h * L / 2%:R * (a1 * s - q') + 5%:R / 12%:R * K3 * h * (e + h * g + h * q).
    by rewrite /a3 /e' /s; rfield.
  rewrite -subr_ge0 in Q'; rewrite -subr_ge0 in Ep; by nonneg.
have G' : g' <= a4 * s.
  rewrite -subr_ge0.
  have -> : a4 * s - g' = L * (a1 * s - q') + dd * L * (L * a1 / 2%:R * (T * s - h * s) + h * L / 2%:R * (a1 * s - q') +
     2%:R^-1 * (e + h * q + h ^+ 2) + Ke / 2%:R * (e + h * g + h * q) + (a2 * (h * s) + C3 * (h * g) - ep) + a2 * (T * s - h * s) +
     C3 * (e + h * q + h ^+ 2)).
    by rewrite /a4 /g' /s; rfield.
  rewrite -subr_ge0 in Q'; rewrite -subr_ge0 in Ep; rewrite -subr_ge0 in hs; by nonneg.
have B0 : 0 <= rec_B by rewrite /rec_B; nonneg.
have a30 : 0 <= a3 by rewrite /a3; nonneg.
have a40 : 0 <= a4 by rewrite /a4; nonneg.
have G0 : 0 <= rec_G by rewrite /rec_G; nonneg.
rewrite -subr_ge0.
have -> : (1 + h * rec_G) * (e + rec_B * (h * (g + q))) + rec_G * h ^+ 3 - (e' + rec_B * (h * (g' + q'))) =
  (e + (2%:R^-1 + C3) * (h * g) + a3 * (h * s) - e') + rec_B * h * ((a4 * s - g') + (a1 * s - q')) +
  2%:R^-1 * (h * g) + rec_B * (h * q) + rec_G * h * C3 * (h * g + h * q).
  by rewrite /rec_G /rec_B /s; rfield.
rewrite -subr_ge0 in Q'; rewrite -subr_ge0 in E'; rewrite -subr_ge0 in G'; by nonneg.
Qed.

Lemma rec_G0 : 0 <= rec_G.
Proof.
have T0 : 0 <= T by exact: le_trans hT.
have i2 : 0 <= 2%:R^-1 :> R by rewrite invr_ge0 ler0n.
have a10 : 0 <= a1 by rewrite /a1; nonneg.
have a20 : 0 <= a2 by rewrite /a2; nonneg.
by rewrite /rec_G /rec_B /a3 /a4; nonneg.
Qed.
End Rec.

(** ** Convergence *)
Section Conv.
Variables (lp : lapack) (d : nat) (L K K1 K2 K3 T : R).
Let dd : R := d%:R.
Let Ke := K2 + T * K3 / 2%:R.
Definition e1_rate := dd ^+ 2 * L.
Definition e1_w := T * dd / 3%:R * exp (2%:R * e1_rate * T).
Let d0 := 2%:R * L + T * dd * L ^+ 2.
Let c1 := dd * e1_w * (1 + T * dd * L + T * dd * d0 / 2%:R).
Let c2 := 5%:R * L / 6%:R + T * dd * L ^+ 2 / 6%:R.
Let kd := K + (K + K * K1 + K * K2 * T / 2%:R + dd * L ^+ 2).
Let C3 := 4%:R * dd ^+ 2 * (c1 * d0 + c2 * T).
Let C4 := 4%:R * dd ^+ 2 * Ke * (c1 * kd + c2).
Let B := rec_B C3.
Let G := rec_G dd T L K2 Ke K3 C3 C4.
Definition e1_const := G * T * exp (G * T).

Variables (f : 'cV[R]_d -> R -> 'cV[R]_d) (h sigma : R) (N : nat) (y y2 y3 : R -> 'cV[R]_d).
Hypotheses (h0 : 0 < h) (s0 : sigma != 0) (L0 : 0 <= L) (K0 : 0 <= K) (K10 : 0 <= K1) (K20 : 0 <= K2) (K30 : 0 <= K3).
Hypotheses (hT : h <= T) (NT : N%:R * h <= T).
Hypothesis Lf : lipschitz f L.
Hypothesis JL : forall x t, mx_le (jac (f^~ t) x) L.
Hypothesis JK : forall x t x' t' e, sup_le (x - x') e -> mx_le (jac (f^~ t) x - jac (f^~ t') x') (K * (e + `|t - t'|)).
Hypothesis D1 : deriv_on (N%:R * h) y (fun t => f (y t) t).
Hypothesis D2 : deriv_on (N%:R * h) (fun t => f (y t) t) y2.
Hypothesis D3 : deriv_on (N%:R * h) y2 y3.
Hypothesis H1 : forall t : R, 0 <= t -> t <= N%:R * h -> sup_le (f (y t) t) K1.
Hypothesis H2 : forall t : R, 0 <= t -> t <= N%:R * h -> sup_le (y2 t) K2.
Hypothesis H3 : forall t : R, 0 <= t -> t <= N%:R * h -> sup_le (y3 t) K3.
Let y1 t := f (y t) t.
Let t_ k := k%:R * h.
Let A := (ioup 0 sigma 1 h d).2.
Let Q := (ioup 0 sigma 1 h d).1.2.

Lemma slope_le k : (k < N)%N -> sup_le (y1 (t_ k.+1) - y1 (t_ k)) (h * Ke).
Proof.
move=> kN i; have [a0 aN] := grid_in (ltW h0) (ltnW kN); have [b0 bN] := grid_in (ltW h0) kN.
have E : t_ k.+1 - t_ k = h by rewrite /t_ -addn1 natrD mulrDl mul1r addrC addKr.
have ab : t_ k <= t_ k.+1 by rewrite -subr_ge0 E ltW.
have T1 := @taylor1 (fun t => y1 t i 0) (fun t => y2 t i 0) (fun t => y3 t i 0)
   (t_ k) (t_ k.+1) K3 _ _ _ (t_ k.+1) ab (lexx _).
have in1 t : t_ k <= t -> 0 <= t by move=> H; apply: le_trans H.
have in2 t : t <= t_ k.+1 -> t <= N%:R * h by move=> H; apply: le_trans bN.
have {}T1 : `|y1 (t_ k.+1) i 0 - y1 (t_ k) i 0 - (t_ k.+1 - t_ k) * y2 (t_ k) i 0| <= K3 * (t_ k.+1 - t_ k) ^+ 2 / 2%:R.
  by apply: T1 => t /in1 t1 /in2 t2; [exact: D2 | exact: D3 | exact: H3].
rewrite E in T1; rewrite !(addmxE, oppmxE); have Y2 := H2 a0 aN i.
have -> : y1 (t_ k.+1) i 0 - y1 (t_ k) i 0 = (y1 (t_ k.+1) i 0 - y1 (t_ k) i 0 - h * y2 (t_ k) i 0) + h * y2 (t_ k) i 0.
  by rewrite subrK.
apply: le_trans (ler_norm_add _ _) _; rewrite normrM (gtr0_norm h0).
apply: le_trans (ler_add T1 (ler_wpmul2l (ltW h0) Y2)) _.
have := mulr_ge0 (mulr_ge0 (ltW h0) K30) (_ : 0 <= T - h); rewrite subr_ge0 => /(_ hT).
rewrite -subr_ge0 => Hx; rewrite -subr_ge0; apply: le_trans (_ : h * K3 * (T - h) / 2%:R <= _).
  by apply: divr_ge0; [rewrite -[X in 0 <= X]subr0 | exact: ler0n].
by rewrite le_eqVlt; apply/orP; left; apply/eqP; rewrite /Ke; rfield.
Qed.

Lemma path_le k : (k < N)%N -> sup_le (y (t_ k.+1) - y (t_ k)) (h * K1 + h ^+ 2 * K2 / 2%:R).
Proof.
move=> kN; have [a0 aN] := grid_in (ltW h0) (ltnW kN).
have -> : y (t_ k.+1) - y (t_ k) = h *: f (y (t_ k)) (t_ k) + (y (t_ k.+1) - y (t_ k) - h *: f (y (t_ k)) (t_ k)).
  by rewrite [RHS]addrC subrK.
by apply: sup_leD; [apply: sup_leZ (ltW h0) (H1 a0 aN) | exact: (local_error (ltW h0) D1 D2 H2)].
Qed.

Lemma T0 : 0 <= T. Proof. exact: le_trans (ltW h0) hT. Qed.
Lemma e1_w0 : 0 <= e1_w.
Proof.
have tt := T0; have dd0 : 0 <= dd by exact: ler0n.
by rewrite /e1_w; apply: mulr_ge0; [nonneg | apply/RleP; left; exact: exp_pos].
Qed.

Definition inv_state (k : nat) (m : 'cV[R]_(d * 2)) (W : 'M[R]_d) (p : 'cV[R]_d) (e g q : R) :=
  [/\ psd W, \tr W <= k%:R * (dd * (h ^+ 3 / 3%:R)) * (1 + h * e1_rate) ^+ (2 * k),
      [/\ 0 <= e, 0 <= g & 0 <= q],
      [/\ sup_le (slice (0 : 'I_2) m - y (t_ k)) e, sup_le (slice (1 : 'I_2) m - y1 (t_ k)) g & sup_le (p - y (t_ k)) q] &
      e + B * (h * (g + q)) <= k%:R * (G * h ^+ 3) * (1 + h * G) ^+ k].

Lemma exp_le' (u v : R) : u <= v -> exp u <= exp v.
Proof. by rewrite le_eqVlt => /orP[/eqP->//|/RltP uv]; apply/RleP; left; exact: exp_increasing. Qed.

Lemma w_le (k : nat) : (k <= N)%N ->
  k%:R * (dd * (h ^+ 3 / 3%:R)) * (1 + h * e1_rate) ^+ (2 * k) <= e1_w * h ^+ 2.
Proof.
move=> kN; have kT : k%:R * h <= T by apply: le_trans NT; rewrite ler_wpmul2r ?ler_nat // ltW.
have r0 : 0 <= e1_rate by rewrite /e1_rate /dd; nonneg.
have dd0 : 0 <= dd by exact: ler0n.
have hh := ltW h0.
have P1 := pow_le_exp (2 * k) hh r0.
have P2 : exp (e1_rate * ((2 * k)%:R * h)) <= exp (2%:R * e1_rate * T).
  apply: exp_le'.
  have -> : e1_rate * ((2 * k)%:R * h) = 2%:R * e1_rate * (k%:R * h) by rewrite natrM; move: (k%:R : R) e1_rate => u v; rring.
  by apply: ler_wpmul2l => //; nonneg.
have P3 := le_trans P1 P2.
apply: le_trans (_ : k%:R * (dd * (h ^+ 3 / 3%:R)) * exp (2%:R * e1_rate * T) <= _).
  by apply: ler_wpmul2l P3; nonneg.
have e0 : 0 <= exp (2%:R * e1_rate * T) by apply/RleP; left; exact: exp_pos.
rewrite /e1_w; move: (exp _) e0 => E E0; rewrite -subr_ge0.
have -> : T * dd / 3%:R * E * h ^+ 2 - k%:R * (dd * (h ^+ 3 / 3%:R)) * E = (T - k%:R * h) * (dd * h ^+ 2 * E / 3%:R).
  move: (k%:R : R) => kk; rfield.
by apply: mulr_ge0; [rewrite subr_ge0 | nonneg].
Qed.

Lemma geo_step (a x : R) (k : nat) : 0 <= a -> 1 <= x -> x * (k%:R * a * x ^+ k) + a <= k.+1%:R * a * x ^+ k.+1.
Proof.
move=> a0 x1; have X : 1 <= x ^+ k.+1 by apply: exprn_ege1.
have -> : k.+1%:R * a * x ^+ k.+1 = x * (k%:R * a * x ^+ k) + a * x ^+ k.+1.
  by rewrite -addn1 natrD exprD expr1; move: (x ^+ k) (k%:R : R) => u v; rring.
by rewrite ler_add2l -{1}[a]mulr1; apply: ler_wpmul2l.
Qed.

Lemma C3_ge0 : 0 <= C3.
Proof.
have tt := T0; have dd0 : 0 <= dd by exact: ler0n. have w0 := e1_w0.
have d00 : 0 <= d0 by rewrite /d0; nonneg.
have c10 : 0 <= c1 by rewrite /c1; nonneg.
have c20 : 0 <= c2 by rewrite /c2; nonneg.
by rewrite /C3; nonneg.
Qed.

Lemma C4_ge0 : 0 <= C4.
Proof.
have tt := T0; have dd0 : 0 <= dd by exact: ler0n. have w0 := e1_w0.
have d00 : 0 <= d0 by rewrite /d0; nonneg.
have c10 : 0 <= c1 by rewrite /c1; nonneg.
have c20 : 0 <= c2 by rewrite /c2; nonneg.
have kd0 : 0 <= kd by rewrite /kd; nonneg.
have Ke0 : 0 <= Ke by rewrite /Ke; nonneg.
by rewrite /C4; nonneg.
Qed.

Lemma conv_step k m W p e g q : (k < N)%N -> inv_state k m W p e g q -> exists m' W' p' e' g' q',
  ekf_body lp (@observation_function d false f 0) A Q 0 0 false
    (m, sigma ^+ 2 *: (Fj (jac (f^~ (t_ k)) p) *m W *m (Fj (jac (f^~ (t_ k)) p))^T)) (t_ k.+1) =
  Val (m', sigma ^+ 2 *: (Fj (jac (f^~ (t_ k.+1)) p') *m W' *m (Fj (jac (f^~ (t_ k.+1)) p'))^T)) /\
  inv_state k.+1 m' W' p' e' g' q'.
Proof.
move=> kN [pW tW [e0 g0 q0] [Ee Eg Eq] I]; set J := jac _ p.
have hh := ltW h0; have tt := T0; have dd0 : 0 <= dd by exact: ler0n. have w0 := e1_w0.
have d00 : 0 <= d0 by rewrite /d0; nonneg.
have c10 : 0 <= c1 by rewrite /c1; nonneg.
have c20 : 0 <= c2 by rewrite /c2; nonneg.
have Ke0 : 0 <= Ke by rewrite /Ke; nonneg.
have i2 : 0 <= 2%:R^-1 :> R by rewrite invr_ge0 ler0n.
have [m' [W' []]] := @e1_step lp d f h sigma h0 s0 m W J (t_ k.+1) pW.
set p' := slice 0 m + h *: slice 1 m; set J' := jac _ p'; set M := 1%:M + h *: J => Eb pW' tW' Ex Ey.
pose q' := e + h * g + h ^+ 2 * K2 / 2%:R.
have q'0 : 0 <= q' by rewrite /q'; nonneg.
have Eq' : sup_le (p' - y (t_ k.+1)) q'.
  have -> : p' - y (t_ k.+1) = (slice 0 m - y (t_ k)) + h *: (slice 1 m - y1 (t_ k)) - (y (t_ k.+1) - y (t_ k) - h *: y1 (t_ k)).
    by rewrite /p' scalerBr; apply/matrixP=> i j; rewrite !(addmxE, oppmxE); rring.
  apply: sup_leB; last exact: (local_error hh D1 D2 H2).
  by apply: sup_leD => //; exact: sup_leZ.
have Ef : sup_le (f p' (t_ k.+1) - y1 (t_ k.+1)) (L * q') by exact: Lf.
pose r := f p' (t_ k.+1) - slice 1 m; pose rho := L * q' + g + h * Ke.
have Er : sup_le r rho.
  have -> : r = (f p' (t_ k.+1) - y1 (t_ k.+1)) - (slice 1 m - y1 (t_ k)) + (y1 (t_ k.+1) - y1 (t_ k)).
    by rewrite /r; apply/matrixP=> i j; rewrite !(addmxE, oppmxE); rring.
  by apply: sup_leD; [apply: sup_leB | exact: slope_le].
have rho0 : 0 <= rho by rewrite /rho; nonneg.
have Et : `|t_ k - t_ k.+1| = h.
  have -> : t_ k - t_ k.+1 = - h by rewrite /t_ -addn1 natrD; move: (k%:R : R) => x; rring.
  by rewrite normrN gtr0_norm.
pose dA := K * (q + (h * K1 + h ^+ 2 * K2 / 2%:R) + q' + h) + h * (dd * (L * L)).
pose dB := L + L + h * (dd * (L * L)).
have EJ : mx_le (J - J') (K * (q + (h * K1 + h ^+ 2 * K2 / 2%:R) + q' + h)).
  suff S : sup_le (p - p') (q + (h * K1 + h ^+ 2 * K2 / 2%:R) + q') by have := JK (t_ k) (t_ k.+1) S; rewrite Et.
  have -> : p - p' = (p - y (t_ k)) - (y (t_ k.+1) - y (t_ k)) - (p' - y (t_ k.+1)).
    by apply/matrixP=> i j; rewrite !(addmxE, oppmxE); rring.
  by apply: sup_leB => //; apply: sup_leB => //; exact: path_le.
have ED : Dm h J J' = (J - J') - h *: (J' *m J).
  by rewrite /Dm mulmxDr mulmx1 -scalemxAr opprD addrA.
have EJJ : mx_le (h *: (J' *m J)) (h * (dd * (L * L))) by apply: mx_leZ => //; apply: mx_leM; exact: JL.
have DA : mx_le (Dm h J J') dA by rewrite ED; exact: mx_leB.
have DB : mx_le (Dm h J J') dB by rewrite ED; apply: mx_leB => //; apply: mx_leB; exact: JL.
pose dl := Num.min dA dB.
have DL : mx_le (Dm h J J') dl by move=> i j; rewrite /dl le_minr DA DB.
have dA0 : 0 <= dA by rewrite /dA; nonneg.
have dB0 : 0 <= dB by rewrite /dB; nonneg.
have dl0 : 0 <= dl by rewrite /dl le_minr dA0 dB0.
have dBd : dB <= d0.
  rewrite -subr_ge0; have -> : d0 - dB = (T - h) * (dd * (L * L)) by rewrite /d0 /dB; rring.
  by apply: mulr_ge0; [rewrite subr_ge0 | nonneg].
have dlA : dl <= dA by rewrite /dl le_minl lexx.
have dld : dl <= d0 by apply: le_trans dBd; rewrite /dl le_minl lexx orbT.
have Ww : \tr W <= e1_w * h ^+ 2 by apply: le_trans tW (w_le (ltnW kN)).
have GL := gain_le2 h0 L0 pW (JL p (t_ k)) (JL p' (t_ k.+1)) Ww DL dl0 dld hT w0 erefl Er rho0.
rewrite -/J -/J' -/c1 -/c2 -/dd in GL.
pose ep := C3 * (h * (L * q' + g)) + C4 * (h ^+ 2 * (h + q + q')).
have Eep : 4%:R * dd ^+ 2 * (h * (c1 * dl + c2 * h)) * rho <= ep.
  have kd1 : dA <= kd * (h + q + q').
    rewrite -subr_ge0.
    have -> : kd * (h + q + q') - dA = (K + K * K1 + K * K2 * T / 2%:R + dd * L ^+ 2) * (q + q') + K * h + h * (K * K2 / 2%:R) * (T - h).
      by rewrite /kd /dA; rfield.
    by apply: addr_ge0; [nonneg | apply: mulr_ge0; [nonneg | rewrite subr_ge0]].
  have dlk := le_trans dlA kd1.
  rewrite -subr_ge0.
  have -> : ep - 4%:R * dd ^+ 2 * (h * (c1 * dl + c2 * h)) * rho =
    4%:R * dd ^+ 2 * (h * (L * q' + g)) * (c1 * (d0 - dl) + c2 * (T - h)) +
    4%:R * dd ^+ 2 * Ke * h ^+ 2 * (c1 * (kd * (h + q + q') - dl) + c2 * (q + q')).
    rewrite /ep /rho /C3 /C4; move: (c1) (c2) (kd) (Ke) (dl) (d0) (q') => a b c e1 e2 e3 e4; rring.
  have Z1 : 0 <= c1 * (d0 - dl) + c2 * (T - h) by apply: addr_ge0; apply: mulr_ge0; rewrite ?subr_ge0.
  have Z2 : 0 <= c1 * (kd * (h + q + q') - dl) + c2 * (q + q').
    by apply: addr_ge0; apply: mulr_ge0; rewrite ?subr_ge0 //; nonneg.
  by apply: addr_ge0; apply: mulr_ge0 => //; nonneg.
have Gep := sup_le_trans GL Eep.
have Exp : slice 0 m' - p' = (h / 2%:R) *: r + (((1%:M + h *: J) *m W *m (Dm h J J')^T + (h ^+ 2 / 2%:R)%:M - (h ^+ 3 / 3%:R) *: J'^T) *m
   (invmx (Bm h J J' W) *m r) - (h / 2%:R) *: r).
  by rewrite Ex addrAC subrr add0r [RHS]addrC subrK.
set U := _ - (h / 2%:R) *: r in Gep Exp.
pose e' := e + h / 2%:R * (g + L * q') + ep + h ^+ 3 * K3 * (5%:R / 12%:R).
pose g' := L * q' + dd * (L * (h / 2%:R * (L * q' + g + h * Ke) + ep)).
have C30 := C3_ge0; have C40 := C4_ge0.
have ep0 : 0 <= ep by rewrite /ep; nonneg.
exists m', W', p', e', g', q'; split; first exact: Eb.
split=> //.
- apply: le_trans tW' _.
  apply: le_trans (ler_add (tr_le pW hh L0 (JL p (t_ k))) (lexx _)) _; rewrite -/J -/dd -/e1_rate.
  have x1 : 1 <= (1 + h * e1_rate) ^+ 2.
    by apply: exprn_ege1; rewrite ler_addl /e1_rate; nonneg.
  rewrite exprM.
  apply: le_trans (geo_step k (_ : 0 <= dd * (h ^+ 3 / 3%:R)) x1); last by nonneg.
  by rewrite ler_add2r; apply: ler_wpmul2l; [exact: le_trans x1 | rewrite -exprM].
- by rewrite /e' /g'; split=> //; nonneg.
- split=> //.
  + have -> : slice 0 m' - y (t_ k.+1) = (slice 0 m - y (t_ k)) + (h / 2%:R) *: ((slice 1 m - y1 (t_ k)) + (f p' (t_ k.+1) - y1 (t_ k.+1))) + U -
       (y (t_ k.+1) - y (t_ k) - (h / 2%:R) *: (y1 (t_ k) + y1 (t_ k.+1))).
      have -> : slice 0 m' = p' + ((h / 2%:R) *: r + U) by rewrite -Exp addrC subrK.
      rewrite /p' /r; apply/matrixP=> i j; rewrite !(addmxE, oppmxE, scalemxE).
      by move: (slice 0 m i j) (slice 1 m i j) (y _ i j) (y _ i j) (y1 _ i j) (y1 _ i j) (U i j) (f _ _ i j) => *; rfield.
    apply: sup_leB; last exact: (trapezoid_error hh D1 D2 D3 H3).
    apply: sup_leD => //; apply: sup_leD => //; apply: sup_leZ; first by nonneg.
    exact: sup_leD.
  + rewrite Ey addrAC; apply: sup_leD => //.
    apply: mx_leMv; first exact: JL.
    rewrite Exp; apply: sup_leD => //; apply: sup_leZ => //; nonneg.
- have := @rec_step dd h T L K2 Ke K3 C3 C4 dd0 hh hT L0 K20 Ke0 K30 C30 C40 e g q e0 g0 q0.
  rewrite -/G -/B -/q' -/ep => R1; apply: le_trans R1 _.
  have G0 : 0 <= G by exact: (@rec_G0 dd h T L K2 Ke K3 C3 C4).
  have G3 : 0 <= G * h ^+ 3 by nonneg.
  have hG : 0 <= h * G by nonneg.
  have G1 : 1 <= 1 + h * G by rewrite ler_addl.
  apply: le_trans (geo_step k G3 G1).
  by rewrite ler_add2r; apply: ler_wpmul2l => //; exact: le_trans G1.
Qed.


Lemma conv_run k : (k <= N)%N -> exists m W p e g q,
  ekf lp (@observation_function d false f 0) A Q 0 0 false (init_mean f (y 0) 2, 0) (mkseq (fun i : nat => i.+1%:R * h) k) =
  Val (m, sigma ^+ 2 *: (Fj (jac (f^~ (t_ k)) p) *m W *m (Fj (jac (f^~ (t_ k)) p))^T)) /\
  inv_state k m W p e g q.
Proof.
elim: k => [_|k IH kN].
  exists (init_mean f (y 0) 2), 0, (y 0), 0, 0, 0; rewrite ekf_nil mulmx0 mul0mx scaler0; split=> //.
  have t0 : t_ 0 = 0 by rewrite /t_ mul0r.
  split; rewrite ?mul0r ?addr0 ?mulr0 ?mulr0 ?addr0 ?mxtrace0 //; first exact: psd0.
  by rewrite /y1 t0 slice_init_mean0 slice_init_mean1 !subrr; split=> i; rewrite mxE normr0.
have [m [W [p [e [g [q [E1 I]]]]]]] := IH (ltnW kN).
have [m' [W' [p' [e' [g' [q' [E2 I']]]]]]] := conv_step kN I.
exists m', W', p', e', g', q'; split=> //.
have -> : mkseq (fun i : nat => i.+1%:R * h) k.+1 = rcons (mkseq (fun i : nat => i.+1%:R * h) k) (t_ k.+1).
  by rewrite /mkseq -addn1 iotaD map_cat /= cats1 add0n addn1.
by rewrite ekf_rcons E1; cbn [rbind]; rewrite E2.
Qed.

Lemma conv_solver sq : exists m P,
  [/\ @_solver lp d 0 (init_mean f (y 0) 2, 0) f h N sq false (a_prior (ioup 0 sigma 1 h d)) None = Val (m, P),
      sup_le (slice 0 m - y (N%:R * h)) (e1_const * h ^+ 2) &
      \tr (slice2 0 0 (if sq then P *m P^T else P)) <= sigma ^+ 2 * (e1_w * h ^+ 2)].
Proof.
have [m1 [W [p [e [g [q [E1 [pW tW [e0 g0 q0] [Ee _ _] I]]]]]]]] := conv_run (leqnn N).
set P1 := _ *: (_ *m W *m _) in E1.
have hh := ltW h0; have tt := T0; have dd0 : 0 <= dd by exact: ler0n.
have C30 := C3_ge0; have C40 := C4_ge0.
have Ke0 : 0 <= Ke by rewrite /Ke; nonneg.
have G0 : 0 <= G by exact: (@rec_G0 dd h T L K2 Ke K3 C3 C4).
have B0 : 0 <= B by rewrite /B /rec_B; nonneg.
have X1 : sup_le (slice 0 m1 - y (N%:R * h)) (e1_const * h ^+ 2).
  apply: sup_le_trans Ee _.
  have X : e <= N%:R * (G * h ^+ 3) * (1 + h * G) ^+ N by apply: le_trans I; rewrite ler_addl; nonneg.
  apply: le_trans X _.
  have P1e := pow_le_exp N hh G0.
  have P2e : exp (G * (N%:R * h)) <= exp (G * T) by apply: exp_le'; apply: ler_wpmul2l.
  apply: le_trans (_ : N%:R * (G * h ^+ 3) * exp (G * T) <= _).
    by apply: ler_wpmul2l (le_trans P1e P2e); nonneg.
  have E0 : 0 <= exp (G * T) by apply/RleP; left; exact: exp_pos.
  rewrite /e1_const -subr_ge0; move: (exp _) E0 => E E0.
  have -> : G * T * E * h ^+ 2 - N%:R * (G * h ^+ 3) * E = (T - N%:R * h) * (G * h ^+ 2 * E) by move: (N%:R : R) => nn; rring.
  by apply: mulr_ge0; [rewrite subr_ge0 | nonneg].
have X2 : \tr (slice2 0 0 P1) <= sigma ^+ 2 * (e1_w * h ^+ 2).
  rewrite -sel_slice2 /P1 -scalemxAr -scalemxAl !mulmxA sel0F mul1mx -mulmxA -trmx_mul sel0F trmx1 mulmx1 mxtraceZ.
  apply: ler_wpmul2l; first exact: exprn_even_ge0.
  by apply: le_trans tW _; apply: w_le.
have [_ [LQ [EQ _ EL]]] := @ioup_chol lp sigma 1 h d s0 h0.
have EQ' : (if sq then cholesky lp Q else Val Q) = Val (if sq then LQ else Q) by case: (sq); rewrite ?EQ.
rewrite (@solver_run lp d 0 f h sq false (a_prior (ioup 0 sigma 1 h d)) None (init_mean f (y 0) 2, 0) N 0 Q A 0 _
  (get_prior_id _ _) erefl EQ').
case: (sq) {EQ'}; last by exists m1, P1.
have := ekf_sqrt_state lp (@observation_function d false f 0) A 0 LQ 0 (init_mean f (y 0) 2) 0 (mkseq (fun k : nat => k.+1%:R * h) N).
rewrite !mul0mx EL E1; case E5: (ekf _ _ _ _ _ _ _ _) => [[m2 W2]||] //= [Em EW2].
by exists m2, W2; rewrite -Em; split=> //; rewrite -EW2.
Qed.
End Conv.

Lemma e1_const_ge0 d (L K K1 K2 K3 T : R) : 0 <= L -> 0 <= K -> 0 <= K1 -> 0 <= K2 -> 0 <= K3 -> 0 <= T ->
  0 <= e1_const d L K K1 K2 K3 T /\ 0 <= e1_w d L T.
Proof.
move=> L0 K0 K10 K20 K30 T0.
have dd0 : 0 <= d%:R :> R by exact: ler0n.
have w0 : 0 <= e1_w d L T by rewrite /e1_w; apply: mulr_ge0; [nonneg | apply/RleP; left; exact: exp_pos].
split=> //; rewrite /e1_const; apply: mulr_ge0; last by apply/RleP; left; exact: exp_pos.
apply: mulr_ge0 => //; apply: (@rec_G0 _ 0 T) => //; nonneg.
Qed.

Lemma ekf1_order2 d (L K K1 K2 K3 T : R) : 0 <= L -> 0 <= K -> 0 <= K1 -> 0 <= K2 -> 0 <= K3 -> 0 <= T ->
  exists C c, [/\ 0 <= C, 0 <= c & forall (lp : lapack) (g : prng) (f : 'cV[R]_d -> R -> 'cV[R]_d) (h sigma : R) (N : nat)
     (y y2 y3 : R -> 'cV[R]_d) (sq : bool),
   (0 < d)%N -> 0 < h -> sigma != 0 -> N%:R * h <= T -> lipschitz f L ->
   (forall x t i j, `|jac (f^~ t) x i j| <= L) ->
   (forall x t x' t' e i j, sup_le (x - x') e -> `|jac (f^~ t) x i j - jac (f^~ t') x' i j| <= K * (e + `|t - t'|)) ->
   deriv_on (N%:R * h) y (fun t => f (y t) t) -> deriv_on (N%:R * h) (fun t => f (y t) t) y2 -> deriv_on (N%:R * h) y2 y3 ->
   (forall t : R, 0 <= t -> t <= N%:R * h -> [/\ sup_le (f (y t) t) K1, sup_le (y2 t) K2 & sup_le (y3 t) K3]) ->
   exists x m P, [/\ ekf1 lp (None : option (key g)) (y 0) f h N sq (a_prior (ioup 0 sigma 1 h d)) None = Val x,
     sup_le (x - y (N%:R * h)) (C * h ^+ 2),
     @_solver lp d 0 (init_mean f (y 0) 2, 0) f h N sq false (a_prior (ioup 0 sigma 1 h d)) None = Val (m, P),
     slice 0 m = x & \tr (slice2 0 0 (if sq then P *m P^T else P)) <= sigma ^+ 2 * (c * h ^+ 2)]].
Proof.
move=> L0 K0 K10 K20 K30 T0; have [C0 c0] := e1_const_ge0 d L0 K0 K10 K20 K30 T0.
exists (e1_const d L K K1 K2 K3 T), (e1_w d L T); split=> // lp g f h sigma N y y2 y3 sq dpos h0 s0 NT Lf JL JK D1 D2 D3 HH.
have JK' x t x' t' e : sup_le (x - x') e -> mx_le (jac (f^~ t) x - jac (f^~ t') x') (K * (e + `|t - t'|)).
  by move=> H i j; rewrite addmxE oppmxE; exact: JK.
have [m [P [E1 E2 E3]]] : exists m P,
  [/\ @_solver lp d 0 (init_mean f (y 0) 2, 0) f h N sq false (a_prior (ioup 0 sigma 1 h d)) None = Val (m, P),
      sup_le (slice 0 m - y (N%:R * h)) (e1_const d L K K1 K2 K3 T * h ^+ 2) &
      \tr (slice2 0 0 (if sq then P *m P^T else P)) <= sigma ^+ 2 * (e1_w d L T * h ^+ 2)].
  case: N NT D1 D2 D3 HH => [|N] NT D1 D2 D3 HH.
    have [_ [LQ [EQ _ EL]]] := @ioup_chol lp sigma 1 h d s0 h0.
    set Q := (ioup 0 sigma 1 h d).1.2 in EQ EL.
    have EQ' : (if sq then cholesky lp Q else Val Q) = Val (if sq then LQ else Q) by case: (sq); rewrite ?EQ.
    rewrite (@solver_run lp d 0 f h sq false (a_prior (ioup 0 sigma 1 h d)) None (init_mean f (y 0) 2, 0) 0 0 Q
      (ioup 0 sigma 1 h d).2 0 _ (get_prior_id _ _) erefl EQ').
    rewrite ekf_nil; exists (init_mean f (y 0) 2), 0; split=> //.
      by rewrite slice_init_mean0 mul0r subrr => i; rewrite mxE normr0; apply: mulr_ge0 => //; exact: exprn_even_ge0.
    rewrite mul0mx; case: (sq); rewrite slice20 mxtrace0; apply: mulr_ge0; rewrite ?exprn_even_ge0 //; apply: mulr_ge0; rewrite ?exprn_even_ge0 //.
  have hT : h <= T.
    by apply: le_trans NT; rewrite -{1}[h]mul1r ler_wpmul2r ?(ltW h0) // (_ : 1 = 1%:R) // ler_nat.
  apply: (@conv_solver lp d L K K1 K2 K3 T f h sigma N.+1 y y2 y3) => //.
  - by move=> t a b; case: (HH t a b).
  - by move=> t a b; case: (HH t a b).
  - by move=> t a b; case: (HH t a b).
exists (slice 0 m), m, P; split=> //.
by rewrite ekf1_run // E1.
Qed.

(** One step from an exactly known value *)
Lemma ekf1_one_step (lp : lapack) (g : prng) d (f : 'cV[R]_d -> R -> 'cV[R]_d) (h sigma : R) (x0 : 'cV[R]_d) (sq : bool) :
  (0 < d)%N -> 0 < h -> sigma != 0 ->
  let p := x0 + h *: f x0 0 in
  let J := jac (f^~ h) p in
  let G := 1%:M - (h / 2%:R) *: (J + J^T) + (h ^+ 2 / 3%:R) *: (J *m J^T) in
  pd G /\
  ekf1 lp (None : option (key g)) x0 f h 1 sq (a_prior (ioup 0 sigma 1 h d)) None =
    Val (p + (h / 2%:R) *: (invmx G *m (f p h - f x0 0)) - (h ^+ 2 / 3%:R) *: (J^T *m (invmx G *m (f p h - f x0 0)))).
Proof.
move=> dpos h0 s0 p J G; have pG : pd G by exact: Gm_pd.
split=> //.
set Q := (ioup 0 sigma 1 h d).1.2; set A := (ioup 0 sigma 1 h d).2.
have [m [W [E1 _ _ E2 _]]] := @e1_step lp d f h sigma h0 s0 (init_mean f x0 2) 0 0 h (@psd0 d).
rewrite slice_init_mean0 slice_init_mean1 -/p -/J mulmx0 mul0mx scaler0 in E1.
rewrite slice_init_mean0 slice_init_mean1 -/p -/J in E2.
set P1 := _ *: (_ *m W *m _) in E1.
have Ex : slice 0 m = p + (h / 2%:R) *: (invmx G *m (f p h - f x0 0)) - (h ^+ 2 / 3%:R) *: (J^T *m (invmx G *m (f p h - f x0 0))).
  rewrite E2 /Bm !mulmx0 !mul0mx addr0 add0r -/G invmxZ ?unitmxZ ?unitfE ?gt_eqF ?pd_unit //.
  rewrite -scalemxAl -scalemxAr mulmxBl mul_scalar_mx -scalemxAl scalerBr !scalerA addrA.
  have hn : h != 0 by rewrite gt_eqF.
  congr (_ + _ *: _ - _ *: _); rewrite ?[h ^+ 3]exprS ?[h ^+ 2]exprS ?expr1 -!mulrA mulKf //.
have [_ [LQ [EQ _ EL]]] := @ioup_chol lp sigma 1 h d s0 h0; rewrite -/Q in EQ EL.
have EQ' : (if sq then cholesky lp Q else Val Q) = Val (if sq then LQ else Q) by case: (sq); rewrite ?EQ.
rewrite ekf1_run // (@solver_run lp d 0 f h sq false (a_prior (ioup 0 sigma 1 h d)) None (init_mean f x0 2, ekf1_var d 0) 1 0 Q A 0 _
  (get_prior_id _ _) erefl EQ').
have E1' : ekf lp (@observation_function d false f 0) A Q 0 0 false (init_mean f x0 2, 0) (mkseq (fun k : nat => k.+1%:R * h) 1) = Val (m, P1).
  by rewrite /mkseq /= -[[:: _]]/(rcons [::] _) ekf_rcons ekf_nil; cbn [rbind]; rewrite mul1r.
have -> : ekf1_var d 0 = 0 :> 'M[R]_(d * 2) by [].
case: (sq) {EQ'}; last by rewrite E1'; cbn [rbind]; rewrite /output Ex.
have := ekf_sqrt_state lp (@observation_function d false f 0) A 0 LQ 0 (init_mean f x0 2) 0 (mkseq (fun k : nat => k.+1%:R * h) 1).
rewrite !mul0mx EL E1'; case E5: (ekf _ _ _ _ _ _ _ _) => [[m2 W2]||] //= [Em EW2].
by rewrite /output -Em Ex.
Qed.

(** ** An example: x' = cos(x)^2, solved by atan *)
Lemma sin_abs (x : R) : (Rabs (sin x) <= Rabs x)%Re.
Proof.
wlog x0 : x / (0 <= x)%Re.
  move=> H; case: (Rle_dec 0%Re x) => [|/Rnot_le_lt x0]; first exact: H.
  by rewrite -(Rabs_Ropp x) -(Rabs_Ropp (sin x)) -sin_neg; apply: H; lra.
rewrite (Rabs_pos_eq x) //; case: x0 => [x0|<-]; last by rewrite sin_0 Rabs_R0; lra.
have [_ S1] := SIN_bound x; have [S2 _] := SIN_bound x.
apply: Rabs_le; split; last by left; exact: sin_lt_x.
case: (Rle_dec x 1%Re) => [x1|]; last by move=> x1; lra.
have : (0 <= sin x)%Re by apply: sin_ge_0; [lra | have := PI2_1; lra].
lra.
Qed.

Lemma cos2_lip (u v : R) : (Rabs (cos u * cos u - cos v * cos v)%Re <= Rabs (u - v)%Re)%Re.
Proof.
have -> : (cos u * cos u - cos v * cos v = (cos (2 * u)%Re - cos (2 * v)%Re) * / 2)%Re by rewrite !cos_2a_cos; field.
rewrite form2 !Rabs_mult.
have -> : ((2 * u - 2 * v) / 2 = u - v)%Re by field.
have H1 := sin_abs (u - v)%Re; have H2 : (Rabs (sin ((2 * u + 2 * v) / 2)%Re) <= 1)%Re by apply: Rabs_le; exact: SIN_bound.
have H3 : Rabs (- (2))%Re = 2%Re by rewrite Rabs_Ropp Rabs_pos_eq; lra.
have H4 : Rabs (/ 2)%Re = (/ 2)%Re by rewrite Rabs_pos_eq; lra.
rewrite H3 H4; have := Rabs_pos (sin (u - v)%Re); have := Rabs_pos (sin ((2 * u + 2 * v) / 2)%Re).
move: H1 H2; move: (Rabs _) (Rabs _) (Rabs _) => a b c; nra.
Qed.

Lemma sin2_lip (u v : R) : (Rabs (- sin (2 * u)%Re - - sin (2 * v)%Re)%Re <= 2 * Rabs (u - v)%Re)%Re.
Proof.
have -> : (- sin (2 * u)%Re - - sin (2 * v)%Re = sin (2 * v)%Re - sin (2 * u)%Re)%Re by ring.
rewrite form4 !Rabs_mult.
have -> : ((2 * v - 2 * u) / 2 = v - u)%Re by field.
rewrite (Rabs_minus_sym u v).
have H1 := sin_abs (v - u)%Re; have H2 : (Rabs (cos ((2 * v + 2 * u) / 2)%Re) <= 1)%Re by apply: Rabs_le; exact: COS_bound.
have H3 : Rabs 2%Re = 2%Re by rewrite Rabs_pos_eq; lra.
rewrite H3; have := Rabs_pos (sin (v - u)%Re); have := Rabs_pos (cos ((2 * v + 2 * u) / 2)%Re).
move: H1 H2; move: (Rabs _) (Rabs _) (Rabs _) => a b c; nra.
Qed.

Section Atan.
Let f (x : 'cV[R]_1) (t : R) : 'cV[R]_1 := const_mx (cos (x 0 0) ^+ 2).
Let y (t : R) : 'cV[R]_1 := const_mx (atan t).
Let y2 (t : R) : 'cV[R]_1 := const_mx (- 2%:R * t / (1 + t ^+ 2) ^+ 2).
Let y3 (t : R) : 'cV[R]_1 := const_mx ((6%:R * t ^+ 2 - 2%:R) / (1 + t ^+ 2) ^+ 3).

Lemma cos2_atan (t : R) : (cos (atan t) * cos (atan t) = / (1 + t * t))%Re.
Proof.
rewrite cos_atan; have H : (0 < 1 + t²)%Re by rewrite /Rsqr; nra.
have := sqrt_sqrt (1 + t²)%Re (Rlt_le _ _ H); have := sqrt_lt_R0 _ H.
rewrite -/(Rsqr t); move: (sqrt _) => s s0 <-; field; lra.
Qed.

Lemma atan_jac t x i j : jac (f^~ t) x i j = Ropp (sin (Rmult 2%Re (x 0 0))).
Proof.
rewrite !mxE /pderiv; apply: is_derive_unique; rewrite !ord1.
have -> : (fun s => f (vshift x 0 s) t 0 0) = (fun s => Rmult (cos (Rplus (x 0 0) s)) (cos (Rplus (x 0 0) s))).
  by apply: functional_extensionality => s; rewrite /f /vshift mxE !(addmxE, scalemxE) mxE eqxx mulr1 expr2.
auto_derive => //; rewrite sin_2a Rplus_0_r; ring.
Qed.

Lemma atan_example (h : R) (N : nat) : N%:R * h <= 1 ->
  [/\ lipschitz f 1, forall x t i j, `|jac (f^~ t) x i j| <= 1,
      forall x t x' t' e i j, sup_le (x - x') e -> `|jac (f^~ t) x i j - jac (f^~ t') x' i j| <= 2%:R * (e + `|t - t'|),
      [/\ deriv_on (N%:R * h) y (fun t => f (y t) t), deriv_on (N%:R * h) (fun t => f (y t) t) y2 & deriv_on (N%:R * h) y2 y3] &
      forall t : R, 0 <= t -> t <= N%:R * h -> [/\ sup_le (f (y t) t) 1, sup_le (y2 t) 2%:R & sup_le (y3 t) 4%:R]].
Proof.
move=> Nh; have Ef t i j : f (y t) t i j = (/ (1 + t * t))%Re.
  by rewrite !mxE -cos2_atan expr2.
have EF : (fun t => f (y t) t) = (fun t => const_mx (/ (1 + t * t))%Re).
  by apply: functional_extensionality => t; apply/matrixP=> i j; rewrite Ef mxE.
have pos (t : R) : (0 < 1 + t * t)%Re by nra.
have Epos (t : R) : 1 + t ^+ 2 = (1 + t * t)%Re by rewrite expr2.
split.
- move=> a b t e H i; have := H 0; rewrite !mxE mul1r !expr2 => /RleP Hu; apply/RleP.
  by apply: Rle_trans (cos2_lip _ _) Hu.
- by move=> x t i j; rewrite atan_jac; apply/RleP; rewrite RnormE Rabs_Ropp; apply: Rabs_le; exact: SIN_bound.
- move=> a t b t' e i j H; rewrite !atan_jac; have := H 0; rewrite !mxE => /RleP Hu.
  have := normr_ge0 (t - t') => /RleP; move: `|t - t'| => w W; apply/RleP.
  have {}Hu : Rle (Rabs (Rminus (a 0 0) (b 0 0))) e := Hu.
  apply: Rle_trans (sin2_lip _ _) _; have -> : 2%:R * (e + w) = (2 * (e + w))%Re by toR.
  move: Hu W; toR => H1 H2; apply: Rmult_le_compat_l; first lra.
  by apply: Rle_trans H1 _; lra.
- rewrite EF; split=> t i t0 tN.
  + have -> : (fun s => y s i 0) = atan by apply: functional_extensionality => s; rewrite mxE.
    rewrite mxE; apply/is_derive_Reals; have := derivable_pt_lim_atan t.
    by have -> : (t ^ 2 = t * t)%Re by ring.
  + apply: (@is_derive_ext _ _ (fun s => / (1 + s * s))%Re); first by move=> s; rewrite mxE.
    rewrite mxE Epos; auto_derive; first by have := pos t; lra.
    toR; field; have := pos t; lra.
  + have E2 s : (- 2 * s / ((1 + s * s) * (1 + s * s)))%Re = y2 s i 0.
      by rewrite mxE Epos; have := pos s; toR => p; field; lra.
    apply: (@is_derive_ext _ _ (fun s => - 2 * s / ((1 + s * s) * (1 + s * s)))%Re) => //.
    have p := pos t; rewrite mxE Epos; auto_derive; first by have := Rmult_lt_0_compat _ _ p p; lra.
    by toR; field; lra.
- move=> t t0 tN; have t1 : t <= 1 by exact: le_trans Nh.
  move/RleP: t0; move/RleP: t1; toR => t1 t0; have p := pos t.
  have i1 : (0 < / (1 + t * t) <= 1)%Re.
    split; first exact: Rinv_0_lt_compat.
    rewrite -[X in (_ <= X)%Re]Rinv_1; apply: Rinv_le_contravar; nra.
  split=> i; rewrite ?Ef ?mxE ?Epos; apply/RleP; rewrite RnormE; apply: Rabs_le.
  + toR; lra.
  + have -> : - 2%:R * t / (1 + t * t)%Re ^+ 2 = (- 2 * t * (/ (1 + t * t) * / (1 + t * t)))%Re by toR; field; lra.
    move: (/ (1 + t * t))%Re i1 => a i1.
    have a2 : (0 <= a * a <= 1)%Re by split; nra.
    by move: (a * a)%Re a2 => c c1; toR; split; nra.
  + have -> : (6%:R * t ^+ 2 - 2%:R) / (1 + t * t)%Re ^+ 3 = ((6 * t * t - 2) * (/ (1 + t * t) * / (1 + t * t) * / (1 + t * t)))%Re by toR; field; lra.
    move: (/ (1 + t * t))%Re i1 => a i1.
    have a2 : (0 <= a * a <= 1)%Re by split; nra.
    have a3 : (0 <= a * a * a <= 1)%Re by move: (a * a)%Re a2 => c c1; split; nra.
    have t2 : (0 <= t * t <= 1)%Re by split; nra.
    have -> : (6 * t * t - 2 = 6 * (t * t) - 2)%Re by ring.
    by move: (a * a * a)%Re a3 (t * t)%Re t2 => c c1 u u1; toR; split; nra.
Qed.
End Atan.

Lemma atan_pi (lp : lapack) (g : prng) (sq : bool) : exists C : R, forall n : nat, (0 < n)%N ->
  exists x : 'cV[R]_1, ekf1 lp (None : option (key g)) (0 : 'cV[R]_1) (fun z _ => const_mx (cos (z 0 0) ^+ 2)) (n%:R^-1) n sq
    (a_prior (ioup 0 1 1 (n%:R^-1) 1)) None = Val x /\ `|x 0 0 - PI / 4%:R| <= C / n%:R ^+ 2.
Proof.
have [C [c [_ _ H]]] := @ekf1_order2 1 1 2%:R 1 2%:R 4%:R 1 ler01 (ler0n _ _) ler01 (ler0n _ _) (ler0n _ _) ler01.
exists C => n n0; have nz : n%:R != 0 :> R by rewrite pnatr_eq0 -lt0n.
have E1 : n%:R * n%:R^-1 = 1 :> R by rewrite mulfV.
have i0 : 0 < n%:R^-1 :> R by rewrite invr_gt0 ltr0n.
have [A1 A2 A3 [A4 A5 A6] A7] := @atan_example n%:R^-1 n (eq_ind_r (fun z : R => z <= 1) (lexx 1) E1).
have [x [m [P [B1 B2 _ _ _]]]] := H lp g _ _ 1 n _ _ _ sq erefl i0 (oner_neq0 _) (eq_ind_r (fun z : R => z <= 1) (lexx 1) E1) A1 A2 A3 A4 A5 A6 A7.
exists x; split.
  by rewrite -B1; congr (ekf1 _ _ _ _ _ _ _ _ _); apply/matrixP=> i j; rewrite !mxE atan_0.
have := B2 0; rewrite E1 !mxE atan_1 exprVn; congr (`|_ - _| <= _).
by toR.
Qed.
