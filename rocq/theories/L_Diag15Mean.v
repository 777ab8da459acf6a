(** The one-step mean of [diag_15_scheme] in every dimension. Proofs for C116. *)
From Coq Require Import Reals Lra.
From Coquelicot Require Import Coquelicot.
From mathcomp Require Import all_ssreflect all_algebra mxtens.
From Verif Require Import Rstruct Base Linalg Calc Prob Spec M_Utils M_Scheme15 M_Ivp L_Ivp L_Scheme15 L_RefVar.

Set Implicit Arguments.
Unset Strict Implicit.
Unset Printing Implicit Defensive.
Import Order.TTheory GRing.Theory Num.Theory.
Local Open Scope ring_scope.

Section Mean.
Variables (d : nat) (a : 'cV[R]_d -> 'cV[R]_d) (s : 'cV[R]_d -> 'M[R]_d) (h : R) (x : 'cV[R]_d).
Hypothesis diag : forall i j, i != j -> (s x *m (s x)^T) i j = 0.
Variables (Om : Type) (E : expectation Om) (zeta eta : Om -> 'cV[R]_d).
Hypothesis Eeta : forall i, E (fun w => eta w i 0) = 0.
Hypothesis Eeta2 : forall i, E (fun w => eta w i 0 ^+ 2) = h.
Hypothesis Ezeta : forall i, E (fun w => zeta w i 0) = 0.


Lemma Emx_dot (u : 'cV[R]_d) (Y : Om -> 'cV[R]_d) : (forall i, E (fun w => Y w i 0) = 0) ->
  Emx E (fun w => const_mx (dotv u (Y w)) : 'cV[R]_d) = 0.
Proof.
move=> H; apply/matrixP => i j; rewrite !mxE.
transitivity (E (fun w => (u^T *m Y w) 0 0)); first by apply: E_ext => w; rewrite mxE.
have := Emx_mull E u^T Y; move/matrixP/(_ 0 0); rewrite mxE => ->.
by rewrite mxE big1 // => k _; rewrite !mxE H mulr0.
Qed.

Lemma diag15_mean_gen :
  Emx E (fun w => diag15_step a s h x (zeta w) (eta w)) =
  mean_taylor2 a s x h + (h * (d%:R / 3%:R - 1) / 2%:R) *:
    ((partialxsigma s x *m partialxsigma s x *m s x + \matrix_(i, j) laplacesigma s x j 0) *m const_mx 1).
Proof.
have e1 : Emx E eta = 0 by apply/colP => i; rewrite !mxE Eeta.
have z1 : Emx E zeta = 0 by apply/colP => i; rewrite !mxE Ezeta.
have ez i : E (fun w => (h *: eta w - zeta w) i 0) = 0.
  transitivity (E (fun w => h * eta w i 0 + (-1) * zeta w i 0)); first by apply: E_ext => w; rewrite !mxE mulN1r.
  by rewrite E_add !E_scale Eeta Ezeta !mulr0 addr0.
have sq : Emx E (fun w => \col_i (eta w i 0) ^+ 2 - h *: const_mx 1 : 'cV[R]_d) = 0.
  apply/colP => i; rewrite !mxE (@E_ext _ _ _ (fun w => eta w i 0 ^+ 2 + (- h))); last by move=> w; rewrite !mxE mulr1.
  by rewrite E_add E_const Eeta2 subrr.
have dt : Emx E (fun w => const_mx (dotv (3%:R^-1 *: eta w) (eta w)) - h *: const_mx 1 : 'cV[R]_d) =
          (h * (d%:R / 3%:R - 1)) *: const_mx 1.
  apply/colP => i; rewrite !mxE (@E_ext _ _ _ (fun w => 3%:R^-1 * (\sum_k eta w k 0 ^+ 2) + (- h))); last first.
    move=> w; rewrite !mxE mulr1 /dotv mxE mulr_sumr; congr (_ + _); apply: eq_bigr => k _.
    by rewrite !mxE expr2 mulrA.
  rewrite E_add E_const E_scale E_sum (eq_bigr (fun=> h)) => [|k _]; last by rewrite Eeta2.
  rewrite sumr_const card_ord -[h *+ d]mulr_natl; move: (d%:R : R) => u; apply: (_ : @eq R _ _); rewrite mulr1; toR.
  by field.
rewrite /diag15_step !EmxD !Emx_const !Emx_mull e1 z1 sq dt !mulmx0 !Emx_dot // !addr0.
rewrite /mean_taylor2 -(generator_drift _ diag) -scalemxAr -!scalemxAl scalerDr !scalerA.
have -> : h ^+ 2 / 2%:R / 2%:R = h ^+ 2 / 4%:R by apply: (_ : @eq R _ _); rewrite !expr2; toR; field.
by congr (_ + _); rewrite -!addrA; congr (_ + (_ + _)); rewrite addrC.
Qed.
End Mean.

(** ** [synaptic_conductance_reduced] *)
Section Syn.
Variables (sI sE : R) (x : 'cV[R]_2).
Hypothesis x1 : (0 < x 1%R 0%R)%Re.
Let s := synred_sigma_ sI sE.
Let c (i : 'I_2) : R := if i == 0 then sE else sI.

Lemma syn_diag z i : diagSigma s z i 0 = c i * sqrt (z 1 0).
Proof. by move: i; apply: ord2P; rewrite !mxE /= ?vget1 ?vget_clamp. Qed.

Let S1 i (u v : R) : R := (c i * sqrt v)%Re.

Lemma syn_jac0 z i : jac (diagSigma s) z i 0 = 0.
Proof.
rewrite mxE (@pderiv_ext _ _ (fun y => S1 i (y 0 0) (y 1 0))); last by move=> y; rewrite syn_diag.
by rewrite pderiv2_0; exact: Derive_const.
Qed.

Lemma syn_jac1 z i : jac (diagSigma s) z i 1 = Derive (S1 i 0) (z 1 0).
Proof.
rewrite mxE (@pderiv_ext _ _ (fun y => S1 i (y 0 0) (y 1 0))); last by move=> y; rewrite syn_diag.
by rewrite pderiv2_1.
Qed.

Lemma S1_derive i (v : R) : (0 < v)%Re -> Derive (S1 i 0) v = (c i / (2 * sqrt v))%Re.
Proof.
move=> v0; apply: is_derive_unique; rewrite /S1; have sp := sqrt_lt_R0 _ v0.
by auto_derive => //; field; lra.
Qed.

Lemma syn_hess0 i : hess (diagSigma s) x i 0 0 = 0.
Proof.
rewrite mxE (@pderiv_ext _ _ (fun=> 0)); last by move=> y; exact: syn_jac0.
exact: pderiv_const.
Qed.

Lemma syn_hess1 i : hess (diagSigma s) x i 1 1 = (- (c i / (4 * (x 1%R 0%R * sqrt (x 1%R 0%R)))))%Re.
Proof.
pose G (u v : R) : R := Derive (S1 i 0) v.
rewrite mxE (@pderiv_ext _ _ (fun y => G (y 0 0) (y 1 0))); last by move=> y; exact: syn_jac1.
rewrite pderiv2_1 /G; have sp := sqrt_lt_R0 _ x1.
rewrite (@Derive_ext_loc _ (fun v => (c i / (2 * sqrt v))%Re)); last first.
  by apply: filter_imp (open_gt 0%Re _ x1) => v; exact: S1_derive.
apply: is_derive_unique; auto_derive; first by repeat split; lra.
have E : (sqrt (x 1%R 0%R) * sqrt (x 1%R 0%R) = x 1%R 0%R)%Re by rewrite sqrt_sqrt //; lra.
by move: (sqrt (x 1%R 0%R)) sp E => q q0 <-; field; lra.
Qed.

Lemma syn_bias i : ((partialxsigma s x *m partialxsigma s x *m s x + \matrix_(k, j) laplacesigma s x j 0) *m (const_mx 1 : 'cV[R]_2)) i 0 =
  (sI * sI * (c i - sE - sI) / (4 * sqrt (x 1%R 0%R)))%Re.
Proof.
have sp := sqrt_lt_R0 _ x1.
have E : (sqrt (x 1%R 0%R) * sqrt (x 1%R 0%R) = x 1%R 0%R)%Re by rewrite sqrt_sqrt //; lra.
have L k : laplacesigma s x k 0 = (- (sI * sI * c k / (4 * sqrt (x 1%R 0%R))))%Re.
  rewrite /laplacesigma /laplaceweighted_diag mxE /dotv !(mulmxE, sum2, mxE) -/(hess _ _ _ _ _).
  rewrite [pderiv _ 0 _](_ : _ = hess (diagSigma s) x k 0 0); last by rewrite mxE.
  rewrite [pderiv _ 1 _](_ : _ = hess (diagSigma s) x k 1 1); last by rewrite mxE.
  rewrite syn_hess0 syn_hess1 /= ?vget1 ?vget_clamp; toR.
  by move: (sqrt (x 1%R 0%R)) sp E => q q0 <-; field; lra.
have c0 : c 0 = sE by [].
have c1 : c 1 = sI by [].
have P k : partialxsigma s x k 0 = 0 by exact: syn_jac0.
have Q k : partialxsigma s x k 1 = (c k / (2 * sqrt (x 1%R 0%R)))%Re.
  by rewrite [LHS]syn_jac1 S1_derive.
have s11 : s x 1 1 = (sI * sqrt (x 1%R 0%R))%Re by rewrite mxE /= vget_clamp.
have s10 : s x 1 0 = 0 by rewrite mxE.
rewrite !(addmxE, mulmxE, sum2) !P !Q s11 s10 ![const_mx _ _ _]mxE c0 c1.
have M k j : (\matrix_(k, j) laplacesigma s x j 0 : 'M[R]_2) k j = laplacesigma s x j 0 by rewrite mxE.
rewrite !M !L c0 c1; toR.
by move: (sqrt (x 1%R 0%R)) sp {E L Q s11 M} => q q0; field; lra.
Qed.
End Syn.

Lemma syn_diagonal sI sE (x : 'cV[R]_2) i j : i != j -> (synred_sigma_ sI sE x *m (synred_sigma_ sI sE x)^T) i j = 0.
Proof. by move: i j; apply: ord2P; apply: ord2P => // _; rewrite !(mulmxE, sum2, mxE) /= !(mulr0, mul0r) addr0. Qed.

Lemma syn_step_mean tE tI gE gI sI sE (x : 'cV[R]_2) (h : R) (Om : Type) (E : expectation Om) (zeta eta : Om -> 'cV[R]_2) :
  0 < x 1 0 -> (forall i, E (fun w => eta w i 0) = 0) -> (forall i, E (fun w => eta w i 0 ^+ 2) = h) ->
  (forall i, E (fun w => zeta w i 0) = 0) ->
  Emx E (fun w => diag15_step (synred_drift_ tE tI gE gI) (synred_sigma_ sI sE) h x (zeta w) (eta w)) =
  synred_mean_ tE tI gE gI x h + (h * sI ^+ 2 / (24%:R * sqrt (x 1 0))) *: cv 2 [:: sI; sE].
Proof.
move=> /RltP x1 H1 H2 H3.
rewrite (diag15_mean_gen _ (@syn_diagonal sI sE x) H1 H2 H3) (synred_taylor _ _ _ _ sI sE); congr (_ + _).
have sp := sqrt_lt_R0 _ x1; have e24 : (24%:R : R) = 24%Re by rewrite RnatE INR_IZR_INZ.
apply/colP => i; rewrite [LHS]mxE (syn_bias sI sE x1) [RHS]mxE e24 expr2.
by move: i; apply: ord2P; rewrite mxE /=; apply: (_ : @eq R _ _); toR; field; lra.
Qed.

Lemma syn_test (Om : Type) (E : expectation Om) (zeta eta : Om -> 'cV[R]_2) (h := 1 / 100%:R : R) :
  (forall i, E (fun w => eta w i 0) = 0) -> (forall i, E (fun w => eta w i 0 ^+ 2) = h) ->
  (forall i, E (fun w => zeta w i 0) = 0) -> forall i,
  `|E (fun w => diag15_step synred_drift synred_sigma h synred_x0 (zeta w) (eta w) i 0) - synred_mean h i 0| <= 1 / 10%:R ^+ 6.
Proof.
move=> H1 H2 H3 i.
have e10 : (10%:R : R) = 10%Re by rewrite RnatE INR_IZR_INZ.
have e24 : (24%:R : R) = 24%Re by rewrite RnatE INR_IZR_INZ.
have e100 : (100%:R : R) = 100%Re by rewrite RnatE INR_IZR_INZ.
have e6 : (10%:R : R) ^+ 6 = 1000000%Re by rewrite e10 !exprS expr0; toR; ring.
have xE : synred_x0 1 0 = 10%Re by rewrite mxE /= /syn_G_I0 e10.
have x1 : 0 < synred_x0 1 0 by rewrite xE; apply/RltP; toR; lra.
have := syn_step_mean syn_tau_E syn_tau_I syn_gbar_E syn_gbar_I syn_sig_I syn_sig_E x1 H1 H2 H3.
move/colP/(_ i); rewrite [LHS]mxE [RHS]mxE => ->.
rewrite addrC addKr xE mxE.
have sq : (1 <= sqrt 10%Re)%Re by have := sqrt_le_1_alt 1%Re 10%Re; rewrite sqrt_1; apply; lra.
have -> : cv 2 [:: syn_sig_I; syn_sig_E] i 0 = (1 / 10)%Re.
  by move: i; apply: ord2P; rewrite mxE /= ?/syn_sig_I ?/syn_sig_E e10; toR.
have iq : (0 < / sqrt 10%Re <= 1)%Re.
  split; first by apply: Rinv_0_lt_compat; lra.
  by rewrite -[X in (_ <= X)%Re]Rinv_1; apply: Rinv_le_contravar; lra.
have -> : h * syn_sig_I ^+ 2 / (24%:R * sqrt 10%Re) * (1 / 10)%Re = (/ sqrt 10%Re * (1 / 2400000))%Re.
  by apply: (_ : @eq R _ _); rewrite /h /syn_sig_I e10 e100 e24 expr2; toR; field; lra.
by rewrite ler_norml; apply/andP; split; apply/RleP; rewrite e6; toR; lra.
Qed.

Lemma diag15_mean_entry d (a : 'cV[R]_d -> 'cV[R]_d) (s : 'cV[R]_d -> 'M[R]_d) (h : R) (x : 'cV[R]_d)
  (Om : Type) (E : expectation Om) (zeta eta : Om -> 'cV[R]_d) :
  (forall i j, i != j -> (s x *m (s x)^T) i j = 0) ->
  (forall i, E (fun w => eta w i 0) = 0) -> (forall i, E (fun w => eta w i 0 ^+ 2) = h) ->
  (forall i, E (fun w => zeta w i 0) = 0) ->
  let D z : 'cV[R]_d := \col_i s z i i in
  forall i, E (fun w => diag15_step a s h x (zeta w) (eta w) i 0) = mean_taylor2 a s x h i 0 +
  h * (d%:R / 3%:R - 1) / 2%:R *
  \sum_j ((jac D x *m jac D x *m s x) i j + \sum_l (s x *m (s x)^T) l l * hess D x j l l).
Proof.
move=> dg H1 H2 H3 D i.
have /colP/(_ i) := diag15_mean_gen a dg H1 H2 H3; rewrite [LHS]mxE [RHS]mxE => ->.
congr (_ + _); rewrite mxE; congr (_ * _); rewrite mulmxE; apply: eq_bigr => j _.
rewrite [const_mx _ _ _]mxE mulr1 addmxE; congr (_ + _).
rewrite mxE /laplacesigma /laplaceweighted_diag mxE /dotv mulmxE; apply: eq_bigr => l _.
by congr (_ * _); [rewrite trmxE [LHS]mxE | rewrite [LHS]mxE].
Qed.

Lemma signs_hyp n (h : R) (eta := fun w => sqrt h *: @rademacher n w) (zeta := fun w => (h / 2%:R) *: eta w) : 0 <= h ->
  [/\ forall i, signsE n (fun w => eta w i 0) = 0, forall i, signsE n (fun w => eta w i 0 ^+ 2) = h &
      forall i, signsE n (fun w => zeta w i 0) = 0].
Proof.
move=> h0; have [/matrixP S1 _] := rademacher_standard n.
have e1 i : signsE n (fun w => eta w i 0) = 0.
  have := S1 i 0; rewrite !mxE => S; rewrite -[RHS](mulr0 (sqrt h)) -S -E_scale.
  by apply: E_ext => w; rewrite [LHS]mxE.
split=> // i.
  rewrite -[RHS](E_const (signsE n)); apply: E_ext => w; rewrite /eta scalemxE exprMn.
  have -> : rademacher w i 0 ^+ 2 = 1 by rewrite mxE /sgn; case: (w i); rewrite ?sqrrN expr1n.
  by rewrite mulr1 expr2; apply: sqrt_sqrt; apply/RleP.
rewrite -[RHS](mulr0 (h / 2%:R)) -(e1 i) -E_scale; apply: E_ext => w; by rewrite [LHS]mxE.
Qed.

Lemma syn_mean_off (h : R) (Om : Type) (E : expectation Om) (zeta eta : Om -> 'cV[R]_2) : 0 < h ->
  (forall i, E (fun w => eta w i 0) = 0) -> (forall i, E (fun w => eta w i 0 ^+ 2) = h) ->
  (forall i, E (fun w => zeta w i 0) = 0) ->
  Emx E (fun w => diag15_step synred_drift synred_sigma h synred_x0 (zeta w) (eta w)) <> synred_mean h.
Proof.
move=> h0 H1 H2 H3.
have x1 : 0 < synred_x0 1 0 by rewrite mxE /= ltr0n.
have s0 : 0 < syn_sig_I by rewrite divr_gt0 ?ltr01 ?ltr0n.
rewrite (syn_step_mean syn_tau_E syn_tau_I syn_gbar_E syn_gbar_I syn_sig_I syn_sig_E x1 H1 H2 H3).
rewrite -[X in _ <> X]addr0 => /addrI/colP/(_ 0); rewrite !scalemxE [cv _ _ _ _]mxE [RHS]mxE /=.
have q0 : 0 < sqrt (synred_x0 1 0) by apply/RltP; apply: sqrt_lt_R0; apply/RltP.
apply/eqP; apply: lt0r_neq0; apply: mulr_gt0 => //; apply: divr_gt0; apply: mulr_gt0 => //; last exact: ltr0n.
by rewrite expr2; exact: mulr_gt0.
Qed.

(** [synaptic_conductance]: in dimension three the shift vanishes. *)
Lemma syn3_mean (h : R) (Om : Type) (E : expectation Om) (zeta eta : Om -> 'cV[R]_3) :
  (forall i, E (fun w => eta w i 0) = 0) -> (forall i, E (fun w => eta w i 0 ^+ 2) = h) ->
  (forall i, E (fun w => zeta w i 0) = 0) ->
  Emx E (fun w => diag15_step syn_drift syn_sigma h syn_x0 (zeta w) (eta w)) = mean_taylor2 syn_drift syn_sigma syn_x0 h /\
  Emx E (fun w => diag15_step syn_drift syn_sigma h syn_x0 (zeta w) (eta w)) - syn_mean h =
    cv 3 [:: 273%:R / 10%:R * h ^+ 2; 0; 0].
Proof.
move=> H1 H2 H3.
have x1 : 0 <= syn_x0 1 0 by rewrite mxE /= ler0n.
have x2 : 0 <= syn_x0 (inord 2) 0 by rewrite mxE /= inordK //= ler0n.
have dg i j : i != j -> (syn_sigma syn_x0 *m (syn_sigma syn_x0)^T) i j = 0.
  rewrite (syn_noise _ _ x1 x2) mxE.
  by case: i => -[|[|[|i]]] //= ii; case: j => -[|[|[|j]]] //= jj.
have E1 : Emx E (fun w => diag15_step syn_drift syn_sigma h syn_x0 (zeta w) (eta w)) = mean_taylor2 syn_drift syn_sigma syn_x0 h.
  rewrite (diag15_mean_gen _ dg H1 H2 H3).
  have -> : h * (3%:R / 3%:R - 1) / 2%:R = 0 by rewrite divff ?pnatr_eq0 // subrr mulr0 mul0r.
  by rewrite scale0r addr0.
split=> //; rewrite E1 syn_mean_default opprD addrA subrr add0r.
apply/colP => i; rewrite !mxE; case: i => -[|[|[|i]]] //= ii; rewrite ?oppr0 //.
by rewrite mulNr opprK.
Qed.
