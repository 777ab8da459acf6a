(** Algorithm 4 with its call repaired: law of the returned samples. *)
From Coq Require Import Reals Lra FunctionalExtensionality.
From Coquelicot Require Import Coquelicot.
From mathcomp Require Import all_ssreflect all_algebra mxtens.
From Verif Require Import Rstruct Base Linalg Lapack Calc Prob Spec M_Utils L_Utils M_Foster L_Foster
  M_Filter L_Filter M_Prior L_Prior M_OdeSolvers L_OdeSolvers L_Alg3 M_Ssm L_Ssm L_Total.

Set Implicit Arguments.
Unset Strict Implicit.
Unset Printing Implicit Defensive.
Import Order.TTheory GRing.Theory Num.Theory.
Local Open Scope ring_scope.

(** ** One step, as matrices *)
Section Step.
Variables (d n : nat) (P A Q : 'M[R]_n) (s2 s3 e0 e1 H0 H1 : 'M[R]_(d, n)) (D B : 'M[R]_d) (a w c h kap q00 : R).
Hypotheses (pP : psd P) (pQ : psd Q) (k0 : 0 < kap).
(* before the step: H0 vanishes on the state, s2 has variance a, s3 has covariance B, e0 has variance w *)
Hypotheses (HP : H0 *m P = 0) (P22 : s2 *m P *m s2^T = a%:M) (P23 : s2 *m P *m s3^T = 0) (P33 : s3 *m P *m s3^T = B).
Hypotheses (Pee : e0 *m P *m e0^T = w%:M) (Pe2 : e0 *m P *m s2^T = 0) (Pe3 : e0 *m P *m s3^T = 0).
Hypotheses (A2 : s2 *m A = s2) (A3 : s3 *m A = s3) (AH : H1 *m A = H0 + c *: (D *m s3)).
Hypotheses (Ae : e1 *m A *m P = e0 *m P + (h / 2%:R * c) *: (D *m s3 *m P)).
Hypotheses (Q2 : s2 *m Q = 0) (Q3 : s3 *m Q = 0) (QH : H1 *m Q *m H1^T = kap%:M).
Hypotheses (QeH : e1 *m Q *m H1^T = (h / 2%:R * kap)%:M) (Qee : e1 *m Q *m e1^T = q00%:M).
Let Pp := A *m P *m A^T + Q.
Let S := H1 *m Pp *m H1^T.
Let P' := Pp - Pp *m H1^T *m invmx S *m H1 *m Pp.

Lemma PpT : Pp^T = Pp.
Proof. by have [] : psd Pp by apply: psdD => //; exact: psd_congr. Qed.

Lemma PH0 : P *m H0^T = 0.
Proof. by rewrite -[P]pP.1 -trmx_mul HP trmx0. Qed.

Lemma trD p q (X Y : 'M[R]_(p, q)) : (X + Y)^T = X^T + Y^T.
Proof. by apply/matrixP=> i j; rewrite !mxE. Qed.
Lemma trZ p q (x : R) (X : 'M[R]_(p, q)) : (x *: X)^T = x *: X^T.
Proof. by apply/matrixP=> i j; rewrite !mxE. Qed.

(** covariances with the innovation *)
Lemma innov p (r : 'M[R]_(p, n)) : r *m Pp *m H1^T = c *: (r *m A *m P *m s3^T *m D^T) + r *m Q *m H1^T.
Proof.
rewrite /Pp mulmxDr mulmxDl !mulmxA; congr (_ + _).
rewrite -[r *m A *m P *m A^T *m _]mulmxA -trmx_mul AH trD mulmxDr trZ -mulmxA PH0 mulmx0 add0r.
by rewrite -scalemxAr trmx_mul !mulmxA.
Qed.

Lemma SE : S = c ^+ 2 *: (D *m B *m D^T) + kap%:M.
Proof.
rewrite /S innov QH AH !mulmxDl HP !mul0mx add0r.
by rewrite -!scalemxAl scalerA -expr2 -P33 !mulmxA.
Qed.

Lemma S_pd : pd S.
Proof.
rewrite SE addrC; apply: pdD; last by apply: psdZ; [exact: sqr_ge0 | rewrite -P33; apply: psd_congr; exact: psd_congr].
by rewrite -scalemx1; apply: pdZ => //; exact: pd1.
Qed.

Lemma in2 : s2 *m Pp *m H1^T = 0.
Proof. by rewrite innov A2 P23 Q2 !mul0mx scaler0 addr0. Qed.
Lemma in3 : s3 *m Pp *m H1^T = c *: (B *m D^T).
Proof. by rewrite innov A3 P33 Q3 mul0mx addr0. Qed.
Lemma ine : e1 *m Pp *m H1^T = (h / 2%:R) *: S.
Proof.
rewrite innov Ae QeH SE scalerDr scale_scalar_mx; congr (_ + _).
rewrite !mulmxDl Pe3 mul0mx add0r -!scalemxAl !scalerA; congr (_ *: _); first by rewrite expr2; rring.
by rewrite -P33 !mulmxA.
Qed.

Lemma post p q (r : 'M[R]_(p, n)) (r' : 'M[R]_(q, n)) :
  r *m P' *m r'^T = r *m Pp *m r'^T - (r *m Pp *m H1^T) *m invmx S *m (r' *m Pp *m H1^T)^T.
Proof. by rewrite /P' mulmxBr mulmxBl !trmx_mul trmxK PpT !mulmxA. Qed.

Lemma pre p q (r : 'M[R]_(p, n)) (r' : 'M[R]_(q, n)) :
  r *m Pp *m r'^T = (r *m A) *m P *m (r' *m A)^T + r *m Q *m r'^T.
Proof. by rewrite /Pp mulmxDr mulmxDl trmx_mul !mulmxA. Qed.

Lemma step_H : H1 *m P' = 0.
Proof.
rewrite /P' mulmxBr !mulmxA -/S mulmxV ?pd_unit //; last exact: S_pd.
by rewrite mul1mx subrr.
Qed.
Lemma step_22 : s2 *m P' *m s2^T = a%:M.
Proof. by rewrite post in2 !mul0mx subr0 pre A2 P22 Q2 mul0mx addr0. Qed.
Lemma step_23 : s2 *m P' *m s3^T = 0.
Proof. by rewrite post in2 !mul0mx subr0 pre A2 A3 P23 Q2 mul0mx addr0. Qed.
Lemma step_33 : s3 *m P' *m s3^T = B - c ^+ 2 *: (B *m D^T *m invmx S *m D *m B).
Proof.
have BT : B^T = B by rewrite -P33 !trmx_mul trmxK pP.1 !mulmxA.
rewrite post in3 pre A3 P33 Q3 mul0mx addr0 trZ trmx_mul trmxK BT.
by rewrite -!scalemxAl -!scalemxAr scalerA -expr2 !mulmxA.
Qed.
Lemma step_e2 : e1 *m P' *m s2^T = 0.
Proof.
rewrite post in2 trmx0 mulmx0 subr0 pre A2 Ae mulmxDl Pe2 add0r -scalemxAl.
have -> : e1 *m Q *m s2^T = 0 by rewrite -mulmxA -[Q]pQ.1 -trmx_mul Q2 trmx0 mulmx0.
rewrite addr0 -!mulmxA.
have -> : s3 *m (P *m s2^T) = 0 by apply: trmx_inj; rewrite !trmx_mul trmxK pP.1 P23 trmx0.
by rewrite mulmx0 scaler0.
Qed.
Lemma step_e3 : e1 *m P' *m s3^T = 0.
Proof.
have BT : B^T = B by rewrite -P33 !trmx_mul trmxK pP.1 !mulmxA.
have -> : e1 *m P' *m s3^T = (h / 2%:R * c) *: (D *m B) - (h / 2%:R) *: (S *m invmx S *m (c *: (D *m B))).
  rewrite post ine in3 pre A3 Ae mulmxDl Pe3 add0r -scalemxAl.
  have -> : e1 *m Q *m s3^T = 0 by rewrite -mulmxA -[Q]pQ.1 -trmx_mul Q3 trmx0 mulmx0.
  by rewrite addr0 trZ trmx_mul trmxK BT -!scalemxAl -!mulmxA [s3 *m _]mulmxA P33.
by rewrite mulmxV; [rewrite mul1mx scalerA subrr | apply: pd_unit; exact: S_pd].
Qed.
Lemma step_ee : e1 *m P' *m e1^T = (w + q00 - (h / 2%:R) ^+ 2 * kap)%:M.
Proof.
have [ST _] := S_pd.
rewrite post ine pre Qee trZ ST -!scalemxAl -!scalemxAr scalerA.
rewrite mulmxV; last by apply: pd_unit; exact: S_pd.
rewrite mul1mx.
have -> : e1 *m A *m P *m (e1 *m A)^T = w%:M + ((h / 2%:R * c) ^+ 2) *: (D *m B *m D^T).
  have e3T : s3 *m P *m e0^T = 0 by apply: trmx_inj; rewrite !trmx_mul trmxK pP.1 mulmxA Pe3 trmx0.
  have -> : e1 *m A *m P *m (e1 *m A)^T = e1 *m A *m (e1 *m A *m P)^T by rewrite -!mulmxA !trmx_mul pP.1 !mulmxA.
  rewrite Ae trD trZ mulmxDr -scalemxAr [(e0 *m P)^T]trmx_mul !trmx_mul pP.1 !mulmxA Ae !mulmxDl.
  rewrite Pee Pe3 mul0mx add0r -!scalemxAl -[D *m s3 *m P *m e0^T]mulmxA -[D *m s3 *m (P *m _)]mulmxA [s3 *m _]mulmxA e3T mulmx0 scaler0 addr0.
  by rewrite scalerA -expr2 -P33 !mulmxA.
rewrite SE -[w%:M]scalemx1 -[q00%:M]scalemx1 -[kap%:M]scalemx1 -[(w + _ - _)%:M]scalemx1.
apply/matrixP=> i j; rewrite !(addmxE, oppmxE, scalemxE).
by move: (h / 2%:R) ((D *m B *m D^T) i j) ((1%:M : 'M[R]_d) i j) => x y z; rring.
Qed.
End Step.

(** The posterior precision grows by c^2 / kap D^T D. *)
Lemma woodbury d (X B D S : 'M[R]_d) (c kap : R) : 0 < kap -> X *m B = 1%:M ->
  S = c ^+ 2 *: (D *m B *m D^T) + kap%:M -> S \in unitmx ->
  (X + (c ^+ 2 / kap) *: (D^T *m D)) *m (B - c ^+ 2 *: (B *m D^T *m invmx S *m D *m B)) = 1%:M.
Proof.
move=> k0 XB SE uS; set e := c ^+ 2 / kap; have ek : e * kap = c ^+ 2 by rewrite /e mulfVK ?lt0r_neq0.
pose Y := D^T *m (invmx S *m (D *m B)).
have H1 : X *m (B *m D^T *m invmx S *m D *m B) = Y by rewrite -!mulmxA [X *m _]mulmxA XB mul1mx.
have H2 : c ^+ 2 *: (D^T *m D *m (B *m D^T *m invmx S *m D *m B)) = D^T *m D *m B - kap *: Y.
  have -> : D^T *m D *m (B *m D^T *m invmx S *m D *m B) = D^T *m ((D *m B *m D^T) *m (invmx S *m (D *m B))) by rewrite -!mulmxA.
  rewrite scalemxAr [c ^+ 2 *: (_ *m _)]scalemxAl.
  have -> : c ^+ 2 *: (D *m B *m D^T) = S - kap%:M by rewrite SE addrK.
  by rewrite mulmxBl mulmxA mulmxV // mul1mx mul_scalar_mx mulmxBr -scalemxAr mulmxA.
rewrite mulmxDl !mulmxBr XB -[X *m (_ *: _)]scalemxAr H1 -![(e *: _) *m _]scalemxAl -[_ *m (_ *: (_ *m B))]scalemxAr H2.
by rewrite scalerBr scalerA ek opprB [X in _ + X]addrC !subrK.
Qed.

(** ** Runs *)
Section Run4.
Variables (lp : lapack) (d : nat) (drift : 'cV[R]_d -> R -> 'cV[R]_d) (D : 'M[R]_d) (delta h sg : R) (EKF0 : bool).
Hypotheses (d0 : (0 < d)%N) (dl : 0 < delta) (h0 : 0 < h) (s0 : sg != 0).
Hypothesis Hdr : EKF0 \/ forall x y t, drift x t = drift y t.
Notation sel := (@selector d 4).
Notation sel2 := (@selector d 2).
Let obs := ssm_observation EKF0 drift (fun _ _ => D) delta.
Let tr : transition 2 := ioup 0 sg 1 h 1.
Let A := ssm_A d tr.2.
Let Q := kron_eye d (ssm_pad tr.1.2 0).
Definition Hmat t : 'M[R]_(d, d * 4) := sel 1 - D *m slopes d delta t.
Definition vals t : 'M[R]_(d, d * 4) :=
  (t / delta) *: sel (inord 2) + (sqrt 6%:R * (t / delta) * (1 - t / delta)) *: sel (inord 3).
Definition emat t : 'M[R]_(d, d * 4) := sel 0 - D *m vals t.
Let c := 2%:R * sqrt 6%:R * h / delta ^+ 2.

Lemma obs_jac x t : jacfwd (obs^~ t) x = Hmat t.
Proof.
rewrite /obs; case: EKF0 Hdr => [_|[]] //; first exact: jac_ssm0.
move=> Hd; rewrite jac_ssm1.
have -> : (fun z => drift z t + D *m (slopes d delta t *m x)) = (fun _ => drift 0 t + D *m (slopes d delta t *m x)).
  by apply: functional_extensionality => z; rewrite (Hd z 0).
by rewrite jac_const mul0mx subr0.
Qed.

Lemma mx_ext p q (X Y : 'M[R]_(p, q)) : (forall y : 'cV[R]_q, X *m y = Y *m y) -> X = Y.
Proof. by move=> H; apply/matrixP=> i j; have /colP/(_ i) := H (delta_mx j 0); rewrite -!colE !mxE. Qed.

Lemma en (M : 'M[R]_(1 * 2)) (i j : 'I_2) : (M : 'M[R]_2) i j = slice2 i j M 0 0.
Proof. by rewrite mxE; congr (M _ _); apply/val_inj. Qed.

Lemma A_joint x v a b : A *m joint4 x v a b = joint4 (x + h *: v) v a b.
Proof.
have [a00 a01 a10 a11] := @ibm_A 1 h sg.
rewrite /A ssm_A_slices !en a00 a01 a10 a11 !mxE !mulr1n.
by rewrite scale1r scale0r scale1r add0r.
Qed.

Lemma sel_A : [/\ sel 0 *m A = sel 0 + h *: sel 1, sel 1 *m A = sel 1,
  sel (inord 2) *m A = sel (inord 2) & sel (inord 3) *m A = sel (inord 3)].
Proof.
split; apply: mx_ext => y; rewrite -mulmxA (joint4_slices y) A_joint ?mulmxDl -?scalemxAl !sel_slice !slice_interl ?v2 ?v3 //.
Qed.

Lemma slopes_A t : slopes d delta t *m A = slopes d delta t.
Proof. by have [_ _ A2 A3] := sel_A; rewrite /slopes -scalemxAl mulmxDl -scalemxAl A2 A3. Qed.
Lemma vals_A t : vals t *m A = vals t.
Proof. by have [_ _ A2 A3] := sel_A; rewrite /vals mulmxDl -!scalemxAl A2 A3. Qed.

Lemma H_A t : Hmat (t + h) *m A = Hmat t + c *: (D *m sel (inord 3)).
Proof.
have [_ A1 _ _] := sel_A; rewrite /Hmat mulmxBl A1 -mulmxA slopes_A -addrA; congr (_ + _).
rewrite [X in _ = - _ + X]scalemxAr -mulmxN -mulmxN -mulmxDr; congr (_ *m _).
have dn : delta != 0 by exact: lt0r_neq0.
apply/matrixP=> i j; rewrite /slopes !(addmxE, oppmxE, scalemxE) /c.
by move: (sel _ i j) (sel _ i j) (sqrt _) => x y z; toR; field; exact/eqP.
Qed.

Lemma e_A t (P : 'M[R]_(d * 4)) : Hmat t *m P = 0 ->
  emat (t + h) *m A *m P = emat t *m P + (h / 2%:R * c) *: (D *m sel (inord 3) *m P).
Proof.
move=> HP; have [A0 _ _ _] := sel_A; rewrite /emat mulmxBl A0 -mulmxA vals_A.
have dn : delta != 0 by exact: lt0r_neq0.
have -> : vals (t + h) = vals t + h *: slopes d delta t - (h / 2%:R * c) *: sel (inord 3).
  apply/matrixP=> i j; rewrite /slopes /vals !(addmxE, oppmxE, scalemxE) /c.
  by move: (sel _ i j) (sel _ i j) (sqrt _) => x y z; toR; field; exact/eqP.
have HP' : sel 1 *m P = D *m slopes d delta t *m P by apply/eqP; rewrite -subr_eq0 -mulmxBl HP.
have -> : D *m (vals t + h *: slopes d delta t - (h / 2%:R * c) *: sel (inord 3)) =
    D *m vals t + h *: (D *m slopes d delta t) - (h / 2%:R * c) *: (D *m sel (inord 3)).
  by rewrite mulmxBr mulmxDr -!scalemxAr.
rewrite !(mulmxBl, mulmxDl, mulNmx) -!scalemxAl HP'; move: (h / 2%:R * c) => k.
move: (sel 0 *m P) (D *m slopes d delta t *m P) (D *m vals t *m P) (D *m sel (inord 3) *m P) => x y z u.
apply/matrixP=> i j; rewrite !(addmxE, oppmxE, scalemxE); move: (x i j) (y i j) (z i j) (u i j) => x1 y1 z1 u1; rring.
Qed.

Lemma sl_emb t : slopes d delta t *m emb d = 0.
Proof. by rewrite /slopes -scalemxAl mulmxDl -scalemxAl !sel_emb v2 v3 scaler0 addr0 scaler0. Qed.
Lemma vals_emb t : vals t *m emb d = 0.
Proof. by rewrite /vals mulmxDl -!scalemxAl !sel_emb v2 v3 !scaler0 addr0. Qed.
Lemma H_emb t : Hmat t *m emb d = sel2 1.
Proof. by rewrite /Hmat mulmxBl -mulmxA sl_emb mulmx0 subr0 sel_emb. Qed.
Lemma e_emb t : emat t *m emb d = sel2 0.
Proof. by rewrite /emat mulmxBl -mulmxA vals_emb mulmx0 subr0 sel_emb. Qed.

Lemma Q_cov p q (X : 'M[R]_(p, d * 4)) (Y : 'M[R]_(q, d * 4)) :
  X *m Q *m Y^T = (X *m emb d) *m kron_eye d tr.1.2 *m (Y *m emb d)^T.
Proof. by rewrite /Q pad_kron trmx_mul !mulmxA. Qed.

Lemma Q_facts t : [/\ Hmat t *m Q *m (Hmat t)^T = (sg ^+ 2 * h)%:M,
  emat t *m Q *m (Hmat t)^T = (h / 2%:R * (sg ^+ 2 * h))%:M & emat t *m Q *m (emat t)^T = (sg ^+ 2 * h ^+ 3 / 3%:R)%:M].
Proof.
have [q00 q01 q10 q11] := @ibm_Q 1 h sg.
rewrite !Q_cov H_emb e_emb !sel_slice2 !slice2_kron !en q00 q01 q11 !mxE !mulr1n; split=> //.
by congr (_%:M); move: (2%:R^-1) => x; rring.
Qed.

Lemma sel_Q (i : 'I_4) : (1 < i)%N -> sel i *m Q = 0.
Proof.
move=> i1; rewrite /Q pad_kron !mulmxA sel_emb.
by case: i i1 => [[|[|[|[|i]]]] Hi] //= _; rewrite !mul0mx.
Qed.

Lemma tr_pd : pd tr.1.2.
Proof. by apply: (@ioup_pd sg 1 h 1). Qed.
Lemma Q_psd : psd Q.
Proof. by apply: pad_psd; apply: pd_psd; exact: tr_pd. Qed.

(** What the filter's covariance says after [n] steps. *)
Definition inv4 n (C : 'M[R]_(d * 4)) : Prop :=
  let t := n%:R * h in let a := sel (inord 2) in let b := sel (inord 3) in let e := emat t in
  [/\ psd C, Hmat t *m C = 0 &
     [/\ a *m C *m a^T = delta%:M, a *m C *m b^T = 0,
        ((2%:R / delta)%:M + (n%:R * (24%:R * h / (delta ^+ 4 * sg ^+ 2))) *: (D^T *m D)) *m (b *m C *m b^T) = 1%:M &
        [/\ e *m C *m e^T = (n%:R * (sg ^+ 2 * h ^+ 3 / 12%:R))%:M, e *m C *m a^T = 0 & e *m C *m b^T = 0]]].

Lemma inv4_0 : inv4 0 (ssm_var delta D).
Proof.
have dn : delta != 0 by exact: lt0r_neq0.
have s6 : sqrt 6%:R * sqrt 6%:R = 6%:R :> R by apply: sqrt_sqrt; apply/RleP; rewrite ler0n.
have pv := var_psd D dl.
have e0 : emat (0%:R * h) = sel 0.
  by rewrite /emat /vals !mul0r !mulr0 !mul0r !scale0r addr0 mulmx0 subr0.
have z i : slice2 0 i (ssm_var delta D) = 0 by rewrite slice2_var.
rewrite /inv4 e0 !sel_slice2 !slice2_var v2 v3; split; [by []| |split; [by []|by []| |split; [|by []|by []]]].
- have HE : Hmat (0%:R * h) = sel 1 - D *m (delta^-1 *: (sel (inord 2) + sqrt 6%:R *: sel (inord 3))).
    by rewrite /Hmat /slopes !mul0r mulr0 subr0 mulr1.
  have Ha : Hmat (0%:R * h) *m La delta D = 0.
    by rewrite HE mulmxBl -mulmxA -scalemxAl mulmxDl -scalemxAl !sel_La v2 v3 scaler0 addr0 -scalemxAr mulmx1 subrr.
  have Hb : Hmat (0%:R * h) *m Lb delta D = 0.
    rewrite HE mulmxBl -mulmxA -scalemxAl mulmxDl -scalemxAl !sel_Lb v2 v3 add0r -!scalemxAr mulmx1 scalerA.
    by rewrite [_^-1 * _]mulrC subrr.
  by rewrite var_decomp // mulmxDr -!scalemxAr !mulmxA Ha Hb !mul0mx !scaler0 addr0.
- rewrite mul0r scale0r addr0 -scalar_mxM; congr (_%:M); toR; field; exact/eqP.
- by rewrite mul0r scalar0.
Qed.

Lemma inv4_S n (m : 'cV[R]_(d * 4)) P m' P' : inv4 n P ->
  ekf_body lp obs A Q 0 0 false (m, P) (n.+1%:R * h) = Val (m', P') ->
  inv4 n.+1 P' /\ slice (inord 2) m' = slice (inord 2) m.
Proof.
move=> [pP HP [P22 P23 P33 [Pee Pe2 Pe3]]].
set B := _ *m P *m _ in P33.
have tE : n.+1%:R * h = n%:R * h + h by rewrite -addn1 natrD mulrDl mul1r.
have [A0 A1 A2 A3] := sel_A.
have [QH QeH Qee] := Q_facts (n.+1%:R * h).
have Q2 : sel (inord 2) *m Q = 0 by apply: sel_Q; rewrite v2.
have Q3 : sel (inord 3) *m Q = 0 by apply: sel_Q; rewrite v3.
have k0 : 0 < sg ^+ 2 * h by rewrite mulr_gt0 // exprn_even_gt0.
have AH := H_A (n%:R * h); rewrite -tE in AH.
have Ae := e_A HP; rewrite -tE in Ae.
have pQ := Q_psd.
have E33 : sel (inord 3) *m P *m (sel (inord 3))^T = B by [].
have pS := S_pd pP k0 HP E33 AH QH.
set Pp := A *m P *m A^T + Q in pS.
have pPp : psd Pp by apply: psdD => //; exact: psd_congr.
set H1 := Hmat _ in pS AH QH QeH; set S := H1 *m Pp *m H1^T in pS.
rewrite /ekf_body /predict; cbn [fst snd]; rewrite obs_jac -/Pp -/H1.
have S0 : S + 0 = S by rewrite addr0.
have pS0 : pd (S + 0) by rewrite S0.
case U: (update _ _ _ _ _ _) => [r||] //; cbn [rbind]; case=> rE.
have [pC _ _] : [/\ psd P', psd (Pp - P') & pd (S + 0)].
  by case: r U rE => [[m2 P2] S2] U /= [_ <-]; have [] := update_psd pPp (psd0 _) U; split.
move: U; rewrite (updateE lp _ _ pPp pS0) S0; case=> U; move: rE; rewrite -U; cbn [fst] => -[<- PE].
move: pC; rewrite -PE => pC.
have K2 := in2 pP HP P23 A2 AH Q2; rewrite -/Pp in K2.
have NE : n.+1%:R * (24%:R * h / (delta ^+ 4 * sg ^+ 2)) = n%:R * (24%:R * h / (delta ^+ 4 * sg ^+ 2)) + c ^+ 2 / (sg ^+ 2 * h).
  have s6 : sqrt 6%:R ^+ 2 = 6%:R :> R by rewrite expr2; apply: sqrt_sqrt; apply/RleP; rewrite ler0n.
  have dn : delta != 0 by exact: lt0r_neq0.
  have hn : h != 0 by exact: lt0r_neq0.
  have -> : c ^+ 2 / (sg ^+ 2 * h) = 4%:R * sqrt 6%:R ^+ 2 * h / (delta ^+ 4 * sg ^+ 2).
    by rewrite /c; move: (sqrt _) => x; toR; field; do ?split; exact/eqP.
  by rewrite s6 -addn1 natrD mulrDl mul1r; congr (_ + _); rewrite -natrM.
split; last first.
  by rewrite -!sel_slice mulmxBr addr0 mulmxA A2 !mulmxA K2 !mul0mx subr0.
split.
- exact: pC.
- exact: step_H pP k0 HP E33 AH QH.
split.
- exact: step_22 pP pQ HP P22 P23 A2 AH Q2.
- exact: step_23 pP pQ HP P23 A2 A3 AH Q2.
- rewrite NE scalerDl addrA (step_33 pP pQ HP E33 A3 AH Q3).
  by apply: (woodbury k0 P33 (SE pP HP E33 AH QH)); apply: pd_unit; exact: pS.
- split.
  + rewrite (step_ee pP pQ k0 HP E33 Pee Pe3 AH Ae QH QeH Qee); congr (_%:M).
    have -> : n.+1%:R = n%:R + 1 :> R by rewrite -addn1 natrD.
    by move: (n%:R : R) => x; rfield.
  + exact: step_e2 pP pQ HP P23 Pe2 A2 AH Ae Q2.
  + exact: step_e3 pP pQ k0 HP E33 Pe3 A3 AH Ae Q3 QH QeH.
Qed.

Lemma run4_plain x0 N m P :
  ekf lp obs A Q 0 0 false (ssm_mean x0 drift, ssm_var delta D) (mkseq (fun k => k.+1%:R * h) N) = Val (m, P) ->
  [/\ inv4 N P, slice (inord 2) m = 0 &
      forall mu, (forall x t, drift x t = mu) -> m = joint4 (x0 + (N%:R * h) *: mu) mu 0 0].
Proof.
elim: N m P => [|N IH] m P.
  rewrite ekf_nil => -[<- <-]; split; [exact: inv4_0 | by rewrite slice_interl v2 |].
  move=> mu Hmu; rewrite mul0r scale0r addr0 /ssm_mean /joint4.
  by apply: slice_ext => i; rewrite !slice_interl Hmu; case: i => [[|[|[|[|i]]]] Hi].
have -> : mkseq (fun k : nat => k.+1%:R * h) N.+1 = rcons (mkseq (fun k => k.+1%:R * h) N) (N.+1%:R * h).
  by rewrite /mkseq -addn1 iotaD map_cat /= cats1 add0n addn1.
rewrite ekf_rcons; case E: (ekf _ _ _ _ _ _ _ _ _) => [[m1 P1]||] //; cbn [rbind] => E1.
have [I1 I2 I3] := IH _ _ E; have [J1 J2] := inv4_S I1 E1; split=> //; first by rewrite J2.
move=> mu Hmu; have {I3} mE := I3 _ Hmu.
move: E1; rewrite /ekf_body /predict; cbn [fst snd].
case U: (update _ _ _ _ _ _) => [r||] //; cbn [rbind]; case=> rE.
have [pP1 _ _] := I1.
have pPp : psd (A *m P1 *m A^T + Q) by apply: psdD; [exact: psd_congr | exact: Q_psd].
have dn : delta != 0 by exact: lt0r_neq0.
have [_ U2] := update_val pPp (psd0 _) U; rewrite {}U2 in rE; move: rE => -[<- _].
have r0 : dprimal (obs^~ (N.+1%:R * h)) (A *m m1 + 0) = 0.
  by rewrite addr0 mE A_joint /obs ssm_residual // Hmu jacR_eval // scaler0 addr0 scaler0 mulmx0 addr0 subrr.
rewrite r0 mulmx0 subr0 addr0 mE A_joint.
have -> : N.+1%:R = N%:R + 1 :> R by rewrite -addn1 natrD.
by rewrite -addrA -scalerDl mulrDl mul1r.
Qed.

Lemma run4 sq prior x0 N m P : (prior = None /\ sg = 1) \/ prior = a_prior tr ->
  ssm_solver_xi lp x0 drift (fun _ _ => D) delta h N sq EKF0 prior None (Some 0) = Val (m, P) ->
  let C := if sq then P *m P^T else P in
  [/\ inv4 N C, slice (inord 2) m = 0 &
      forall mu, (forall x t, drift x t = mu) -> m = joint4 (x0 + (N%:R * h) *: mu) mu 0 0].
Proof.
move=> Hp; have Ep : ssm_prior h prior = Val tr.
  by case: Hp => [[-> e]|->]; [rewrite /tr e | rewrite /ssm_prior /a_prior eqxx as_transition_id].
have [Q' EQ GQ] := chol_or lp sq tr_pd.
have E0 : ssm_prior h prior = Val (tr.1.1, tr.1.2, tr.2) by rewrite Ep; case: (tr) => [[? ?] ?].
rewrite (@ssm_run lp d drift (fun _ _ => D) delta h N sq EKF0 x0 prior None tr.1.1 tr.1.2 tr.2 0 Q' d0 E0 erefl EQ).
case: (sq) GQ {EQ} => [GQ|-> ] E C; last exact: run4_plain.
have := ekf_sqrt_state lp obs A 0 (kron_eye d (ssm_pad Q' 0)) 0 (ssm_mean x0 drift) (sqrtm lp (ssm_var delta D)) (mkseq (fun k => k.+1%:R * h) N).
rewrite [ekf _ _ _ _ _ _ true _ _]E /= mul0mx pad_gram GQ sqrtm_gram; last exact: var_psd.
exact: run4_plain.
Qed.
End Run4.

(** ** The returned triple *)
Section Triple.
Variables (lp : lapack) (g : prng) (E : expectation (key g)) (d : nat).
Implicit Type r : 'cV[R]_d * ('cV[R]_d * 'cV[R]_d).

Lemma cov_lin n p q (X : key g -> 'cV[R]_n) m (L : 'M[R]_(p, n)) (L' : 'M[R]_(q, n)) :
  Emx E (fun k => (L *m X k - L *m m) *m (L' *m X k - L' *m m)^T) =
  L *m Emx E (fun k => (X k - m) *m (X k - m)^T) *m L'^T.
Proof.
rewrite -Emx_mull -Emx_mulr; apply: Emx_ext => k.
by rewrite -!mulmxBr trmx_mul !mulmxA.
Qed.

Definition triple (y : 'cV[R]_(d * 4)) := (slice 0 y, (slice (inord 2) y, slice (inord 3) y)).

Variables (drift : 'cV[R]_d -> R -> 'cV[R]_d) (diffusion : 'cV[R]_d -> R -> 'M[R]_d)
  (delta h : R) (sq EKF0 : bool) (N : nat) (x0 : 'cV[R]_d) (prior : prior_arg) (noise : noise_arg).
Let run (k : option (key g)) := marginal_xi (fun _ => Some 0) EKF0 lp k x0 delta drift diffusion h N sq prior noise.

Lemma marginal_law :
  (0 < d)%N -> 0 < delta ->
  (prior = None /\ 0 < h) \/ (exists2 tr : transition 2, prior = a_prior tr & pd tr.1.2) ->
  noise = None \/ (exists2 V : 'M[R]_d, noise = a_noise V & (sq = false -> psd V)) ->
  standard E (fun k => normal k (d * 4)) ->
  exists m P, ssm_solver_xi lp x0 drift diffusion delta h N sq EKF0 prior noise (Some 0) = Val (m, P) /\
  let C := if sq then P *m P^T else P in
  [/\ psd C, run None = Val (slice 0 m, (slice (inord 2) m, slice (inord 3) m)) &
  exists Y : key g -> 'cV[R]_(d * 4),
  [/\ forall k, run (Some k) = Val (slice 0 (Y k), (slice (inord 2) (Y k), slice (inord 3) (Y k))),
      Emx E Y = m & Emx E (fun k => (Y k - m) *m (Y k - m)^T) = C]].
Proof.
move=> d0 dl Hp nO st.
have [tr Ep pQ] : exists2 tr : transition 2, ssm_prior h prior = Val tr & pd tr.1.2.
  case: Hp => [[-> h0]|[tr -> pQ]].
    exists (ioup 0 1 1 h 1 : transition 2) => //.
    by apply: (@ioup_pd 1 1 h 1); rewrite ?oner_neq0.
  by exists tr => //; rewrite /ssm_prior /a_prior eqxx as_transition_id.
have [[m P] Er] := @ssm_total lp d drift diffusion delta h N sq EKF0 x0 prior noise tr d0 dl Ep pQ nO.
exists m, P; split=> //; cbv zeta; rewrite /run /marginal_xi Er; cbn [rbind].
have pP : sq = false -> psd P.
  move=> sF; have [V En pV] := noise_okP nO; have [Q' EQ GQ] := chol_or lp sq pQ.
  have E0 : ssm_prior h prior = Val (tr.1.1, tr.1.2, tr.2) by rewrite Ep; case: (tr) => [[? ?] ?].
  move: Er; rewrite (@ssm_run lp d drift diffusion delta h N sq EKF0 x0 prior noise tr.1.1 tr.1.2 tr.2 V Q' d0 E0 En EQ) sF.
  move: GQ; rewrite sF => -> Er; apply: ekf_psd Er; [exact: var_psd | apply: pad_psd; exact: pd_psd | exact: pV].
split; [by move: pP; case: (sq) => [_|]; [exact: psd_gram | exact] | by [] |].
have [H1 H2] := state_law lp m st pP.
by exists (fun k => m + (if sq then P else sqrtm lp P) *m mvn_std k (d * 4)); split.
Qed.
End Triple.

(** ** Constant diffusion: the whole law *)
Lemma alg4_law (lp : lapack) (g : prng) (E : expectation (key g)) d (drift : 'cV[R]_d -> R -> 'cV[R]_d) (D : 'M[R]_d)
  (delta h sg : R) (sq EKF0 : bool) (N : nat) (x0 : 'cV[R]_d) (prior : prior_arg) :
  (0 < d)%N -> 0 < delta -> 0 < h -> sg != 0 ->
  (prior = None /\ sg = 1) \/ prior = a_prior (ioup 0 sg 1 h 1 : transition 2) ->
  EKF0 \/ (forall x y t, drift x t = drift y t) ->
  standard E (fun k => normal k (d * 4)) ->
  exists X : key g -> 'cV[R]_d * ('cV[R]_d * 'cV[R]_d),
  (forall k, marginal_xi (fun _ => Some 0) EKF0 lp (Some k) x0 delta drift (fun _ _ => D) h N sq prior None = Val (X k)) /\
  exists mb me : 'cV[R]_d,
  let a k := (X k).2.1 in let b k := (X k).2.2 in
  let e k := (X k).1 - D *m eval_parabola (N%:R * h) delta (a k) (b k) in
  let cov (Y Z : key g -> 'cV[R]_d) mY mZ := Emx E (fun k => (Y k - mY) *m (Z k - mZ)^T) in
  [/\ Emx E a = 0, Emx E b = mb & Emx E e = me] /\
  [/\ cov a a 0 0 = delta%:M, cov a b 0 mb = 0,
      ((2%:R / delta)%:M + (N%:R * (24%:R * h / (delta ^+ 4 * sg ^+ 2))) *: (D^T *m D)) *m cov b b mb mb = 1%:M,
      [/\ cov e e me me = (N%:R * (sg ^+ 2 * h ^+ 3 / 12%:R))%:M, cov e a me 0 = 0 & cov e b me mb = 0] &
      forall mu, (forall x t, drift x t = mu) -> mb = 0 /\ me = x0 + (N%:R * h) *: mu].
Proof.
move=> d0 dl h0 s0 Hp Hd st.
have Hp' : (prior = None /\ 0 < h) \/ (exists2 tr : transition 2, prior = a_prior tr & pd tr.1.2).
  case: Hp => [[-> _]|->]; [by left | right].
  by eexists; [reflexivity | exact: (@ioup_pd sg 1 h 1)].
have [m [P [Er [pC _ [Y [HY Ym YC]]]]]] :=
  @marginal_law lp g E d drift (fun _ _ => D) delta h sq EKF0 N x0 prior None d0 dl Hp' (or_introl erefl) st.
have [[_ _ [C22 C23 C33 [Cee Ce2 Ce3]]] m2 mu_] := @run4 lp d drift D delta h sg EKF0 d0 dl h0 s0 Hd sq prior x0 N m P Hp Er.
exists (fun k => (slice 0 (Y k), (slice (inord 2) (Y k), slice (inord 3) (Y k)))); split=> //.
set t := N%:R * h in C22 C23 C33 Cee Ce2 Ce3 *.
pose a_ := selector d (inord 2 : 'I_4); pose b_ := selector d (inord 3 : 'I_4); pose e_ := emat D delta t.
exists (b_ *m m), (e_ *m m); cbv zeta; cbn [fst snd].
have aE k : slice (inord 2) (Y k) = a_ *m Y k by rewrite sel_slice.
have bE k : slice (inord 3) (Y k) = b_ *m Y k by rewrite sel_slice.
have eE k : slice 0 (Y k) - D *m eval_parabola t delta (slice (inord 2) (Y k)) (slice (inord 3) (Y k)) = e_ *m Y k.
  rewrite /e_ /emat mulmxBl sel_slice -mulmxA; congr (_ - _ *m _).
  rewrite /vals mulmxDl -!scalemxAl !sel_slice; apply/colP=> i.
  rewrite [LHS]mxE /eval_parabola1 !(addmxE, scalemxE).
  by move: (_ i 0) (_ i 0) (t / delta) (sqrt _) => x y z u; rring.
have a0 : a_ *m m = 0 by rewrite sel_slice.
have mean p (L : 'M[R]_(p, d * 4)) (Z : key g -> 'cV[R]_p) : (forall k, Z k = L *m Y k) -> Emx E Z = L *m m.
  by move=> H; rewrite -Ym -Emx_mull; exact: Emx_ext.
have cv (L L' : 'M[R]_(d, d * 4)) (Z Z' : key g -> 'cV[R]_d) : (forall k, Z k = L *m Y k) -> (forall k, Z' k = L' *m Y k) ->
    Emx E (fun k => (Z k - L *m m) *m (Z' k - L' *m m)^T) = L *m (if sq then P *m P^T else P) *m L'^T.
  by move=> H H'; rewrite -YC -cov_lin; apply: Emx_ext => k; rewrite H H'.
split; first by split; [rewrite -[RHS]a0; exact: mean aE | exact: mean bE | exact: mean eE].
have caa := cv _ _ _ _ aE aE; have cab := cv _ _ _ _ aE bE; have cea := cv _ _ _ _ eE aE; rewrite a0 in caa cab cea.
rewrite caa cab cea (cv _ _ _ _ bE bE) (cv _ _ _ _ eE eE) (cv _ _ _ _ eE bE).
split=> // mu Hmu; have {}mu_ := mu_ _ Hmu.
split; first by rewrite /b_ sel_slice mu_ slice_interl v3.
rewrite /e_ /emat mulmxBl sel_slice -mulmxA /vals mulmxDl -!scalemxAl !sel_slice mu_ !slice_interl v2 v3.
by rewrite !scaler0 addr0 mulmx0 subr0.
Qed.

Lemma alg4_not_brownian (lp : lapack) (g : prng) (E : expectation (key g)) (sq EKF0 : bool) :
  standard E (fun k => normal k (1 * 4)) ->
  exists X : key g -> 'cV[R]_1 * ('cV[R]_1 * 'cV[R]_1),
  (forall k, marginal_xi (fun _ => Some 0) EKF0 lp (Some k) 0 1 (fun _ _ => 0) (fun _ _ => 1%:M) 1 1 sq None None = Val (X k)) /\
  Emx E (fun k => (X k).2.2 *m ((X k).2.2)^T) = (26%:R^-1)%:M.
Proof.
move=> st.
have [|X [HX [mb [me [_ [_ _ H _ /(_ 0 (fun _ _ => erefl)) [mb0 _]]]]]]] :=
  @alg4_law lp g E 1 (fun _ _ => 0) 1%:M 1 1 1 sq EKF0 1 0 None isT ltr01 ltr01 (oner_neq0 _) (or_introl (conj erefl erefl)) _ st.
  by right.
exists X; split=> //; move: H; rewrite mb0.
set C := Emx E _; set C' := Emx E _; have -> : C = C' by apply: Emx_ext => k; rewrite subr0.
rewrite trmx1 mulmx1 !expr1n !mulr1 !divr1 mul1r scalemx1 -raddfD -natrD /= mul_scalar_mx => H.
have : 26%:R^-1 *: (26%:R *: C') = 26%:R^-1 *: 1%:M by congr (_ *: _); exact: H.
by rewrite scalerA mulVf ?pnatr_eq0 // scale1r scalemx1.
Qed.
