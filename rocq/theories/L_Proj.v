(** Projection of a function on [0,h] to the affine functions, in terms of integrals. *)
From Coq Require Import Reals Lra.
From Coquelicot Require Import Coquelicot.
From mathcomp Require Import ssreflect.

Local Open Scope R_scope.

Section Projection.
Variables (f : R -> R) (h : R).
Hypotheses (h0 : 0 < h) (fc : forall t, continuous f t).
Let q r := 1 - 2 * (r / h).
Let I0 := RInt f 0 h.
Let I1 := RInt (fun r => q r * f r) 0 h.
Let I2 := RInt (fun r => f r ^ 2) 0 h.

Lemma q_cont t : continuous q t.
Proof. by apply: (@ex_derive_continuous _ R_NormedModule); rewrite /q; auto_derive. Qed.

Lemma qf_cont t : continuous (fun r => q r * f r) t.
Proof. by apply: (@continuous_mult _ R_AbsRing); [exact: q_cont | exact: fc]. Qed.

Lemma f2_cont t : continuous (fun r => f r ^ 2) t.
Proof.
apply: (@continuous_ext _ _ (fun r => mult (f r) (f r))); first by move=> x; rewrite /mult /=; ring.
by apply: (@continuous_mult _ R_AbsRing).
Qed.

Lemma int_of (u : R -> R) : (forall t, continuous u t) -> is_RInt u 0 h (RInt u 0 h).
Proof. by move=> uc; apply: RInt_correct; apply: ex_RInt_continuous => z _. Qed.

Lemma proj_is a b : is_RInt (fun r => (f r - a - b * q r) ^ 2) 0 h
  (I2 + (- 2 * a) * I0 + (- 2 * b) * I1 + (a ^ 2 * h + b ^ 2 * h / 3)).
Proof.
have H2 := int_of _ f2_cont; have H0 := int_of _ fc; have H1 := int_of _ qf_cont.
have HP : is_RInt (fun r => (a + b * q r) ^ 2) 0 h (a ^ 2 * h + b ^ 2 * h / 3).
  have -> : a ^ 2 * h + b ^ 2 * h / 3 =
    minus (a ^ 2 * h + 2 * a * b * (h - h ^ 2 / h) + b ^ 2 * (h - 2 * h ^ 2 / h + 4 / 3 * h ^ 3 / h ^ 2))
          (a ^ 2 * 0 + 2 * a * b * (0 - 0 ^ 2 / h) + b ^ 2 * (0 - 2 * 0 ^ 2 / h + 4 / 3 * 0 ^ 3 / h ^ 2)).
    by rewrite /minus /plus /opp /=; field; lra.
  apply: (@is_RInt_derive _ (fun r => a ^ 2 * r + 2 * a * b * (r - r ^ 2 / h) +
     b ^ 2 * (r - 2 * r ^ 2 / h + 4 / 3 * r ^ 3 / h ^ 2))).
    by move=> x _; rewrite /q; auto_derive => //; field; lra.
  by move=> x _; apply: (@ex_derive_continuous _ R_NormedModule); rewrite /q; auto_derive.
have S0 := @is_RInt_scal R_NormedModule _ _ _ (- 2 * a) _ H0.
have S1 := @is_RInt_scal R_NormedModule _ _ _ (- 2 * b) _ H1.
have P1 := @is_RInt_plus R_NormedModule _ _ _ _ _ _ H2 S0.
have P2 := @is_RInt_plus R_NormedModule _ _ _ _ _ _ P1 S1.
have P3 := @is_RInt_plus R_NormedModule _ _ _ _ _ _ P2 HP.
apply: (is_RInt_ext _ _ _ _ _ _ P3) => x _.
by rewrite /plus /scal /= /mult /=; ring.
Qed.

Definition proj_defect := I2 - I0 ^ 2 / h - 3 / h * I1 ^ 2.

Lemma proj_any a b : is_RInt (fun r => (f r - a - b * q r) ^ 2) 0 h
  (proj_defect + h * (a - I0 / h) ^ 2 + h / 3 * (b - 3 / h * I1) ^ 2).
Proof.
have -> : proj_defect + h * (a - I0 / h) ^ 2 + h / 3 * (b - 3 / h * I1) ^ 2 =
  I2 + (- 2 * a) * I0 + (- 2 * b) * I1 + (a ^ 2 * h + b ^ 2 * h / 3).
  by rewrite /proj_defect; field; lra.
exact: proj_is.
Qed.

Lemma proj_ge0 : 0 <= proj_defect.
Proof.
have H := proj_any (I0 / h) (3 / h * I1).
have -> : proj_defect = proj_defect + h * (I0 / h - I0 / h) ^ 2 + h / 3 * (3 / h * I1 - 3 / h * I1) ^ 2 by field; lra.
apply: (is_RInt_ge_0 _ _ _ _ _ H); [lra | move=> x _; exact: pow2_ge_0].
Qed.

(** The defect is small for twice differentiable functions. *)
Variables (f1 f2 : R -> R) (K : R).
Hypotheses (D1 : forall t, is_derive f t (f1 t)) (D2 : forall t, is_derive f1 t (f2 t))
  (HK : forall t, 0 <= t <= h -> Rabs (f2 t) <= K).

Lemma taylor_mid r : 0 <= r <= h -> Rabs (f r - f (h / 2) - (r - h / 2) * f1 (h / 2)) <= K * (r - h / 2) ^ 2.
Proof.
move=> rh; set c := h / 2.
have fcp x : continuity_pt f x by apply/continuity_pt_filterlim; exact: fc.
have f1cp x : continuity_pt f1 x.
  apply/continuity_pt_filterlim.
  by apply: (@ex_derive_continuous _ R_NormedModule); exists (f2 x); exact: D2.
have [xi [xi1 E1]] := @MVT_gen f c r f1 (fun x _ => D1 x) (fun x _ => fcp x).
have [et [et1 E2]] := @MVT_gen f1 c xi f2 (fun x _ => D2 x) (fun x _ => f1cp x).
have ch : 0 <= c <= h by rewrite /c; lra.
clearbody c.
have eh : 0 <= et <= h.
  by move: xi1 et1; rewrite /Rmin /Rmax; repeat (case: Rle_dec => ?); move=> [? ?] [? ?]; split; lra.
have -> : f r - f c - (r - c) * f1 c = (r - c) * ((xi - c) * f2 et) by rewrite E1; nra.
have xr : Rabs (xi - c) <= Rabs (r - c).
  by move: xi1; rewrite /Rmin /Rmax /Rabs; repeat (case: Rle_dec => ?); repeat (case: Rcase_abs => ?); move=> [? ?]; lra.
rewrite !Rabs_mult.
have -> : K * (r - c) ^ 2 = Rabs (r - c) * (Rabs (r - c) * K).
  by rewrite -Rmult_assoc -Rabs_mult Rabs_pos_eq; [ring | exact: Rle_0_sqr].
apply: Rmult_le_compat_l; first exact: Rabs_pos.
by apply: Rmult_le_compat => //; try exact: Rabs_pos; exact: HK.
Qed.

Lemma proj_small : proj_defect <= K ^ 2 * (h ^ 5 / 80).
Proof.
have K0 : 0 <= K by apply: Rle_trans (HK 0 _); [exact: Rabs_pos | lra].
set a := f (h / 2); set b := - (h / 2) * f1 (h / 2).
have H := proj_any a b.
have L : proj_defect <= proj_defect + h * (a - I0 / h) ^ 2 + h / 3 * (b - 3 / h * I1) ^ 2.
  have A1 := pow2_ge_0 (a - I0 / h); have A2 := pow2_ge_0 (b - 3 / h * I1).
  have h3 : 0 <= h / 3 by lra.
  by have B1 := Rmult_le_pos _ _ (Rlt_le _ _ h0) A1; have B2 := Rmult_le_pos _ _ h3 A2; lra.
apply: (Rle_trans _ _ _ L).
have HP : is_RInt (fun r => K ^ 2 * (r - h / 2) ^ 4) 0 h (K ^ 2 * (h ^ 5 / 80)).
  have -> : K ^ 2 * (h ^ 5 / 80) = minus (K ^ 2 * ((h - h / 2) ^ 5 / 5)) (K ^ 2 * ((0 - h / 2) ^ 5 / 5)).
    by rewrite /minus /plus /opp /=; field.
  apply: (@is_RInt_derive _ (fun r => K ^ 2 * ((r - h / 2) ^ 5 / 5))).
    by move=> x _; auto_derive => //; field.
  by move=> x _; apply: (@ex_derive_continuous _ R_NormedModule); auto_derive.
apply: (is_RInt_le _ _ _ _ _ _ _ H HP); first lra.
move=> x xh.
have T : Rabs (f x - f (h / 2) - (x - h / 2) * f1 (h / 2)) <= K * (x - h / 2) ^ 2 by apply: taylor_mid; lra.
have -> : f x - a - b * q x = f x - f (h / 2) - (x - h / 2) * f1 (h / 2).
  by rewrite /a /b /q; field; lra.
have -> : K ^ 2 * (x - h / 2) ^ 4 = (K * (x - h / 2) ^ 2) ^ 2 by ring.
rewrite -(pow2_abs (f x - _ - _)).
by apply: pow_incr; split; [exact: Rabs_pos | exact: T].
Qed.
End Projection.
