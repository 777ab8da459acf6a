(** The matrix exponential: convergence, derivative, semigroup, uniqueness. *)
From Coq Require Import Reals Lra FunctionalExtensionality.
From Coquelicot Require Import Coquelicot.
From mathcomp Require Import all_ssreflect all_algebra mxtens.
From Verif Require Import Rstruct Base Linalg Calc Spec.

Set Implicit Arguments.
Unset Strict Implicit.
Unset Printing Implicit Defensive.
Import Order.TTheory GRing.Theory Num.Theory.
Local Open Scope ring_scope.

(** ** Powers *)
Lemma mxpow0 n (A : 'M[R]_n) : mxpow A 0 = 1%:M. Proof. by []. Qed.
Lemma mxpowS n (A : 'M[R]_n) k : mxpow A k.+1 = A *m mxpow A k. Proof. by []. Qed.

Section Pow.
Variables (n : nat) (A : 'M[R]_n).

Lemma mxpowSr k : mxpow A k.+1 = mxpow A k *m A.
Proof. by elim: k => [|k IH]; rewrite ?mxpowS ?mulmx1 ?mul1mx // -mulmxA -IH -mxpowS. Qed.
Lemma mxpowZ t k : mxpow (t *: A) k = t ^+ k *: mxpow A k.
Proof.
elim: k => [|k IH]; first by rewrite expr0 scale1r.
by rewrite !mxpowS IH -scalemxAl -scalemxAr scalerA exprS.
Qed.
Lemma mxpow_tr k : mxpow A^T k = (mxpow A k)^T.
Proof. by elim: k => [|k IH]; rewrite ?trmx1 // mxpowS mxpowSr IH trmx_mul. Qed.

Definition l1norm : R := \sum_i \sum_j `|A i j|.
Lemma l1norm_ge0 : 0 <= l1norm.
Proof. by apply: sumr_ge0 => i _; apply: sumr_ge0. Qed.

Lemma row_le i : \sum_j `|A i j| <= l1norm.
Proof.
rewrite /l1norm [X in _ <= X](bigD1 i) //= ler_addl; apply: sumr_ge0 => k _; exact: sumr_ge0.
Qed.

Lemma mxpow_bound k i j : `|mxpow A k i j| <= l1norm ^+ k.
Proof.
elim: k i j => [|k IH] i j.
  by rewrite expr0 mxpow0 mxE normr_nat; case: eqP => _; rewrite ?ler01 ?lexx.
rewrite mxpowS mulmxE; apply: le_trans (ler_norm_sum _ _ _) _.
apply: (@le_trans _ _ (\sum_l `|A i l| * l1norm ^+ k)).
  by apply: ler_sum => l _; rewrite normrM; apply: ler_wpmul2l.
rewrite -mulr_suml exprS; apply: ler_wpmul2r; last exact: row_le.
by apply: exprn_ge0; exact: l1norm_ge0.
Qed.
End Pow.

(** ** The defining series *)
Lemma INR_fact k : INR (fact k) = k`!%:R.
Proof. by elim: k => // k IH; rewrite fact_simpl mult_INR IH factS natrM [k.+1%:R]RnatE. Qed.

Lemma exp_series (x : R) : is_series (fun k => x ^+ k / k`!%:R) (exp x).
Proof.
apply: is_series_ext (is_exp_Reals x) => m.
by rewrite pow_n_pow INR_fact -RpowE RdivE.
Qed.

Lemma pow_fact_le (x : R) k : 0 <= x -> x ^+ k / k`!%:R <= exp x.
Proof.
move=> x0; have t0 m : 0 <= x ^+ m / m`!%:R by rewrite divr_ge0 ?exprn_ge0 ?ler0n.
have inc m : Rle (sum_n (fun k => x ^+ k / k`!%:R) m) (sum_n (fun k => x ^+ k / k`!%:R) m.+1).
  rewrite sum_Sn; apply/RleP; rewrite /plus /= -RplusE ler_addl; exact: t0.
have /RleP := is_lim_seq_incr_compare _ _ (@exp_series x) inc k.
apply: le_trans; case: k => [|k]; first by rewrite sum_O.
rewrite sum_Sn /plus /= -RplusE ler_addr.
elim: k => [|k IH]; first by rewrite sum_O; exact: t0.
by rewrite sum_Sn /plus /= -RplusE addr_ge0 // t0.
Qed.

Section Expm.
Variables (n : nat) (A : 'M[R]_n).

Definition ecoef i j (k : nat) : R := mxpow A k i j / k`!%:R.

Lemma ecoef_radius i j : CV_radius (ecoef i j) = p_infty.
Proof.
have [ub _] := CV_radius_bounded (ecoef i j).
suff H (r : R) : Rbar_le r (CV_radius (ecoef i j)).
  case: (CV_radius _) H => [r /(_ (r + 1)%Re)| //|/(_ 0)] /=; last by [].
  by lra.
apply: ub; exists (exp (l1norm A * `|r|)) => m; apply/RleP.
rewrite -RpowE -RmultE -RnormE /ecoef normrM normrM [`|m`!%:R^-1|]ger0_norm ?invr_ge0 ?ler0n // normrX.
apply: le_trans (pow_fact_le m _); last by rewrite mulr_ge0 ?l1norm_ge0.
rewrite exprMn mulrAC ler_wpmul2r ?invr_ge0 ?ler0n //.
apply: ler_wpmul2r; [by rewrite exprn_ge0 | exact: mxpow_bound].
Qed.

Lemma expmE (t : R) i j : expm (t *: A) i j = PSeries (ecoef i j) t.
Proof.
rewrite mxE /PSeries; apply: Series_ext => k.
by rewrite mxpowZ scalemxE /ecoef -RpowE -RmultE [RHS]mulrC mulrA.
Qed.

Lemma ecoef_cv (t : R) i j : ex_series (fun k => ecoef i j k * t ^+ k).
Proof.
have H : Rbar_lt (Rabs t) (CV_radius (ecoef i j)) by rewrite ecoef_radius.
have := CV_radius_inside _ _ H; apply: ex_series_ext => k.
by rewrite pow_n_pow /scal /= /mult /= -RpowE -RmultE mulrC.
Qed.

Lemma Series_sum (I : Type) (r : seq I) (F : I -> nat -> R) :
  (forall i, ex_series (F i)) ->
  Series (fun k => \sum_(i <- r) F i k) = \sum_(i <- r) Series (F i) /\
  ex_series (fun k => \sum_(i <- r) F i k).
Proof.
move=> H; elim: r => [|i r [IH1 IH2]].
  have E : is_series (fun _ : nat => 0%Re) 0%Re.
    apply: filterlim_ext (@filterlim_const _ _ _ _ (0%Re : R_UniformSpace)) => k.
    by elim: k => [|k IH]; rewrite ?sum_O // sum_Sn -IH /plus /= Rplus_0_l.
  split; last by exists 0; apply: is_series_ext E => k; rewrite big_nil.
  by rewrite big_nil; apply: is_series_unique; apply: is_series_ext E => k; rewrite big_nil.
have E k : \sum_(m <- i :: r) F m k = (F i k + \sum_(m <- r) F m k)%Re by rewrite big_cons.
split; last by apply: ex_series_ext (ex_series_plus _ _ (H i) IH2) => k; rewrite E.
by rewrite big_cons (Series_ext _ _ E) Series_plus // IH1.
Qed.

Lemma expm_deriv (t : R) i j :
  is_derive (fun s : R => expm (s *: A) i j) t ((A *m expm (t *: A)) i j).
Proof.
have H : Rbar_lt (Rabs t) (CV_radius (ecoef i j)) by rewrite ecoef_radius.
have := is_derive_PSeries _ _ H.
have -> : PSeries (PS_derive (ecoef i j)) t = (A *m expm (t *: A)) i j.
  rewrite mulmxE /PSeries.
  rewrite (Series_ext _ (fun k => \sum_l A i l * (ecoef l j k * t ^+ k))).
    rewrite (Series_sum _ _).1; last first.
      by move=> l; apply: ex_series_scal_l; exact: ecoef_cv.
    apply: eq_bigr => l _; rewrite [LHS]Series_scal_l expmE.
    by congr (_ * _); apply: Series_ext => k; rewrite RpowE.
  move=> k; rewrite /PS_derive /ecoef mxpowS mulmxE -RpowE -!RmultE -RnatE factS natrM.
  rewrite !mulr_suml mulr_sumr mulr_suml; apply: eq_bigr => l _.
  have k0 : k.+1%:R != 0 :> R by rewrite pnatr_eq0.
  have f0 : k`!%:R != 0 :> R by rewrite pnatr_eq0 -lt0n fact_gt0.
  move: (k.+1%:R) (k`!%:R) (t ^+ k) (A i l) (mxpow A k l j) k0 f0 => a b c u v /eqP a0 /eqP b0.
  by toR; field.
apply: is_derive_ext => s; by rewrite expmE.
Qed.

End Expm.

Lemma expm0 n : expm (0 : 'M[R]_n) = 1%:M.
Proof.
apply/matrixP=> i j; rewrite -[0 in LHS](scale0r (0 : 'M[R]_n)) expmE PSeries_0.
by rewrite /ecoef mxpow0 fact0 divr1.
Qed.

Lemma expm_comm n (A B : 'M[R]_n) (t : R) : B *m A = A *m B ->
  B *m expm (t *: A) = expm (t *: A) *m B.
Proof.
move=> BA; have BAk k : B *m mxpow A k = mxpow A k *m B.
  by elim: k => [|k IH]; rewrite ?mulmx1 ?mul1mx // mxpowS mulmxA BA -mulmxA IH mulmxA.
apply/matrixP=> i j; rewrite !mulmxE.
transitivity (Series (fun k => (B *m mxpow A k) i j / k`!%:R * t ^+ k)).
  rewrite (Series_ext _ (fun k => \sum_l B i l * (ecoef A l j k * t ^+ k))).
    rewrite (Series_sum _ _).1; last by move=> l; apply: ex_series_scal_l; exact: ecoef_cv.
    apply: eq_bigr => l _; rewrite [RHS]Series_scal_l expmE.
    by congr (_ * _); apply: Series_ext => k; rewrite RpowE.
  move=> k; rewrite mulmxE !mulr_suml; apply: eq_bigr => l _.
  by rewrite /ecoef !mulrA.
rewrite (Series_ext _ (fun k => \sum_l (ecoef A i l k * t ^+ k) * B l j)).
  rewrite (Series_sum _ _).1; last by move=> l; apply: ex_series_scal_r; exact: ecoef_cv.
  apply: eq_bigr => l _; rewrite [LHS]Series_scal_r expmE.
  by congr (_ * _); apply: Series_ext => k; rewrite RpowE.
move=> k; rewrite BAk mulmxE !mulr_suml; apply: eq_bigr => l _.
by rewrite /ecoef -!mulrA; congr (_ * _); rewrite mulrC -!mulrA.
Qed.

(** ** Derivatives of matrix functions *)
Lemma mx_derivM m n p (V : R -> 'M[R]_(m, n)) (W : R -> 'M[R]_(n, p)) (t : R) V' W' :
  mx_deriv V t V' -> mx_deriv W t W' ->
  mx_deriv (fun s => V s *m W s) t (V' *m W t + V t *m W').
Proof.
move=> HV HW i j.
apply: (is_derive_ext (fun s => \sum_l V s i l * W s l j)); first by move=> s; rewrite mulmxE.
rewrite addmxE !mulmxE -big_split /=.
apply: is_derive_sum => l.
have := is_derive_mult _ _ t _ _ (HV i l) (HW l j) Rmult_comm.
exact.
Qed.

Lemma mx_deriv_const m n (C : 'M[R]_(m, n)) (t : R) : mx_deriv (fun _ => C) t 0.
Proof. by move=> i j; rewrite mxE; exact: is_derive_const. Qed.

Lemma mx_derivD m n (V W : R -> 'M[R]_(m, n)) (t : R) V' W' :
  mx_deriv V t V' -> mx_deriv W t W' -> mx_deriv (fun s => V s + W s) t (V' + W').
Proof.
move=> HV HW i j; rewrite addmxE.
apply: (is_derive_ext (fun s => plus (V s i j) (W s i j))); first by move=> s; rewrite addmxE.
exact: is_derive_plus.
Qed.

Lemma mx_derivT m n (V : R -> 'M[R]_(m, n)) (t : R) V' :
  mx_deriv V t V' -> mx_deriv (fun s => (V s)^T) t V'^T.
Proof.
move=> HV i j; rewrite trmxE; apply: is_derive_ext (HV j i) => s; by rewrite trmxE.
Qed.

Lemma deriv0_const (f : R -> R) : (forall t, is_derive f t 0) -> forall a b, f a = f b.
Proof.
move=> H a b; have C t : continuity_pt f t.
  by apply/continuity_pt_filterlim; apply: ex_derive_continuous; exists 0%Re; exact: H.
have [c [_ E]] := MVT_gen f a b (fun _ => 0) (fun t _ => H t) (fun t _ => C t).
by move: E; toR; lra.
Qed.

Lemma mx_deriv0_const m n (V : R -> 'M[R]_(m, n)) :
  (forall t, mx_deriv V t 0) -> forall a b, V a = V b.
Proof.
move=> H a b; apply/matrixP=> i j.
by apply: (@deriv0_const (fun s => V s i j)) => t; have := H t i j; rewrite zeromxE.
Qed.

Section Semigroup.
Variables (n : nat) (A : 'M[R]_n).

Lemma expm_mx_deriv (t : R) : mx_deriv (fun s => expm (s *: A)) t (A *m expm (t *: A)).
Proof. by move=> i j; exact: expm_deriv. Qed.

Lemma expmN_mx_deriv (t : R) : mx_deriv (fun s => expm (- s *: A)) t (- (A *m expm (- t *: A))).
Proof.
move=> i j; rewrite oppmxE.
have H1 := expm_deriv A (- t) i j.
have H2 : is_derive (fun s : R => Ropp s) t (Ropp 1%Re) by auto_derive; [|ring].
have := is_derive_comp _ _ t _ _ H1 H2; rewrite /scal /= /mult /=.
by have -> : (- (1) * (A *m expm (- t *: A)) i j)%Re = - (A *m expm (- t *: A)) i j by rring.
Qed.

Lemma expm_inv (t : R) : expm (t *: A) *m expm (- t *: A) = 1%:M.
Proof.
have H (s : R) : mx_deriv (fun s => expm (s *: A) *m expm (- s *: A)) s 0.
  have := mx_derivM (expm_mx_deriv s) (expmN_mx_deriv s).
  rewrite mulmxN -mulmxA [expm (s *: A) *m (A *m _)]mulmxA -(@expm_comm _ A A) //.
  by rewrite mulmxA subrr.
by rewrite (mx_deriv0_const H t 0) oppr0 !scale0r expm0 mulmx1.
Qed.

(** The solution of a linear differential equation. *)
Lemma expm_unique p (V : R -> 'M[R]_(n, p)) : (forall t, mx_deriv V t (A *m V t)) ->
  forall t, V t = expm (t *: A) *m V 0.
Proof.
move=> HV t.
have H (s : R) : mx_deriv (fun s => expm (- s *: A) *m V s) s 0.
  have := mx_derivM (expmN_mx_deriv s) (HV s).
  rewrite mulNmx [A *m expm _]expm_comm // mulmxA.
  by rewrite addNr.
have E := mx_deriv0_const H t 0; rewrite oppr0 scale0r expm0 mul1mx in E.
by rewrite -E mulmxA expm_inv mul1mx.
Qed.

Lemma expm_add (s t : R) : expm ((s + t) *: A) = expm (s *: A) *m expm (t *: A).
Proof.
rewrite (@expm_unique _ (fun s => expm ((s + t) *: A))) ?add0r // => {s} s i j.
have H1 := expm_deriv A (s + t) i j.
have H2 : is_derive (fun s : R => Rplus s t) s 1%Re by auto_derive; [|ring].
have := is_derive_comp _ _ s _ _ H1 H2; rewrite /scal /= /mult /=.
by rewrite Rmult_1_l.
Qed.

Lemma expm_unit (t : R) : expm (t *: A) \in unitmx.
Proof. by have /mulmx1_unit [] := expm_inv t. Qed.
End Semigroup.

(** ** Nilpotent matrices *)
Lemma Series_finite (u : nat -> R) N : (forall k, (N <= k)%N -> u k = 0) -> Series u = \sum_(k < N) u k.
Proof.
move=> H; apply: is_series_unique.
have S m : sum_n u m = \sum_(k < m.+1) u k.
  elim: m => [|m IH]; first by rewrite sum_O big_ord1.
  by rewrite sum_Sn IH [RHS]big_ord_recr.
apply: (filterlim_ext_loc (fun _ => \sum_(k < N) u k)); last exact: filterlim_const.
exists N => m Nm; move: Nm => /ssrnat.leP Nm; rewrite S; have {}Nm : (N <= m.+1)%N by apply: leqW; exact: Nm.
rewrite -!(big_mkord xpredT u) (big_cat_nat _ _ _ _ Nm) //= [X in _ = _ + X]big_nat_cond [X in _ = _ + X]big1 ?addr0 //.
by move=> k /andP [/andP [Nk _] _]; exact: H.
Qed.

Lemma expm_nilp n (A : 'M[R]_n) N (t : R) : (forall k, (N <= k)%N -> mxpow A k = 0) ->
  expm (t *: A) = \sum_(k < N) (t ^+ k / k`!%:R) *: mxpow A k.
Proof.
move=> H; apply/matrixP=> i j; rewrite mxE (@Series_finite _ N).
  rewrite summxE; apply: eq_bigr => k _; rewrite mxpowZ !scalemxE mulrAC.
  by [].
by move=> k Nk; rewrite mxpowZ H // scaler0 mxE mul0r.
Qed.
