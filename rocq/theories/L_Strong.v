(** The strong error of the driver for linear equations, against the solution along the fine path. *)
From Coq Require Import Reals Lra FunctionalExtensionality.
From Coquelicot Require Import Coquelicot.
From mathcomp Require Import all_ssreflect all_algebra mxtens.
From Verif Require Import Rstruct Base Linalg Calc Prob Expm Spec Spec3 Spec5 M_Foster M_ItoStrat M_SdeSolver M_Prior
  L_Foster L_ItoStrat L_SdeSolver L_Prior L_Quad L_Chain L_Proj L_Linear.

Set Implicit Arguments.
Unset Strict Implicit.
Unset Printing Implicit Defensive.
Import Order.TTheory GRing.Theory Num.Theory.
Local Open Scope ring_scope.

(** ** Integrals over consecutive pieces *)
Lemma mx_int_add m n (f : R -> 'M[R]_(m, n)) t s : mx_cont f ->
  mx_int f (t + s) = mx_int f t + mx_int (fun r => f (t + r)) s.
Proof.
move=> fc; apply/matrixP=> i j; rewrite !mxE.
have ex a b : ex_RInt (fun r => f r i j) a b by apply: (@ex_RInt_continuous R_CompleteNormedModule) => z _; exact: fc.
rewrite -(RInt_Chasles (fun r => f r i j) 0 t (t + s)) //; rewrite /plus /=; congr (Rplus _ _).
have := @RInt_comp_lin R_CompleteNormedModule (fun r => f r i j) 1 t 0 s.
rewrite Rmult_0_r Rmult_1_l Rplus_0_l [Rplus s t]Rplus_comm => /(_ (ex _ _)) <-.
by apply: RInt_ext => r _; rewrite /scal /= /mult /= Rmult_1_l; congr (f _ i j); toR; ring.
Qed.

Lemma mx_int_ext m n (f f' : R -> 'M[R]_(m, n)) t : (forall s, f s = f' s) -> mx_int f t = mx_int f' t.
Proof. by move=> H; congr mx_int; apply: functional_extensionality. Qed.

Lemma mx_cont_scale m n (u : R -> R) (f : R -> 'M[R]_(m, n)) : (forall t, continuous u t) -> mx_cont f ->
  mx_cont (fun s => u s *: f s).
Proof.
move=> uc fc t i j; apply: (@continuous_ext R_UniformSpace R_UniformSpace (fun s => u s * f s i j)) => [x|].
  by rewrite scalemxE.
by apply: (@continuous_mult _ R_AbsRing); [exact: uc | exact: fc].
Qed.

Lemma mx_int_add2 m n (f f' : R -> 'M[R]_(m, n)) (c : R) t : mx_cont f -> mx_cont f' ->
  mx_int (fun s => f s + c *: f' s) t = mx_int f t + c *: mx_int f' t.
Proof.
move=> fc fc'; symmetry; apply: (@mx_int_unique _ _ (fun t => mx_int f t + c *: mx_int f' t) (fun s => f s + c *: f' s)).
- move=> s; apply: mx_derivD; first exact: mx_int_deriv.
  move=> i j; apply: (@is_derive_ext _ _ (fun t => scal c (mx_int f' t i j))) => [x|]; first by rewrite [RHS]scalemxE.
  rewrite scalemxE; exact: (@is_derive_scal (fun t => mx_int f' t i j) s c _ (@mx_int_deriv _ _ f' s fc' i j)).
- move=> s i j; apply: (@continuous_ext R_UniformSpace R_UniformSpace (fun x => plus (f x i j) (scal c (f' x i j)))) => [x|].
    by rewrite addmxE scalemxE.
  apply: (@continuous_plus _ _ R_NormedModule); first exact: fc.
  apply: (@continuous_scal_r _ R_AbsRing R_NormedModule); exact: fc'.
- by rewrite !mx_int0 scaler0 addr0.
Qed.

Section Pieces.
Variables (d m : nat) (A : 'M[R]_d) (S : 'M[R]_(d, m)).
Let B (T s : R) := expm ((T - s) *: A) *m S.
(** T times [I1]. *)
Definition J1 (T : R) := mx_int (fun s => (T - 2%:R * s) *: B T s) T.

Let BC T : mx_cont (B T). Proof. exact: B_cont. Qed.
Let linc (T : R) (t : R) : continuous (fun s : R => T - 2%:R * s) t.
Proof.
have -> : (fun s : R => T - 2%:R * s) = (fun s => T - 2 * s)%Re by apply: functional_extensionality => s; toR.
by apply: (@ex_derive_continuous _ R_NormedModule); auto_derive.
Qed.

Lemma J1E (T : R) : T != 0 -> J1 T = T *: I1 A S T.
Proof.
move=> T0; rewrite /J1 /I1 -[RHS]add0r.
have Z : mx_int (fun _ => 0 : 'M[R]_(d, m)) T = 0.
  by symmetry; apply: (@mx_int_unique _ _ (fun _ => 0) (fun _ => 0)) => // [t|]; [exact: mx_deriv_const | exact: mx_cont_const].
rewrite -Z -mx_int_add2; [|exact: mx_cont_const|exact: qB_cont].
apply: mx_int_ext => s; rewrite add0r scalerA; congr (_ *: _).
by toR; field; exact/eqP.
Qed.

Let B_shift T t s : B (T + t) s = expm (t *: A) *m B T s.
Proof. by rewrite /B mulmxA -expm_add; congr (expm (_ *: A) *m S); toR; ring. Qed.
Let B_late T t s : B (T + t) (T + s) = B t s.
Proof. by rewrite /B; congr (expm (_ *: A) *m S); toR; ring. Qed.

Lemma I0_add T t : I0 A S (T + t) = expm (t *: A) *m I0 A S T + I0 A S t.
Proof.
rewrite /I0 mx_int_add; last exact: BC.
rewrite mx_int_mull; last exact: BC.
by congr (_ + _); apply: mx_int_ext => s; [exact: B_shift | exact: B_late].
Qed.

Lemma J1_add T t : J1 (T + t) = expm (t *: A) *m (J1 T + t *: I0 A S T) + (J1 t - T *: I0 A S t).
Proof.
rewrite /J1 mx_int_add; last by apply: mx_cont_scale => [s|]; [exact: linc | exact: BC].
rewrite /I0 -scaleNr -!mx_int_add2; [|by apply: mx_cont_scale => [s|]; [exact: linc | exact: BC]|exact: BC|by apply: mx_cont_scale => [s|]; [exact: linc | exact: BC]|exact: BC].
rewrite mx_int_mull; last first.
  have C := @mx_contM _ _ _ (fun _ => 1%:M) _ (@mx_cont_const d d 1%:M) (@mx_cont_scale _ _ (fun s => T + t - 2%:R * s) (B T) (@linc (T + t)) (@BC T)).
  move=> s i j; have := C s i j; apply: continuous_ext => x; rewrite mul1mx -scalerDl; congr (fun_of_matrix (_ *: _) i j).
  by toR; ring.
congr (_ + _); apply: mx_int_ext => s.
  rewrite B_shift -scalerDl -scalemxAr; congr (_ *: _); toR; ring.
by rewrite B_late -scalerDl; congr (_ *: _); toR; ring.
Qed.
End Pieces.

(** ** One interval of the driver and the same interval along the fine path *)
Section Kick.
Variables (d m : nat) (A : 'M[R]_d) (S : 'M[R]_(d, m)).

Definition kickT (T : R) (a b : 'cV[R]_m) : 'cV[R]_d := T^-1 *: (I0 A S T *m a) + (sqrt 6%:R / T) *: (I1 A S T *m b).

Lemma kickT_int T a b : 0 < T ->
  mx_int (fun s => expm ((T - s) *: A) *m (S *m jacR (fun r => eval_parabola r T a b) s)) T = kickT T a b.
Proof.
move=> T0; rewrite /kickT.
have BC := @B_cont _ _ A S T; have QC := @qB_cont _ _ A S T.
symmetry; rewrite /I0 /I1.
set D := fun s => _ *m (S *m _).
have DE s : D s = T^-1 *: ((expm ((T - s) *: A) *m S) *m a) +
   (sqrt 6%:R / T) *: (((1 - 2%:R * (s / T)) *: (expm ((T - s) *: A) *m S)) *m b).
  rewrite /D jacR_eval ?gt_eqF // !mulmxA -!scalemxAr mulmxDr scalerDr; congr (_ + _).
  rewrite -!scalemxAr -!scalemxAl !scalerA; congr (_ *: _).
  by toR; move: (/ T)%Re (sqrt 6%Re) => u v; ring.
pose V0 := fun s => expm ((T - s) *: A) *m S.
pose V1 := fun s => (1 - 2%:R * (s / T)) *: (expm ((T - s) *: A) *m S).
rewrite !scalemxAr; apply: (@mx_int_unique _ _ (fun t => mx_int V0 t *m (T^-1 *: a) + mx_int V1 t *m ((sqrt 6%:R / T) *: b)) D).
- move=> t; rewrite DE.
  have := mx_derivD (mx_derivM (mx_int_deriv t BC) (mx_deriv_const (T^-1 *: a) t))
    (mx_derivM (mx_int_deriv t QC) (mx_deriv_const ((sqrt 6%:R / T) *: b) t)).
  by rewrite !mulmx0 !addr0 -!scalemxAr.
- apply: mx_contM (@slope_cont _ _ _ _ T0 a b); have C := @B_cont d d A 1%:M T.
  by move=> t i j; have := C t i j; apply: continuous_ext => s; rewrite mulmx1.
- by rewrite !mx_int0 !mul0mx addr0.
Qed.

(** The solution of one interval. *)
Lemma interval_end T a b (z : R -> 'cV[R]_d) : 0 < T ->
  (forall t, mx_deriv z t (A *m z t + S *m jacR (fun r => eval_parabola r T a b) t)) ->
  z T = expm (T *: A) *m z 0 + kickT T a b.
Proof.
move=> T0 zd; have SC := @slope_cont _ _ S _ T0 a b.
by rewrite (voc_unique SC erefl zd) (voc_int A SC) kickT_int.
Qed.
End Kick.

(** Moments of the noise of an interval, for any centred coefficients with the covariances of a parabola. *)
Section KickLaw.
Variables (Om : Type) (E : expectation Om) (d m : nat) (A : 'M[R]_d) (S : 'M[R]_(d, m)) (h : R) (a b : Om -> 'cV[R]_m).
Hypotheses (h0 : 0 < h) (mom : [/\ Emx E a = 0, Emx E b = 0, Emx E (fun k => a k *m (a k)^T) = h%:M,
  Emx E (fun k => a k *m (b k)^T) = 0 & Emx E (fun k => b k *m (b k)^T) = (h / 2%:R)%:M]).
Let kap k := kickT A S h (a k) (b k).

Lemma kap_mean : Emx E kap = 0.
Proof.
have [a0 b0 _ _ _] := mom.
by rewrite /kap /kickT EmxD !EmxZ !Emx_mull a0 b0 !mulmx0 !scaler0 addr0.
Qed.

Lemma kap_a : Emx E (fun k => kap k *m (a k)^T) = I0 A S h.
Proof.
have [_ _ aa ab _] := mom.
have ba : Emx E (fun k => b k *m (a k)^T) = 0.
  by rewrite -[LHS]trmxK -EmxT -[RHS]trmx0 -ab; congr (_^T); apply: Emx_ext => k; rewrite trmx_mul trmxK.
rewrite (@Emx_ext _ _ _ _ _ (fun k => (h^-1 *: I0 A S h) *m (a k *m (a k)^T) + ((sqrt 6%:R / h) *: I1 A S h) *m (b k *m (a k)^T))).
  by rewrite EmxD !Emx_mull aa ba mulmx0 addr0 mul_mx_scalar scalerA mulfV ?scale1r // gt_eqF.
by move=> k; rewrite /kap /kickT mulmxDl !scalemxAl !mulmxA.
Qed.

Lemma kap_b : Emx E (fun k => kap k *m (b k)^T) = (sqrt 6%:R / 2%:R) *: I1 A S h.
Proof.
have [_ _ _ ab bb] := mom.
rewrite (@Emx_ext _ _ _ _ _ (fun k => (h^-1 *: I0 A S h) *m (a k *m (b k)^T) + ((sqrt 6%:R / h) *: I1 A S h) *m (b k *m (b k)^T))).
  rewrite EmxD !Emx_mull ab bb mulmx0 add0r mul_mx_scalar scalerA; congr (_ *: _).
  by move: (sqrt 6%:R) => s6; toR; field; apply/eqP; rewrite gt_eqF.
by move=> k; rewrite /kap /kickT mulmxDl !scalemxAl !mulmxA.
Qed.

Lemma kap_with (Z : Om -> 'cV[R]_d) : Emx E (fun k => Z k *m (a k)^T) = I0 A S h ->
  Emx E (fun k => Z k *m (b k)^T) = (sqrt 6%:R / 2%:R) *: I1 A S h -> Emx E (fun k => Z k *m (kap k)^T) = step_cov A S h.
Proof.
move=> Za Zb.
rewrite (@Emx_ext _ _ _ _ _ (fun k => (Z k *m (a k)^T) *m (h^-1 *: I0 A S h)^T + (Z k *m (b k)^T) *m ((sqrt 6%:R / h) *: I1 A S h)^T)).
  have ZT (u : R) (M : 'M[R]_(d, m)) : (u *: M)^T = u *: M^T by apply/matrixP=> i j; rewrite !mxE.
  rewrite EmxD !Emx_mulr Za Zb !ZT /step_cov -!scalemxAr -scalemxAl scalerA; congr (_ + _ *: _).
  have := sqrt6_sq; move: (sqrt 6%:R) => s6 S6.
  have -> : s6 / h * (s6 / 2%:R) = s6 * s6 / h / 2%:R by toR; field; apply/eqP; rewrite gt_eqF.
  by rewrite S6; toR; field; apply/eqP; rewrite gt_eqF.
by move=> k; rewrite /kap /kickT linearD /= mulmxDr -!mulmxA -!trmx_mul !scalemxAl.
Qed.

Lemma kap_cov : Emx E (fun k => kap k *m (kap k)^T) = step_cov A S h.
Proof. by apply: kap_with; [exact: kap_a | exact: kap_b]. Qed.
End KickLaw.

Section Fine.
Variables (g : prng) (d m : nat) (A : 'M[R]_d) (S : 'M[R]_(d, m)) (E : expectation (key g)) (h : R).
Hypotheses (h0 : 0 < h) (std : standard2 E (fun k => normal2 k 2 m)).
Let P := expm (h *: A).
Let a (k : key g) := (parabolas m k h).1.
Let b (k : key g) := (parabolas m k h).2.
Let kap (k : key g) := kickT A S h (a k) (b k).

(** The state reached from 0 along the pieces drawn with the keys; the increment and the area of the path. *)
Definition fine_state (ws : seq (key g)) := foldl (fun z w => P *m z + kap w) 0 ws.
Definition fine_int (ws : seq (key g)) : 'cV[R]_m * 'cV[R]_m :=
  foldl (fun c w => (c.1 + a w, c.2 + h *: (c.1 + 2%:R^-1 *: a w + (1 / sqrt 6%:R) *: b w))) (0, 0) ws.

Let O (u v : key g -> 'cV[R]_m) i j : Emx E (fun k => u k *m (v k)^T) i j = E (fun k => u k i 0 * v k j 0).
Proof. by rewrite mxE; apply: E_ext => k; rewrite mulmxE big_ord1 trmxE. Qed.

Lemma piece_moments : [/\ Emx E a = 0, Emx E b = 0, Emx E (fun k => a k *m (a k)^T) = h%:M,
  Emx E (fun k => a k *m (b k)^T) = 0 & Emx E (fun k => b k *m (b k)^T) = (h / 2%:R)%:M].
Proof.
have L i j := parabola_law std i j (ltW h0).
split; apply/matrixP=> i j.
- by have [H _ _ _ _] := L i i; rewrite [LHS]mxE [RHS]mxE -[RHS]H ord1.
- by have [_ H _ _ _] := L i i; rewrite [LHS]mxE [RHS]mxE -[RHS]H ord1.
- by have [_ _ H _ _] := L i j; rewrite O H mxE mulr_natl.
- by have [_ _ _ H _] := L i j; rewrite O H mxE.
- by have [_ _ _ _ H] := L i j; rewrite O H mxE mulr_natl.
Qed.

Let kap_mean : Emx E kap = 0. Proof. exact: kap_mean piece_moments. Qed.
Let kap_a : Emx E (fun k => kap k *m (a k)^T) = I0 A S h. Proof. exact: kap_a piece_moments. Qed.
Let kap_b : Emx E (fun k => kap k *m (b k)^T) = (sqrt 6%:R / 2%:R) *: I1 A S h. Proof. exact: kap_b piece_moments. Qed.
Let kap_cov : Emx E (fun k => kap k *m (kap k)^T) = step_cov A S h. Proof. exact: kap_cov piece_moments. Qed.

Lemma Emx_rcons p q n (X : seq (key g) -> 'M[R]_(p, q)) :
  Emx (iidE E n.+1) X = Emx (iidE E n) (fun ws => Emx E (fun w => X (rcons ws w))).
Proof. by apply/matrixP=> i j; rewrite !mxE [LHS]iid_rcons; apply: iid_ext => ws _; rewrite mxE. Qed.

Lemma fine_state_rcons ws w : fine_state (rcons ws w) = P *m fine_state ws + kap w.
Proof. by rewrite /fine_state foldl_rcons. Qed.
Lemma fine_int_rcons ws w : fine_int (rcons ws w) =
  ((fine_int ws).1 + a w, (fine_int ws).2 + h *: ((fine_int ws).1 + 2%:R^-1 *: a w + (1 / sqrt 6%:R) *: b w)).
Proof. by rewrite /fine_int foldl_rcons. Qed.

Let s ws := (fine_int ws).1.
Let r ws := (fine_int ws).2.
Let z := fine_state.

Lemma s_rcons ws w : s (rcons ws w) = s ws + a w.
Proof. by rewrite /s fine_int_rcons. Qed.
Lemma r_rcons ws w : r (rcons ws w) = (r ws + h *: s ws) + ((h / 2%:R) *: a w + (h / sqrt 6%:R) *: b w).
Proof. by rewrite /r fine_int_rcons /= !scalerDr !scalerA mul1r -!addrA. Qed.

Lemma fine_means n : [/\ Emx (iidE E n) z = 0, Emx (iidE E n) s = 0 & Emx (iidE E n) r = 0].
Proof.
have [a0 b0 _ _ _] := piece_moments.
elim: n => [|n [I1 I2 I3]]; first by split; apply/matrixP=> i j; rewrite !mxE /= ?mxE.
split; rewrite Emx_rcons.
- rewrite (@Emx_ext _ _ _ _ _ (fun ws => P *m z ws)) ?Emx_mull ?I1 ?mulmx0 // => ws.
  by rewrite (Emx_ext _ (fun w => fine_state_rcons ws w)) EmxD Emx_const kap_mean addr0.
- rewrite (@Emx_ext _ _ _ _ _ s) // => ws.
  by rewrite (Emx_ext _ (fun w => s_rcons ws w)) (EmxD E (fun _ => s ws) a) Emx_const a0 addr0.
- rewrite (@Emx_ext _ _ _ _ _ (fun ws => r ws + h *: s ws)) => [|ws].
    by rewrite (EmxD _ r) EmxZ I2 I3 scaler0 addr0.
  rewrite (Emx_ext _ (fun w => r_rcons ws w)) EmxD Emx_const EmxD (EmxZ E _ a) (EmxZ E _ b) a0 b0.
  by rewrite !scaler0 !addr0.
Qed.

Lemma cross n : [/\ Emx (iidE E n) (fun ws => z ws *m (s ws)^T) = I0 A S (n%:R * h),
  Emx (iidE E n) (fun ws => z ws *m (r ws)^T) = 2%:R^-1 *: ((n%:R * h) *: I0 A S (n%:R * h) + J1 A S (n%:R * h)) &
  Emx (iidE E n.+1) (fun ws => z ws *m (z ws)^T) = P *m Emx (iidE E n) (fun ws => z ws *m (z ws)^T) *m P^T + step_cov A S h].
Proof.
have [a0 b0 _ _ _] := piece_moments.
have X p (u : seq (key g) -> 'cV[R]_p) (v : key g -> 'cV[R]_p) (u' : seq (key g) -> 'cV[R]_p) j :
    (forall ws w, u (rcons ws w) = u' ws + v w) -> Emx E v = 0 ->
    Emx (iidE E j.+1) (fun ws => z ws *m (u ws)^T) = P *m Emx (iidE E j) (fun ws => z ws *m (u' ws)^T) + Emx E (fun w => kap w *m (v w)^T).
  move=> uE v0; rewrite Emx_rcons (@Emx_ext _ _ _ _ _ (fun ws => P *m (z ws *m (u' ws)^T) + Emx E (fun w => kap w *m (v w)^T))).
    by rewrite EmxD Emx_mull Emx_const.
  move=> ws.
  rewrite (@Emx_ext _ _ _ _ _ (fun w => P *m (z ws *m (u' ws)^T) + (P *m z ws) *m (v w)^T + (kap w *m (u' ws)^T + kap w *m (v w)^T))).
    by rewrite !EmxD Emx_const Emx_mull EmxT v0 trmx0 mulmx0 addr0 Emx_mulr kap_mean mul0mx add0r.
  by move=> w; rewrite uE /z fine_state_rcons -/z linearD /= mulmxDr !mulmxDl !mulmxA addrACA.
have H1 j : Emx (iidE E j) (fun ws => z ws *m (s ws)^T) = I0 A S (j%:R * h).
  elim: j => [|j IH].
    by apply/matrixP=> i k; rewrite mul0r /I0 mx_int0 !mxE /= mul0mx mxE.
  by rewrite (X _ _ _ _ _ s_rcons a0) IH kap_a -natr1' mulrDl mul1r I0_add.
have H2 j : Emx (iidE E j) (fun ws => z ws *m (r ws)^T) = 2%:R^-1 *: ((j%:R * h) *: I0 A S (j%:R * h) + J1 A S (j%:R * h)).
  elim: j => [|j IH].
    by apply/matrixP=> i k; rewrite mul0r /J1 mx_int0 scale0r addr0 scaler0 !mxE /= mul0mx mxE.
  rewrite (X _ _ _ _ _ r_rcons); last by rewrite EmxD (EmxZ E _ a) (EmxZ E _ b) a0 b0 !scaler0 addr0.
  have ZT p (u : R) (M : 'cV[R]_p) : (u *: M)^T = u *: M^T by apply/matrixP=> i k; rewrite !mxE.
  rewrite (@Emx_ext _ (iidE E j) _ _ _ (fun ws => z ws *m (r ws)^T + h *: (z ws *m (s ws)^T))) => [|ws]; last first.
    by rewrite linearD /= ZT mulmxDr -scalemxAr.
  rewrite (@Emx_ext _ E _ _ _ (fun w => (h / 2%:R) *: (kap w *m (a w)^T) + (h / sqrt 6%:R) *: (kap w *m (b w)^T))) => [|w]; last first.
    by rewrite linearD /= !ZT mulmxDr -!scalemxAr.
  rewrite !EmxD !EmxZ IH H1 kap_a kap_b -(natr1' j) mulrDl mul1r I0_add J1_add (@J1E _ _ A S h) ?gt_eqF // -/P.
  move: (I0 _ _ _) (I0 _ _ h) (I1 _ _ h) (J1 _ _ _) => M M' M1 N.
  rewrite scalerA; have -> : h / sqrt 6%:R * (sqrt 6%:R / 2%:R) = h / 2%:R by rewrite mulrA mulfVK // sqrt6_neq0.
  rewrite !(mulmxDr, scalerDr) -!scalemxAr scalerN !scalerA; move: (P *m M) (P *m N) => PM PN; apply/matrixP=> i k; rewrite !mxE.
  by move: (PM i k) (PN i k) (M' i k) (M1 i k) (j%:R : R) => u v w y t; toR; field.
split=> //.
have zr ws w : z (rcons ws w) = P *m z ws + kap w by exact: fine_state_rcons.
rewrite (X _ _ _ _ _ zr kap_mean) kap_cov; congr (_ + _).
rewrite -mulmxA -Emx_mulr; congr (_ *m _); apply: Emx_ext => ws; rewrite trmx_mul mulmxA; done.
Qed.
End Fine.

Lemma fine_keys_int g m (h : R) N (ws : seq (key g)) :
  (parabolas_fine_keys m N ws h).1.1 =
  ((fine_int m (h / N%:R) ws).1, sqrt 6%:R *: ((1 / h) *: (fine_int m (h / N%:R) ws).2 - 2%:R^-1 *: (fine_int m (h / N%:R) ws).1)).
Proof.
rewrite /parabolas_fine_keys /fine_int; set e := h / N%:R; move: (0, 0) => c.
set F := foldl _ _ _.
have -> : (scan (update_eps e) c (zip (unzip1 [seq parabolas m k e | k <- ws])
    [seq (1 / sqrt 6%:R) *: x | x <- unzip2 [seq parabolas m k e | k <- ws]])).1 = F; last by case: F.
rewrite {}/F; elim: ws c => //= w ws IH [c1 c2]; case: (parabolas m w e) => u v /=.
by rewrite IH; congr (foldl _ (_, _) _).
Qed.

Section IntervalError.
Variables (g : prng) (d m : nat) (A : 'M[R]_d) (S : 'M[R]_(d, m)) (E : expectation (key g)) (h : R) (N : nat).
Hypotheses (h0 : 0 < h) (N0 : (0 < N)%N) (std : standard2 E (fun k => normal2 k 2 m)).
Let e := h / N%:R.
Let a (ws : seq (key g)) := (parabolas_fine_keys m N ws h).1.1.1.
Let b (ws : seq (key g)) := (parabolas_fine_keys m N ws h).1.1.2.
Definition coarse_kick (ws : seq (key g)) := kickT A S h (a ws) (b ws).
Definition fine_kick (ws : seq (key g)) := fine_state A S e ws.
Definition fine_cov := Emx (iidE E N) (fun ws => fine_kick ws *m (fine_kick ws)^T).

Let e0 : 0 < e. Proof. by rewrite divr_gt0 // ltr0n. Qed.
Let Ne : N%:R * e = h. Proof. by rewrite /e mulrC divfK // pnatr_eq0 -lt0n. Qed.

Lemma coarse_moments : [/\ Emx (iidE E N) a = 0, Emx (iidE E N) b = 0, Emx (iidE E N) (fun k => a k *m (a k)^T) = h%:M,
  Emx (iidE E N) (fun k => a k *m (b k)^T) = 0 & Emx (iidE E N) (fun k => b k *m (b k)^T) = (h / 2%:R)%:M].
Proof.
have O (u v : seq (key g) -> 'cV[R]_m) i j : Emx (iidE E N) (fun k => u k *m (v k)^T) i j = iidE E N (fun k => u k i 0 * v k j 0).
  by rewrite mxE; apply: E_ext => k; rewrite mulmxE big_ord1 trmxE.
have L i j := fine_law std (ltW e0) i j N0 (esym Ne) h0.
split; apply/matrixP=> i j.
- by have [H _ _ _ _] := L i i; rewrite [LHS]mxE [RHS]mxE -[RHS]H ord1.
- by have [_ H _ _ _] := L i i; rewrite [LHS]mxE [RHS]mxE -[RHS]H ord1.
- by have [_ _ H _ _] := L i j; rewrite O H mxE mulr_natl.
- by have [_ _ _ H _] := L i j; rewrite O H mxE.
- by have [_ _ _ _ H] := L i j; rewrite O H mxE mulr_natl.
Qed.

Lemma coarse_kick_mean : Emx (iidE E N) coarse_kick = 0.
Proof. exact: kap_mean coarse_moments. Qed.

Lemma coarse_kick_cov : Emx (iidE E N) (fun ws => coarse_kick ws *m (coarse_kick ws)^T) = step_cov A S h.
Proof. exact: kap_cov coarse_moments. Qed.

Lemma fine_kick_mean : Emx (iidE E N) fine_kick = 0.
Proof. by have [] := fine_means A S e0 std N. Qed.

(** The fine and the coarse noise are as correlated as the coarse noise is with itself. *)
Lemma fine_coarse : Emx (iidE E N) (fun ws => fine_kick ws *m (coarse_kick ws)^T) = step_cov A S h.
Proof.
have [C1 C2 _] := cross A S e0 std N; rewrite Ne in C1 C2.
apply: kap_with => //.
  by rewrite -[RHS]C1; apply: Emx_ext => ws; rewrite /a fine_keys_int.
rewrite (@Emx_ext _ _ _ _ _ (fun ws => (sqrt 6%:R / h) *: (fine_kick ws *m (fine_int m e ws).2^T) +
    (- (sqrt 6%:R / 2%:R)) *: (fine_kick ws *m (fine_int m e ws).1^T))) => [|ws]; last first.
  have ZT p (u : R) (M : 'cV[R]_p) : (u *: M)^T = u *: M^T by apply/matrixP=> i k; rewrite !mxE.
  rewrite /b fine_keys_int /= -/e ZT linearB /= !ZT scalerBr !scalerA mulmxBr -!scalemxAr scaleNr mul1r.
  by [].
rewrite EmxD !EmxZ C1 C2 J1E ?gt_eqF //; apply/matrixP=> i j; rewrite !mxE.
move: (I0 A S h i j) (I1 A S h i j) (sqrt 6%:R) => u v q; toR; field.
by apply/eqP; rewrite gt_eqF.
Qed.

Let eps ws := coarse_kick ws - fine_kick ws.

Lemma eps_mean : Emx (iidE E N) eps = 0.
Proof. by rewrite /eps EmxD EmxN coarse_kick_mean fine_kick_mean subrr. Qed.

Lemma eps_cov : Emx (iidE E N) (fun ws => eps ws *m (eps ws)^T) = fine_cov - step_cov A S h.
Proof.
rewrite (@Emx_ext _ _ _ _ _ (fun ws => coarse_kick ws *m (coarse_kick ws)^T - fine_kick ws *m (coarse_kick ws)^T +
   (fine_kick ws *m (fine_kick ws)^T - (fine_kick ws *m (coarse_kick ws)^T)^T))) => [|ws]; last first.
  rewrite /eps linearB /= mulmxBr !mulmxBl trmx_mul trmxK; congr (_ + _); rewrite opprB //.
rewrite !EmxD !EmxN coarse_kick_cov fine_coarse subrr add0r EmxT fine_coarse -/fine_cov.
by rewrite (step_cov_sym A S h).
Qed.
End IntervalError.

(** ** Bounds *)
Section Rec.
Variables (d m : nat) (A : 'M[R]_d) (S : 'M[R]_(d, m)) (h : R).
Hypothesis h0 : 0 < h.
Let small (t : R) (z : 'cV[R]_d) (K : 'I_m -> R) :=
  forall r j, 0 <= r -> r <= t -> `|(z^T *m (A *m (A *m (expm (r *: A) *m S)))) 0 j| <= K j.

Lemma rec_small (G : nat -> 'M[R]_d) (Q : 'M[R]_d) (c : R) M :
  G 0%N = 0 -> (forall n, (n < M)%N -> G n.+1 = expm (h *: A) *m G n *m (expm (h *: A))^T + Q) ->
  (forall z K, small h z K -> qf Q z <= (\sum_j K j ^+ 2) * c) ->
  forall n z K, (n <= M)%N -> small (n%:R * h) z K -> qf (G n) z <= n%:R * ((\sum_j K j ^+ 2) * c).
Proof.
move=> G0 GS HQ; elim=> [|n IH] z K nM H; first by rewrite G0 qf0 mul0r.
rewrite GS // qfD -natr1' mulrDl mul1r; apply: ler_add.
  rewrite qf_congr; apply: IH => [|r j r0 rn]; first exact: ltnW.
  have -> : ((expm (h *: A))^T *m z)^T *m (A *m (A *m (expm (r *: A) *m S))) =
      z^T *m (A *m (A *m (expm ((h + r) *: A) *m S))).
    have C : expm (h *: A) *m A = A *m expm (h *: A) by rewrite expm_comm.
    have X (Y : 'M[R]_(d, m)) : expm (h *: A) *m (A *m Y) = A *m (expm (h *: A) *m Y) by rewrite mulmxA C -mulmxA.
    by rewrite trmx_mul trmxK -mulmxA !X expm_add !mulmxA.
  apply: H; first by rewrite addr_ge0 // ltW.
  by rewrite -natr1' mulrDl mul1r addrC ler_add2r.
apply: HQ => r j r0 rh; apply: H => //.
rewrite -natr1' mulrDl mul1r; apply: le_trans rh _; rewrite ler_addr.
by apply: mulr_ge0; [exact: ler0n | exact: ltW].
Qed.

Lemma rec_psd (G : nat -> 'M[R]_d) (Q : 'M[R]_d) M :
  G 0%N = 0 -> (forall n, (n < M)%N -> G n.+1 = expm (h *: A) *m G n *m (expm (h *: A))^T + Q) -> psd Q ->
  forall n, (n <= M)%N -> psd (G n).
Proof.
move=> G0 GS HQ; elim=> [|n IH] nM; first by rewrite G0; exact: psd0.
by rewrite GS //; apply: psdD => //; apply: psd_congr; apply: IH; exact: ltnW.
Qed.

Lemma small_entry (G : 'M[R]_d) (c T : R) (al := \sum_i \sum_j `|A i j|) (ga := \sum_k (\sum_l `|S l k|) ^+ 2) :
  (forall z K, small T z K -> qf G z <= (\sum_j K j ^+ 2) * c) ->
  forall i, G i i <= al ^+ 4 * exp (2%:R * T * al) * ga * c.
Proof.
move=> HG i; rewrite -qf_delta.
pose K j := al ^+ 2 * (exp (T * al) * \sum_l `|S l j|).
have al0 : 0 <= al by exact: l1norm_ge0.
have e0 (u : R) : 0 <= exp u by apply/RleP; left; exact: exp_pos.
apply: (le_trans (HG (delta_mx i 0) K _)).
  move=> r j r0 rT; rewrite trmx_delta -rowE mxE.
  have -> : (A *m (A *m (expm (r *: A) *m S))) i j = (A *m (A *m (expm (r *: A) *m col j S))) i 0.
    by rewrite !colE !mulmxA -colE [RHS]mxE.
  rewrite /K expr2 -mulrA; apply: lmul_bound => [|i1 j1].
    by rewrite !mulr_ge0 // sumr_ge0.
  apply: lmul_bound => [|i2 j2]; first by rewrite mulr_ge0 // sumr_ge0.
  rewrite mulmxE; apply: le_trans (ler_norm_sum _ _ _) _; rewrite mulr_sumr; apply: ler_sum => l _.
  by rewrite normrM [col _ _ _ _]mxE ler_wpmul2r // expm_bound.
have -> : \sum_j K j ^+ 2 = al ^+ 4 * exp (2%:R * T * al) * ga; last by [].
rewrite /K /ga mulr_sumr; apply: eq_bigr => j _.
have -> : exp (2%:R * T * al) = exp (T * al) * exp (T * al).
  transitivity (exp (Rplus (T * al) (T * al))); [by congr exp; toR; ring | exact: exp_plus].
by move: (exp _) (\sum_l _) => u v; rewrite !exprS !expr0; toR; ring.
Qed.
End Rec.

(** ** Noise that is integrated at most twice *)
Lemma expm_flow d m (A : 'M[R]_d) (V : R -> 'M[R]_(d, m)) : (forall t, mx_deriv V t (A *m V t)) ->
  forall t, V t = expm (t *: A) *m V 0.
Proof.
move=> VD t.
have E : expm (- t *: A) *m V t = V 0.
  apply: (@mx_deriv_eq _ _ (fun t => expm (- t *: A) *m V t) (fun _ => V 0) (fun _ => 0)) => [s|s|].
  - have := mx_derivM (expmN_mx_deriv A s) (VD s).
    have C : A *m expm (- s *: A) = expm (- s *: A) *m A by rewrite expm_comm.
    by rewrite mulNmx C !mulmxA addNr.
  - exact: mx_deriv_const.
  - by rewrite oppr0 scale0r expm0 mul1mx.
by rewrite -E mulmxA expm_inv mul1mx.
Qed.

Section Poly.
Variables (c0 c1 c2 T : R).
Hypothesis T0 : 0 < T.
Let f (s : R) : R := (c0 + c1 * (T - s) + c2 * ((T - s) ^ 2 / 2))%Re.
Let Tn : T <> 0%Re. Proof. by apply/eqP; rewrite gt_eqF. Qed.

Lemma poly_I0 : RInt f 0 T = (c0 * T + c1 * (T ^ 2 / 2) + c2 * (T ^ 3 / 6))%Re.
Proof.
pose G s := (- (c0 * (T - s) + c1 * ((T - s) ^ 2 / 2) + c2 * ((T - s) ^ 3 / 6)))%Re.
have D s : is_derive G s (f s) by rewrite /G /f; auto_derive => //; field.
apply: is_RInt_unique; have := @is_RInt_derive R_CompleteNormedModule G f 0 T (fun s _ => D s).
have -> : minus (G T) (G 0%Re) = (c0 * T + c1 * (T ^ 2 / 2) + c2 * (T ^ 3 / 6))%Re by rewrite /minus /plus /opp /= /G; field.
apply=> s _; apply: (@ex_derive_continuous _ R_NormedModule); by rewrite /f; auto_derive.
Qed.

Lemma poly_I1 : RInt (fun s => Rmult (1 - 2 * (s / T))%Re (f s)) 0 T = (c1 * (T ^ 2 / 6) + c2 * (T ^ 3 / 12))%Re.
Proof.
pose G s := (- (- c0 * (T - s) + (2 * c0 / T - c1) * ((T - s) ^ 2 / 2) + (2 * c1 / T - c2 / 2) * ((T - s) ^ 3 / 3) + c2 / T * ((T - s) ^ 4 / 4)))%Re.
have D s : is_derive G s (Rmult (1 - 2 * (s / T))%Re (f s)) by rewrite /G /f; auto_derive => //; field.
apply: is_RInt_unique; have := @is_RInt_derive R_CompleteNormedModule G _ 0 T (fun s _ => D s).
have -> : minus (G T) (G 0%Re) = (c1 * (T ^ 2 / 6) + c2 * (T ^ 3 / 12))%Re by rewrite /minus /plus /opp /= /G; field.
apply=> s _; apply: (@ex_derive_continuous _ R_NormedModule); by rewrite /f; auto_derive.
Qed.

Lemma poly_I2 : RInt (fun s => pow (f s) 2) 0 T =
  (c0 ^ 2 * T + c0 * c1 * T ^ 2 + (c1 ^ 2 + c0 * c2) * (T ^ 3 / 3) + c1 * c2 * (T ^ 4 / 4) + c2 ^ 2 * (T ^ 5 / 20))%Re.
Proof.
pose H u := (c0 ^ 2 * u + c0 * c1 * u ^ 2 + (c1 ^ 2 + c0 * c2) * (u ^ 3 / 3) + c1 * c2 * (u ^ 4 / 4) + c2 ^ 2 * (u ^ 5 / 20))%Re.
pose G s := (- H (T - s))%Re.
have D s : is_derive G s (pow (f s) 2) by rewrite /G /H /f; auto_derive => //; field.
apply: is_RInt_unique; have := @is_RInt_derive R_CompleteNormedModule G _ 0 T (fun s _ => D s).
have -> : minus (G T) (G 0%Re) = H T by rewrite /minus /plus /opp /= /G /H; field.
apply=> s _; apply: (@ex_derive_continuous _ R_NormedModule); by rewrite /f; auto_derive.
Qed.

Lemma poly_defect3 : proj_defect f T = (c2 ^ 2 * (T ^ 5 / 720))%Re.
Proof. by rewrite /proj_defect poly_I0 poly_I1 poly_I2; field. Qed.
End Poly.

Lemma qf_inj n (X Y : 'M[R]_n) : sym X -> sym Y -> (forall x, qf X x = qf Y x) -> X = Y.
Proof.
move=> sX sY H; apply/eqP; rewrite -subr_eq0; apply/eqP/matrixP=> i j.
have Z x : qf (X - Y) x = 0 by rewrite qfB H subrr.
rewrite [RHS]mxE; apply/eqP; rewrite -normr_le0; apply: psd_offdiag => [|k].
  by split=> [|x]; [rewrite /sym linearB /= sX sY | rewrite Z].
by rewrite -qf_delta Z.
Qed.

Section Nil.
Variables (d m : nat) (A : 'M[R]_d) (S : 'M[R]_(d, m)).
Hypothesis nil : A *m (A *m (A *m S)) = 0.
Let AS := A *m S.
Let AAS := A *m (A *m S).

Lemma nil_expm t : expm (t *: A) *m S = S + t *: AS + (t ^+ 2 / 2%:R) *: AAS.
Proof.
symmetry; pose V t := S + t *: AS + (t ^+ 2 / 2%:R) *: AAS.
have := @expm_flow d m A V _ t; rewrite /V expr0n mul0r !scale0r !addr0; apply=> s i j.
have -> : A *m (S + s *: AS + (s ^+ 2 / 2%:R) *: AAS) = AS + s *: AAS.
  by rewrite !mulmxDr -!scalemxAr [A *m AAS]nil scaler0 addr0.
apply: (@is_derive_ext _ _ (fun x : R => (S i j + x * AS i j + (x * x / 2) * AAS i j)%Re)).
  by move=> x; rewrite !mxE expr2; toR.
rewrite addmxE scalemxE; move: (S i j) (AS i j) (AAS i j) => u v w.
by auto_derive => //; toR; field.
Qed.

Lemma nil_expm_top t : expm (t *: A) *m AAS = AAS.
Proof.
symmetry; apply: (@expm_flow d m A (fun _ => AAS) _ t) => s.
by rewrite [A *m AAS]nil; exact: mx_deriv_const.
Qed.

Lemma nil_defect h : 0 < h -> step_defect A S h = (h ^+ 5 / 720%:R) *: (AAS *m AAS^T).
Proof.
move=> h0; apply: qf_inj => [||x].
- exact: (defect_psd A S h0).1.
- by rewrite /sym linearZ /= trmx_mul trmxK.
rewrite qf_defect // qfZ qf_gramE mulr_sumr; apply: eq_bigr => j _.
have -> : (fun s => (x^T *m (expm ((h - s) *: A) *m S)) 0 j) = (fun s => (x^T *m S) 0%R j + (x^T *m AS) 0%R j * (h - s) + (x^T *m AAS) 0%R j * ((h - s) ^ 2 / 2))%Re.
  apply: functional_extensionality => s; rewrite nil_expm !mulmxDr -!scalemxAr !addmxE !scalemxE expr2.
  by move: ((_ *m S) 0 j) ((_ *m AS) 0 j) ((_ *m AAS) 0 j) => u v w; toR; field.
by rewrite poly_defect3 // !exprS !expr0; move: ((_ *m _) 0 j) => u; toR; field.
Qed.
End Nil.

(** Noise that is integrated at most once: both kicks are the same function of the draws. *)
Section Once.
Variables (d m : nat) (A : 'M[R]_d) (S : 'M[R]_(d, m)).
Hypothesis nil : A *m (A *m S) = 0.
Let AS := A *m S.

Let nil3 : A *m (A *m (A *m S)) = 0. Proof. by rewrite nil mulmx0. Qed.

Lemma once_B t i j : (expm (t *: A) *m S) i j = S i j + AS i j * t.
Proof. by rewrite (nil_expm nil3) nil scaler0 addr0 !mxE mulrC. Qed.

Lemma once_I0 T : 0 < T -> I0 A S T = T *: S + (T ^+ 2 / 2%:R) *: AS.
Proof.
move=> T0; apply/matrixP=> i j; rewrite mx_intE ?addmxE !scalemxE.
rewrite (RInt_ext _ (fun s => S i j + AS i j * (T - s) + 0 * ((T - s) ^ 2 / 2))%Re) => [|s _].
  rewrite poly_I0 // expr2; move: (S i j) (AS i j) => u v; toR; field.
by rewrite once_B; move: (S i j) (AS i j) => u v; toR; ring.
Qed.

Lemma once_I1 T : 0 < T -> I1 A S T = (T ^+ 2 / 6%:R) *: AS.
Proof.
move=> T0; apply/matrixP=> i j; rewrite mx_intE ?addmxE !scalemxE.
rewrite (RInt_ext _ (fun s => Rmult (1 - 2 * (s / T))%Re (S i j + AS i j * (T - s) + 0 * ((T - s) ^ 2 / 2))%Re)) => [|s _].
  rewrite poly_I1 // expr2; move: (S i j) (AS i j) => u v; toR; field.
by rewrite scalemxE once_B; move: (S i j) (AS i j) => u v; toR; ring.
Qed.

Lemma once_kick T a b : 0 < T -> kickT A S T a b = S *m a + AS *m (T *: (2%:R^-1 *: a + (sqrt 6%:R)^-1 *: b)).
Proof.
move=> T0; rewrite /kickT once_I0 // once_I1 // !mulmxDl -!scalemxAl scalerDr !scalerA -!scalemxAr mulmxDr -!scalemxAr scalerDr !scalerA -addrA.
have Tn : T <> 0%Re by apply/eqP; rewrite gt_eqF.
rewrite mulVf ?gt_eqF // scale1r sqrt6_inv; congr (_ + (_ *: _ + _ *: _)); rewrite expr2; first by toR; field.
by move: (sqrt 6%:R) => q; toR; field.
Qed.

Lemma once_fine g (h : R) (ws : seq (key g)) : 0 < h -> fine_state A S h ws = S *m (fine_int m h ws).1 + AS *m (fine_int m h ws).2.
Proof.
move=> h0; elim/last_ind: ws => [|ws w IH]; first by rewrite /fine_state /fine_int /= !mulmx0 addr0.
rewrite fine_state_rcons fine_int_rcons IH once_kick //=; case: (fine_int m h ws) => s r /=.
have PS : expm (h *: A) *m S = S + h *: AS by apply/matrixP=> i j; rewrite once_B !mxE mulrC.
have PA : expm (h *: A) *m AS = AS.
  symmetry; apply: (@expm_flow d m A (fun _ => AS) _ h) => t.
  by rewrite [A *m AS]nil; exact: mx_deriv_const.
rewrite mulmxDr (mulmxA _ S) (mulmxA _ AS) PS PA mulmxDl mulmxDr mul1r -scalemxAl mulmxDr.
rewrite -(addrA s) (scalerDr h s) (mulmxDr AS (h *: s)) -(scalemxAr h AS s).
set u := S *m s; set v := AS *m s; set x := AS *m r; set p := S *m _; set q := AS *m (_ *: (_ + _)).
by apply/matrixP=> i j; rewrite !addmxE; move: (u i j) ((h *: v) i j) (x i j) (p i j) (q i j) => {}u {}v {}x {}p {}q; toR; ring.
Qed.

Lemma once_same g (h : R) N (ws : seq (key g)) : 0 < h -> (0 < N)%N -> coarse_kick A S h N ws = fine_kick A S h N ws.
Proof.
move=> h0 N0; have e0 : 0 < h / N%:R by rewrite divr_gt0 // ltr0n.
rewrite /fine_kick once_fine // /coarse_kick fine_keys_int once_kick //.
case: (fine_int m _ ws) => s r /=; congr (_ + _ *m _).
rewrite !scalerA mulVf ?sqrt6_neq0 // scale1r mul1r addrC subrK scalerA mulfV ?scale1r // gt_eqF //.
Qed.
End Once.

Lemma eval_parabola_deriv m (T t : R) (a b : 'cV[R]_m) : T != 0 ->
  mx_deriv (fun s => eval_parabola s T a b) t (jacR (fun s => eval_parabola s T a b) t).
Proof.
move=> T0 i j; have [_ _ -> D _] := parab_path t a b i T0.
by move: D; rewrite ord1; congr is_derive; rewrite !mxE; move: (a i 0) (b i 0) (sqrt 6%:R) => u v q; apply: (_ : @eq R _ _); toR; field; exact/eqP.
Qed.

Section RunError.
Variables (g : prng) (d m : nat) (A : 'M[R]_d) (S : 'M[R]_(d, m)) (h : R) (N : nat).
Variable int : key g -> 'cV[R]_d -> ('cV[R]_d -> R -> 'cV[R]_d) -> R -> 'cV[R]_d.
Hypotheses (h0 : 0 < h) (N0 : (0 < N)%N) (exact_int : solves_affine int h).
Variables (M : nat) (x0 : 'cV[R]_d).
Let fs := to_stratonovich (fun z _ => A *m z) (fun _ _ => S).
Let run (k : key g) := sde_solver fs.1 fs.2 (get_approx_fine g m N) h int k x0 M.
Let x n k := nth x0 (run k).1.2 n.
Let c k n : 'cV[R]_m * 'cV[R]_m * seq 'cV[R]_m * seq 'cV[R]_m := nth (0, 0, [::], [::]) (run k).2 n.
Let piece k q t := eval_parabola t (h / N%:R) (nth 0 (c k (q %/ N)).1.2 (q %% N)) (sqrt 6%:R *: nth 0 (c k (q %/ N)).2 (q %% N)).
Variable y : key g -> nat -> 'cV[R]_d.
Hypotheses (y0 : forall k, y k 0%N = x0) (yf : forall k, follows A S (h / N%:R) (M * N) (piece k) (y k)).

Let ks (k : key g) := split (child k 2 0) N.
Let e := h / N%:R.
Let e0 : 0 < e. Proof. by rewrite divr_gt0 // ltr0n. Qed.
Let Ne : N%:R * e = h. Proof. by rewrite /e mulrC divfK // pnatr_eq0 -lt0n. Qed.
Let P := expm (h *: A).

Lemma run_ode n k : (n < M)%N -> c k n = parabolas_fine m N (child (child k M n) 2 0) h /\
  x n.+1 k = P *m x n k + coarse_kick A S h N (ks (child k M n)).
Proof.
move=> nM.
have [E1 E2] : c k n = parabolas_fine m N (child (child k M n) 2 0) h /\
    x n.+1 k = int (child (child k M n) 2 1) (x n k) (fun z t => fs.1 z (t + n%:R * h) +
      fs.2 z (t + n%:R * h) *m jacR (fun s => eval_parabola s h (c k n).1.1.1 (c k n).1.1.2) t) h.
  exact: (@interval_ode g d m _ fs.1 fs.2 (get_approx_fine g m N) h int k x0 M n (0, 0, [::], [::]) nM).
split=> //; rewrite E2 (lin_field A S h (c k n).1.1) E1.
have SC := @slope_cont _ _ S _ h0 (parabolas_fine m N (child (child k M n) 2 0) h).1.1.1 (parabolas_fine m N (child (child k M n) 2 0) h).1.1.2.
rewrite (exact_int _ SC (voc0 A _ _) (fun t => @voc_deriv d A _ SC _ t)).
by rewrite (voc_int A SC) kickT_int.
Qed.

Lemma fine_step k n j : (n < M)%N -> (j < N)%N ->
  y k (n * N + j).+1 = expm (e *: A) *m y k (n * N + j) +
    kickT A S e (parabolas m (nth (child (child k M n) 2 0) (ks (child k M n)) j) e).1 (parabolas m (nth (child (child k M n) 2 0) (ks (child k M n)) j) e).2.
Proof.
move=> nM jN; have [E1 _] := run_ode k nM.
have qM : (n * N + j < M * N)%N by apply: leq_trans (leq_mul nM (leqnn N)); rewrite mulSn addnC ltn_add2r.
have [z [sl [sd z0 ze zd]]] := yf k qM.
have pE t : piece k (n * N + j) t = eval_parabola t e (parabolas m (nth (child (child k M n) 2 0) (ks (child k M n)) j) e).1
   (parabolas m (nth (child (child k M n) 2 0) (ks (child k M n)) j) e).2.
  rewrite /piece divnMDl // divn_small // addn0 modnMDl modn_small // E1.
  have [-> ->] := nth_fine m (child (child k M n) 2 0) h jN; rewrite scalerA divff ?sqrt6_neq0 // scale1r.
  by [].
move: pE; set p := parabolas m _ e => pE.
rewrite -ze -z0; apply: interval_end => // t.
have <- : sl t = jacR (fun r => eval_parabola r e p.1 p.2) t; last exact: zd.
apply/matrixP=> i l; have /is_derive_unique <- := sd t i l.
have D := @eval_parabola_deriv m e t p.1 p.2 (lt0r_neq0 e0) i l.
by apply: is_derive_unique; apply: is_derive_ext D => s; rewrite pE.
Qed.

Lemma fine_run k n : (n < M)%N -> y k (n.+1 * N) = P *m y k (n * N) + fine_kick A S h N (ks (child k M n)).
Proof.
move=> nM; have sz : size (ks (child k M n)) = N by rewrite /ks size_split.
have H j : (j <= N)%N -> y k (n * N + j) = expm ((j%:R * e) *: A) *m y k (n * N) + fine_state A S e (take j (ks (child k M n))).
  elim: j => [|j IH] jN; first by rewrite addn0 mul0r scale0r expm0 mul1mx take0 addr0.
  rewrite addnS fine_step // IH ?(ltnW jN) // (take_nth (child (child k M n) 2 0)) ?sz // fine_state_rcons.
  by rewrite mulmxDr mulmxA -expm_add -natr1' mulrDl mul1r [_ * e + e]addrC -!addrA.
by rewrite mulSn addnC H // Ne take_oversize // sz.
Qed.

Variables (E F : expectation (key g)) (E' : expectation (key g)).
Hypotheses (split_iid : forall G, F (fun k => G (split k M)) = iid E M G)
  (fine_iid : forall G, E (fun k => G (split (child k 2 0) N)) = iid E' N G)
  (std : standard2 E' (fun k => normal2 k 2 m)).

Let fineE p q (X : seq (key g) -> 'M[R]_(p, q)) : Emx E (fun k => X (ks k)) = Emx (iidE E' N) X.
Proof. by apply/matrixP=> i j; rewrite !mxE; exact: (fine_iid (fun ws => X ws i j)). Qed.

Let mean n := expm ((n%:R * h) *: A) *m x0.
Let err n k := x n k - y k (n * N).
Let cov_x n := Emx F (fun k => (x n k - mean n) *m (x n k - mean n)^T).
Let cov_y n := Emx F (fun k => (y k (n * N) - mean n) *m (y k (n * N) - mean n)^T).
Let cov_e n := Emx F (fun k => err n k *m (err n k)^T).

Lemma lin_chain (u : nat -> key g -> 'cV[R]_d) (b : seq (key g) -> 'cV[R]_d) u0 C :
  (forall k, u 0%N k = u0) -> (forall k n, (n < M)%N -> u n.+1 k = P *m u n k + b (ks (child k M n))) ->
  Emx (iidE E' N) b = 0 -> Emx (iidE E' N) (fun ws => b ws *m (b ws)^T) = C ->
  let mu n := expm ((n%:R * h) *: A) *m u0 in
  let cov n := Emx F (fun k => (u n k - mu n) *m (u n k - mu n)^T) in
  [/\ forall n, (n <= M)%N -> Emx F (u n) = mu n, cov 0%N = 0 &
      forall n, (n < M)%N -> cov n.+1 = P *m cov n *m P^T + C].
Proof.
move=> U0 US b0 b2 mu cov.
pose st (z : 'cV[R]_d) (k : key g) := P *m z + b (ks k).
have uE n k : (n <= M)%N -> u n k = chain M st u0 n k.
  elim: n => [|n IH] nM; first by rewrite chain0.
  by rewrite chainS // -IH ?(ltnW nM) // US.
have [C1 C2 C3] := @chain_moments g E F M split_iid d st u0 P C (fun k => b (ks k)) (fun _ _ => erefl)
  (etrans (fineE b) b0) (etrans (fineE (fun ws => b ws *m (b ws)^T)) b2).
have cE n : (n <= M)%N -> cov n = Emx F (fun k => (chain M st u0 n k - mxpow P n *m u0) *m (chain M st u0 n k - mxpow P n *m u0)^T).
  by move=> nM; apply: Emx_ext => k; rewrite uE // mxpow_expm.
split=> [n nM||n nM].
- by rewrite /mu -mxpow_expm -C1 //; apply: Emx_ext => k; rewrite uE.
- by rewrite cE.
- by rewrite !cE ?(ltnW nM) // C3.
Qed.

Let Cf := fine_cov A S E' h N.

Lemma runs_law : [/\ forall n, (n <= M)%N -> Emx F (err n) = 0,
  [/\ cov_x 0%N = 0, cov_y 0%N = 0 & cov_e 0%N = 0] &
  forall n, (n < M)%N -> [/\ cov_x n.+1 = P *m cov_x n *m P^T + step_cov A S h,
    cov_y n.+1 = P *m cov_y n *m P^T + Cf & cov_e n.+1 = P *m cov_e n *m P^T + (Cf - step_cov A S h)]].
Proof.
have xI k : x 0%N k = x0 by rewrite /x /run sde_solverE.
have [X1 X2 X3] := lin_chain xI (fun k n nM => (run_ode k nM).2) (coarse_kick_mean A S h0 N0 std) (coarse_kick_cov A S h0 N0 std).
have [Y1 Y2 Y3] := @lin_chain (fun n k => y k (n * N)) _ _ _ y0 (fun k n nM => fine_run k nM) (fine_kick_mean A S h0 N0 std) erefl.
have eS k n : (n < M)%N -> err n.+1 k = P *m err n k + (coarse_kick A S h N (ks (child k M n)) - fine_kick A S h N (ks (child k M n))).
  by move=> nM; rewrite /err (run_ode k nM).2 fine_run // mulmxBr opprD addrACA.
have e00 k : err 0%N k = 0 by rewrite /err xI y0 subrr.
have [E1 E2 E3] := @lin_chain err (fun ws => coarse_kick A S h N ws - fine_kick A S h N ws) 0 _ e00 eS (eps_mean A S h0 N0 std) (eps_cov A S h0 N0 std).
have cE n : cov_e n = Emx F (fun k => (err n k - expm ((n%:R * h) *: A) *m 0) *m (err n k - expm ((n%:R * h) *: A) *m 0)^T).
  by apply: Emx_ext => k; rewrite mulmx0 subr0.
split=> [n nM||n nM]; first by rewrite E1 // mulmx0.
  by split=> //; rewrite cE.
by split; [exact: X3 | exact: Y3 | rewrite !cE; exact: E3].
Qed.

Lemma pythagoras n : (n <= M)%N -> cov_e n = cov_y n - cov_x n.
Proof.
have [_ [X0 Y0 E0] HS] := runs_law.
elim: n => [|n IH] nM; first by rewrite X0 Y0 E0 subrr.
have [-> -> ->] := HS n nM; by rewrite IH ?(ltnW nM) // mulmxBr mulmxBl [in RHS]opprD [RHS]addrACA.
Qed.
Let Df j := lin_sde_cov A S (j%:R * e) - Emx (iidE E' j) (fun ws => fine_state A S e ws *m (fine_state A S e ws)^T).

Lemma Df0 : Df 0%N = 0.
Proof. by rewrite /Df mul0r cov0 sub0r; apply/matrixP=> i j; rewrite !mxE /= mul0mx mxE oppr0. Qed.

Lemma DfS j : Df j.+1 = expm (e *: A) *m Df j *m (expm (e *: A))^T + step_defect A S e.
Proof.
have [_ _ C] := cross A S e0 std j.
rewrite /Df C -natr1' mulrDl mul1r (cov_consistent A S _ e).2 mulmxBr mulmxBl /step_defect.
by rewrite [in LHS]opprD addrACA.
Qed.

Lemma CfE : Cf = lin_sde_cov A S h - Df N.
Proof. by rewrite /Df Ne opprB addrC subrK. Qed.

Let gap_x n := lin_sde_cov A S (n%:R * h) - cov_x n.
Let gap_y n := lin_sde_cov A S (n%:R * h) - cov_y n.

Lemma gaps_rec : [/\ gap_x 0%N = 0, gap_y 0%N = 0 & forall n, (n < M)%N ->
  gap_x n.+1 = P *m gap_x n *m P^T + step_defect A S h /\ gap_y n.+1 = P *m gap_y n *m P^T + Df N].
Proof.
have [_ [X0 Y0 _] HS] := runs_law.
split=> [||n nM]; [by rewrite /gap_x X0 mul0r cov0 subrr | by rewrite /gap_y Y0 mul0r cov0 subrr |].
have [X Y _] := HS n nM.
rewrite /gap_x /gap_y X Y -natr1' mulrDl mul1r (cov_consistent A S _ h).2 !mulmxBr !mulmxBl -/P; split.
  by rewrite /step_defect [in LHS]opprD addrACA.
by rewrite CfE [in LHS]opprD addrACA opprB [lin_sde_cov A S h + _]addrC subrK.
Qed.

Let T n := n%:R * h.
Let al := \sum_i \sum_j `|A i j|.
Let ga := \sum_k (\sum_l `|S l k|) ^+ 2.
Let const n := T n * (al ^+ 4 * exp (2%:R * T n * al) * ga / 80%:R).

Lemma gap_x_law n : (n <= M)%N -> psd (gap_x n) /\ forall i, gap_x n i i <= const n * h ^+ 4.
Proof.
move=> nM; have [G0 _ GS] := gaps_rec; split.
  exact: (@rec_psd _ A h gap_x _ M G0 (fun j jM => (GS j jM).1) (defect_psd A S h0) n nM).
move=> i; have H := @rec_small _ _ A S h h0 gap_x _ (h ^+ 5 / 80%:R) M G0 (fun j jM => (GS j jM).1) (fun z K H => defect_small h0 H) n.
apply: (le_trans (@small_entry _ _ A S (gap_x n) (n%:R * (h ^+ 5 / 80%:R)) (T n) _ i)) => [z K HK|].
  by apply: (le_trans (H z K nM HK)); rewrite mulrCA.
rewrite le_eqVlt; apply/orP; left; apply/eqP; rewrite /const /T -/al -/ga.
set u := exp _; clearbody u; move: al ga (n%:R : R) => p q t; rewrite !exprS !expr0; toR; field.
Qed.

Lemma gap_y_law n : (n <= M)%N -> psd (gap_y n) /\ forall i, gap_y n i i <= const n * e ^+ 4.
Proof.
move=> nM; have [_ G0 GS] := gaps_rec.
have DP : psd (Df N) by apply: (@rec_psd _ A e Df (step_defect A S e) N Df0 (fun j _ => DfS j) (defect_psd A S e0) N).
have DS z K : (forall r j, 0 <= r -> r <= h -> `|(z^T *m (A *m (A *m (expm (r *: A) *m S)))) 0 j| <= K j) ->
    qf (Df N) z <= (\sum_j K j ^+ 2) * (N%:R * (e ^+ 5 / 80%:R)).
  move=> HK; rewrite mulrCA.
  apply: (@rec_small _ _ A S e e0 Df _ (e ^+ 5 / 80%:R) N Df0 (fun j _ => DfS j) (fun z K H => defect_small e0 H) N z K (leqnn N)).
  by rewrite Ne.
split; first exact: (@rec_psd _ A h gap_y _ M G0 (fun j jM => (GS j jM).2) DP n nM).
move=> i; have H := @rec_small _ _ A S h h0 gap_y _ _ M G0 (fun j jM => (GS j jM).2) DS n.
apply: (le_trans (@small_entry _ _ A S (gap_y n) (n%:R * (N%:R * (e ^+ 5 / 80%:R))) (T n) _ i)) => [z K HK|].
  by apply: (le_trans (H z K nM HK)); rewrite mulrCA.
rewrite le_eqVlt; apply/orP; left; apply/eqP; rewrite /const /T -/al -/ga -Ne.
set u := exp _; clearbody u; move: al ga (n%:R : R) (N%:R : R) => p q t v; rewrite !exprS !expr0; toR; field.
Qed.

Lemma gap_e n : (n <= M)%N -> lin_sde_cov A S (T n) - cov_x n - cov_e n = gap_y n.
Proof. by move=> nM; rewrite pythagoras // opprB addrA subrK. Qed.

(** Twice integrated noise: the error in closed form. *)
Lemma strong_twice n : A *m (A *m (A *m S)) = 0 -> (n <= M)%N ->
  cov_e n = (T n * h ^+ 4 / 720%:R * (1 - N%:R ^- 4)) *: ((A *m (A *m S)) *m (A *m (A *m S))^T).
Proof.
move=> nil nM; set AAS := A *m (A *m S).
have top t : expm (t *: A) *m AAS = AAS by apply: nil_expm_top.
have recG (G : nat -> 'M[R]_d) (t w : R) K : G 0%N = 0 ->
    (forall j, (j < K)%N -> G j.+1 = expm (t *: A) *m G j *m (expm (t *: A))^T + w *: (AAS *m AAS^T)) ->
    forall j, (j <= K)%N -> G j = (j%:R * w) *: (AAS *m AAS^T).
  move=> G0 GS; elim=> [|j IH] jK; first by rewrite G0 mul0r scale0r.
  by rewrite GS // IH ?(ltnW jK) // -scalemxAr -scalemxAl (mulmxA _ AAS) top -(mulmxA AAS) -trmx_mul top -scalerDl -natr1' mulrDl mul1r.
have [X0 Y0 HS] := gaps_rec.
have DN : Df N = (N%:R * (e ^+ 5 / 720%:R)) *: (AAS *m AAS^T).
  by apply: (recG _ e _ N Df0 _ N (leqnn N)) => j _; rewrite DfS nil_defect.
have GX : gap_x n = (n%:R * (h ^+ 5 / 720%:R)) *: (AAS *m AAS^T).
  by apply: (recG _ h _ M X0 _ n nM) => j jM; have [-> _] := HS j jM; rewrite nil_defect.
have GY : gap_y n = (n%:R * (N%:R * (e ^+ 5 / 720%:R))) *: (AAS *m AAS^T).
  by apply: (recG _ h _ M Y0 _ n nM) => j jM; have [_ ->] := HS j jM; rewrite DN.
have -> : cov_e n = gap_x n - gap_y n by rewrite pythagoras // /gap_x /gap_y opprB [RHS]addrC addrA subrK.
rewrite GX GY -scalerBl; congr (_ *: _); rewrite /T /e.
have Nn : (N%:R : R) <> 0%Re by apply/eqP; rewrite pnatr_eq0 -lt0n.
move: (n%:R : R) (N%:R : R) Nn => t v vn; rewrite !exprS !expr0; toR; field.
by [].
Qed.

(** Noise integrated once: no error at all. *)
Lemma strong_once k n : A *m (A *m S) = 0 -> (n <= M)%N -> x n k = y k (n * N).
Proof.
move=> nil; elim: n => [|n IH] nM; first by rewrite /x /run sde_solverE y0.
by rewrite (run_ode k nM).2 fine_run // IH ?(ltnW nM) // once_same.
Qed.

Lemma strong_law n : (n <= M)%N ->
  [/\ Emx F (err n) = 0, cov_e n = cov_y n - cov_x n,
      psd (lin_sde_cov A S (T n) - cov_x n - cov_e n),
      forall i j, `|(lin_sde_cov A S (T n) - cov_x n - cov_e n) i j| <= const n * e ^+ 4 &
      forall i, F (fun k => err n k i 0 ^+ 2) <= const n * h ^+ 4].
Proof.
move=> nM; have [E0 _ _] := runs_law; have [yp ys] := gap_y_law nM; have [xp xs] := gap_x_law nM.
rewrite gap_e //; split=> //; [exact: E0 | exact: pythagoras | by move=> i j; exact: psd_offdiag|].
move=> i; have -> : F (fun k => err n k i 0 ^+ 2) = cov_e n i i.
  by rewrite mxE; apply: E_ext => k; rewrite mulmxE big_ord1 trmxE expr2.
apply: le_trans (xs i).
have -> : cov_e n = gap_x n - gap_y n by rewrite -gap_e // /gap_x -/(T n) opprB addrC subrK.
rewrite submxE ler_subl_addr ler_addl -qf_delta; exact: yp.2.
Qed.
End RunError.

(** ** The reference solution exists and is unique *)
Lemma follows_unique d m (A : 'M[R]_d) (S : 'M[R]_(d, m)) (h : R) Q (a b : nat -> 'cV[R]_m) (y y' : nat -> 'cV[R]_d) : 0 < h ->
  let piece q t := eval_parabola t h (a q) (b q) in
  y 0%N = y' 0%N -> follows A S h Q piece y -> follows A S h Q piece y' -> forall q, (q <= Q)%N -> y q = y' q.
Proof.
move=> h0 piece y0 F F'; elim=> [|q IH] qQ //.
have G (u : nat -> 'cV[R]_d) : follows A S h Q piece u -> u q.+1 = expm (h *: A) *m u q + kickT A S h (a q) (b q).
  move=> Fu; have [z [sl [sd z0 ze zd]]] := Fu q qQ.
  rewrite -ze -z0; apply: interval_end => // t.
  have <- : sl t = jacR (fun r => eval_parabola r h (a q) (b q)) t; last exact: zd.
  apply/matrixP=> i l; have /is_derive_unique <- := sd t i l.
  exact: is_derive_unique (@eval_parabola_deriv m h t (a q) (b q) (lt0r_neq0 h0) i l).
by rewrite !G // IH // ltnW.
Qed.

Lemma follows_exists d m (A : 'M[R]_d) (S : 'M[R]_(d, m)) (h : R) Q (a b : nat -> 'cV[R]_m) x0 : 0 < h ->
  exists y, y 0%N = x0 /\ follows A S h Q (fun q t => eval_parabola t h (a q) (b q)) y.
Proof.
move=> h0; pose sl q t := jacR (fun s => eval_parabola s h (a q) (b q)) t.
pose y := nat_rect (fun _ => 'cV[R]_d) x0 (fun q x => voc A (fun t => S *m sl q t) x h).
exists y; split=> // q _; exists (voc A (fun t => S *m sl q t) (y q)), (sl q); split=> //.
- by move=> t; apply: eval_parabola_deriv; rewrite gt_eqF.
- exact: voc0.
- by move=> t; apply: voc_deriv; exact: slope_cont.
Qed.

Lemma div_nat_gt0 (h : R) N : 0 < h -> (0 < N)%N -> 0 < h / N%:R.
Proof. by move=> h0 N0; rewrite divr_gt0 // ltr0n. Qed.

Lemma reference d m (A : 'M[R]_d) (S : 'M[R]_(d, m)) (h : R) x0 Q (a b : nat -> 'cV[R]_m) : 0 < h ->
  let piece q t := eval_parabola t h (a q) (b q) in
  (exists u, u 0%N = x0 /\ follows A S h Q piece u) /\
  forall u u', u 0%N = u' 0%N -> follows A S h Q piece u -> follows A S h Q piece u' ->
  forall q, (q <= Q)%N -> u q = u' q.
Proof. by move=> h0 piece; split; [exact: follows_exists | move=> u u'; exact: follows_unique]. Qed.

(** ** Keys of intervals with independent fine draws *)
Definition intervalE m N : expectation ktree := pushE (fun l => Node [:: l; kzero]) (nodeE (signkeyE 2 m) N).

Lemma strong_example m N M d : let E := intervalE m N in
  [/\ forall h, solves_affine (@affine_solver (key tree_prng) d) h,
      forall G, nodeE E M (fun k => G (split (k : key tree_prng) M)) = iid E M G,
      forall G, E (fun k => G (split (child (k : key tree_prng) 2 0) N)) = iid (signkeyE 2 m) N G,
      standard2 (signkeyE 2 m) (fun k => normal2 (k : key tree_prng) 2 m) &
      let A := companion 2 (fun _ => 0) in let S := last_noise 2 1 in
      A *m (A *m (A *m S)) = 0 /\ A *m (A *m S) <> 0].
Proof.
split=> [h|G|G||]; [exact: affine_solver_exact | exact: nodeE_split | | exact: signkey_standard |].
  exact: (nodeE_split (signkeyE 2 m) N G).
split.
  apply/matrixP=> i j; rewrite !mulmxE !big_ord_recl !big_ord0 !mulmxE !big_ord_recl !big_ord0 !mulmxE !big_ord_recl !big_ord0 !mxE /=.
  by case: i => -[|[|[|i]]] Hi //=; rewrite !(mul0r, mulr0, mul1r, mulr1, addr0, add0r).
move/matrixP/(_ 0 0); rewrite !mulmxE !big_ord_recl !big_ord0 !mulmxE !big_ord_recl !big_ord0 !mxE /=.
by rewrite !(mul0r, mulr0, mul1r, mulr1, addr0, add0r) => /eqP; rewrite oner_eq0.
Qed.
