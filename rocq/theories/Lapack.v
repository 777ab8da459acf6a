(** The contracts of [Linalg.lapack] can be met: QR factors (Householder), Cholesky
    factors and square roots of positive semi-definite matrices exist. *)
From Coq Require Import Reals Lra ClassicalEpsilon.
From Coquelicot Require Import Coquelicot.
From mathcomp Require Import all_ssreflect all_algebra.
From Verif Require Import Rstruct Base Linalg.

Set Implicit Arguments.
Unset Strict Implicit.
Unset Printing Implicit Defensive.
Import Order.TTheory GRing.Theory Num.Theory.
Local Open Scope ring_scope.

(** ** Orthogonal matrices *)
Lemma orth1 n : orthogonal_mx (1%:M : 'M[R]_n).
Proof. by rewrite /orthogonal_mx trmx1 mulmx1. Qed.
Lemma orthM n (A B : 'M[R]_n) : orthogonal_mx A -> orthogonal_mx B -> orthogonal_mx (A *m B).
Proof. by move=> oA oB; rewrite /orthogonal_mx trmx_mul -mulmxA (mulmxA A^T) oA mul1mx. Qed.
Lemma orthT n (A : 'M[R]_n) : orthogonal_mx A -> orthogonal_mx A^T.
Proof. by move=> oA; rewrite /orthogonal_mx trmxK; exact: mulmx1C. Qed.
Lemma orth_block n m (A : 'M[R]_n) (B : 'M[R]_m) :
  orthogonal_mx A -> orthogonal_mx B -> orthogonal_mx (block_mx A 0 0 B).
Proof.
move=> oA oB; rewrite /orthogonal_mx tr_block_mx mulmx_block !trmx0 !mulmx0 !mul0mx oA oB.
by rewrite !addr0 !add0r -scalar_mx_block.
Qed.

Lemma householder m (v : 'cV[R]_m.+1) :
  exists (H : 'M[R]_m.+1) (c : R), orthogonal_mx H /\ H *m v = c *: delta_mx 0 0.
Proof.
pose e : 'cV[R]_m.+1 := delta_mx 0 0.
pose q := (v^T *m v) 0 0; pose r := sqrt q.
have rr : r ^+ 2 = q by rewrite expr2; apply: sqrt_sqrt; apply/RleP; exact: sumsq_ge0.
pose u := v - r *: e.
case: (eqVneq u 0) => [u0|u0].
  exists 1%:M, r; split; first exact: orth1.
  by rewrite mul1mx; apply/eqP; rewrite -subr_eq0; apply/eqP.
pose d := (u^T *m u) 0 0.
have d0 : d != 0 by apply: contra u0 => /eqP /sumsq_eq0 ->.
have uu : u^T *m u = d%:M by rewrite [LHS]mx11_scalar.
pose H := 1%:M - (2%:R / d) *: (u *m u^T).
have HT : H^T = H by rewrite /H linearB linearZ /= trmx1 trmx_mul trmxK.
have uHu : (u *m u^T) *m (u *m u^T) = d *: (u *m u^T).
  by rewrite -mulmxA (mulmxA u^T) uu mul_scalar_mx -scalemxAr.
exists H, r; split.
  rewrite /orthogonal_mx HT /H mulmxBl mul1mx !mulmxBr mulmx1 -scalemxAl -scalemxAr uHu !scalerA.
  have -> : 2%:R / d * (2%:R / d) * d = 2%:R / d + 2%:R / d :> R.
    by rewrite -mulrA divfK // [LHS]mulr_natr [LHS]mulr2n.
  by rewrite scalerDl opprB addrK subrK.
have uv : u^T *m v = (q - r * v 0 0)%:M.
  rewrite /u linearB linearZ /= mulmxBl -scalemxAl trmx_delta -rowE.
  apply/matrixP=> i j; rewrite !ord1 !mxE eqxx mulr1n; congr (_ - _).
  by rewrite /q mxE.
have ue : (u^T *m e) 0 0 = v 0 0 - r.
  by rewrite -colE mxE trmxE /u submxE scalemxE [e _ _]mxE !eqxx mulr1.
have dE : d = 2%:R * (q - r * v 0 0).
  have : u^T *m u = (q - r * v 0 0)%:M - r *: (u^T *m e).
    by rewrite {2}/u mulmxBr uv -scalemxAr.
  rewrite uu => /(congr1 (fun M : 'M[R]_1 => M 0 0)).
  rewrite submxE scalemxE ue !mxE eqxx !mulr1n => ->.
  by rewrite -rr; rring.
rewrite /H mulmxBl mul1mx -scalemxAl -mulmxA uv mul_mx_scalar scalerA.
have -> : 2%:R / d * (q - r * v 0 0) = 1.
  by rewrite mulrAC -dE divff.
by rewrite scale1r /u opprB addrC subrK.
Qed.

Lemma qr_exists m n (A : 'M[R]_(m, n)) :
  exists (Q : 'M[R]_m) (r : 'M[R]_(m, n)), [/\ orthogonal_mx Q, A = Q *m r &
    forall (i : 'I_m) (j : 'I_n), (j < i)%N -> r i j = 0].
Proof.
elim: m n A => [|m IH] n A.
  by exists 1%:M, A; split; [exact: orth1 | rewrite mul1mx | case].
case: n A => [|n] A.
  by exists 1%:M, A; split; [exact: orth1 | rewrite mul1mx | move=> i []].
have [H [c [oH Hv]]] := householder (col 0 A).
pose B : 'M[R]_(1 + m, 1 + n) := H *m A.
have [Q' [r' [oQ' rE up]]] := IH n (drsubmx B).
exists (H^T *m (block_mx 1%:M 0 0 Q' : 'M[R]_(1 + m))), (block_mx (ulsubmx B) (ursubmx B) 0 r').
have dl0 : dlsubmx B = 0.
  apply/matrixP=> i j; rewrite !mxE /= -[RHS](_ : (c *: (delta_mx 0 0 : 'cV[R]_m.+1)) (rshift 1 i) 0 = 0).
    rewrite -Hv !mxE; apply: eq_bigr => k _; rewrite !mxE; congr (_ * A _ _).
    by apply: val_inj; rewrite /= ord1.
  by rewrite !mxE /= mulr0.
split.
- by apply: orthM; [exact: orthT | exact: (@orth_block 1 m 1%:M Q' (orth1 1) oQ')].
- have E : block_mx 1%:M 0 0 Q' *m block_mx (ulsubmx B) (ursubmx B) 0 r' = B.
    rewrite mulmx_block !mul0mx !mulmx0 !mul1mx !addr0 !add0r -rE -[RHS]submxK.
    by rewrite dl0.
  rewrite -mulmxA; apply: etrans (congr1 (mulmx H^T) (esym E)).
  by rewrite /B mulmxA oH mul1mx.
- move=> i j; case: (@split_ordP 1 m i) => i' ->; case: (@split_ordP 1 n j) => j' ->.
  + by rewrite !ord1.
  + by rewrite !ord1.
  + by move=> _; apply: etrans (block_mxEdl _ _ _ _ _ _) _; rewrite mxE.
  + by rewrite ltnS => ij; apply: etrans (block_mxEdr _ _ _ _ _ _) _; exact: up.
Qed.

(** ** Cholesky factors *)
Lemma pd_congr n (M A : 'M[R]_n) : M \in unitmx -> pd A -> pd (M *m A *m M^T).
Proof.
move=> uM [sA pA]; split=> [|x x0]; first exact: sym_congr.
rewrite qf_congr; apply: pA; apply: contra x0 => /eqP E.
have uMT : M^T \in unitmx by rewrite unitmx_tr.
by rewrite -[x]mul1mx -(mulVmx uMT) -mulmxA E mulmx0.
Qed.

Lemma pd_dr n m (A : 'M[R]_(n + m)) : pd A -> pd (drsubmx A).
Proof.
move=> [sA pA]; split=> [|x x0].
  by rewrite /sym trmx_drsub sA.
have <- : qf A (col_mx 0 x) = qf (drsubmx A) x.
  rewrite /qf -{1}[A]submxK tr_col_mx trmx0.
  by rewrite mul_row_block !mul0mx !add0r mul_row_col mulmx0 add0r.
apply: pA.
by apply: contra x0 => /eqP /(congr1 dsubmx); rewrite col_mxKd linear0 => ->.
Qed.

Lemma chol_exists n (A : 'M[R]_n) : pd A ->
  exists L, [/\ lower_tri L, forall i, 0 < L i i & L *m L^T = A].
Proof.
elim: n A => [|n IH] A pA.
  by exists 0; split=> [[]|[]|] //; apply/matrixP=> -[].
pose B : 'M[R]_(1 + n) := A.
have sB : B^T = B := pA.1.
pose a := B 0 0; pose b := dlsubmx B; pose C := drsubmx B.
have ulE : ulsubmx B = a%:M.
  by rewrite [LHS]mx11_scalar; congr (_%:M); rewrite !mxE; congr (B _ _); apply: val_inj.
have urE : ursubmx B = b^T by rewrite /b trmx_dlsub sB.
have a0 : 0 < a.
  have := pA.2 (delta_mx 0 0); rewrite /qf trmx_delta -rowE -colE !mxE; apply.
  by apply/eqP => /matrixP /(_ 0 0) /eqP; rewrite !mxE !eqxx oner_eq0.
have an : a != 0 by rewrite gt_eqF.
pose M : 'M[R]_(1 + n) := block_mx 1%:M 0 (- a^-1 *: b) 1%:M.
have uM : M \in unitmx by rewrite unitmxE det_lblock !det1 mulr1 unitr1.
have pD := pd_dr (pd_congr uM (pA : pd B)).
have DE : drsubmx (M *m B *m M^T) = C - a^-1 *: (b *m b^T).
  rewrite -{1}[B]submxK ulE urE -/b -/C tr_block_mx !mulmx_block block_mxKdr.
  rewrite !mul1mx trmx1 mulmx1 -!scalemxAl mul_mx_scalar scalerA mulNr mulVf // scaleN1r.
  by rewrite addNr mul0mx add0r addrC scaleNr.
have [L' [lL' pL' LE']] := IH _ pD.
have ra : 0 < sqrt a by apply/RltP; apply: sqrt_lt_R0; apply/RltP.
have rr : sqrt a * sqrt a = a by apply: sqrt_sqrt; apply/RleP; exact: ltW.
pose L : 'M[R]_(1 + n) := block_mx (sqrt a)%:M 0 ((sqrt a)^-1 *: b) L'.
exists L; split.
- move=> i j; case: (@split_ordP 1 n i) => i' ->; case: (@split_ordP 1 n j) => j' ->.
  + by rewrite !ord1.
  + by move=> _; apply: etrans (block_mxEur _ _ _ _ _ _) _; rewrite mxE.
  + by rewrite ord1.
  + by rewrite ltnS => ij; apply: etrans (block_mxEdr _ _ _ _ _ _) _; exact: lL'.
- move=> i; case: (@split_ordP 1 n i) => i' ->.
  + by rewrite [L _ _](block_mxEul _ _ _ _ _ _) ord1 mxE eqxx mulr1n.
  + by rewrite [L _ _](block_mxEdr _ _ _ _ _ _).
- suff: L *m L^T = B by [].
  rewrite /L tr_block_mx mulmx_block trmx0 !mulmx0 !mul0mx !addr0 LE' DE.
  rewrite linearZ /= tr_scalar_mx -!scalemxAl -!scalemxAr !scalerA !mul_mx_scalar !mul_scalar_mx !scalerA.
  rewrite !mulVf ?gt_eqF // !scale1r.
  have -> : (sqrt a)^-1 * (sqrt a)^-1 = a^-1 by rewrite -invfM rr.
  rewrite (addrC (_ *: _)) subrK -[RHS]submxK ulE urE.
  congr (block_mx _ _ _ _).
  by rewrite scale_scalar_mx rr.
Qed.

(** ** Square roots of positive semi-definite matrices *)
Lemma is_lim_sum (I : Type) (r : seq I) (F : I -> nat -> R) (L : I -> R) :
  (forall i, is_lim_seq (F i) (L i)) ->
  is_lim_seq (fun k => \sum_(i <- r) F i k) (\sum_(i <- r) L i).
Proof.
move=> H; elim: r => [|i r IH].
  by rewrite big_nil; apply: is_lim_seq_ext (is_lim_seq_const 0) => k; rewrite big_nil.
rewrite big_cons; apply: is_lim_seq_ext (is_lim_seq_plus' _ _ _ _ (H i) IH) => k.
by rewrite big_cons.
Qed.

Section SqrtIter.
Variables (n : nat) (B : 'M[R]_n).
Hypotheses (pB : psd B) (pB1 : psd (1%:M - B)).

Fixpoint Bp k : 'M[R]_n := if k is k'.+1 then B *m Bp k' else 1%:M.
Fixpoint Yit k : 'M[R]_n := if k is k'.+1 then 2%:R^-1 *: (B + Yit k' *m Yit k') else 0.

Inductive cone : 'M[R]_n -> Prop :=
| cone0 : cone 0
| coneS c k M : 0 <= c -> cone M -> cone (c *: Bp k + M).

Lemma BpC k : Bp k *m B = B *m Bp k.
Proof. by elim: k => [|k IH] /=; rewrite ?mul1mx ?mulmx1 // -mulmxA IH. Qed.
Lemma BpD k l : Bp k *m Bp l = Bp (k + l).
Proof. by elim: k => [|k IH] /=; rewrite ?mul1mx // -mulmxA IH. Qed.
Lemma Bp_psd k : psd (Bp k) /\ psd (Bp k.+1).
Proof.
elim: k => [|k [IH1 IH2]].
  by split; [apply: pd_psd; exact: pd1 | rewrite /= mulmx1].
split=> //; have -> : Bp k.+2 = B *m Bp k *m B^T by rewrite pB.1 /= -mulmxA BpC.
exact: psd_congr.
Qed.
Lemma cone_psd M : cone M -> psd M.
Proof.
elim=> [|c k N c0 _ IH]; first exact: psd0.
by apply: psdD => //; apply: psdZ => //; exact: (Bp_psd k).1.
Qed.
Lemma cone_add M N : cone M -> cone N -> cone (M + N).
Proof. by move=> cM cN; elim: cM => [|c k M' c0 _ IH]; rewrite ?add0r // -addrA; constructor. Qed.
Lemma cone_scale c M : 0 <= c -> cone M -> cone (c *: M).
Proof.
move=> c0; elim=> [|d k N d0 _ IH]; first by rewrite scaler0; constructor.
by rewrite scalerDr scalerA; constructor=> //; rewrite mulr_ge0.
Qed.
Lemma cone_B : cone B.
Proof.
rewrite -[B]addr0 -{1}[B]scale1r; have -> : 1 *: B + 0 = 1 *: Bp 1 + 0 by rewrite /= mulmx1.
by constructor; [exact: ler01 | constructor].
Qed.
Lemma cone_Bp k M : cone M -> cone (Bp k *m M).
Proof.
elim=> [|d l N d0 _ IH]; first by rewrite mulmx0; constructor.
by rewrite mulmxDr -scalemxAr BpD; constructor.
Qed.
Lemma cone_mul M N : cone M -> cone N -> cone (M *m N).
Proof.
move=> cM cN; elim: cM => [|c k M' c0 _ IH]; first by rewrite mul0mx; constructor.
rewrite mulmxDl -scalemxAl; apply: cone_add => //.
by apply: cone_scale => //; exact: cone_Bp.
Qed.
Lemma cone_BpC k M : cone M -> Bp k *m M = M *m Bp k.
Proof.
elim=> [|d l N d0 _ IH]; first by rewrite mulmx0 mul0mx.
by rewrite mulmxDr mulmxDl -scalemxAr -scalemxAl !BpD addnC IH.
Qed.
Lemma cone_comm M N : cone M -> cone N -> M *m N = N *m M.
Proof.
move=> cM cN; elim: cM => [|c k M' c0 _ IH]; first by rewrite mulmx0 mul0mx.
by rewrite mulmxDl mulmxDr -scalemxAl -scalemxAr IH cone_BpC.
Qed.

Lemma half_ge0 : 0 <= 2%:R^-1 :> R. Proof. by rewrite invr_ge0 ler0n. Qed.

Lemma Yit_cone k : cone (Yit k).
Proof.
elim: k => [|k IH] /=; first by constructor.
apply: cone_scale; first exact: half_ge0.
by apply: cone_add; [exact: cone_B | exact: cone_mul].
Qed.

Lemma Yit_incr k : cone (Yit k.+1 - Yit k).
Proof.
elim: k => [|k IH].
  rewrite subr0; exact: (Yit_cone 1).
have E : Yit k.+2 - Yit k.+1 = 2%:R^-1 *: ((Yit k.+1 - Yit k) *m (Yit k.+1 + Yit k)).
  have C := cone_comm (Yit_cone k) (Yit_cone k.+1).
  have -> : Yit k.+2 = 2%:R^-1 *: (B + Yit k.+1 *m Yit k.+1) by [].
  have E1 : Yit k.+1 = 2%:R^-1 *: (B + Yit k *m Yit k) by [].
  rewrite {3}E1 -scalerBr mulmxBl !mulmxDr C; congr (_ *: _).
  set M1 := Yit k.+1 *m _; set M2 := Yit k.+1 *m _; set M3 := Yit k *m _; clearbody M1 M2 M3.
  by apply/matrixP=> i j; rewrite !(addmxE, oppmxE); rring.
rewrite E; apply: cone_scale; first exact: half_ge0.
apply: cone_mul => //; apply: cone_add; exact: Yit_cone.
Qed.

Lemma Yit_le1 k : psd (1%:M - Yit k).
Proof.
elim: k => [|k IH]; first by rewrite subr0; apply: pd_psd; exact: pd1.
pose Y := Yit k; have pY : psd Y := cone_psd (Yit_cone k).
have E : 1%:M - Yit k.+1 = 2%:R^-1 *: ((1%:M - B) + ((1%:M - Y) +
   (Y *m (1%:M - Y) *m Y^T + (1%:M - Y) *m Y *m (1%:M - Y)^T))).
  rewrite IH.1 pY.1 /= -/Y; clearbody Y.
  have -> : Y *m (1%:M - Y) *m Y + (1%:M - Y) *m Y *m (1%:M - Y) = Y - Y *m Y.
    rewrite !(mulmxBr, mulmxBl, mulmx1, mul1mx).
    set Y2 := Y *m Y; set Y3 := Y2 *m Y; clearbody Y2 Y3.
    by apply/matrixP=> i j; rewrite !(addmxE, oppmxE); rring.
  set Y2 := Y *m Y; clearbody Y2.
  by apply/matrixP=> i j; rewrite !(addmxE, oppmxE, scalemxE); rfield.
rewrite E; apply: psdZ; first exact: half_ge0.
apply: psdD => //; apply: psdD => //.
by apply: psdD; apply: psd_congr.
Qed.

Lemma qf_cv x : ex_finite_lim_seq (fun k => qf (Yit k) x).
Proof.
apply: (@ex_finite_lim_seq_incr _ (qf 1%:M x)) => k.
  apply/RleP; rewrite -subr_ge0 -qfB; apply: (cone_psd (Yit_incr k)).2.
by apply/RleP; rewrite -subr_ge0 -qfB; apply: (Yit_le1 k).2.
Qed.

Lemma polar (M : 'M[R]_n) i j : sym M ->
  M i j = 2%:R^-1 * (qf M (delta_mx i 0 + 1 *: delta_mx j 0) - qf M (delta_mx i 0) - qf M (delta_mx j 0)).
Proof.
move=> sM; rewrite qf_lin // trmx_delta -rowE -colE.
have -> : (col i (row j M)) 0 0 = M i j by rewrite -[M in RHS]sM !mxE.
move: (M i j : R) => u; rewrite [u *+ 2]mulr2n.
by move: (qf M _) (qf M _) => a b; rfield.
Qed.

Lemma entry_cv i j : ex_finite_lim_seq (fun k => Yit k i j).
Proof.
have [a Ha] := qf_cv (delta_mx i 0 + 1 *: delta_mx j 0).
have [b Hb] := qf_cv (delta_mx i 0).
have [c Hc] := qf_cv (delta_mx j 0).
exists (2%:R^-1 * (a - b - c)).
have H := is_lim_seq_scal_l _ (2%:R^-1) _ (is_lim_seq_minus' _ _ _ _ (is_lim_seq_minus' _ _ _ _ Ha Hb) Hc).
apply: is_lim_seq_ext H => k.
rewrite [RHS]polar //; exact: (cone_psd (Yit_cone k)).1.
Qed.

Definition Ylim : 'M[R]_n := \matrix_(i, j) real (Lim_seq (fun k => Yit k i j)).
Lemma Ylim_cv i j : is_lim_seq (fun k => Yit k i j) (Ylim i j).
Proof. by rewrite mxE; apply: Lim_seq_correct'; exact: entry_cv. Qed.

Lemma Ylim_sq_cv i j : is_lim_seq (fun k => (Yit k *m Yit k) i j) ((Ylim *m Ylim) i j).
Proof.
rewrite mulmxE; apply: is_lim_seq_ext; first by move=> k; rewrite mulmxE.
by apply: is_lim_sum => l; apply: is_lim_seq_mult'; exact: Ylim_cv.
Qed.

Lemma Ylim_eq : Ylim = 2%:R^-1 *: (B + Ylim *m Ylim).
Proof.
apply/matrixP=> i j; rewrite scalemxE addmxE.
have H1 := is_lim_seq_scal_l _ (2%:R^-1) _ (is_lim_seq_plus' _ _ _ _ (is_lim_seq_const (B i j)) (@Ylim_sq_cv i j)).
have H2 : is_lim_seq (fun k => Yit k.+1 i j) (Ylim i j).
  by apply/(is_lim_seq_incr_1 (fun k => Yit k i j)); exact: Ylim_cv.
have H3 : is_lim_seq (fun k => Yit k.+1 i j) (2%:R^-1 * (B i j + (Ylim *m Ylim) i j)).
  by apply: is_lim_seq_ext H1 => k; rewrite [Yit _]/= scalemxE addmxE.
have := is_lim_seq_unique _ _ H3; rewrite (is_lim_seq_unique _ _ H2) => E.
by case: E.
Qed.

Lemma Ylim_psd : psd (1%:M - Ylim).
Proof.
have cv i j : is_lim_seq (fun k => (1%:M - Yit k) i j) ((1%:M - Ylim) i j).
  rewrite submxE; apply: is_lim_seq_ext; first by move=> k; rewrite submxE.
  by apply: is_lim_seq_minus'; [exact: is_lim_seq_const | exact: Ylim_cv].
split.
  apply/matrixP=> i j; rewrite trmxE.
  have H : is_lim_seq (fun k => (1%:M - Yit k) i j) ((1%:M - Ylim) j i).
    apply: is_lim_seq_ext (cv j i) => k.
    by rewrite -{2}(Yit_le1 k).1 trmxE.
  have := is_lim_seq_unique _ _ H; rewrite (is_lim_seq_unique _ _ (cv i j)) => E.
  by case: E.
move=> x.
have H : is_lim_seq (fun k => qf (1%:M - Yit k) x) (qf (1%:M - Ylim) x).
  rewrite qfE; apply: is_lim_seq_ext; first by move=> k; rewrite qfE.
  apply: is_lim_sum => i; apply: is_lim_sum => j.
  apply: is_lim_seq_mult'; last exact: is_lim_seq_const.
  by apply: is_lim_seq_mult'; [exact: is_lim_seq_const | exact: cv].
have H0 : is_lim_seq (fun _ => 0) (0 : R) by exact: is_lim_seq_const.
have L k : Rle 0 (qf (1%:M - Yit k) x) by apply/RleP; exact: (Yit_le1 k).2.
by have /RleP := is_lim_seq_le _ _ _ _ L H0 H.
Qed.

Lemma sqrt_iter : exists X : 'M[R]_n, psd X /\ X *m X = 1%:M - B.
Proof.
exists (1%:M - Ylim); split; first exact: Ylim_psd.
have E : Ylim *m Ylim = 2%:R *: Ylim - B.
  rewrite {3}Ylim_eq scalerA divff ?scale1r; first by rewrite addrC addKr.
  by rewrite pnatr_eq0.
rewrite mulmxBr mulmx1 mulmxBl mul1mx E.
apply/matrixP=> i j; rewrite !(addmxE, oppmxE, scalemxE); rring.
Qed.
End SqrtIter.

Lemma qf_bound n (A : 'M[R]_n) x :
  qf A x <= (\sum_i \sum_j `|A i j|) * qf 1%:M x.
Proof.
rewrite qfE mulr_suml; apply: ler_sum => i _; rewrite mulr_suml; apply: ler_sum => j _.
apply: le_trans (ler_norm _) _; rewrite mulrAC normrM [_ * `|A i j|]mulrC.
apply: ler_wpmul2l => //.
have xx k : x k 0 ^+ 2 <= qf 1%:M x.
  rewrite /qf mulmx1 mulmxE (bigD1 k) //= trmxE -expr2 ler_addl.
  by apply: sumr_ge0 => l _; rewrite trmxE -expr2 sqr_ge0.
rewrite normrM.
have : `|x i 0| * `|x j 0| <= (`|x i 0| ^+ 2 + `|x j 0| ^+ 2) / 2%:R.
  rewrite ler_pdivl_mulr ?ltr0n // -subr_ge0.
  have -> : `|x i 0| ^+ 2 + `|x j 0| ^+ 2 - `|x i 0| * `|x j 0| * 2%:R = (`|x i 0| - `|x j 0|) ^+ 2.
    by rewrite sqrrB mulr_natr addrAC.
  exact: sqr_ge0.
move/le_trans; apply; rewrite ler_pdivr_mulr ?ltr0n // mulr_natr mulr2n !real_normK ?num_real //.
exact: ler_add.
Qed.

Lemma psd_sqrt n (A : 'M[R]_n) : psd A -> exists X, psd X /\ X *m X = A.
Proof.
move=> pA; pose c := 1 + \sum_i \sum_j `|A i j|.
have s0 : 0 <= \sum_i \sum_j `|A i j| by apply: sumr_ge0 => i _; apply: sumr_ge0.
have c0 : 0 < c by apply: ltr_paddr => //; exact: ltr01.
pose B := 1%:M - c^-1 *: A.
have pB : psd B.
  split; first by apply: symB; [rewrite /sym trmx1 | apply: symZ; exact: pA.1].
  move=> x; rewrite qfB qfZ subr_ge0 ler_pdivr_mull //.
  apply: le_trans (qf_bound A x) _; apply: ler_wpmul2r; last by rewrite ler_addr ler01.
  exact: (pd_psd (pd1 n)).2.
have pB1 : psd (1%:M - B).
  by rewrite /B opprB addrC subrK; apply: psdZ => //; rewrite invr_ge0 ltW.
have [X [pX XE]] := sqrt_iter pB pB1.
exists (sqrt c *: X); split.
  by apply: psdZ => //; apply/RleP; exact: sqrt_pos.
rewrite -scalemxAl -scalemxAr scalerA XE /B opprB addrC subrK scalerA.
have -> : sqrt c * sqrt c = c by apply: sqrt_sqrt; apply/RleP; exact: ltW.
by rewrite divff ?scale1r // gt_eqF.
Qed.

(** ** Routines meeting every contract *)
Lemma qr_exists' m n (A : 'M[R]_(m, n)) : exists r : 'M[R]_(m, n),
  exists Q : 'M[R]_m, [/\ orthogonal_mx Q, A = Q *m r &
    forall (i : 'I_m) (j : 'I_n), (j < i)%N -> r i j = 0].
Proof. by have [Q [r H]] := qr_exists A; exists r, Q. Qed.
Definition qr_pick m n (A : 'M[R]_(m, n)) : 'M[R]_(m, n) :=
  proj1_sig (constructive_indefinite_description _ (qr_exists' A)).
Definition chol_pick n (A : 'M[R]_n) : option 'M[R]_n :=
  if excluded_middle_informative (pd A) is left pA
  then Some (proj1_sig (constructive_indefinite_description _ (chol_exists pA))) else None.
Definition sqrt_pick n (A : 'M[R]_n) : 'M[R]_n :=
  if excluded_middle_informative (psd A) is left pA
  then proj1_sig (constructive_indefinite_description _ (psd_sqrt pA)) else 0.

Definition some_lapack : lapack.
Proof.
refine (@Lapack qr_pick _ chol_pick _ _ sqrt_pick _).
- by move=> m n A; rewrite /qr_pick; case: constructive_indefinite_description.
- move=> n A pA; rewrite /chol_pick; case: excluded_middle_informative => // pA'.
  by case: constructive_indefinite_description => L [lL dL LE]; exists L.
- by move=> n A _ pA; rewrite /chol_pick; case: excluded_middle_informative.
- move=> n A pA; rewrite /sqrt_pick; case: excluded_middle_informative => // pA'.
  by case: constructive_indefinite_description.
Qed.

(** ** Determinant of a positive definite matrix *)
Lemma det_lower n (L : 'M[R]_n) : lower_tri L -> \det L = \prod_i L i i.
Proof.
move=> lL; rewrite -(det_trig (A := L)) //.
by apply/is_trig_mxP => i j ij; exact: lL.
Qed.

Lemma pd_det n (A : 'M[R]_n) : pd A -> 0 < \det A.
Proof.
move=> /chol_exists [L [lL dL <-]].
rewrite det_mulmx det_tr det_lower // -expr2 exprn_gt0 //.
by apply: prodr_gt0.
Qed.
