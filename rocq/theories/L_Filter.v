(** Lemmas on the Kalman filter routines. *)
From Coq Require Import Reals Lra ClassicalEpsilon.
From mathcomp Require Import all_ssreflect all_algebra mxtens.
From Verif Require Import Rstruct Base Linalg Lapack Calc Prob Spec M_Filter.

Set Implicit Arguments.
Unset Strict Implicit.
Unset Printing Implicit Defensive.
Import Order.TTheory GRing.Theory Num.Theory.
Local Open Scope ring_scope.

(** ** The triangular factor *)
Section Tria.
Variables (lp : lapack) (nx ny : nat) (A : 'M[R]_(nx, ny)).

Lemma tria_lower : lower_tri (tria lp A).
Proof. by move=> i j ij; rewrite mxE leqNgt ij. Qed.

Lemma triaP : (nx <= ny)%N -> tria lp A *m (tria lp A)^T = A *m A^T.
Proof.
move=> le; have [Q [oQ AQ up]] := qr_rP lp A^T.
have -> : A *m A^T = (qr_r lp A^T)^T *m qr_r lp A^T.
  by rewrite -{1}[A]trmxK {1 2}AQ trmx_mul -mulmxA [Q^T *m (Q *m _)]mulmxA oQ mul1mx.
set r := qr_r lp A^T in up *.
pose w (k : 'I_nx) := widen_ord le k.
have tE (i k : 'I_nx) : tria lp A i k = r (w k) i.
  rewrite mxE; case: leqP => [ki|ik]; last by rewrite up.
  rewrite insubT /=; first exact: leq_trans (ltn_ord k) le.
  by move=> H; congr (qr_r _ _ _ _); apply: val_inj.
apply/matrixP=> i j; rewrite !mulmxE.
rewrite (eq_bigr (fun k => r (w k) i * r (w k) j)); last by move=> k _; rewrite trmxE !tE.
rewrite [RHS](eq_bigr (fun k => r k i * r k j)); last by move=> k _; rewrite trmxE.
rewrite (bigID (fun k : 'I_ny => (k < nx)%N)) /= [X in _ = _ + X]big1 ?addr0; last first.
  by move=> k; rewrite -leqNgt => nk; rewrite up ?mul0r //; exact: leq_trans (ltn_ord i) nk.
rewrite (reindex_onto (fun k => w k) (fun k : 'I_ny => if insub (val k) is Some k' then k' else i)) /=.
  by apply: eq_bigl => k; rewrite ltn_ord valK eqxx.
by move=> k kn; rewrite insubT; apply: val_inj.
Qed.
End Tria.

Lemma lower_ul n m (A : 'M[R]_(n + m)) : lower_tri A -> lower_tri (ulsubmx A).
Proof. by move=> lA i j ij; rewrite !mxE lA. Qed.
Lemma lower_dr n m (A : 'M[R]_(n + m)) : lower_tri A -> lower_tri (drsubmx A).
Proof. by move=> lA i j ij; rewrite !mxE lA //= ltn_add2l. Qed.
Lemma lower_ur n m (A : 'M[R]_(n + m)) : lower_tri A -> ursubmx A = 0.
Proof.
move=> lA; apply/matrixP=> i j; rewrite !mxE lA //=.
exact: leq_trans (ltn_ord i) (leq_addr _ _).
Qed.

(** ** Square-root prediction *)
Lemma predict_sqrt (lp : lapack) n (m xi : 'cV[R]_n) (L A LQ : 'M[R]_n) :
  exists L', [/\ predict lp (m, L) A LQ xi true = (A *m m + xi, L'), lower_tri L' &
    predict lp (m, L *m L^T) A (LQ *m LQ^T) xi false = (A *m m + xi, L' *m L'^T)].
Proof.
exists (tria lp (row_mx (A *m L) LQ)); split=> //; first exact: tria_lower.
rewrite triaP ?leq_addr // tr_row_mx mul_row_col /predict trmx_mul.
by rewrite !mulmxA.
Qed.

(** ** Square-root update *)
Section UpdateSqrt.
Variables (lp : lapack) (nx ny : nat) (m : 'cV[R]_nx) (L : 'M[R]_nx) (c : 'cV[R]_ny)
  (H : 'M[R]_(ny, nx)) (LR : 'M[R]_ny).

Let T := tria lp (block_mx (H *m L) LR L (0 : 'M[R]_(nx, ny))).
Let I := ulsubmx T.
Let G := dlsubmx T.
Let L1 := drsubmx T.
Let P := L *m L^T.

Lemma sqrt_blocks : [/\ I *m I^T = H *m P *m H^T + LR *m LR^T, G *m I^T = P *m H^T &
  G *m G^T + L1 *m L1^T = P].
Proof.
have lT : lower_tri T by exact: tria_lower.
have TT : T *m T^T = block_mx (H *m P *m H^T + LR *m LR^T) (H *m P) (P *m H^T) P.
  rewrite /T triaP; last by rewrite addnC.
  rewrite tr_block_mx mulmx_block trmx0 !trmx_mul !mulmx0 !mul0mx !addr0.
  by rewrite /P !mulmxA.
have TE : T = block_mx I 0 G L1.
  by rewrite -[LHS]submxK (lower_ur lT).
move: TT; rewrite {1 2}TE tr_block_mx mulmx_block trmx0 !mulmx0 !mul0mx !addr0.
by move=> /eq_block_mx [].
Qed.

Lemma update_sqrt :
  (exists m' L' I', [/\ update lp (m, L) c H LR true = Val ((m', L'), I'),
     update lp (m, P) c H (LR *m LR^T) false = Val ((m', L' *m L'^T), I' *m I'^T),
     lower_tri L' & lower_tri I']) \/
  (update lp (m, L) c H LR true = Nan /\ update lp (m, P) c H (LR *m LR^T) false = Nan).
Proof.
have [E1 E2 E3] := sqrt_blocks.
have lT : lower_tri T by exact: tria_lower.
have lI : lower_tri I := lower_ul lT.
have PT : P^T = P by exact: sym_gram.
clearbody P.
rewrite /update -/P -E1 -/T /solve_lower (tril_id lI) -/I -/G -/L1.
case: (boolP (I \in unitmx)) => uI; last first.
  right; split=> //; rewrite solve_posN //; first exact: sym_gram.
  by move/pd_gramP; apply/negP.
have pS : pd (I *m I^T) by exact: pd_gram.
left; exists (m - G *m (invmx I *m c)), L1, I; split=> //; last exact: lower_dr.
have uIT : I^T \in unitmx by rewrite unitmx_tr.
have GE : G = P *m H^T *m invmx I^T by rewrite -E2 mulmxK.
rewrite (solve_posP _ pS) /=.
have KE : (invmx (I *m I^T) *m H *m P)^T = G *m invmx I.
  rewrite GE [LHS]trmx_mul PT [(invmx _ *m H)^T]trmx_mul trmx_inv sym_gram -!mulmxA; congr (P *m (_ *m _)).
  have -> : invmx (I *m I^T) = invmx I^T *m invmx I.
    apply: (can_inj (mulKmx (pd_unit pS))); rewrite mulmxV ?(pd_unit pS) //.
    by rewrite -mulmxA (mulmxA I^T) mulmxV // mul1mx mulmxV.
  by [].
rewrite KE -!mulmxA; congr (Val ((_, _), _)).
have -> : H *m P = I *m G^T by rewrite -[LHS]trmxK trmx_mul PT -E2 trmx_mul trmxK.
by rewrite mulKmx // -E3 addrC addKr.
Qed.
End UpdateSqrt.

(** ** Runs *)
Section Runs.
Variables (lp : lapack) (nx ny : nat) (obs : dual nx -> R -> dual ny) (A : 'M[R]_nx) (xi : 'cV[R]_nx).

Lemma ekf_nil Q Rn sq init : ekf lp obs A Q xi Rn sq init [::] = Val init.
Proof. by []. Qed.
Lemma ekf_rcons Q Rn sq init ts t : ekf lp obs A Q xi Rn sq init (rcons ts t) =
  let! x := ekf lp obs A Q xi Rn sq init ts in ekf_body lp obs A Q xi Rn sq x t.
Proof. by rewrite /ekf scan_rcons. Qed.

Lemma ekf_UC_nil Q Rn sq init : ekf_UC lp obs A Q xi Rn sq init [::] = Val (init, 0, 0).
Proof. by []. Qed.
Lemma ekf_UC_rcons Q Rn sq init ts t : ekf_UC lp obs A Q xi Rn sq init (rcons ts t) =
  let! x := ekf_UC lp obs A Q xi Rn sq init ts in ekf_body_UC lp obs A Q xi Rn sq x t.
Proof. by rewrite /ekf_UC scan_rcons. Qed.

(** The state component of the run with uncertainty output is the plain run. *)
Lemma ekf_UC_fst Q Rn sq init ts :
  rmap (fun r => r.1.1) (ekf_UC lp obs A Q xi Rn sq init ts) = ekf lp obs A Q xi Rn sq init ts.
Proof.
elim/last_ind: ts => [//|ts t IH]; rewrite ekf_UC_rcons ekf_rcons -IH.
case: (ekf_UC _ _ _ _ _ _ _ _ _) => //= -[[x S] c] /=.
by rewrite /ekf_body_UC /ekf_body /=; case: update.
Qed.

Lemma ekf_UC_last Q Rn sq init ts t :
  ekf_UC lp obs A Q xi Rn sq init (rcons ts t) =
  let! x := ekf lp obs A Q xi Rn sq init ts in
  let p := predict lp x A Q xi sq in
  let z := dprimal (obs^~ t) p.1 in
  let! r := update lp p z (jacfwd (obs^~ t) p.1) Rn sq in
  Val (r.1, if sq then r.2 *m r.2^T else r.2, z).
Proof.
rewrite ekf_UC_rcons -ekf_UC_fst.
by case: (ekf_UC _ _ _ _ _ _ _ _ _) => //= -[[x S] c].
Qed.

(** Square-root against plain runs. *)
Variables (LQ : 'M[R]_nx) (LR : 'M[R]_ny).
Notation ekf_s := (ekf_UC lp obs A LQ xi LR true).
Notation ekf_p := (ekf_UC lp obs A (LQ *m LQ^T) xi (LR *m LR^T) false).

Lemma body_sqrt m L S c t :
  (exists m' L' S' c', [/\ ekf_body_UC lp obs A LQ xi LR true ((m, L), S, c) t = Val ((m', L'), S', c'),
     ekf_body_UC lp obs A (LQ *m LQ^T) xi (LR *m LR^T) false ((m, L *m L^T), S, c) t =
       Val ((m', L' *m L'^T), S', c') & lower_tri L']) \/
  (ekf_body_UC lp obs A LQ xi LR true ((m, L), S, c) t = Nan /\
   ekf_body_UC lp obs A (LQ *m LQ^T) xi (LR *m LR^T) false ((m, L *m L^T), S, c) t = Nan).
Proof.
rewrite /ekf_body_UC; cbv zeta.
have [L1 [-> lL1 ->]] := predict_sqrt lp m xi L A LQ; cbn [fst snd].
set c' := dprimal _ _; set H := jacfwd _ _.
case: (update_sqrt lp (A *m m + xi) L1 c' H LR) => [[m' [L' [I' [-> -> lL' lI']]]]|[-> ->]]; last by right.
by left; exists m', L', (I' *m I'^T), c'.
Qed.

Lemma ekf_sqrt m L ts :
  (exists m' L' S z, [/\ ekf_s (m, L) ts = Val ((m', L'), S, z),
     ekf_p (m, L *m L^T) ts = Val ((m', L' *m L'^T), S, z) &
     ts <> [::] -> lower_tri L']) \/
  (ekf_s (m, L) ts = Nan /\ ekf_p (m, L *m L^T) ts = Nan).
Proof.
elim/last_ind: ts => [|ts t IH]; first by left; exists m, L, 0, 0.
rewrite !ekf_UC_rcons; case: IH => [[m1 [L1 [S1 [z1 [-> -> _]]]]]|[-> ->]]; last by right.
case: (body_sqrt m1 L1 S1 z1 t) => [[m' [L' [S' [c' [/= -> -> lL']]]]]|[/= -> ->]]; last by right.
by left; exists m', L', S', c'.
Qed.
End Runs.

(** Joseph's form, for an arbitrary gain. *)
Lemma joseph_gen nx ny (P : 'M[R]_nx) (H : 'M[R]_(ny, nx)) (S Rn : 'M[R]_ny) (K G : 'M[R]_(nx, ny)) :
  sym P -> sym S -> S = H *m P *m H^T + Rn -> K *m S = P *m H^T ->
  (1%:M - G *m H) *m P *m (1%:M - G *m H)^T + G *m Rn *m G^T =
  P - K *m H *m P + (G - K) *m S *m (G - K)^T.
Proof.
move=> sP sS SE KS.
have SK : S *m K^T = H *m P by rewrite -{1}sS -trmx_mul KS trmx_mul trmxK sP.
have -> : (1%:M - G *m H)^T = 1%:M - H^T *m G^T by rewrite linearB /= trmx1 trmx_mul.
have -> : (G - K)^T = G^T - K^T by rewrite linearB.
have RE : Rn = S - H *m P *m H^T by rewrite SE addrC addKr.
rewrite RE !(mulmxBl, mulmxBr, mul1mx, mulmx1) KS -(mulmxA G S K^T) SK.
rewrite -[P *m H^T *m K^T]mulmxA.
have -> : P *m (H^T *m K^T) = K *m H *m P by rewrite mulmxA -KS -mulmxA SK mulmxA.
rewrite !mulmxA.
set a := G *m H *m P; set b := P *m H^T *m G^T; set d := a *m H^T *m G^T; set e := G *m S *m G^T.
set X := K *m H *m P; clearbody a b d e X.
by apply/matrixP=> i j; rewrite !(addmxE, oppmxE); rring.
Qed.

(** ** The plain update *)
Section Update.
Variables (lp : lapack) (nx ny : nat) (m : 'cV[R]_nx) (P : 'M[R]_nx) (c : 'cV[R]_ny)
  (H : 'M[R]_(ny, nx)) (Rn : 'M[R]_ny).
Hypotheses (pP : psd P) (pR : psd Rn).
Let S := H *m P *m H^T + Rn.
Let K := P *m H^T *m invmx S.

Lemma S_psd : psd S.
Proof. by apply: psdD => //; exact: psd_congr. Qed.

Lemma updateE : pd S -> update lp (m, P) c H Rn false = Val ((m - K *m c, P - K *m H *m P), S).
Proof.
move=> pS; rewrite /update (solve_posP _ pS) /=.
suff -> : (invmx S *m H *m P)^T = K by [].
rewrite 2!trmx_mul pP.1 trmx_inv pS.1; exact: mulmxA.
Qed.

Lemma updateN : ~ pd S -> update lp (m, P) c H Rn false = Nan.
Proof. by move=> pS; rewrite /update (solve_posN _ S_psd.1 pS). Qed.

Lemma update_val r : update lp (m, P) c H Rn false = Val r ->
  pd S /\ r = ((m - K *m c, P - K *m H *m P), S).
Proof.
case: (excluded_middle_informative (pd S)) => pS; last by rewrite updateN.
by rewrite updateE // => -[<-].
Qed.

Hypothesis pS : pd S.
Let C := P - K *m H *m P.
Let uS : S \in unitmx := pd_unit pS.

Lemma KS : K *m S = P *m H^T.
Proof. by rewrite /K mulmxKV. Qed.

Lemma KT : K^T = invmx S *m H *m P.
Proof. by rewrite /K 2!trmx_mul trmxK trmx_inv pS.1 pP.1 mulmxA. Qed.

Lemma KHP : K *m H *m P = K *m S *m K^T.
Proof. by rewrite KT mulmxA mulmxKV // mulmxA. Qed.

Lemma C_sym : sym C.
Proof. by apply: symB; [exact: pP.1 | rewrite KHP; apply: sym_congr; exact: pS.1]. Qed.

Lemma joseph (G : 'M[R]_(nx, ny)) :
  (1%:M - G *m H) *m P *m (1%:M - G *m H)^T + G *m Rn *m G^T =
  C + (G - K) *m S *m (G - K)^T.
Proof. by apply: joseph_gen; [exact: pP.1 | exact: pS.1 | | exact: KS]. Qed.

Lemma C_psd : psd C.
Proof.
have := joseph K; rewrite subrr !mul0mx addr0 => <-.
by apply: psdD; apply: psd_congr.
Qed.

Lemma C_le : psd (P - C).
Proof. by rewrite /C opprB addrC subrK KHP; apply: psd_congr; exact: pd_psd. Qed.

Lemma gain_opt (G : 'M[R]_(nx, ny)) :
  psd ((1%:M - G *m H) *m P *m (1%:M - G *m H)^T + G *m Rn *m G^T - C).
Proof. by rewrite joseph addrC addKr; apply: psd_congr; exact: pd_psd. Qed.
End Update.

(** ** Covariances along a run *)
Lemma predict_psd (lp : lapack) n (m xi : 'cV[R]_n) (P A Q : 'M[R]_n) : psd P -> psd Q ->
  psd (predict lp (m, P) A Q xi false).2.
Proof. by move=> pP pQ; apply: psdD => //; exact: psd_congr. Qed.

Lemma update_psd (lp : lapack) nx ny (m : 'cV[R]_nx) (P : 'M[R]_nx) (c : 'cV[R]_ny)
  (H : 'M[R]_(ny, nx)) (Rn : 'M[R]_ny) m' C S : psd P -> psd Rn ->
  update lp (m, P) c H Rn false = Val ((m', C), S) -> [/\ psd C, psd (P - C) & pd S].
Proof.
by move=> pP pR /(update_val pP pR) [pS [_ -> ->]]; split=> //; [exact: C_psd | exact: C_le].
Qed.

Lemma ekf_psd (lp : lapack) nx ny (obs : dual nx -> R -> dual ny) A Q xi Rn m P ts m' C :
  psd P -> psd Q -> psd Rn ->
  ekf lp obs A Q xi Rn false (m, P) ts = Val (m', C) -> psd C.
Proof.
move=> pP pQ pR; elim/last_ind: ts m' C => [|ts t IH] m' C; first by rewrite ekf_nil => -[_ <-].
rewrite ekf_rcons; case: (ekf _ _ _ _ _ _ _ _ ts) IH => //= -[m1 P1] /(_ _ _ erefl) pP1.
rewrite /ekf_body; cbv zeta; case E: (predict _ _ _ _ _ _) => [mp Pp].
have pPp : psd Pp by move: (predict_psd lp m1 xi A pP1 pQ); rewrite E.
case U: (update _ _ _ _ _ _) => [[[m2 C2] S2]| |] //= [_ <-].
by have [] := update_psd pPp pR U.
Qed.

(** ** Optimality against an arbitrary probability model of the errors *)
Section Optimal.
Variables (Om : Type) (E : expectation Om) (nx ny : nat).
Variables (e : Om -> 'cV[R]_nx) (r : Om -> 'cV[R]_ny) (H : 'M[R]_(ny, nx)).
Variables (P : 'M[R]_nx) (Rn : 'M[R]_ny).
Hypotheses (He : Emx E (fun w => e w *m (e w)^T) = P) (Hr : Emx E (fun w => r w *m (r w)^T) = Rn)
  (Her : Emx E (fun w => e w *m (r w)^T) = 0).
Let z w := H *m e w + r w.

Let Hre : Emx E (fun w => r w *m (e w)^T) = 0.
Proof.
rewrite (@Emx_ext _ _ _ _ _ (fun w => (e w *m (r w)^T)^T)); last by move=> w; rewrite trmx_mul trmxK.
by rewrite EmxT Her trmx0.
Qed.

Lemma err_cov (G : 'M[R]_(nx, ny)) :
  Emx E (fun w => (e w - G *m z w) *m (e w - G *m z w)^T) =
  (1%:M - G *m H) *m P *m (1%:M - G *m H)^T + G *m Rn *m G^T.
Proof.
set B := 1%:M - G *m H.
have eE w : e w - G *m z w = B *m e w - G *m r w.
  by rewrite /z /B mulmxDr mulmxBl mul1mx mulmxA opprD addrA.
rewrite (@Emx_ext _ _ _ _ _ (fun w => B *m (e w *m (e w)^T) *m B^T - B *m (e w *m (r w)^T) *m G^T -
   (G *m (r w *m (e w)^T) *m B^T - G *m (r w *m (r w)^T) *m G^T))).
  rewrite !EmxD !EmxN !EmxD !EmxN !Emx_mulr !Emx_mull He Hr Her Hre.
  by rewrite !mulmx0 !mul0mx subr0 sub0r opprK.
move=> w; rewrite eE linearB /= !trmx_mul mulmxBl !mulmxBr.
by rewrite !mulmxA.
Qed.

Lemma err_cross (G : 'M[R]_(nx, ny)) :
  Emx E (fun w => (e w - G *m z w) *m (z w)^T) = P *m H^T - G *m (H *m P *m H^T + Rn).
Proof.
rewrite (@Emx_ext _ _ _ _ _ (fun w => (e w *m (e w)^T) *m H^T + e w *m (r w)^T -
  (G *m (H *m (e w *m (e w)^T) *m H^T + r w *m (e w)^T *m H^T + (H *m (e w *m (r w)^T) + r w *m (r w)^T))))).
  rewrite !EmxD EmxN !Emx_mulr !Emx_mull !EmxD !Emx_mulr !Emx_mull He Hr Her Hre.
  by rewrite mulmx0 mul0mx !add0r !addr0.
move=> w; rewrite mulmxBl /z linearD /= !trmx_mul !mulmxDr !mulmxA.
by rewrite !mulmxDl.
Qed.
End Optimal.

Lemma update_optimal (lp : lapack) (Om : Type) (E : expectation Om) nx ny
  (e : Om -> 'cV[R]_nx) (r : Om -> 'cV[R]_ny) (H : 'M[R]_(ny, nx)) (P : 'M[R]_nx) (Rn : 'M[R]_ny)
  (m : 'cV[R]_nx) (c : 'cV[R]_ny) m' C S :
  psd P -> psd Rn ->
  Emx E (fun w => e w *m (e w)^T) = P -> Emx E (fun w => r w *m (r w)^T) = Rn ->
  Emx E (fun w => e w *m (r w)^T) = 0 ->
  update lp (m, P) c H Rn false = Val ((m', C), S) ->
  let z w := H *m e w + r w in
  let cov G := Emx E (fun w => (e w - G *m z w) *m (e w - G *m z w)^T) in
  exists K : 'M[R]_(nx, ny),
  [/\ m' = m - K *m c, cov K = C, Emx E (fun w => (e w - K *m z w) *m (z w)^T) = 0,
      Emx E (fun w => z w *m (z w)^T) = S & forall G, psd (cov G - C)].
Proof.
move=> pP pR He Hr Her /(update_val pP pR) [pS [-> -> ->]] z cov.
set S0 := H *m P *m H^T + Rn in pS *.
set K := P *m H^T *m invmx S0.
exists K; split=> // [| | |G].
- by rewrite /cov (err_cov H He Hr Her) (joseph pP pS) -/K subrr !mul0mx addr0.
- by rewrite (err_cross H He Hr Her) (KS pS) subrr.
- rewrite (@Emx_ext _ _ _ _ _ (fun w => H *m (e w *m (e w)^T) *m H^T + (H *m (e w *m (r w)^T)
     + ((H *m (e w *m (r w)^T))^T + r w *m (r w)^T)))).
    by rewrite !EmxD EmxT !Emx_mulr !Emx_mull He Hr Her !mulmx0 trmx0 !add0r.
  move=> w; rewrite /z linearD /= !trmx_mul !mulmxDl !mulmxDr trmxK !mulmxA !addrA.
  by [].

- by rewrite /cov (err_cov H He Hr Her); exact: gain_opt.
Qed.

(** ** Noise-free updates *)
Lemma update_exact (lp : lapack) nx ny (m : 'cV[R]_nx) (P : 'M[R]_nx) (c : 'cV[R]_ny)
  (H : 'M[R]_(ny, nx)) : psd P -> pd (H *m P *m H^T) ->
  exists m' C, [/\ update lp (m, P) c H 0 false = Val ((m', C), H *m P *m H^T),
    c + H *m (m' - m) = 0, H *m C = 0 & C *m H^T = 0].
Proof.
move=> pP pS; have E : H *m P *m H^T + 0 = H *m P *m H^T by rewrite addr0.
have pS0 : pd (H *m P *m H^T + 0) by rewrite E.
rewrite (updateE lp m c pP pS0); do 2!eexists; split; first by rewrite E.
- rewrite [_ - m]addrAC subrr add0r mulmxN !mulmxA ?E mulmxV ?(pd_unit pS) //.
  by rewrite mul1mx addrN.
- rewrite mulmxBr !mulmxA ?E mulmxV ?(pd_unit pS) //.
  by rewrite mul1mx subrr.
- rewrite mulmxBl ?E -!mulmxA [H *m (P *m _)]mulmxA mulVmx ?(pd_unit pS) //.
  by rewrite mulmx1 subrr.
Qed.

(** ** Scaling *)
Lemma pdZ_iff n (A : 'M[R]_n) (a : R) : 0 < a -> pd (a *: A) <-> pd A.
Proof.
move=> a0; split; last exact: pdZ.
move=> /(pdZ (c := a^-1)); rewrite invr_gt0 scalerA mulVf ?gt_eqF // scale1r; exact.
Qed.

Lemma invmxZ' n (A : 'M[R]_n) (a : R) : a != 0 -> A \in unitmx -> invmx (a *: A) = a^-1 *: invmx A.
Proof. by move=> a0 uA; rewrite invmxZ // unitmxZ ?unitfE. Qed.

Definition scale_out nx ny (a : R) (r : ('cV[R]_nx * 'M[R]_nx) * 'M[R]_ny * 'cV[R]_ny) :=
  (r.1.1.1, a *: r.1.1.2, a *: r.1.2, r.2).

Lemma update_scale (lp : lapack) nx ny (m : 'cV[R]_nx) (P : 'M[R]_nx) (c : 'cV[R]_ny)
  (H : 'M[R]_(ny, nx)) (Rn : 'M[R]_ny) (a : R) : 0 < a ->
  update lp (m, a *: P) c H (a *: Rn) false =
  rmap (fun r => ((r.1.1, a *: r.1.2), a *: r.2)) (update lp (m, P) c H Rn false).
Proof.
move=> a0; rewrite /update.
set S := H *m P *m H^T + Rn.
have -> : H *m (a *: P) *m H^T + a *: Rn = a *: S by rewrite -scalemxAr -scalemxAl scalerDr.
have SE : symup (a *: S) = a *: symup S by apply/matrixP=> i j; rewrite !mxE; case: ifP.
rewrite /solve_pos SE.
case: excluded_middle_informative => p1; case: excluded_middle_informative => p2 //=.
- have uS := pd_unit p2.
  have -> : invmx (a *: symup S) *m H *m (a *: P) = invmx (symup S) *m H *m P.
    rewrite invmxZ' // ?gt_eqF // -!scalemxAl -scalemxAr scalerA mulVf ?gt_eqF //.
    by rewrite scale1r.
  by rewrite -scalemxAr -scalerBr.
- by case: p2; apply/(pdZ_iff _ a0).
- by case: p1; apply/(pdZ_iff _ a0).
Qed.

Section Scale.
Variables (lp : lapack) (nx ny : nat) (obs : dual nx -> R -> dual ny) (A Q : 'M[R]_nx) (xi : 'cV[R]_nx)
  (Rn : 'M[R]_ny) (a : R).
Hypothesis a0 : 0 < a.

Lemma predict_scale m (P : 'M[R]_nx) :
  predict lp (m, a *: P) A (a *: Q) xi false =
  ((predict lp (m, P) A Q xi false).1, a *: (predict lp (m, P) A Q xi false).2).
Proof. by rewrite /predict -scalemxAr -scalemxAl -scalerDr. Qed.

Lemma ekf_UC_scale m P ts :
  ekf_UC lp obs A (a *: Q) xi (a *: Rn) false (m, a *: P) ts =
  rmap (scale_out a) (ekf_UC lp obs A Q xi Rn false (m, P) ts).
Proof.
elim/last_ind: ts => [|ts t IH]; first by rewrite !ekf_UC_nil /= /scale_out /= scaler0.
rewrite !ekf_UC_rcons IH.
case: (ekf_UC _ _ _ _ _ _ _ _ _) => //= -[[[m1 P1] S1] c1].
rewrite /ekf_body_UC /scale_out; cbn [fst snd]; cbv zeta; rewrite predict_scale.
case: (predict lp (m1, P1) A Q xi false) => m2 P2; cbn [fst snd].
rewrite update_scale //; by case: (update _ _ _ _ _ _).
Qed.

Lemma ekf_scale m P ts :
  ekf lp obs A (a *: Q) xi (a *: Rn) false (m, a *: P) ts =
  rmap (fun x => (x.1, a *: x.2)) (ekf lp obs A Q xi Rn false (m, P) ts).
Proof.
rewrite -!ekf_UC_fst ekf_UC_scale.
by case: (ekf_UC _ _ _ _ _ _ _ _ _).
Qed.
End Scale.

(** ** Calibration *)
Section Mle.
Variable n : nat.
Implicit Types (zs : seq 'cV[R]_n) (Ss : seq 'M[R]_n).

Definition maha (p : 'cV[R]_n * 'M[R]_n) : R := ((p.1)^T *m invmx p.2 *m p.1) 0 0.

Lemma mle_termsE zs Ss : size zs = size Ss -> (forall C, C \in Ss -> pd C) ->
  mle_terms zs Ss = Val [seq maha p | p <- zip zs Ss].
Proof.
elim: zs Ss => [|z zs IH] [|C Ss] //= [sz] H.
have pC : pd C by apply: H; rewrite mem_head.
rewrite /solve_gen pd_unit //= IH //; last by move=> D DS; apply: H; rewrite inE DS orbT.
by rewrite /= /maha /= mulmxA.
Qed.

Lemma mleE zs Ss : size zs = size Ss -> (forall C, C \in Ss -> pd C) -> (0 < size zs * n)%N ->
  mle_diffusion zs Ss = Val ((\sum_(p <- zip zs Ss) maha p) / (size zs * n)%:R).
Proof.
by move=> sz pS nz; rewrite /mle_diffusion sz eqxx /= -sz mle_termsE //= eqn0Ngt nz big_map.
Qed.

(** The outcome of every call. *)
Lemma mle_termsN zs Ss : size zs = size Ss -> ~~ all (fun C => C \in unitmx) Ss -> mle_terms zs Ss = Nan.
Proof.
elim: zs Ss => [|z zs IH] [|C Ss] //= [sz]; rewrite /solve_gen; case: (C \in unitmx) => //= H.
by rewrite IH.
Qed.

Lemma mle_termsU zs Ss : size zs = size Ss -> all (fun C => C \in unitmx) Ss ->
  mle_terms zs Ss = Val [seq maha p | p <- zip zs Ss].
Proof.
elim: zs Ss => [|z zs IH] [|C Ss] //= [sz] /andP [uC uS].
by rewrite /solve_gen uC /= IH //= /maha /= mulmxA.
Qed.

Lemma mle_outcome zs Ss :
  (mle_diffusion zs Ss = Raise ValueError <-> size zs <> size Ss) /\
  (size zs = size Ss -> forall s, mle_diffusion zs Ss = Val s <->
     [/\ (0 < size zs)%N, (0 < n)%N, forall C, C \in Ss -> C \in unitmx &
         s = (\sum_(p <- zip zs Ss) ((p.1)^T *m invmx p.2 *m p.1) 0 0) / (size zs * n)%:R]).
Proof.
rewrite /mle_diffusion; case: eqP => [sz|ne]; last by split=> // E; case: (ne E).
split.
  split=> //; case: (boolP (all (fun C => C \in unitmx) Ss)) => U.
    by rewrite mle_termsU //=; case: ifP.
  by rewrite mle_termsN.
move=> _ s; case: (boolP (all (fun C => C \in unitmx) Ss)) => U; last first.
  rewrite mle_termsN //; split=> // -[_ _ H _]; case/negP: U; exact/allP.
rewrite mle_termsU //= big_map muln_eq0; split.
  by case: ifP => // /negbT; rewrite negb_or -!lt0n => /andP [zs0 n0] [<-]; split=> //; exact/allP.
by case; rewrite !lt0n => /negPf -> /negPf -> _ ->.
Qed.

Lemma invmx_psd (C : 'M[R]_n) : pd C -> pd (invmx C).
Proof.
move=> pC; have uC := pd_unit pC.
have -> : invmx C = invmx C *m C *m (invmx C)^T by rewrite mulVmx // mul1mx trmx_inv pC.1.
apply: psd_unit_pd; first by apply: psd_congr; exact: pd_psd.
by rewrite !unitmx_mul unitmx_tr unitmx_inv uC.
Qed.

Lemma maha_ge0 p : pd p.2 -> 0 <= maha p.
Proof. by move=> /invmx_psd /pd_psd [_]; apply. Qed.
Lemma maha_eq0 p : pd p.2 -> maha p = 0 -> p.1 = 0.
Proof.
move=> /invmx_psd [_ H] E; apply/eqP/negPn/negP => /H.
by rewrite /qf [X in _ < X]E ltxx.
Qed.

Lemma zip_pd zs Ss p : (forall C, C \in Ss -> pd C) -> p \in zip zs Ss -> pd p.2.
Proof.
move=> H; elim: zs Ss H => [|z zs IH] [|C Ss] //= H.
rewrite inE => /orP [/eqP -> /=|/IH]; first by apply: H; rewrite mem_head.
by apply=> D DS; apply: H; rewrite inE DS orbT.
Qed.

Lemma mahaZ (s : R) p : s != 0 -> pd p.2 -> maha (p.1, s *: p.2) = maha p / s.
Proof.
move=> s0 pS; rewrite /maha /= invmxZ' ?pd_unit // -scalemxAr -scalemxAl scalemxE.
by rewrite mulrC.
Qed.

Lemma mahaZz (c : R) p : maha (c *: p.1, p.2) = c ^+ 2 * maha p.
Proof.
rewrite /maha /=; have -> : (c *: p.1)^T = c *: (p.1)^T by apply/matrixP=> i j; rewrite !mxE.
by rewrite -!scalemxAl -scalemxAr !scalemxE mulrA expr2.
Qed.

Lemma logpdf_scale (s : R) (C : 'M[R]_n) z : 0 < s -> pd C ->
  gauss_logpdf (s *: C) z = - (2%:R^-1 * (n%:R * ln (2%:R * PI) + ln (\det C)))
    - 2%:R^-1 * (n%:R * ln s + maha (z, C) / s).
Proof.
move=> s0 pC; rewrite /gauss_logpdf.
have -> : (z^T *m invmx (s *: C) *m z) 0 0 = maha (z, C) / s by rewrite -mahaZ // gt_eqF.
have -> : ln (\det (s *: C)) = n%:R * ln s + ln (\det C).
  rewrite detZ; have d0 := pd_det pC.
  have -> : ln (s ^+ n * \det C) = ln (s ^+ n) + ln (\det C).
    by apply: ln_mult; apply/RltP => //; exact: exprn_gt0.
  congr (_ + _); elim: n => [|k IH]; first by rewrite expr0 mul0r; exact: ln_1.
  rewrite exprS mulrS mulrDl mul1r -IH.
  by apply: ln_mult; apply/RltP => //; exact: exprn_gt0.
set l2 := ln (2%:R * PI); set ld := ln (\det C); set ls := ln s; set q := maha _.
by rewrite -opprD -mulrDr; congr (- (_ * _)); rewrite -!addrA; congr (_ + _); rewrite addrCA.
Qed.

Lemma loglikE zs Ss (s : R) : 0 < s -> (forall C, C \in Ss -> pd C) ->
  scale_loglik zs Ss s = \sum_(p <- zip zs Ss) (- (2%:R^-1 * (n%:R * ln (2%:R * PI) + ln (\det p.2))))
   - 2%:R^-1 * ((size (zip zs Ss) * n)%:R * ln s + (\sum_(p <- zip zs Ss) maha p) / s).
Proof.
move=> s0 pS; rewrite /scale_loglik.
have H p : p \in zip zs Ss -> pd p.2 by exact: zip_pd.
elim: (zip zs Ss) H => [|p r IH] H.
  by rewrite !big_nil mul0n !mul0r addr0 mulr0 subr0.
rewrite !big_cons logpdf_scale //; last by apply: H; rewrite mem_head.
rewrite IH; last by move=> x xr; apply: H; rewrite inE xr orbT.
rewrite /= mulSn natrD [(maha p + _) / s]mulrDl; case: p {H} => z C /=.
set a := - _; set b := \sum_(j <- r) - _; set u := maha _ / s; set v := (\sum_(j <- r) _) / s.
set l := ln s; clearbody a b u v l; rring.
Qed.

Lemma ln_lt (u : R) : 0 < u -> u != 1 -> ln u < u - 1.
Proof.
move=> u0 u1; apply/RltP; move: (u0) => /RltP u0'.
have ne : ln u <> 0%Re.
  move=> E; case/eqP: u1; rewrite -[u]exp_ln // E; exact: exp_0.
have := exp_ineq1 _ ne; rewrite exp_ln //; toR; move=> *; lra.
Qed.

Lemma ln_frac (a b : R) : 0 < a -> 0 < b -> ln (a / b) = ln a - ln b.
Proof.
move=> a0 b0; have -> : ln (a / b) = ln a + ln b^-1.
  by apply: ln_mult; apply/RltP => //; rewrite invr_gt0.
by congr (_ + _); rewrite RinvE; apply: ln_Rinv; apply/RltP.
Qed.

Lemma score_max (N q s0 s : R) : 0 < N -> 0 < s0 -> 0 < s -> s != s0 -> q = N * s0 ->
  N * ln s0 + q / s0 < N * ln s + q / s.
Proof.
move=> N0 p0 ps ne ->; rewrite -mulrA divff ?gt_eqF // -!mulrA -!mulrDr ltr_pmul2l //.
have d0 : 0 < s0 / s by rewrite divr_gt0.
have d1 : s0 / s != 1.
  apply: contra ne => /eqP E; have : s0 / s * s = s by rewrite E mul1r.
  by rewrite divfK; [move=> -> | rewrite gt_eqF].
have := ln_lt d0 d1; rewrite ln_frac // ltr_subr_addr addrAC ltr_subl_addr.
by rewrite [s0 / s + _]addrC.
Qed.

Lemma mle_max zs Ss : size zs = size Ss -> (forall C, C \in Ss -> pd C) -> (0 < size zs * n)%N ->
  exists2 s0, mle_diffusion zs Ss = Val s0 & 0 <= s0 /\
    [/\ 0 < s0 -> forall s, 0 < s -> s != s0 -> scale_loglik zs Ss s < scale_loglik zs Ss s0,
        s0 = 0 <-> forall z, z \in zs -> z = 0 &
        s0 = 0 -> forall s s', 0 < s -> s < s' -> scale_loglik zs Ss s' < scale_loglik zs Ss s].
Proof.
move=> sz pS nz; set s0 := (\sum_(p <- zip zs Ss) maha p) / (size zs * n)%:R.
have N0 : 0 < (size zs * n)%:R :> R by rewrite ltr0n.
have H p : p \in zip zs Ss -> pd p.2 by exact: zip_pd.
have q0 : 0 <= \sum_(p <- zip zs Ss) maha p.
  by rewrite big_seq; apply: sumr_ge0 => p /H; exact: maha_ge0.
have qE : \sum_(p <- zip zs Ss) maha p = (size zs * n)%:R * s0.
  by rewrite /s0 mulrC divfK // gt_eqF.
have szz : size (zip zs Ss) = size zs by rewrite size1_zip // sz.
exists s0; first by rewrite mleE.
split; first by rewrite divr_ge0 // ltW.
split.
- move=> p0 s ps ne; rewrite !loglikE // szz ltr_add2l ltr_opp2 ltr_pmul2l ?invr_gt0 ?ltr0n //.
  exact: score_max.
- split=> [s00|z0].
    have E0 : \sum_(p <- zip zs Ss) maha p = 0 by rewrite qE s00 mulr0.
    move=> z; rewrite -(@unzip1_zip _ _ zs Ss) ?sz // => /mapP [p pz ->].
    apply: maha_eq0; first exact: H.
    have := E0 => /eqP; rewrite big_seq psumr_eq0; last by move=> x /H; exact: maha_ge0.
    by move/allP => /(_ p pz); rewrite pz => /eqP.
  rewrite /s0 big_seq big1 ?mul0r // => p pz; rewrite /maha.
  have -> : p.1 = 0; last by rewrite mulmx0 mxE.
  by apply: z0; rewrite -(@unzip1_zip _ _ zs Ss) ?sz //; apply/mapP; exists p.
- move=> s00 s s' ps ss'; rewrite !loglikE // ?(lt_trans ps ss') // szz qE s00 mulr0 !mul0r !addr0.
  rewrite ltr_add2l ltr_opp2 ltr_pmul2l ?invr_gt0 ?ltr0n // ltr_pmul2l //.
  by apply/RltP; apply: ln_increasing; apply/RltP.
Qed.

Lemma mle_quad zs Ss (c : R) : size zs = size Ss -> (forall C, C \in Ss -> pd C) ->
  (0 < size zs * n)%N ->
  mle_diffusion [seq c *: z | z <- zs] Ss = rmap (fun s => c ^+ 2 * s) (mle_diffusion zs Ss).
Proof.
move=> sz pS nz; rewrite !mleE ?size_map //= mulrA; congr (Val (_ / _)).
rewrite mulr_sumr; elim: zs Ss {sz pS nz} => [|z zs IH] [|C Ss]; rewrite /= ?big_nil //.
by rewrite !big_cons IH; congr (_ + _); exact: (mahaZz c (z, C)).
Qed.

Lemma mle_inv zs Ss (c : R) : 0 < c -> size zs = size Ss -> (forall C, C \in Ss -> pd C) ->
  (0 < size zs * n)%N ->
  mle_diffusion zs [seq c *: C | C <- Ss] = rmap (fun s => s / c) (mle_diffusion zs Ss).
Proof.
move=> c0 sz pS nz; rewrite !mleE ?size_map //=; last first.
  by move=> C /mapP [D DS ->]; apply: pdZ => //; exact: pS.
congr Val; rewrite mulrAC; congr (_ / _).
rewrite mulr_suml; elim: zs Ss pS {sz nz} => [|z zs IH] [|C Ss] pS; rewrite /= ?big_nil //.
rewrite !big_cons IH; last by move=> D DS; apply: pS; rewrite inE DS orbT.
congr (_ + _); apply: (@mahaZ c (z, C)); first by rewrite gt_eqF.
by apply: pS; rewrite mem_head.
Qed.

Lemma mle_recal zs Ss (s : R) : size zs = size Ss -> (forall C, C \in Ss -> pd C) ->
  (0 < size zs * n)%N -> mle_diffusion zs Ss = Val s -> 0 < s ->
  mle_diffusion zs [seq s *: C | C <- Ss] = Val 1.
Proof. by move=> sz pS nz E s0; rewrite mle_inv // E /= divff // gt_eqF. Qed.
End Mle.

(** ** Scaling in square-root mode *)
Lemma ekf_UC_scale_sqrt (lp : lapack) nx ny (obs : dual nx -> R -> dual ny) A xi LQ LR m L (a : R) ts :
  0 < a ->
  (exists m' L1 L2 S z, [/\ ekf_UC lp obs A LQ xi LR true (m, L) ts = Val ((m', L1), S, z),
     ekf_UC lp obs A (a *: LQ) xi (a *: LR) true (m, a *: L) ts = Val ((m', L2), a ^+ 2 *: S, z) &
     L2 *m L2^T = a ^+ 2 *: (L1 *m L1^T)]) \/
  (ekf_UC lp obs A LQ xi LR true (m, L) ts = Nan /\
   ekf_UC lp obs A (a *: LQ) xi (a *: LR) true (m, a *: L) ts = Nan).
Proof.
move=> a0; have aa : 0 < a ^+ 2 by exact: exprn_gt0.
have sq n k (M : 'M[R]_(n, k)) : (a *: M) *m (a *: M)^T = a ^+ 2 *: (M *m M^T).
  by rewrite linearZ /= -scalemxAl -scalemxAr scalerA -expr2.
have E := ekf_UC_scale lp obs A (LQ *m LQ^T) xi (LR *m LR^T) aa m (L *m L^T) ts.
case: (ekf_sqrt lp obs A xi LQ LR m L ts) => [[m1 [L1 [S1 [z1 [H1 H2 _]]]]]|[H1 H2]];
  case: (ekf_sqrt lp obs A xi (a *: LQ) (a *: LR) m (a *: L) ts) => [[m2 [L2 [S2 [z2 [G1 G2 _]]]]]|[G1 G2]];
  move: G2; rewrite !sq E H2 //= /scale_out //=.
- by move=> [? ? ? ?]; left; exists m1, L1, L2, S1, z1; split=> //; rewrite G1; congr (Val (_, _, _, _)).
- by right.
Qed.

(** ** The outputs for calibration *)
Lemma ekf_UC_out (lp : lapack) nx ny (obs : dual nx -> R -> dual ny) A Q xi Rn sq init ts t x' S z :
  ekf_UC lp obs A Q xi Rn sq init (rcons ts t) = Val (x', S, z) ->
  exists m P, [/\ ekf lp obs A Q xi Rn sq init ts = Val (m, P),
    ekf lp obs A Q xi Rn sq init (rcons ts t) = Val x',
    z = dprimal (obs^~ t) (A *m m + xi) &
    S = (let H := jacfwd (obs^~ t) (A *m m + xi) in
         if sq then H *m (A *m (P *m P^T) *m A^T + Q *m Q^T) *m H^T + Rn *m Rn^T
         else H *m (A *m P *m A^T + Q) *m H^T + Rn)].
Proof.
move=> E; have F := ekf_UC_fst lp obs A xi Q Rn sq init (rcons ts t).
move: F; rewrite E => /esym F; rewrite F.
move: E; rewrite ekf_UC_last; case: (ekf _ _ _ _ _ _ _ _ ts) => //= -[m P].
case: sq F => F; cbv zeta.
- have [L' [-> _ HL]] := predict_sqrt lp m xi P A Q; cbn [fst snd].
  have [I1 _ _] := sqrt_blocks lp L' (jacfwd (obs^~ t) (A *m m + xi)) Rn.
  rewrite /update; case: solve_lower => //= s [<- <- <-].
  exists m, P; split=> //; rewrite I1; congr (_ *m _ *m _ + _).
  by case: HL => ->.
- rewrite /predict /update; case: solve_pos => //= s [<- <- <-].
  by exists m, P.
Qed.

(** Any two covariances are those of some uncorrelated errors. *)
Lemma uncorrelated_exists nx ny (P : 'M[R]_nx) (Rn : 'M[R]_ny) : psd P -> psd Rn ->
  exists (e : signs (nx + ny) -> 'cV[R]_nx) (r : signs (nx + ny) -> 'cV[R]_ny),
  let E := signsE (nx + ny) in
  [/\ Emx E (fun w => e w *m (e w)^T) = P, Emx E (fun w => r w *m (r w)^T) = Rn &
      Emx E (fun w => e w *m (r w)^T) = 0].
Proof.
move=> /psd_sqrt [X [pX XE]] /psd_sqrt [Y [pY YE]].
pose LX : 'M[R]_(nx, nx + ny) := row_mx X 0; pose LY : 'M[R]_(ny, nx + ny) := row_mx 0 Y.
exists (fun w => LX *m rademacher w), (fun w => LY *m rademacher w) => E.
have cov n k (M : 'M[R]_(n, nx + ny)) (N : 'M[R]_(k, nx + ny)) :
  Emx E (fun w => (M *m rademacher w) *m (N *m rademacher w)^T) = M *m N^T.
  rewrite (@Emx_ext _ _ _ _ _ (fun w => M *m (rademacher w *m (rademacher w)^T) *m N^T)); last first.
    by move=> w; rewrite trmx_mul !mulmxA.
  have [_ H] := rademacher_standard (nx + ny).
  rewrite Emx_mulr Emx_mull (_ : Emx _ _ = 1%:M) ?mulmx1 //.
rewrite !cov !tr_row_mx !mul_row_col !trmx0 !mulmx0 !mul0mx !addr0 !add0r.
by rewrite pX.1 pY.1.
Qed.

Lemma update_sqrt_def (lp : lapack) nx ny (m : 'cV[R]_nx) (L : 'M[R]_nx) (c : 'cV[R]_ny)
  (H : 'M[R]_(ny, nx)) (LR : 'M[R]_ny) :
  pd (H *m (L *m L^T) *m H^T + LR *m LR^T) <->
  exists m' L' I', update lp (m, L) c H LR true = Val ((m', L'), I').
Proof.
have pP := psd_gram L; have pR := psd_gram LR.
case: (update_sqrt lp m L c H LR) => [[m' [L' [I' [E1 E2 _ _]]]]|[E1 E2]].
  split=> _; first by exists m', L', I'.
  by have [] := update_val pP pR E2.
split=> [pS|[m' [L' [I']]]]; last by rewrite E1.
by move: E2; rewrite (updateE lp m c pP pS).
Qed.

Lemma ekf_sqrt_state (lp : lapack) nx ny (obs : dual nx -> R -> dual ny) (A : 'M[R]_nx) (xi : 'cV[R]_nx)
  (LQ : 'M[R]_nx) (LR : 'M[R]_ny) m L ts :
  ekf lp obs A (LQ *m LQ^T) xi (LR *m LR^T) false (m, L *m L^T) ts =
  rmap (fun x => (x.1, x.2 *m x.2^T)) (ekf lp obs A LQ xi LR true (m, L) ts).
Proof.
rewrite -!ekf_UC_fst.
by case: (ekf_sqrt lp obs A xi LQ LR m L ts) => [[m' [L' [S [z [-> -> _]]]]]|[-> ->]].
Qed.

Lemma ekf_UC_scale' (lp : lapack) nx ny (obs : dual nx -> R -> dual ny) (A Q : 'M[R]_nx) (xi : 'cV[R]_nx)
  (Rn : 'M[R]_ny) (a : R) m P ts : 0 < a ->
  ekf_UC lp obs A (a *: Q) xi (a *: Rn) false (m, a *: P) ts =
  rmap (fun r => let: ((m', C), S0, z) := r in ((m', a *: C), a *: S0, z))
    (ekf_UC lp obs A Q xi Rn false (m, P) ts).
Proof.
move=> a0; rewrite ekf_UC_scale //.
by case: (ekf_UC _ _ _ _ _ _ _ _ _) => //= -[[[m' C] S0] z].
Qed.

(** ** Examples *)
Lemma scal_mul (a b : R) : (a%:M : 'M[R]_1) *m b%:M = (a * b)%:M.
Proof. by rewrite mul_scalar_mx scale_scalar_mx. Qed.
Lemma scal_add (a b : R) : (a%:M : 'M[R]_1) + b%:M = (a + b)%:M.
Proof. by rewrite raddfD. Qed.
Lemma scal_opp (a : R) : - (a%:M : 'M[R]_1) = (- a)%:M.
Proof. by rewrite raddfN. Qed.
Lemma scal_inv (a : R) : a != 0 -> invmx (a%:M : 'M[R]_1) = (a^-1)%:M.
Proof. by move=> a0; rewrite invmx_scalar. Qed.
Lemma scal_pd (a : R) : 0 < a -> pd (a%:M : 'M[R]_1).
Proof. by move=> a0; rewrite -scalemx1; apply: pdZ => //; exact: pd1. Qed.

Lemma update_scal (lp : lapack) (m P c H Rn : R) : 0 <= P -> 0 <= Rn -> 0 < H * P * H + Rn ->
  update lp (m%:M : 'cV[R]_1, P%:M) (c%:M : 'cV[R]_1) H%:M Rn%:M false =
  let S := H * P * H + Rn in
  Val (((m - P * H / S * c)%:M, (P - P * H / S * H * P)%:M), S%:M).
Proof.
move=> P0 R0 S0.
have psc (a : R) : 0 <= a -> psd (a%:M : 'M[R]_1).
  by move=> a0; rewrite -scalemx1; apply: psdZ => //; apply: pd_psd; exact: pd1.
have SE : (H%:M : 'M[R]_1) *m P%:M *m (H%:M)^T + Rn%:M = (H * P * H + Rn)%:M.
  by rewrite tr_scalar_mx !scal_mul scal_add.
rewrite updateE ?SE; [| exact: psc | exact: scal_pd].
rewrite tr_scalar_mx scal_inv ?gt_eqF // !scal_mul !scal_opp !scal_add.
by [].
Qed.

Lemma update_ex (lp : lapack) (m : R) :
  psd (2%:R%:M : 'M[R]_1) /\ psd (1%:M : 'M[R]_1) /\
  update lp (m%:M : 'cV[R]_1, 2%:R%:M) (3%:R%:M : 'cV[R]_1) 1%:M 1%:M false =
  Val (((m - 2%:R)%:M, (2%:R / 3%:R)%:M), 3%:R%:M).
Proof.
split; first by apply: pd_psd; apply: scal_pd; rewrite ltr0n.
split; first by apply: pd_psd; exact: pd1.
rewrite update_scal ?ler0n ?ler01 //; last by rewrite mul1r mulr1 addr_gt0 ?ltr0n ?ltr01.
congr (Val ((_%:M, _%:M), _%:M)); [rfield | rfield | rring].
Qed.

Lemma mle_ex : let zs : seq 'cV[R]_1 := [:: 1%:M; 3%:R%:M] in let Ss : seq 'M[R]_1 := [:: 1%:M; 3%:R%:M] in
  [/\ size zs = size Ss, forall C, C \in Ss -> pd C & mle_diffusion zs Ss = Val 2%:R].
Proof.
move=> zs Ss; have pS C : C \in Ss -> pd C.
  by rewrite !inE => /orP [/eqP ->|/eqP ->]; apply: scal_pd; rewrite ?ltr01 ?ltr0n.
split=> //; rewrite mleE //= !big_cons big_nil /maha /=.
rewrite !tr_scalar_mx !scal_inv ?oner_eq0 ?pnatr_eq0 // !scal_mul !mxE eqxx !mulr1n.
by rewrite (_ : (2 * 1)%N = 2%N) //; congr Val; rfield.
Qed.

Lemma ekf_ex (lp : lapack) :
  let obs : dual 1 -> R -> dual 1 := fun x _ => dlift (fun z => z - 5%:R%:M) x in
  ekf_UC lp obs 1%:M 1%:M 0 1%:M false (2%:R%:M, 1%:M) [:: 0] =
  Val ((4%:R%:M, (2%:R / 3%:R)%:M), 3%:R%:M, (- 3%:R)%:M).
Proof.
move=> obs; rewrite -[[:: 0]]/(rcons [::] 0) ekf_UC_rcons ekf_UC_nil /= /ekf_body_UC; cbn [fst snd].
rewrite /predict !mul1mx ?trmx1 ?mulmx1 addr0; cbn [fst snd].
have -> : jacfwd (obs^~ 0) 2%:R%:M = 1%:M.
  rewrite jacfwd_lift -[RHS](jac_lin 1%:M (- 5%:R%:M) 2%:R%:M).
  by apply: jac_ext => z; rewrite mul1mx.
have -> : dprimal (obs^~ 0) 2%:R%:M = (- 3%:R)%:M.
  rewrite /dprimal /= scal_opp scal_add; congr _%:M; rring.
rewrite scal_add update_scal ?addr_ge0 ?ler01 //; last first.
  by rewrite mul1r mulr1 !addr_gt0 ?ltr0n ?ltr01.
by congr (Val ((_%:M, _%:M), _%:M, _)); [rfield | rfield | rring].
Qed.
