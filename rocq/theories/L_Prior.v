(** Lemmas on the priors. *)
From Coq Require Import Reals Lra FunctionalExtensionality.
From Coquelicot Require Import Coquelicot.
From mathcomp Require Import all_ssreflect all_algebra mxtens.
From Verif Require Import Rstruct Base Linalg Calc Prob Spec Expm M_Filter M_Prior L_Euler L_Ivp.

Set Implicit Arguments.
Unset Strict Implicit.
Unset Printing Implicit Defensive.
Import Order.TTheory GRing.Theory Num.Theory.
Local Open Scope ring_scope.

(** ** Kronecker products with the identity *)
Lemma kronE d n (A : 'M[R]_n) k l i j :
  kron_eye d A (mxtens_index (k, i)) (mxtens_index (l, j)) = (k == l)%:R * A i j.
Proof. by rewrite mxE !mxtens_indexK /= mxE. Qed.

Section Kron.
Variables (d n : nat).

Lemma kron_mulm c (A : 'M[R]_n) (x : 'M[R]_(d * n, c)) k i (r : 'I_c) :
  (kron_eye d A *m x) (mxtens_index (k, i)) r = \sum_j A i j * x (mxtens_index (k, j)) r.
Proof.
rewrite mulmxE sum_mxtens (bigD1 k) //= [X in _ + X]big1 ?addr0.
  by apply: eq_bigr => j _; rewrite kronE eqxx mul1r.
by move=> l lk; rewrite big1 // => j _; rewrite kronE eq_sym (negPf lk) !mul0r.
Qed.

Lemma kron_mul (A B : 'M[R]_n) : kron_eye d A *m kron_eye d B = kron_eye d (A *m B).
Proof. by rewrite /kron_eye tensmx_mul mulmx1. Qed.
Lemma kron_tr (A : 'M[R]_n) : (kron_eye d A)^T = kron_eye d A^T.
Proof. by rewrite /kron_eye trmx_tens trmx1. Qed.
Lemma kronD (A B : 'M[R]_n) : kron_eye d (A + B) = kron_eye d A + kron_eye d B.
Proof. by apply/matrixP=> p r; rewrite !mxE mulrDr. Qed.
Lemma kron1 : kron_eye d (1%:M : 'M[R]_n) = 1%:M.
Proof.
apply/matrixP=> p r; case: (mxtens_indexP p) => k i; case: (mxtens_indexP r) => l j.
rewrite kronE !mxE (can_eq (@mxtens_indexK _ _)) xpair_eqE -natrM mulnb.
by [].
Qed.

Lemma kron_coord1 (A : 'M[R]_n) (x : 'cV[R]_(d * n)) k :
  coord k (kron_eye d A *m x) = kron_eye 1 A *m coord k x.
Proof.
apply/colP=> p; case: (mxtens_indexP p) => o i; rewrite [LHS]mxE mxtens_indexK /= kron_mulm.
rewrite [RHS]mulmxE sum_mxtens big_ord1; apply: eq_bigr => j _; rewrite [o]ord1.
by rewrite kronE eqxx mul1r !mxE mxtens_indexK.
Qed.

Lemma kron_coord2 (A B : 'M[R]_n) (P : 'M[R]_(d * n)) k l :
  coord2 k l (kron_eye d A *m P *m (kron_eye d B)^T) = kron_eye 1 A *m coord2 k l P *m (kron_eye 1 B)^T.
Proof.
apply/matrixP=> p r; case: (mxtens_indexP p) => o i; case: (mxtens_indexP r) => o' j.
rewrite [LHS]mxE !mxtens_indexK /= !mulmxE sum_mxtens (bigD1 l) //= [X in _ + X]big1 ?addr0.
  rewrite sum_mxtens big_ord1; apply: eq_bigr => b _; rewrite !trmxE !kronE !ord1 !eqxx !mul1r; congr (_ * _).
  rewrite kron_mulm mulmxE sum_mxtens big_ord1; apply: eq_bigr => a _.
  by rewrite kronE eqxx mul1r !mxE !mxtens_indexK.
by move=> m ml; rewrite big1 // => b _; rewrite trmxE kronE eq_sym (negPf ml) mul0r mulr0.
Qed.

Lemma kron_coord2_id (Q : 'M[R]_n) (k l : 'I_d) :
  coord2 k l (kron_eye d Q) = (k == l)%:R *: kron_eye 1 Q.
Proof.
apply/matrixP=> p r; case: (mxtens_indexP p) => o i; case: (mxtens_indexP r) => o' j.
by rewrite [LHS]mxE !mxtens_indexK /= !kronE scalemxE kronE !ord1 eqxx mul1r.
Qed.
End Kron.

(** A prior built by [kron]: predictions coordinate by coordinate. *)
Definition kron_prior d n (m0 : 'cV[R]_n) (Q A : 'M[R]_n) : transition (d * n) :=
  ((\col_p m0 (mxtens_unindex p).2 0), kron_eye d Q, kron_eye d A).

Lemma kron_predict (lp : lapack) d n m0 Q (A : 'M[R]_n) (m : 'cV[R]_(d * n)) P k l :
  let tr d := kron_prior d m0 Q A in
  let p := predict lp (m, P) (tr d).2 (tr d).1.2 (tr d).1.1 false in
  coord k p.1 = (predict lp (coord k m, coord2 k k P) (tr 1%N).2 (tr 1%N).1.2 (tr 1%N).1.1 false).1 /\
  coord2 k l p.2 = (tr 1%N).2 *m coord2 k l P *m ((tr 1%N).2)^T + (k == l)%:R *: (tr 1%N).1.2.
Proof.
move=> tr p; split.
  rewrite /p /tr /kron_prior /predict; cbn [fst snd]; rewrite -kron_coord1.
  by apply/colP=> r; case: (mxtens_indexP r) => o i; rewrite !mxE !mxtens_indexK.
rewrite /p /tr /kron_prior /predict; cbn [fst snd]; rewrite -kron_coord2 -kron_coord2_id.
by apply/matrixP=> r r'; rewrite !mxE.
Qed.

Lemma ioup_kron theta sigma q dt d :
  ioup theta sigma q dt d = kron_prior d 0 (ioup_Q sigma q dt) (expm (dt *: ioup_F theta q)).
Proof. by rewrite /ioup /kron_prior; congr (_, _, _); apply/colP=> p; rewrite !mxE. Qed.

Lemma matern_kron k magn len dt mc : exists m0 Q A,
  forall d, matern k magn len dt d mc = kron_prior d m0 Q A.
Proof.
rewrite /matern; case: (matern_one k magn len dt mc) => [[m0 Q] A].
by exists m0, Q, A.
Qed.

Lemma kron_no_mix (lp : lapack) d n m0 Q (A : 'M[R]_n) (m : 'cV[R]_(d * n)) P k l :
  let tr := kron_prior d m0 Q A in
  k != l -> coord2 k l P = 0 -> coord2 k l (predict lp (m, P) tr.2 tr.1.2 tr.1.1 false).2 = 0.
Proof.
move=> tr kl P0; have [_] := kron_predict lp m0 Q A m P k l; cbv zeta => ->.
by rewrite P0 mulmx0 mul0mx add0r (negPf kl) scale0r.
Qed.

(** ** Transition covariances of linear SDEs *)
Section Cov.
Variables (n m : nat) (F : 'M[R]_n) (L : 'M[R]_(n, m)).
Let g (s : R) : 'M[R]_n := expm (s *: F) *m L *m (expm (s *: F) *m L)^T.

Lemma covB_deriv (t : R) : mx_deriv (fun s => expm (s *: F) *m L) t (F *m expm (t *: F) *m L).
Proof.
have := mx_derivM (expm_mx_deriv F t) (mx_deriv_const L t).
by rewrite mulmx0 addr0.
Qed.

Lemma covg_cont (t : R) i j : continuous (fun s => g s i j) t.
Proof.
apply: ex_derive_continuous.
by exists ((F *m expm (t *: F) *m L *m (expm (t *: F) *m L)^T +
  expm (t *: F) *m L *m (F *m expm (t *: F) *m L)^T) i j);
  exact: (mx_derivM (covB_deriv t) (mx_derivT (covB_deriv t))).
Qed.

Lemma covg_int (a b : R) i j : ex_RInt (fun s => g s i j) a b.
Proof. by apply: ex_RInt_continuous => z _; exact: covg_cont. Qed.

Lemma cov_mx_deriv (t : R) : mx_deriv (lin_sde_cov F L) t (g t).
Proof.
move=> i j; apply: (@is_derive_ext _ _ (fun h => RInt (fun s => g s i j) 0 h)).
  by move=> h; rewrite mxE.
apply: (@is_derive_RInt _ (fun s => g s i j) _ 0).
  apply: filter_forall => x; exact: (@RInt_correct R_CompleteNormedModule _ _ _ (covg_int 0 x i j)).
exact: covg_cont.
Qed.

Lemma cov0 : lin_sde_cov F L 0 = 0.
Proof. by apply/matrixP=> i j; rewrite !mxE RInt_point. Qed.

Lemma cov_unique (V : R -> 'M[R]_n) : (forall t, mx_deriv V t (g t)) -> V 0 = 0 ->
  forall h, lin_sde_cov F L h = V h.
Proof.
move=> HV V0 h; apply/matrixP=> i j; rewrite mxE; apply: is_RInt_unique.
have -> : V h i j = minus (V h i j) (V 0 i j) by rewrite V0 [in RHS]mxE minus_zero_r.
apply: (@is_RInt_derive _ (fun t => V t i j)) => x _; first exact: HV.
exact: covg_cont.
Qed.

Lemma mx_deriv_shift a b (V : R -> 'M[R]_(a, b)) (t c : R) V' :
  mx_deriv V (t + c) V' -> mx_deriv (fun s => V (s + c)) t V'.
Proof.
move=> H i j; have H1 := H i j.
apply: (@is_derive_ext _ _ (fun s : R => V (Rplus s c) i j)) => [s|]; first by [].
rewrite -[V' i j]mul1r; apply: (@is_derive_comp _ _ (fun s => V s i j) (fun s => Rplus s c)); first exact: H1.
by auto_derive.
Qed.

Lemma cov_consistent (s t : R) : consistent (fun t => expm (t *: F)) (lin_sde_cov F L) s t.
Proof.
split; first by rewrite addrC expm_add.
have H (x : R) : mx_deriv (fun x => lin_sde_cov F L (x + t) -
    (expm (t *: F) *m lin_sde_cov F L x *m (expm (t *: F))^T)) x 0.
  have D1 := mx_deriv_shift (cov_mx_deriv (x + t)).
  have D2 := mx_derivM (mx_derivM (mx_deriv_const (expm (t *: F)) x) (cov_mx_deriv x))
    (mx_deriv_const (expm (t *: F))^T x).
  rewrite mulmx0 addr0 mul0mx add0r in D2.
  have E : g (x + t) = expm (t *: F) *m g x *m (expm (t *: F))^T.
    by rewrite /g addrC expm_add !trmx_mul !mulmxA.
  rewrite E in D1.
  move=> i j; have := is_derive_minus _ _ _ _ _ (D1 i j) (D2 i j).
  rewrite minus_eq_zero mxE; apply: is_derive_ext => y; by rewrite addmxE oppmxE.
have := mx_deriv0_const H s 0; rewrite add0r cov0 mulmx0 mul0mx subr0 => /eqP.
by rewrite subr_eq => /eqP ->; rewrite addrC.
Qed.

Lemma cov_sym (h : R) : sym (lin_sde_cov F L h).
Proof.
apply/matrixP=> i j; rewrite !mxE; apply: RInt_ext => s _.
by rewrite -/(g s) -[g s in LHS](_ : (g s)^T = _) ?trmxE // /g trmx_mul trmxK.
Qed.

Lemma qf_g t x : qf (g t) x = \sum_k ((x^T *m (expm (t *: F) *m L)) 0 k) ^+ 2.
Proof.
rewrite /g qf_gram mulmxE; apply: eq_bigr => k _; rewrite trmxE.
rewrite -[_^T *m x]trmxK trmx_mul trmxK trmxE; by rewrite expr2.
Qed.

Lemma qf_cov_deriv (x : 'cV[R]_n) (t : R) : is_derive (fun t => qf (lin_sde_cov F L t) x) t (qf (g t) x).
Proof.
have := mx_derivM (mx_derivM (mx_deriv_const x^T t) (cov_mx_deriv t)) (mx_deriv_const x t).
by rewrite mulmx0 addr0 mul0mx add0r => H; exact: (H 0 0).
Qed.

Lemma qf_g_ge0 t x : 0 <= qf (g t) x.
Proof. by rewrite qf_g; apply: sumr_ge0 => k _; exact: sqr_ge0. Qed.

Lemma qf_cov_mono (a b : R) x : a <= b -> qf (lin_sde_cov F L a) x <= qf (lin_sde_cov F L b) x.
Proof.
move=> ab; apply: (@le_by_deriv (fun _ => qf (lin_sde_cov F L a) x) (fun t => qf (lin_sde_cov F L t) x)
  (fun _ => 0%Re) (fun t => qf (g t) x) a b _ _ _ _ b ab (lexx b)) => //.
- by move=> t _ _; exact: is_derive_const.
- by move=> t _ _; exact: qf_cov_deriv.
- by move=> t _ _; exact: qf_g_ge0.
Qed.

Lemma cov_psd (h : R) : 0 <= h -> psd (lin_sde_cov F L h).
Proof.
move=> h0; split=> [|x]; first exact: cov_sym.
by rewrite -[0](qf0 x) -cov0; exact: qf_cov_mono.
Qed.

Lemma zero_deriv (u : R -> R) (h t l : R) : 0 < t -> t < h -> (forall s, 0 < s -> s < h -> u s = 0) ->
  is_derive u t l -> l = 0.
Proof.
move=> t0 th H D; have D0 : is_derive u t 0%Re.
  apply: (@is_derive_ext_loc _ _ (fun=> 0%Re)); last exact: is_derive_const.
  have e0 : Rlt 0 (Num.min t (h - t)) by apply/RltP; rewrite lt_minr t0 subr_gt0.
  have /RleP m1 : Num.min t (h - t) <= t by rewrite le_minl lexx.
  have /RleP m2 : Num.min t (h - t) <= h - t by rewrite le_minl lexx orbT.
  exists (mkposreal _ e0) => y /= Hy; symmetry.
  move: e0 m1 m2 Hy; rewrite /ball /= /AbsRing_ball /= /abs /= /minus /plus /opp /=; move: (Num.min _ _) => mi e0 m1 m2 Hy.
  have m2' : Rle mi (Rminus h t) by exact: m2.
  have [H1 H2] := Rabs_def2 _ _ Hy.
  have aux (a b c d : R) : Rle c b -> Rle c (Rminus d b) -> Rlt (Rplus a (Ropp b)) c ->
    Rlt (Ropp c) (Rplus a (Ropp b)) -> Rlt 0%Re a /\ Rlt a d by move=> *; split; lra.
  by have [/RltP y0 /RltP yh] := aux _ _ _ _ m1 m2' H1 H2; exact: H.
exact: etrans (esym (is_derive_unique _ _ _ D)) (is_derive_unique _ _ _ D0).
Qed.

Lemma cov_pd (h : R) : 0 < h -> (forall z : 'rV[R]_n, (forall k, z *m mxpow F k *m L = 0) -> z = 0) ->
  pd (lin_sde_cov F L h).
Proof.
move=> h0 C; split=> [|x x0]; first exact: cov_sym.
rewrite lt_neqAle; case: (cov_psd (ltW h0)) => _ -> ; rewrite andbT.
apply: contra_neq x0 => /esym Q0.
have Q t : 0 < t -> t < h -> qf (lin_sde_cov F L t) x = 0.
  move=> t0 th; apply/le_anti; rewrite -{1}Q0 qf_cov_mono ?(ltW th) //.
  by case: (cov_psd (ltW t0)) => _ ->.
have Z t : 0 < t -> t < h -> x^T *m expm (t *: F) *m L = 0.
  move=> t0 th; have := zero_deriv t0 th Q (qf_cov_deriv x t).
  rewrite qf_g => /eqP; rewrite psumr_eq0 => [/allP H|k _]; last exact: sqr_ge0.
  apply/rowP=> k; rewrite [RHS]mxE; have := H k (mem_index_enum _).
  by rewrite /= sqrf_eq0 mulmxA => /eqP.
have ZK k t : 0 < t -> t < h -> x^T *m expm (t *: F) *m mxpow F k *m L = 0.
  elim: k t => [|k IH] t t0 th; first by rewrite mxpow0 mulmx1 Z.
  apply/rowP=> j; rewrite [RHS]mxE.
  apply: (@zero_deriv (fun s => (x^T *m expm (s *: F) *m mxpow F k *m L) 0 j) h t) => //.
    by move=> s s0 sh; rewrite IH // mxE.
  have := mx_derivM (mx_derivM (mx_derivM (mx_deriv_const x^T t) (expm_mx_deriv F t))
    (mx_deriv_const (mxpow F k) t)) (mx_deriv_const L t).
  rewrite !mulmx0 !addr0 mul0mx add0r (expm_comm t (erefl (F *m F))) mulmxA -(mulmxA _ F) -mxpowS.
  by move=> H; exact: (H 0 j).
have t0 : 0 < h / 2%:R by rewrite divr_gt0 ?ltr0n.
have th : h / 2%:R < h by rewrite ltr_pdivr_mulr ?ltr0n // mulrDr !mulr1 ltr_addr.
have E := C _ (fun k => ZK k _ t0 th).
by apply: (can_inj trmxK); rewrite -[x^T](mulmxK (expm_unit F (h / 2%:R))) E mul0mx trmx0.
Qed.
End Cov.

(** ** Companion systems *)
Section Companion.
Variables (q : nat) (c : nat -> R).
Let F := companion q c.

Lemma comp_pow sigma k (i : 'I_q.+1) : (i + k <= q)%N ->
  (mxpow F k *m last_noise q sigma) i 0 = (i + k == q)%N%:R * sigma.
Proof.
elim: k i => [|k IH] i.
  by rewrite addn0 mxpow0 mul1mx mxE => _; case: eqP => _; rewrite ?mul1r ?mul0r.
move=> ik; rewrite mxpowS -mulmxA mulmxE.
have iq : (i < q)%N by apply: leq_trans ik; rewrite -addn1 leq_add2l.
have i1q : (i.+1 < q.+1)%N by [].
rewrite (bigD1 (Ordinal i1q)) //= [X in _ + X]big1 ?addr0 => [|j ji].
  by rewrite mxE iq eqxx mul1r IH /= ?addSnnS.
rewrite mxE iq (_ : (val j == i.+1) = false) ?mul0r //.
by apply: contraNF ji => /eqP ji; apply/eqP/val_inj.
Qed.

Lemma comp_ctrl sigma (z : 'rV[R]_q.+1) : sigma != 0 ->
  (forall k, z *m mxpow F k *m last_noise q sigma = 0) -> z = 0.
Proof.
move=> s0 H.
have Z k : (k <= q)%N -> forall i : 'I_q.+1, (i + k >= q)%N -> z 0 i = 0.
  elim: k => [|k IH] kq i ik.
    have iq : val i = q by apply/eqP; rewrite eqn_leq -ltnS ltn_ord -[val i]addn0 ik.
    have := H 0%N; rewrite mxpow0 mulmx1 => /matrixP /(_ 0 0).
    rewrite mulmxE [RHS]mxE (bigD1 i) //= big1 ?addr0 => [|j ji].
      by rewrite mxE iq eqxx => /eqP; rewrite mulf_eq0 (negPf s0) orbF => /eqP.
    rewrite mxE (_ : (val j == q) = false) ?mulr0 //.
    by apply: contraNF ji => /eqP E; apply/eqP/val_inj; rewrite E.
  case: (leqP q (i + k)) => [ik'|ik']; first by apply: IH => //; exact: ltnW.
  have ikq : (i + k.+1)%N = q by apply/eqP; rewrite eqn_leq ik andbT addnS.
  have := H k.+1 => /matrixP /(_ 0 0); rewrite -mulmxA mulmxE [RHS]mxE.
  rewrite (bigD1 i) //= big1 ?addr0 => [|j ji].
    by rewrite -mxpowS comp_pow ?ikq // eqxx mul1r => /eqP; rewrite mulf_eq0 (negPf s0) orbF => /eqP.
  case: (leqP (j + k.+1) q) => [jk|jk].
    rewrite -mxpowS comp_pow // (_ : ((j + k.+1)%N == q) = false) ?mul0r ?mulr0 //.
    apply: contraNF ji => /eqP E; apply/eqP/val_inj/eqP; rewrite -(eqn_add2r k.+1) ikq; exact/eqP.
  rewrite (IH _ j) ?mul0r //; first exact: ltnW.
  by rewrite addnS ltnS in jk.
by apply/rowP=> i; rewrite [RHS]mxE (Z q) // leq_addl.
Qed.

Lemma comp_cov_pd sigma (h : R) : sigma != 0 -> 0 < h -> pd (lin_sde_cov F (last_noise q sigma) h).
Proof. by move=> s0 h0; apply: cov_pd => // z; exact: comp_ctrl. Qed.
End Companion.

(** ** IOUP *)
Lemma ioup_F_comp theta q : ioup_F theta q = companion q (fun j => if j == q then - theta else 0).
Proof. by []. Qed.

Lemma ibm_pow q k (i j : 'I_q.+1) : mxpow (ioup_F 0 q) k i j = (val j == i + k)%N%:R.
Proof.
elim: k i j => [|k IH] i j; first by rewrite mxpow0 mxE addn0 eq_sym.
rewrite mxpowS mulmxE; case: (ltnP i q) => iq.
  have i1q : (i.+1 < q.+1)%N by [].
  rewrite (bigD1 (Ordinal i1q)) //= [X in _ + X]big1 ?addr0 => [|l li].
    by rewrite mxE iq eqxx mul1r IH /= addSnnS.
  rewrite mxE iq (_ : (val l == i.+1) = false) ?mul0r //.
  by apply: contraNF li => /eqP li; apply/eqP/val_inj.
rewrite big1 => [|l _]; last by rewrite mxE ltnNge iq /= oppr0 if_same mul0r.
rewrite (_ : (val j == _) = false) //; apply/negbTE; rewrite neq_ltn; apply/orP; left.
by apply: leq_trans (ltn_ord j) _; rewrite addnS ltnS (leq_trans iq) // leq_addr.
Qed.

Lemma ibm_exp q (t : R) (i j : 'I_q.+1) :
  expm (t *: ioup_F 0 q) i j = if (i <= j)%N then t ^+ (j - i) / (j - i)`!%:R else 0.
Proof.
rewrite (@expm_nilp _ _ q.+1); last first.
  move=> k qk; apply/matrixP=> a b; rewrite ibm_pow mxE (_ : (val b == _) = false) //.
  apply/negbTE; rewrite neq_ltn; apply/orP; left; apply: leq_trans (ltn_ord b) _.
  by apply: leq_trans qk _; rewrite leq_addl.
rewrite summxE; case: (leqP i j) => ij.
  have jq : (j - i < q.+1)%N by rewrite (leq_ltn_trans (leq_subr _ _)).
  rewrite (bigD1 (Ordinal jq)) //= [X in _ + X]big1 ?addr0 => [|l li].
    by rewrite scalemxE ibm_pow subnKC // eqxx mulr1.
  rewrite scalemxE ibm_pow (_ : (val j == _) = false) ?mulr0 //.
  by apply: contraNF li => /eqP li; apply/eqP/val_inj; rewrite /= li addKn.
rewrite big1 // => l _; rewrite scalemxE ibm_pow (_ : (val j == _) = false) ?mulr0 //.
by apply/negbTE; rewrite neq_ltn (leq_trans ij) // leq_addr.
Qed.

Lemma ibm_B q sigma (t : R) (i : 'I_q.+1) :
  (expm (t *: ioup_F 0 q) *m last_noise q sigma) i 0 = sigma * (t ^+ (q - i) / (q - i)`!%:R).
Proof.
rewrite mulmxE (bigD1 ord_max) //= [X in _ + X]big1 ?addr0 => [|l li].
  by rewrite ibm_exp mxE /= eqxx -ltnS ltn_ord mulrC.
rewrite [last_noise _ _ _ _]mxE (_ : (val l == q) = false) ?mulr0 //.
by apply: contraNF li => /eqP li; apply/eqP/val_inj.
Qed.

Lemma ioup_Q_cov sigma q (h : R) :
  ioup_Q sigma q h = lin_sde_cov (ioup_F 0 q) (last_noise q sigma) h.
Proof.
symmetry; apply: (cov_unique (V := ioup_Q sigma q)).
  move=> t i j; set a := (q - i)%N; set b := (q - j)%N.
  have iq : (i <= q)%N by rewrite -ltnS. have jq : (j <= q)%N by rewrite -ltnS.
  have E : (2 * q + 1 - i - j)%N = (a + b).+1.
    rewrite /a /b mul2n -addnn; apply/eqP; rewrite -(eqn_add2r (i + j)) -subnDA subnK; last first.
      by rewrite (leq_trans (leq_add iq jq)) // leq_addr.
    by rewrite addSn addnACA !subnK // addn1.
  rewrite mulmxE big_ord1 trmxE !ibm_B -/a -/b.
  apply: (@is_derive_ext _ _ (fun t : R => Rmult (sigma ^+ 2 / ((a + b).+1%:R * a`!%:R * b`!%:R)) (pow t (a + b).+1))).
    by move=> s; rewrite scalemxE mxE E -/a -/b -RmultE -RpowE [in RHS]mulrA [in RHS]mulrAC.
  have n0 : ((a + b).+1%:R : R) != 0 by rewrite pnatr_eq0.
  have a0 : (a`!%:R : R) != 0 by rewrite pnatr_eq0 -lt0n fact_gt0.
  have b0 : (b`!%:R : R) != 0 by rewrite pnatr_eq0 -lt0n fact_gt0.
  auto_derive => //; rewrite -/(INR (a + b).+1) -[INR _]RnatE -RpowE exprD.
  move: n0 a0 b0; move: ((a + b).+1%:R) (a`!%:R) (b`!%:R) (t ^+ a) (t ^+ b) => x y z u v /eqP n0 /eqP a0 /eqP b0.
  rfield.
apply/matrixP=> i j; rewrite scalemxE !mxE.
have iq : (i <= q)%N by rewrite -ltnS. have jq : (j <= q)%N by rewrite -ltnS.
rewrite expr0n (_ : (_ == _) = false) ?mul0r ?mulr0 //.
apply/negbTE; rewrite -lt0n -subnDA subn_gt0 addn1 ltnS mul2n -addnn; exact: leq_add.
Qed.

Lemma kron_consistent d n (A Q : R -> 'M[R]_n) (s t : R) : consistent A Q s t ->
  consistent (fun t => kron_eye d (A t)) (fun t => kron_eye d (Q t)) s t.
Proof. by move=> [H1 H2]; split; rewrite ?H1 ?H2 ?kronD ?kron_tr !kron_mul. Qed.

Lemma ioup_consistent sigma q d (s t : R) :
  consistent (fun t => (ioup 0 sigma q t d).2) (fun t => (ioup 0 sigma q t d).1.2) s t.
Proof.
apply: kron_consistent; have [H1 H2] := cov_consistent (ioup_F 0 q) (last_noise q sigma) s t.
by split=> //; rewrite !ioup_Q_cov.
Qed.

Lemma kron_pd d n (Q : 'M[R]_n) : pd Q -> pd (kron_eye d Q).
Proof.
move=> [sQ pQ]; split=> [|x x0]; first by rewrite /sym kron_tr sQ.
pose xk k : 'cV[R]_n := \col_i x (mxtens_index (k, i)) 0.
have E : qf (kron_eye d Q) x = \sum_k qf Q (xk k).
  rewrite qfE sum_mxtens; apply: eq_bigr => k _; rewrite qfE; apply: eq_bigr => i _.
  rewrite sum_mxtens (bigD1 k) //= [X in _ + X]big1 ?addr0 => [|l lk].
    by apply: eq_bigr => j _; rewrite kronE eqxx mul1r !mxE.
  by rewrite big1 // => j _; rewrite kronE eq_sym (negPf lk) mul0r mulr0 mul0r.
have pQ' k : 0 <= qf Q (xk k) by exact: (pd_psd (conj sQ pQ)).2.
rewrite E lt_neqAle sumr_ge0 // andbT eq_sym; apply: contra_neq x0 => S0.
have {}S0 := psumr_eq0P (fun k _ => pQ' k) S0.
apply/colP=> p; case: (mxtens_indexP p) => k i; rewrite [RHS]mxE.
case: (eqVneq (xk k) 0) => [/colP /(_ i)|/pQ]; first by rewrite !mxE.
by rewrite S0 // ltxx.
Qed.

Lemma ioup_pd sigma q (dt : R) d : sigma != 0 -> 0 < dt -> pd (ioup 0 sigma q dt d).1.2.
Proof. by move=> s0 t0; apply: kron_pd; rewrite ioup_Q_cov ioup_F_comp; exact: comp_cov_pd. Qed.

(** With theta <> 0. *)
Section Ioup.
Variables (theta : R) (q : nat).
Let F := ioup_F theta q.

Lemma ioup_last (t : R) j : expm (t *: F) ord_max j = (j == ord_max)%:R * exp (- theta * t).
Proof.
have H (x : R) : is_derive (fun s : R => Rmult (exp (Rmult theta s)) (expm (s *: F) ord_max j)) x 0.
  have D := expm_deriv F x ord_max j.
  have E : (F *m expm (x *: F)) ord_max j = - theta * expm (x *: F) ord_max j.
    rewrite mulmxE (bigD1 ord_max) //= [X in _ + X]big1 ?addr0 => [|l lm].
      by rewrite mxE /= ltnn eqxx.
    rewrite mxE /= ltnn (_ : (val l == q) = false) ?mul0r //.
    by apply: contraNF lm => /eqP lq; apply/eqP/val_inj.
  have De : is_derive (fun s => exp (Rmult theta s)) x (Rmult theta (exp (Rmult theta x))).
    by auto_derive => //; rewrite Rmult_1_r.
  have := is_derive_mult _ _ _ _ _ De D Rmult_comm.
  rewrite E /plus /mult /=; move: (expm (x *: F) ord_max j : R) (exp _) => a b.
  by rewrite (_ : Rplus _ _ = 0) //; rring.
have := deriv0_const H t 0; rewrite scale0r expm0 idmxE Rmult_0_r exp_0 Rmult_1_l eq_sym => E.
have P := exp_pos (Rmult theta t).
rewrite -E (_ : exp (- theta * t) = Rinv (exp (Rmult theta t))).
  move: (expm (t *: F) ord_max j : R) => a; toR; field; exact: Rgt_not_eq.
by rewrite -exp_Ropp; congr exp; rring.
Qed.

Lemma ioup_covqq sigma (h : R) : theta != 0 ->
  lin_sde_cov F (last_noise q sigma) h ord_max ord_max =
  sigma ^+ 2 * (1 - exp (- (2%:R * theta * h))) / (2%:R * theta).
Proof.
move=> /eqP t0.
have H (x : R) : is_derive (fun s : R => Rminus (lin_sde_cov F (last_noise q sigma) s ord_max ord_max)
   (Rmult (Rdiv (sigma ^+ 2) (Rmult 2%Re theta)) (Rminus 1%Re (exp (Ropp (Rmult (Rmult 2%Re theta) s)))))) x 0.
  have D := @cov_mx_deriv _ _ F (last_noise q sigma) x ord_max ord_max.
  have De : is_derive (fun s => (Rmult (Rdiv (sigma ^+ 2) (Rmult 2%Re theta)) (Rminus 1%Re (exp (Ropp (Rmult (Rmult 2%Re theta) s)))))) x
     (Rmult (sigma ^+ 2) (exp (Ropp (Rmult (Rmult 2%Re theta) x)))).
    by auto_derive => //; field.
  have := is_derive_minus _ _ _ _ _ D De; rewrite (_ : minus _ _ = 0%Re) //.
  have EB : (expm (x *: F) *m last_noise q sigma) ord_max 0 = sigma * exp (- theta * x).
    rewrite mulmxE (bigD1 ord_max) //= [X in _ + X]big1 ?addr0 => [|l lm].
      by rewrite ioup_last eqxx mul1r mxE /= eqxx mulrC.
    by rewrite ioup_last (negPf lm) !mul0r.
  rewrite mulmxE big_ord1 trmxE !EB.
  rewrite (_ : Ropp (Rmult (Rmult 2%Re theta) x) = Rplus (- theta * x) (- theta * x)); last by rring.
  by rewrite exp_plus /minus /plus /opp /=; move: (exp _) => e; rring.
have := deriv0_const H h 0; rewrite cov0 zeromxE.
rewrite (_ : Ropp (Rmult (Rmult 2%Re theta) 0) = 0%Re); last by rring.
rewrite exp_0 (_ : Ropp (Rmult (Rmult 2%Re theta) h) = - (2%:R * theta * h)); last by rring.
move: (lin_sde_cov _ _ _ _ _ : R) (exp _) => a b E.
have -> : a = Rplus (Rminus a (sigma ^+ 2 / (2 * theta) * (1 - b))%Re) (sigma ^+ 2 / (2 * theta) * (1 - b))%Re by rring.
by rewrite E; rfield.
Qed.

Lemma exp_m1 (x : R) : 1 - exp (- x) = x -> x = 0.
Proof.
move=> H; case: (Req_dec x 0) => // x0; exfalso.
have nx : Ropp x <> 0%Re by move=> E; apply: x0; rewrite -[x]Ropp_involutive E Ropp_0.
have := exp_ineq1 _ nx; have : Rminus 1%Re (exp (Ropp x)) = x by exact: H.
by lra.
Qed.

Lemma ioup_Qqq sigma (h : R) : ioup_Q sigma q h ord_max ord_max = sigma ^+ 2 * h.
Proof.
rewrite scalemxE mxE /= subnn (_ : (2 * q + 1 - q - q)%N = 1%N); last by rewrite mul2n -addnn -!addnA !addKn.
by rewrite expr1 fact0 !mulr1 divr1.
Qed.

Lemma ioup_wrong sigma (h : R) : sigma != 0 -> h != 0 -> theta != 0 ->
  ioup_Q sigma q h <> lin_sde_cov F (last_noise q sigma) h.
Proof.
move=> s0 h0 t0 /matrixP /(_ ord_max ord_max); rewrite ioup_Qqq ioup_covqq // -mulrA.
have s20 : sigma ^+ 2 != 0 by rewrite expf_neq0.
have t20 : 2%:R * theta != 0 :> R by rewrite mulf_neq0 // pnatr_eq0.
move=> /(mulfI s20) /esym /(canRL (mulfVK t20)); rewrite [h * _]mulrC => /exp_m1 /eqP.
by rewrite mulf_eq0 (negPf t20) (negPf h0).
Qed.

Lemma ioup_split_wrong sigma (s t : R) : sigma != 0 -> s != 0 -> t != 0 -> theta != 0 ->
  ioup_Q sigma q (s + t) <> expm (t *: F) *m ioup_Q sigma q s *m (expm (t *: F))^T + ioup_Q sigma q t.
Proof.
move=> sg0 s0 t0 th0 /matrixP /(_ ord_max ord_max); rewrite addmxE !ioup_Qqq.
have -> : (expm (t *: F) *m ioup_Q sigma q s *m (expm (t *: F))^T) ord_max ord_max =
  exp (- theta * t) ^+ 2 * (sigma ^+ 2 * s).
  rewrite mulmxE (bigD1 ord_max) //= [X in _ + X]big1 ?addr0 => [|l lm].
    rewrite trmxE ioup_last eqxx mul1r mulmxE (bigD1 ord_max) //= [X in _ + X]big1 ?addr0 => [|l lm].
      by rewrite ioup_last eqxx mul1r ioup_Qqq mulrAC expr2.
    by rewrite ioup_last (negPf lm) !mul0r.
  by rewrite trmxE ioup_last (negPf lm) mul0r mulr0.
have s20 : sigma ^+ 2 != 0 by rewrite expf_neq0.
rewrite mulrDr => /addIr /eqP; rewrite -[X in X == _]mul1r.
rewrite (inj_eq (mulIf (mulf_neq0 s20 s0))) eq_sym sqrf_eq1.
have P := exp_pos (- theta * t); case/orP=> /eqP E.
  have : - theta * t = 0 by apply: exp_inv; rewrite exp_0.
  by apply/eqP; rewrite mulf_neq0 // oppr_eq0.
by move: P; rewrite E => /RltP; rewrite oppr_gt0 ltr10.
Qed.
End Ioup.

(** ** Matern *)
Section Matern32.
Variable lam : R.
Let F := companion 1 (fun j => if j == 0%N then - lam ^+ 2 else - (2%:R * lam)).

Lemma matern1_exp (t : R) : matern1_A lam t = expm (t *: F).
Proof.
have M0 : matern1_A lam 0 = 1%:M.
  apply/matrixP=> i j; elim/ord2P: i; elim/ord2P: j; rewrite !mxE /=;
  rewrite ?(mulNr, mul0r, mulr0, oppr0, exp_0, addr0, subr0, mulr1) //.
rewrite -[RHS]mulmx1 -M0; apply: (expm_unique (V := matern1_A lam)) => {}t i j.
have -> : (F *m matern1_A lam t) i j = \sum_k F i k * matern1_A lam t k j by rewrite mulmxE.
rewrite sum2; elim/ord2P: i; elim/ord2P: j; rewrite !mxE /=.
- apply: (@is_derive_ext _ _ (fun t => Rmult (exp (Rmult (Ropp t) lam)) (Rplus 1%Re (Rmult t lam)))) => [s|]; first by rewrite mxE.
  by auto_derive => //; rring.
- apply: (@is_derive_ext _ _ (fun t => Rmult (exp (Rmult (Ropp t) lam)) t)) => [s|]; first by rewrite mxE.
  by auto_derive => //; rring.
- apply: (@is_derive_ext _ _ (fun t => Rmult (Rmult (Ropp (exp (Rmult (Ropp t) lam))) t) (lam ^+ 2))) => [s|]; first by rewrite mxE.
  by auto_derive => //; rring.
- apply: (@is_derive_ext _ _ (fun t => Rmult (exp (Rmult (Ropp t) lam)) (Rminus 1%Re (Rmult lam t)))) => [s|]; first by rewrite mxE.
  by auto_derive => //; rring.
Qed.

Lemma matern1_Qcov magn (h : R) : lam != 0 ->
  matern1_Q magn lam h = lin_sde_cov F (last_noise 1 magn) h.
Proof.
move=> /eqP l0.
have B (t : R) (i : 'I_2) : (expm (t *: F) *m last_noise 1 magn) i 0 = magn * matern1_A lam t i 1.
  by rewrite -matern1_exp mulmxE sum2 ![last_noise _ _ _ _]mxE /= mulr0 add0r mulrC.
symmetry; apply: (cov_unique (V := matern1_Q magn lam)) => [t i j|]; last first.
  apply/matrixP=> i j; elim/ord2P: i; elim/ord2P: j; rewrite scalemxE !mxE /=;
  rewrite ?(mulNr, mul0r, mulr0, oppr0, exp_0, addr0, subr0, mulr1, expr0n, addNr, addrN, mul1r, mul0r) //=;
  by rewrite ?mulr0.
rewrite mulmxE big_ord1 trmxE !B.
pose e (x : R) := exp (Rmult (Ropp x) lam).
have e0 (x : R) : e x <> 0%Re by apply: Rgt_not_eq; exact: exp_pos.
have De (x : R) : is_derive e x (Ropp (Rmult lam (e x))) by rewrite /e; auto_derive => //; ring.
have Ex (x : R) : ex_derive e x by exists (Ropp (Rmult lam (e x))); exact: De.
have De' (x : R) : Derive e x = Ropp (Rmult lam (e x)) by exact: is_derive_unique (De x).
have E1 (x : R) : exp (- x * lam) = e x by [].
have E (x : R) : exp (- 2%:R * x * lam) = Rmult (e x) (e x).
  by rewrite /e -exp_plus; congr exp; rring.
have E' (x : R) : exp (2%:R * x * lam) = Rinv (Rmult (e x) (e x)).
  by rewrite -E -exp_Ropp; congr exp; rring.
have D01 : is_derive (fun s => Rmult (magn ^+ 2) (Rmult (Rmult (/ 2)%Re (Rmult (e s) (e s))) (Rmult s s))) t
  (magn * (e t * t) * (magn * (e t * (1 - lam * t)))).
  by auto_derive; [rewrite /=; do ?split; exact: Ex | rewrite De'; move: (e t) => u; rfield].
elim/ord2P: i; elim/ord2P: j; rewrite ![matern1_A _ _ _ _]mxE /= !E1.
- apply: (@is_derive_ext _ _ (fun s => Rmult (magn ^+ 2) (Rmult (Rplus 1%Re (Rmult (Rmult (e s) (e s)) (Rminus (Ropp 1%Re)
    (Rmult (Rmult (Rmult 2%Re s) lam) (Rplus 1%Re (Rmult s lam)))))) (Rinv (4 * (lam * (lam * lam)))%Re)))) => [s|].
    by rewrite scalemxE mxE /= E; move: (e s) => u; rfield.
  by auto_derive; [rewrite /=; do ?split; exact: Ex | rewrite De'; move: (e t) => u; rfield].
- apply: is_derive_ext D01 => s; rewrite scalemxE mxE /= E; move: (e s) => u; rfield.
- rewrite mulrC; apply: is_derive_ext D01 => s; rewrite scalemxE mxE /= E; move: (e s) => u; rfield.
- apply: (@is_derive_ext _ _ (fun s => Rmult (magn ^+ 2) (Rmult (Rplus (Ropp (Rmult (e s) (e s))) (Rplus 1%Re (Ropp (Rmult (Rmult (e s) (e s))
    (Rmult (Rmult (Rmult 2%Re s) lam) (Rplus (Ropp 1%Re) (Rmult s lam))))))) (Rinv (4 * lam)%Re)))) => [s|].
    by rewrite scalemxE mxE /= E E'; move: (e s) (e0 s) => u u0; rfield.
  by auto_derive; [rewrite /=; do ?split; exact: Ex | rewrite De'; move: (e t) => u; rfield].
Qed.
End Matern32.

Lemma companion_char m (p : {poly R}) (M : 'M[R]_m) : p \is monic -> (size p).-1 = m ->
  (forall i j, M i j = if (i == m.-1 :> nat) then - p`_j else (i.+1 == j :> nat)%:R) ->
  char_poly M = p.
Proof.
move=> pm e; subst m => HM; rewrite -[RHS]companionmxK //; congr char_poly.
by apply/matrixP=> i j; rewrite HM mxE.
Qed.

Lemma coef_XDC (a : R) k j : (j <= k)%N -> (('X + a%:P) ^+ k)`_j = 'C(k, j)%:R * a ^+ (k - j).
Proof.
move=> jk; rewrite addrC exprDn coef_sum (bigD1 (inord j)) //= big1 ?addr0 => [|i ij].
  by rewrite inordK // coefMn -rmorphX coefCM coefXn eqxx mulr1 mulr_natl.
rewrite coefMn -rmorphX coefCM coefXn (_ : (j == i) = false) ?mulr0 ?mul0rn //.
by apply: contraNF ij => /eqP ->; apply/eqP; rewrite inord_val.
Qed.

Lemma XDC_sub (a : R) : 'X + a%:P = 'X - (- a)%:P :> {poly R}.
Proof. by rewrite rmorphN opprK. Qed.

Lemma comp_char k (a : R) :
  char_poly (companion k (fun j => - ('C(k.+1, j)%:R * a ^+ (k.+1 - j)))) = ('X + a%:P) ^+ k.+1.
Proof.
apply: companion_char.
- by rewrite XDC_sub monic_exp // monicXsubC.
- by rewrite XDC_sub size_exp_XsubC.
move=> i j; rewrite mxE /= coef_XDC; last exact: ltnW.
case: (ltngtP i k) => [ik|ik|_] //; first by rewrite eq_sym.
by move: (ltn_ord i); rewrite ltnS leqNgt ik.
Qed.

Lemma matern_F_comp k lam :
  matern_F k lam = companion k (fun j => - ('C(k.+1, j)%:R * lam^-1 ^+ (k.+1 - j))).
Proof. by apply/matrixP=> i j; rewrite !mxE exprVn. Qed.

Lemma matern_F_char k lam : char_poly (matern_F k lam) = ('X + lam^-1%:P) ^+ k.+1.
Proof. by rewrite matern_F_comp comp_char. Qed.

Lemma matern_char_iff k lam : 0 < lam ->
  char_poly (matern_F k lam) = ('X + lam%:P) ^+ k.+1 <-> lam = 1.
Proof.
move=> l0; rewrite matern_F_char; split=> [/(congr1 (fun p : {poly R} => p.[0]))|->]; last by rewrite invr1.
rewrite !horner_exp !hornerD !hornerC !hornerX !add0r => /eqP.
rewrite eqr_expn2 ?invr_ge0 ?(ltW l0) // => /eqP E.
have : lam * lam = 1 by rewrite -{1}E mulVf // gt_eqF.
by rewrite -expr2 => /eqP; rewrite sqrf_eq1 => /orP [/eqP //|/eqP E']; move: l0; rewrite E' oppr_gt0 ltr10.
Qed.

Lemma matern_F1 lam : matern_F 1 lam = companion 1 (fun j => if j == 0%N then - lam^-1 ^+ 2 else - (2%:R * lam^-1)).
Proof. by rewrite matern_F_comp; apply/matrixP=> i j; elim/ord2P: i; elim/ord2P: j; rewrite !mxE //= mul1r. Qed.

Lemma matern1_inj (a b t : R) : t != 0 -> matern1_A a t = matern1_A b t -> a = b.
Proof.
move=> t0 /matrixP /(_ 0 1); rewrite !mxE /= => /(mulIf t0) /exp_inv /(mulfI _); apply.
by rewrite oppr_eq0.
Qed.

Lemma matern_branches magn len dt d : (0 < d)%N -> 0 < len -> dt != 0 ->
  (matern 1 magn len dt d true).2 = (matern 1 magn len dt d false).2 <-> len = sqrt 3%:R.
Proof.
move=> d0 l0 dt0; rewrite /matern /= (_ : matern_lam 1 len = sqrt 3%:R / len); last first.
  by rewrite /matern_lam mulr1 -[1 in X in sqrt X]/(1%:R) -natrD.
rewrite matern_F1 -matern1_exp.
have s3 : 0 < sqrt (3%:R) by apply/RltP; apply: sqrt_lt_R0; apply/RltP; rewrite ltr0n.
have lam0 : 0 < sqrt 3%:R / len by rewrite divr_gt0.
transitivity (sqrt 3%:R / len = 1); last first.
  split=> [/(canRL (divfK _))|->]; last by rewrite divff ?gt_eqF.
  by rewrite mul1r => ->; rewrite ?gt_eqF.
split=> [H|->]; last by rewrite invr1.
have E : matern1_A (sqrt 3%:R / len)^-1 dt = matern1_A (sqrt 3%:R / len) dt.
  apply/matrixP=> i j; have := congr1 (fun M : 'M[R]_(d * 2) => M (mxtens_index (Ordinal d0, i)) (mxtens_index (Ordinal d0, j))) H.
  by rewrite /= !kronE eqxx !mul1r.
have {}E := matern1_inj dt0 E.
move: lam0 E; move: (sqrt 3%:R / len) => lam l0' E.
have : lam * lam = 1 by rewrite -{1}E mulVf // gt_eqF.
by rewrite -expr2 => /eqP; rewrite sqrf_eq1 => /orP [/eqP //|/eqP E']; move: l0'; rewrite E' oppr_gt0 ltr10.
Qed.

(** ** transition_function.py *)
Lemma trapz_linspace (V : lmodType R) (f : R -> V) (h : R) (n : nat) :
  trapz_x [seq f s | s <- linspace 0 h n] (linspace 0 h n) =
  \sum_(0 <= i < n.-1) (h / n.-1%:R / 2%:R) *: (f (i%:R * (h / n.-1%:R)) + f (i.+1%:R * (h / n.-1%:R))).
Proof.
rewrite /trapz_x size_map size_linspace; apply: eq_big_nat => i /andP [_ ni].
have i1n : (i.+1 < n)%N by case: n ni.
have iN : (i < n)%N by exact: ltnW.
rewrite !(nth_map 0) ?size_linspace // !nth_linspace // !add0r !subr0 -mulrBl.
by congr (_ *: _); rewrite -addn1 natrD addrAC subrr add0r mul1r.
Qed.

Lemma tf_psd n m (F : 'M[R]_n) u (L : 'M[R]_(n, m)) (h : R) nodes : 0 <= h ->
  psd (transition_function F u L h nodes).1.2.
Proof.
move=> h0; rewrite /transition_function /= (trapz_linspace (fun s => expm (s *: F) *m L *m (expm (s *: F) *m L)^T)).
apply: psd_sum => i _; apply: psdZ; first by rewrite !divr_ge0 ?ler0n.
by apply: psdD; exact: psd_gram.
Qed.

Lemma tf_xi0 n m (F : 'M[R]_n) (L : 'M[R]_(n, m)) (h : R) nodes :
  (transition_function F 0 L h nodes).1.1 = 0.
Proof.
rewrite /transition_function /= (trapz_linspace (fun s => expm (s *: F) *m 0)).
by rewrite big1 // => i _; rewrite !mulmx0 addr0 scaler0.
Qed.

Lemma tf_exact0 n m u (L : 'M[R]_(n, m)) (h : R) nodes : (2 <= nodes)%N ->
  transition_function 0 u L h nodes = (h *: u, h *: (L *m L^T), 1%:M).
Proof.
move=> n2; have E (s : R) : expm (s *: (0 : 'M[R]_n)) = 1%:M by rewrite scaler0 expm0.
have T (V : lmodType R) (v : V) : \sum_(0 <= i < nodes.-1) (h / nodes.-1%:R / 2%:R) *: (v + v) = h *: v.
  rewrite big_const_nat subn0 iter_addr addr0 -mulr2n -!scaler_nat !scalerA; congr (_ *: _).
  case: nodes n2 => [|[|k]] //= _.
  have k0 : (k.+1%:R : R) <> 0 by apply/eqP; rewrite pnatr_eq0.
  move: (k.+1%:R : R) k0 => x x0; rfield.
rewrite /transition_function E.
rewrite (trapz_linspace (fun s => expm (s *: (0 : 'M[R]_n)) *m u)).
rewrite (trapz_linspace (fun s => expm (s *: (0 : 'M[R]_n)) *m L *m (expm (s *: (0 : 'M[R]_n)) *m L)^T)).
congr (_, _, _).
  by rewrite -[RHS]T; apply: eq_big_nat => i _; rewrite !E mul1mx.
by rewrite -[RHS]T; apply: eq_big_nat => i _; rewrite !E mul1mx.
Qed.

(** ** Padding *)
Section Pad.
Variables (n q : nat).
Hypothesis nq : (n < q.+1)%N.

Lemma insub_lt (k : nat) (H : (k < n)%N) : insub k = Some (Ordinal H) :> option 'I_n.
Proof. by rewrite insubT. Qed.
Lemma insub_ge (k : nat) : (n <= k)%N -> insub k = None :> option 'I_n.
Proof. by move=> H; rewrite insubF // ltnNge H. Qed.

Let w (i : 'I_n) : 'I_q.+1 := widen_ord (ltnW nq) i.

Lemma pad_sum (f : 'I_q.+1 -> R) : (forall j : 'I_q.+1, (n <= j)%N -> f j = 0) ->
  \sum_j f j = \sum_(j : 'I_n) f (w j).
Proof.
move=> H; rewrite (bigID (fun j : 'I_q.+1 => (j < n)%N)) /= [X in _ + X]big1 ?addr0 => [|j]; last first.
  by rewrite -leqNgt; exact: H.
pose g k := f (inord k).
rewrite (eq_bigr (fun j : 'I_q.+1 => g j)) => [|j _]; last by rewrite /g inord_val.
rewrite (eq_bigr (fun j : 'I_n => g j)) => [|j _]; last first.
  by rewrite /g; congr f; apply/val_inj; rewrite /= inordK //; apply: ltn_trans (ltn_ord j) nq.
by rewrite -(big_mkord (fun k => (k < n)%N)) -(big_mkord xpredT) [RHS](big_nat_widen _ _ _ _ _ (ltnW nq)).
Qed.

Lemma pad_mxE (M : 'M[R]_n) (i j : 'I_n) : pad_mx q.+1 M (w i) (w j) = M i j.
Proof. by rewrite mxE /= !insub_lt; congr (M _ _); apply/val_inj. Qed.
Lemma pad_mx0l (M : 'M[R]_n) (i j : 'I_q.+1) : (n <= i)%N -> pad_mx q.+1 M i j = 0.
Proof. by move=> H; rewrite mxE insub_ge. Qed.
Lemma pad_mx0r (M : 'M[R]_n) (i j : 'I_q.+1) : (n <= j)%N -> pad_mx q.+1 M i j = 0.
Proof. by move=> H; rewrite mxE (insub_ge H); case: insub. Qed.
Lemma pad_cvE (x : 'cV[R]_n) (i : 'I_n) : pad_cv q.+1 x (w i) 0 = x i 0.
Proof. by rewrite mxE /= !insub_lt; congr (x _ _); apply/val_inj. Qed.
Lemma pad_cv0 (x : 'cV[R]_n) (i : 'I_q.+1) : (n <= i)%N -> pad_cv q.+1 x i 0 = 0.
Proof. by move=> H; rewrite mxE insub_ge. Qed.

Lemma vblockE (x : 'cV[R]_q.+1) (i : 'I_n) : vblock x 0 n i 0 = x (w i) 0.
Proof.
rewrite mxE /ventry add0n; have H : (i < q.+1)%N by exact: ltn_trans (ltn_ord i) nq.
by rewrite insubT; congr (x _ _); apply/val_inj.
Qed.
Lemma mblockE (P : 'M[R]_q.+1) (i j : 'I_n) : mblock P 0 n 0 n i j = P (w i) (w j).
Proof.
rewrite mxE /mentry !add0n; have H : (i < q.+1)%N by exact: ltn_trans (ltn_ord i) nq.
have H' : (j < q.+1)%N by exact: ltn_trans (ltn_ord j) nq.
by rewrite !insubT; congr (P _ _); apply/val_inj.
Qed.

Lemma pad_mulv c (A : 'M[R]_n) (x : 'M[R]_(q.+1, c)) i k :
  (pad_mx q.+1 A *m x) (w i) k = \sum_j A i j * x (w j) k.
Proof.
rewrite mulmxE pad_sum => [|j H]; last by rewrite pad_mx0r // mul0r.
by apply: eq_bigr => j _; rewrite pad_mxE.
Qed.

Lemma pad_cong (A : 'M[R]_n) (P : 'M[R]_q.+1) i j :
  (pad_mx q.+1 A *m P *m (pad_mx q.+1 A)^T) (w i) (w j) = (A *m mblock P 0 n 0 n *m A^T) i j.
Proof.
rewrite mulmxE pad_sum => [|k H]; last by rewrite trmxE pad_mx0r // mulr0.
rewrite [RHS]mulmxE; apply: eq_bigr => k _; rewrite !trmxE pad_mxE pad_mulv mulmxE; congr (_ * _).
by apply: eq_bigr => l _; rewrite mblockE.
Qed.

Lemma pad_not_pd (Q : 'M[R]_n) : ~ pd (pad_mx q.+1 Q).
Proof.
move=> [_ /(_ (delta_mx (inord n) 0))]; have n1 : (n < q.+1)%N by [].
have -> : delta_mx (inord n) 0 != 0 :> 'cV[R]_q.+1.
  by apply/eqP => /matrixP /(_ (inord n) 0); rewrite !mxE !eqxx => /eqP; rewrite oner_eq0.
move=> /(_ isT); rewrite qfE big1 ?ltxx // => i _; rewrite big1 // => j _.
rewrite ![delta_mx _ _ _ _]mxE; case: (eqVneq i (inord n)) => [->|_]; last by rewrite !mul0r.
by rewrite pad_mx0l ?inordK // mulr0 mul0r.
Qed.

Lemma pad_sym (Q : 'M[R]_n) : sym Q -> sym (pad_mx q.+1 Q).
Proof.
move=> sQ; apply/matrixP=> i j; rewrite trmxE !mxE.
by case: insubP => [k _ _|_]; case: insubP => [l _ _|_] //; rewrite -[in LHS]sQ trmxE.
Qed.
End Pad.

(** ** Independent blocks *)
Definition rblock m c (X : 'M[R]_(m, c)) (o k : nat) : 'M[R]_(k, c) :=
  \matrix_(i, j) if insub (o + i)%N is Some i' then X i' j else 0.

Lemma vblock_r n (x : 'cV[R]_n) o k : vblock x o k = rblock x o k.
Proof. by apply/matrixP=> i j; rewrite !mxE /ventry [j]ord1. Qed.
Lemma mblock_r n (P : 'M[R]_n) o k o' k' : mblock P o k o' k' = (rblock (rblock P o k)^T o' k')^T.
Proof.
apply/matrixP=> i j; rewrite !mxE /mentry; case: (insub (o' + j)%N) => [j'|]; rewrite ?mxE //.
by case: insub.
Qed.
Lemma rblockD m c (X Y : 'M[R]_(m, c)) o k : rblock (X + Y) o k = rblock X o k + rblock Y o k.
Proof. by apply/matrixP=> i j; rewrite !mxE; case: insub => [i'|]; rewrite ?mxE ?addr0. Qed.
Lemma mblockD n (P Q : 'M[R]_n) o k o' k' : mblock (P + Q) o k o' k' = mblock P o k o' k' + mblock Q o k o' k'.
Proof. by rewrite !mblock_r rblockD linearD rblockD linearD. Qed.
Lemma rblock_mul m c d (X : 'M[R]_(m, c)) (Y : 'M[R]_(c, d)) o k : rblock (X *m Y) o k = rblock X o k *m Y.
Proof.
apply/matrixP=> i j; rewrite !mxE; case E: (insub (o + i)%N) => [i'|].
  by rewrite mxE; apply: eq_bigr => l _; rewrite mxE E.
by rewrite big1 // => l _; rewrite mxE E mul0r.
Qed.
Lemma rblock_up m1 m2 c (X : 'M[R]_(m1, c)) (Y : 'M[R]_(m2, c)) : rblock (col_mx X Y) 0 m1 = X.
Proof.
apply/matrixP=> i j; rewrite !mxE add0n (_ : insub _ = Some (lshift m2 i)) ?col_mxEu //.
have H : (i < m1 + m2)%N by rewrite (leq_trans (ltn_ord i)) ?leq_addr.
by rewrite insubT; congr Some; apply/val_inj.
Qed.
Lemma rblock_down m1 m2 c (X : 'M[R]_(m1, c)) (Y : 'M[R]_(m2, c)) o k :
  rblock (col_mx X Y) (m1 + o) k = rblock Y o k.
Proof.
apply/matrixP=> i j; rewrite !mxE -addnA; case: insubP => [i' _ Ei'|].
  case: insubP => [i'' _ Ei''|]; last first.
    by rewrite -(ltn_add2l m1) -Ei' ltn_ord.
  by rewrite (_ : i' = rshift m1 i'') ?col_mxEd //; apply/val_inj; rewrite Ei' /= Ei''.
by rewrite ltn_add2l => /negPf H; rewrite insubF.
Qed.

Definition blocks_ok (ts : seq any_transition) (r : any_transition) : Prop :=
  let ns := [seq projT1 t | t <- ts] in
  projT1 r = sumn ns /\ forall b, (b < size ts)%N ->
  let t := nth empty_transition ts b in
  rblock (projT2 r).1.1 (offset ns b) (projT1 t) = (projT2 t).1.1 /\
  forall c (X : 'M[R]_(projT1 r, c)),
    rblock ((projT2 r).2 *m X) (offset ns b) (projT1 t) = (projT2 t).2 *m rblock X (offset ns b) (projT1 t) /\
    rblock ((projT2 r).1.2 *m X) (offset ns b) (projT1 t) = (projT2 t).1.2 *m rblock X (offset ns b) (projT1 t).

Lemma stack_ok t ts r : blocks_ok ts r -> blocks_ok (t :: ts) (stack_transition t r).
Proof.
case: t => n1 [[xi1 Q1] A1]; case: r => n2 [[xi2 Q2] A2] [/= E IH].
split=> [|b]; first exact: (congr1 (addn n1) E).
case: b => [_|b Hb] /=.
  split; first by rewrite /offset take0 rblock_up.
  move=> c X; rewrite -[X]vsubmxK !mul_block_col /offset take0 !mul0mx !add0r !addr0.
  by rewrite !rblock_up.
have {IH} [IH1 IH2] := IH b Hb.
rewrite /offset /= -/(offset _ b); split; first by rewrite rblock_down.
move=> c X; rewrite -[X]vsubmxK !mul_block_col !mul0mx !add0r !addr0.
by rewrite !rblock_down; exact: IH2.
Qed.

Lemma fact_ok ts : blocks_ok ts (foldr stack_transition empty_transition ts).
Proof. by elim: ts => [|t ts IH]; [split | exact: stack_ok]. Qed.

Lemma offset_S (ns : seq nat) b : (b < size ns)%N -> offset ns b.+1 = (offset ns b + nth 0%N ns b)%N.
Proof. by move=> H; rewrite /offset (take_nth 0%N) // -cats1 sumn_cat /= addn0. Qed.
Lemma offset_mono (ns : seq nat) b c : (b <= c)%N -> (offset ns b <= offset ns c)%N.
Proof.
move=> bc; rewrite /offset -(subnKC bc) -[in X in (_ <= X)%N](cat_take_drop b (take _ ns)) sumn_cat take_take ?leq_addr //.
Qed.
Lemma offset_size (ns : seq nat) : offset ns (size ns) = sumn ns.
Proof. by rewrite /offset take_size. Qed.

Section Indep.
Variables (ts : seq any_transition) (r : any_transition).
Hypothesis rE : r = foldr stack_transition empty_transition ts.
Let ns := [seq projT1 t | t <- ts].
Let tb b := nth empty_transition ts b.
Let nb b := projT1 (tb b).

Lemma fact_size : projT1 r = sumn ns. Proof. by rewrite rE; have [] := fact_ok ts. Qed.

Lemma fact_mean b (m : 'cV[R]_(projT1 r)) : (b < size ts)%N ->
  vblock ((projT2 r).2 *m m + (projT2 r).1.1) (offset ns b) (nb b) =
  (projT2 (tb b)).2 *m vblock m (offset ns b) (nb b) + (projT2 (tb b)).1.1.
Proof.
move=> Hb; move: m; rewrite rE => m; have [_ /(_ b Hb) [H1 H2]] := fact_ok ts.
by rewrite !vblock_r rblockD H1; have [-> _] := H2 _ m.
Qed.

Lemma fact_cov b c (P : 'M[R]_(projT1 r)) : (b < size ts)%N -> (c < size ts)%N ->
  mblock ((projT2 r).2 *m P *m ((projT2 r).2)^T) (offset ns b) (nb b) (offset ns c) (nb c) =
  (projT2 (tb b)).2 *m mblock P (offset ns b) (nb b) (offset ns c) (nb c) *m ((projT2 (tb c)).2)^T.
Proof.
move=> Hb Hc; move: P; rewrite rE => P; have [_ H] := fact_ok ts.
have [_ Bb] := H b Hb; have [_ Bc] := H c Hc.
have Eb c' X := proj1 (Bb c' X); have Ec c' X := proj1 (Bc c' X).
rewrite !mblock_r -mulmxA Eb rblock_mul !trmx_mul trmxK -mulmxA Ec.
by rewrite rblock_mul !trmx_mul !trmxK ?mulmxA.
Qed.

Lemma fact_noise b c : (b < size ts)%N -> (c < size ts)%N ->
  mblock (projT2 r).1.2 (offset ns b) (nb b) (offset ns c) (nb c) =
  (projT2 (tb b)).1.2 *m mblock (1%:M : 'M[R]_(projT1 r)) (offset ns b) (nb b) (offset ns c) (nb c).
Proof.
move=> Hb Hc; rewrite rE; have [_ H] := fact_ok ts; have [_ Bb] := H b Hb.
rewrite !mblock_r; have [_] := Bb _ 1%:M; rewrite mulmx1 => ->.
by rewrite trmx_mul rblock_mul trmx_mul trmxK.
Qed.

Lemma nb_nth b : (b < size ts)%N -> nb b = nth 0%N ns b.
Proof. by move=> Hb; rewrite /ns (nth_map empty_transition). Qed.

Lemma off_lt b (i : 'I_(nb b)) : (b < size ts)%N -> (offset ns b + i < projT1 r)%N.
Proof.
move=> Hb; rewrite fact_size -offset_size; apply: leq_trans (_ : offset ns b.+1 <= _)%N.
  by rewrite offset_S ?size_map // ltn_add2l -nb_nth.
by apply: offset_mono; rewrite size_map.
Qed.

Lemma block1_diag b : (b < size ts)%N ->
  mblock (1%:M : 'M[R]_(projT1 r)) (offset ns b) (nb b) (offset ns b) (nb b) = 1%:M.
Proof.
move=> Hb; apply/matrixP=> i j; rewrite mxE /mentry (insubT (fun k => (k < projT1 r)%N) (off_lt i Hb)).
by rewrite (insubT (fun k => (k < projT1 r)%N) (off_lt j Hb)) !mxE -val_eqE /= eqn_add2l.
Qed.

Lemma block1_off b c : (b < size ts)%N -> (c < size ts)%N -> b != c ->
  mblock (1%:M : 'M[R]_(projT1 r)) (offset ns b) (nb b) (offset ns c) (nb c) = 0.
Proof.
move=> Hb Hc bc; apply/matrixP=> i j; rewrite mxE /mentry (insubT (fun k => (k < projT1 r)%N) (off_lt i Hb)).
rewrite (insubT (fun k => (k < projT1 r)%N) (off_lt j Hc)) !mxE -val_eqE /=.
rewrite (_ : (_ == _) = false) //; apply/negbTE; rewrite neq_ltn; apply/orP.
have key d e (k : 'I_(nb d)) (l : 'I_(nb e)) : (d < size ts)%N -> (e < size ts)%N -> (d < e)%N ->
    (offset ns d + k < offset ns e + l)%N.
  move=> Hd He de; apply: leq_trans (_ : offset ns d.+1 <= _)%N.
    by rewrite offset_S ?size_map // ltn_add2l -nb_nth.
  by apply: leq_trans (offset_mono _ de) _; exact: leq_addr.
by move: bc; rewrite neq_ltn => /orP [H|H]; [left | right]; exact: key.
Qed.
End Indep.

Lemma kron_S d n (M : 'M[R]_n) : block_mx M 0 0 (kron_eye d M) = kron_eye d.+1 M.
Proof.
apply/matrixP=> p r.
case: (mxtens_indexP (r : 'I_(d.+1 * n))) => l j; case: (mxtens_indexP (p : 'I_(d.+1 * n))) => k i.
rewrite [RHS](kronE (d:=d.+1)).
have I0 (a : 'I_n) : mxtens_index ((ord0 : 'I_d.+1), a) = lshift (d * n) a by apply/val_inj; rewrite /= mul0n.
have IS (b : 'I_d) (a : 'I_n) : mxtens_index (lift ord0 b, a) = rshift n (mxtens_index (b, a)).
  by apply/val_inj; rewrite /= /bump /= add1n mulSn addnA.
case: (unliftP ord0 k) => [k' ->|->]; case: (unliftP ord0 l) => [l' ->|->]; rewrite ?I0 ?IS.
- by rewrite block_mxEdr kronE (inj_eq lift_inj).
- by rewrite block_mxEdl mxE mul0r.
- by rewrite block_mxEur mxE mul0r.
- by rewrite block_mxEul eqxx mul1r.
Qed.

Lemma col_S d n (x : 'cV[R]_n) :
  col_mx x (\col_(p < d * n) x (mxtens_unindex p).2 0) = \col_(p < d.+1 * n) x (mxtens_unindex p).2 0.
Proof.
apply/colP=> p; case: (mxtens_indexP (p : 'I_(d.+1 * n))) => k i.
rewrite [RHS]mxE mxtens_indexK; cbn [snd].
case: (unliftP ord0 k) => [k' ->|->].
  have -> : mxtens_index (lift ord0 k', i) = rshift n (mxtens_index (k', i)).
    by apply/val_inj; rewrite /= /bump /= add1n mulSn addnA.
  by rewrite col_mxEd mxE mxtens_indexK.
have -> : mxtens_index ((ord0 : 'I_d.+1), i) = lshift (d * n) i by apply/val_inj; rewrite /= mul0n.
by rewrite col_mxEu.
Qed.

Lemma fact_copies n (t : transition n) d :
  foldr stack_transition empty_transition (nseq d (existT transition n t)) =
  existT transition (d * n)%N (kron_prior d t.1.1 t.1.2 t.2).
Proof.
case: t => [[xi Q] A]; elim: d => [|d IH].
  by rewrite /empty_transition /kron_prior; congr existT; congr (_, _, _);
    apply/matrixP; do ?[case=> //].
by rewrite [nseq _ _]/= [LHS]/= IH /stack_transition /= kron_S kron_S col_S.
Qed.

(** ** Statements used by the theorem file *)
Lemma kron_prior_coord (lp : lapack) d n m0 Q (A : 'M[R]_n) (m : 'cV[R]_(d * n)) P k l :
  let tr d := kron_prior d m0 Q A in
  let p := predict lp (m, P) (tr d).2 (tr d).1.2 (tr d).1.1 false in
  [/\ coord k p.1 = (predict lp (coord k m, coord2 k k P) (tr 1%N).2 (tr 1%N).1.2 (tr 1%N).1.1 false).1,
      coord2 k l p.2 = (tr 1%N).2 *m coord2 k l P *m ((tr 1%N).2)^T + (k == l)%:R *: (tr 1%N).1.2 &
      k != l -> coord2 k l (tr d).1.2 = 0].
Proof.
move=> tr p; have [H1 H2] := kron_predict lp m0 Q A m P k l; split=> // kl.
by rewrite /tr /kron_prior /= kron_coord2_id (negPf kl) scale0r.
Qed.

Lemma ioup_coord (lp : lapack) theta sigma q dt d (m : 'cV[R]_(d * q.+1)) P k l :
  let tr d := ioup theta sigma q dt d in
  let p := predict lp (m, P) (tr d).2 (tr d).1.2 (tr d).1.1 false in
  [/\ coord k p.1 = (predict lp (coord k m, coord2 k k P) (tr 1%N).2 (tr 1%N).1.2 (tr 1%N).1.1 false).1,
      coord2 k l p.2 = (tr 1%N).2 *m coord2 k l P *m ((tr 1%N).2)^T + (k == l)%:R *: (tr 1%N).1.2 &
      k != l -> coord2 k l (tr d).1.2 = 0].
Proof. by move=> tr p; rewrite /p /tr !ioup_kron; exact: kron_prior_coord. Qed.

Lemma matern_coord (lp : lapack) K magn len dt mc d (m : 'cV[R]_(d * K.+1)) P k l :
  let tr d := matern K magn len dt d mc in
  let p := predict lp (m, P) (tr d).2 (tr d).1.2 (tr d).1.1 false in
  [/\ coord k p.1 = (predict lp (coord k m, coord2 k k P) (tr 1%N).2 (tr 1%N).1.2 (tr 1%N).1.1 false).1,
      coord2 k l p.2 = (tr 1%N).2 *m coord2 k l P *m ((tr 1%N).2)^T + (k == l)%:R *: (tr 1%N).1.2 &
      k != l -> coord2 k l (tr d).1.2 = 0].
Proof.
have [m0 [Q [A E]]] := matern_kron K magn len dt mc.
by move=> tr p; rewrite /p /tr !E; exact: kron_prior_coord.
Qed.

Lemma ibm_exact sigma q dt d (k l : 'I_d) (i j : 'I_q.+1) :
  let tr := ioup 0 sigma q dt d in
  [/\ tr.1.1 = 0,
      tr.2 (mxtens_index (k, i)) (mxtens_index (l, j)) =
        (k == l)%:R * (if (i <= j)%N then dt ^+ (j - i) / (j - i)`!%:R else 0) &
      tr.1.2 (mxtens_index (k, i)) (mxtens_index (l, j)) =
        (k == l)%:R * lin_sde_cov (companion q (fun _ => 0)) (last_noise q sigma) dt i j].
Proof.
move=> tr; split=> //; first by rewrite /tr /= kronE ibm_exp.
rewrite /tr /= kronE ioup_Q_cov ioup_F_comp (_ : (fun j : nat => if j == q then - 0 else 0) = (fun _ => 0)) //.
by apply: functional_extensionality => a; rewrite oppr0 if_same.
Qed.

Lemma ioup_chol (lp : lapack) sigma q dt d : sigma != 0 -> 0 < dt ->
  let Q := (ioup 0 sigma q dt d).1.2 in
  pd Q /\ exists L, [/\ cholesky lp Q = Val L, lower_tri L & L *m L^T = Q].
Proof.
move=> s0 t0 Q; have P : pd Q by exact: ioup_pd.
split=> //; have [L [E T _ LL]] := cholP lp P.
by exists L; rewrite /cholesky E.
Qed.

Lemma ioup_A theta sigma q dt d (k l : 'I_d) (i j : 'I_q.+1) :
  (ioup theta sigma q dt d).2 (mxtens_index (k, i)) (mxtens_index (l, j)) =
  (k == l)%:R * expm (dt *: companion q (ou_row q theta)) i j.
Proof. by rewrite /= kronE. Qed.

Lemma ioup_Q_iff theta sigma q dt d : (0 < d)%N -> sigma != 0 -> dt != 0 ->
  (forall (k l : 'I_d) (i j : 'I_q.+1),
     (ioup theta sigma q dt d).1.2 (mxtens_index (k, i)) (mxtens_index (l, j)) =
     (k == l)%:R * lin_sde_cov (companion q (ou_row q theta)) (last_noise q sigma) dt i j) <-> theta = 0.
Proof.
move=> d0 s0 t0; split=> [H|-> k l i j]; last by rewrite /= kronE ioup_Q_cov.
apply/eqP; apply/negPn/negP => th0; apply: (ioup_wrong (q := q) s0 t0 th0).
apply/matrixP=> i j; have := H (Ordinal d0) (Ordinal d0) i j.
by rewrite /= kronE eqxx !mul1r.
Qed.

Lemma ioup_split_iff theta sigma q d (s t : R) : (0 < d)%N -> sigma != 0 -> s != 0 -> t != 0 ->
  consistent (fun t => (ioup theta sigma q t d).2) (fun t => (ioup theta sigma q t d).1.2) s t <-> theta = 0.
Proof.
move=> d0 sg0 s0 t0; split=> [[_ H]|->]; last exact: ioup_consistent.
apply/eqP; apply/negPn/negP => th0; apply: (ioup_split_wrong (q := q) sg0 s0 t0 th0).
move: H; rewrite /= kron_tr !kron_mul -kronD => H.
apply/matrixP=> i j.
have := congr1 (fun M : 'M[R]_(d * q.+1) => M (mxtens_index (Ordinal d0, i)) (mxtens_index (Ordinal d0, j))) H.
by rewrite /= !kronE eqxx !mul1r.
Qed.

Lemma ioup_refuted : exists theta sigma q dt d,
  [/\ (0 < d)%N, sigma != 0, 0 < dt & exists (k l : 'I_d) (i j : 'I_q.+1),
     (ioup theta sigma q dt d).1.2 (mxtens_index (k, i)) (mxtens_index (l, j)) <>
     (k == l)%:R * lin_sde_cov (companion q (ou_row q theta)) (last_noise q sigma) dt i j].
Proof.
exists 1, 1, 0%N, 1, 1%N; split; rewrite ?oner_eq0 ?ltr01 //.
exists 0, 0, ord_max, ord_max; rewrite kronE eqxx !mul1r ioup_Qqq -[companion _ _]/(ioup_F 1 0) ioup_covqq ?oner_eq0 //.
rewrite expr1n !mul1r !mulr1 => H.
have : 1 - exp (- 2%:R) = 2%:R :> R.
  by rewrite -[LHS](@divfK _ (2%:R : R)) ?pnatr_eq0 // -H mul1r.
by move/exp_m1/eqP; rewrite pnatr_eq0.
Qed.

Lemma kron_psd d n (Q : 'M[R]_n) : psd Q -> psd (kron_eye d Q).
Proof.
move=> [sQ pQ]; split=> [|x]; first by rewrite /sym kron_tr sQ.
pose xk k : 'cV[R]_n := \col_i x (mxtens_index (k, i)) 0.
have -> : qf (kron_eye d Q) x = \sum_k qf Q (xk k).
  rewrite qfE sum_mxtens; apply: eq_bigr => k _; rewrite qfE; apply: eq_bigr => i _.
  rewrite sum_mxtens (bigD1 k) //= [X in _ + X]big1 ?addr0 => [|l lk].
    by apply: eq_bigr => j _; rewrite kronE eqxx mul1r !mxE.
  by rewrite big1 // => j _; rewrite kronE eq_sym (negPf lk) mul0r mulr0 mul0r.
exact: sumr_ge0.
Qed.

Section MaternPack.
Variables (magn len : R).
Hypothesis len0 : len != 0.
Let lam : R := sqrt 3%:R / len.
Let F := companion 1 (fun j => if j == 0%N then - lam ^+ 2 else - (2%:R * lam)).
Lemma lam_neq0 : lam != 0.
Proof.
rewrite mulf_neq0 ?invr_eq0 // gt_eqF //; apply/RltP; apply: sqrt_lt_R0; apply/RltP; by rewrite ltr0n.
Qed.
Lemma matern_lam1 : matern_lam 1 len = lam.
Proof. by rewrite /matern_lam mulr1 -[1 in X in sqrt X]/(1%:R) -natrD. Qed.
Lemma matern_closed dt d :
  matern 1 magn len dt d false = kron_prior d 0 (lin_sde_cov F (last_noise 1 magn) dt) (expm (dt *: F)).
Proof. by rewrite /matern /= /kron_prior matern_lam1 (matern1_Qcov _ _ lam_neq0) matern1_exp. Qed.
Lemma matern_exact dt d (k l : 'I_d) (i j : 'I_2) :
  let tr := matern 1 magn len dt d false in
  [/\ tr.1.1 = 0,
      tr.2 (mxtens_index (k, i)) (mxtens_index (l, j)) = (k == l)%:R * expm (dt *: F) i j &
      tr.1.2 (mxtens_index (k, i)) (mxtens_index (l, j)) =
        (k == l)%:R * lin_sde_cov F (last_noise 1 magn) dt i j].
Proof.
move=> tr; rewrite /tr matern_closed; split; rewrite /= ?kronE //.
by apply/colP=> p; rewrite !mxE.
Qed.
Lemma matern_consistent d (s t : R) :
  consistent (fun t => (matern 1 magn len t d false).2) (fun t => (matern 1 magn len t d false).1.2) s t.
Proof.
have [H1 H2] := kron_consistent d (cov_consistent F (last_noise 1 magn) s t).
by split; rewrite !matern_closed.
Qed.
Lemma matern_psd dt d : (0 <= dt -> psd (matern 1 magn len dt d false).1.2) /\
  (0 < dt -> magn != 0 -> pd (matern 1 magn len dt d false).1.2).
Proof.
rewrite matern_closed; split=> t0 => [|m0]; [apply: kron_psd; exact: cov_psd | apply: kron_pd; exact: comp_cov_pd].
Qed.
End MaternPack.

Lemma matern_refuted : exists k lam, 0 < lam /\ char_poly (matern_F k lam) <> ('X + lam%:P) ^+ k.+1.
Proof.
exists 1%N, 2%:R; split; first by rewrite ltr0n.
move/(matern_char_iff 1 (ltr0n _ 2)).
by move/eqP; rewrite -subr_eq0 -[1]/(1%:R) -natrB // oner_eq0.
Qed.

Lemma fact_predict (lp : lapack) ts r b c (m : 'cV[R]_(projT1 r)) P :
  factorized_prior ts = Val r -> (b < size ts)%N -> (c < size ts)%N ->
  let ns := [seq projT1 t | t <- ts] in
  let tb := nth empty_transition ts b in
  let tc := nth empty_transition ts c in
  let p := predict lp (m, P) (projT2 r).2 (projT2 r).1.2 (projT2 r).1.1 false in
  let pb := predict lp (vblock m (offset ns b) (projT1 tb), mblock P (offset ns b) (projT1 tb) (offset ns b) (projT1 tb))
    (projT2 tb).2 (projT2 tb).1.2 (projT2 tb).1.1 false in
  [/\ projT1 r = sumn ns,
      vblock p.1 (offset ns b) (projT1 tb) = pb.1,
      mblock p.2 (offset ns b) (projT1 tb) (offset ns b) (projT1 tb) = pb.2 &
      b != c -> mblock p.2 (offset ns b) (projT1 tb) (offset ns c) (projT1 tc) =
        (projT2 tb).2 *m mblock P (offset ns b) (projT1 tb) (offset ns c) (projT1 tc) *m ((projT2 tc).2)^T].
Proof.
move=> E Hb Hc ns tb tc p pb.
have rE : r = foldr stack_transition empty_transition ts.
  have V A (x y : A) : Val x = Val y -> x = y by case.
  by move: E Hb; case: (ts) => [|t l] // E _; exact: esym (V _ _ _ E).
split; first exact: fact_size rE.
- exact: (fact_mean rE).
- by rewrite /p /pb /predict mblockD (fact_cov rE) // (fact_noise rE) // (block1_diag rE) // mulmx1.
by move=> bc; rewrite /p /predict mblockD (fact_cov rE) // (fact_noise rE) // (block1_off rE) // mulmx0 addr0.
Qed.

Lemma fact_uncorr (lp : lapack) ts r b c (m : 'cV[R]_(projT1 r)) P :
  factorized_prior ts = Val r -> (b < size ts)%N -> (c < size ts)%N -> b != c ->
  let ns := [seq projT1 t | t <- ts] in
  let nb := nth 0%N ns b in let nc := nth 0%N ns c in
  mblock P (offset ns b) nb (offset ns c) nc = 0 ->
  mblock (predict lp (m, P) (projT2 r).2 (projT2 r).1.2 (projT2 r).1.1 false).2
    (offset ns b) nb (offset ns c) nc = 0.
Proof.
move=> E Hb Hc bc ns nb nc; rewrite /nb /nc !(nth_map empty_transition) // => P0.
have [_ _ _ /(_ bc) ->] := fact_predict lp m P E Hb Hc.
by rewrite P0 mulmx0 mul0mx.
Qed.

Lemma fact_nil : factorized_prior [::] = Raise ValueError. Proof. by []. Qed.

Lemma fact_returns (ts : seq (sigT transition)) :
  (factorized_prior ts = Raise ValueError <-> ts = [::]) /\ (ts <> [::] -> exists r, factorized_prior ts = Val r).
Proof.
by case: ts => [|t ts]; split=> //; move=> _; eexists; reflexivity.
Qed.

Lemma fact_copies' n (t : transition n) d :
  factorized_prior (nseq d.+1 (existT transition n t)) =
  Val (existT transition (d.+1 * n)%N
    ((\col_p t.1.1 (mxtens_unindex p).2 0), (1%:M : 'M[R]_d.+1) *t t.1.2, (1%:M : 'M[R]_d.+1) *t t.2)).
Proof. by rewrite /factorized_prior -/(nseq d.+1 _) fact_copies. Qed.

Lemma fact_matern K magn len dt mc d :
  factorized_prior (nseq d.+1 (existT transition _ (matern_one K magn len dt mc))) =
  Val (existT transition _ (matern K magn len dt d.+1 mc)).
Proof.
rewrite fact_copies'; congr (Val (existT _ _ _)); rewrite /matern.
by case: (matern_one _ _ _ _ _) => [[]].
Qed.

Lemma pad_rejected n (tr : transition n) q : (q < n)%N -> pad_prior tr q = Raise AssertionError.
Proof. by case: tr => [[xi Q] A] H; rewrite /pad_prior ltnS leqNgt H. Qed.

Lemma pad_predict (lp : lapack) n (xi : 'cV[R]_n) Q A q (m : 'cV[R]_q.+1) P : (n <= q)%N ->
  exists xi' Q' A', pad_prior (xi, Q, A) q = Val (xi', Q', A') /\
  let p := predict lp (m, P) A' Q' xi' false in
  let p0 := predict lp (vblock m 0 n, mblock P 0 n 0 n) A Q xi false in
  [/\ vblock p.1 0 n = p0.1, mblock p.2 0 n 0 n = p0.2 &
      forall i j : 'I_q.+1, (n <= i)%N -> [/\ p.1 i 0 = 0, p.2 i j = 0 & p.2 j i = 0]].
Proof.
move=> nq; exists (pad_cv q.+1 xi), (pad_mx q.+1 Q), (pad_mx q.+1 A).
have nq' : (n < q.+1)%N by [].
split; first by rewrite /pad_prior nq'.
move=> p p0; rewrite /p /p0 /predict; cbn [fst snd]; split.
- apply/matrixP=> i j; rewrite [j]ord1 {j} (vblockE nq') !addmxE (pad_cvE nq') (pad_mulv nq') mulmxE.
  by congr (_ + _); apply: eq_bigr => j _; rewrite (vblockE nq').
- by apply/matrixP=> i j; rewrite (mblockE nq') !addmxE (pad_cong nq') (pad_mxE nq').
move=> i j ni; rewrite !addmxE pad_cv0 // (pad_mx0l _ _ ni) (pad_mx0r _ _ ni) !addr0.
rewrite !mulmxE !big1 // => k _.
- by rewrite trmxE pad_mx0l // mulr0.
- by rewrite mulmxE big1 ?mul0r // => l _; rewrite pad_mx0l // mul0r.
- by rewrite pad_mx0l // mul0r.
Qed.

Lemma pad_nochol (lp : lapack) n (xi : 'cV[R]_n) Q A q : (n <= q)%N -> sym Q ->
  exists xi' Q' A', [/\ pad_prior (xi, Q, A) q = Val (xi', Q', A'), sym Q',
    cholesky lp Q' = Nan & forall L, L \in unitmx -> L *m L^T <> Q'].
Proof.
move=> nq sQ; exists (pad_cv q.+1 xi), (pad_mx q.+1 Q), (pad_mx q.+1 A).
have nq' : (n < q.+1)%N by [].
split; first by rewrite /pad_prior nq'.
- exact: pad_sym.
- by rewrite /cholesky chol_nan //; [exact: pad_sym | exact: pad_not_pd].
by move=> L uL E; apply: (pad_not_pd nq' (Q := Q)); rewrite -E; exact: pd_gram.
Qed.
