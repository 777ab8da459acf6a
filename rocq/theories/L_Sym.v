(** Splitting a run of the EKF solvers, and runs whose state maps to a smaller or rotated one. *)
From Coq Require Import Reals Lra FunctionalExtensionality.
From Coquelicot Require Import Coquelicot.
From mathcomp Require Import all_ssreflect all_algebra fingroup perm mxtens.
From Verif Require Import Rstruct Base Linalg Lapack Calc Prob Spec M_Utils L_Utils M_Filter L_Filter M_Prior L_Prior
  M_OdeSolvers L_OdeSolvers L_Alg3 L_Init L_Total.

Set Implicit Arguments.
Unset Strict Implicit.
Unset Printing Implicit Defensive.
Import Order.TTheory GRing.Theory Num.Theory.
Local Open Scope ring_scope.

(** ** Two filters related by linear maps of the state and of the observation *)
Section Intertwine.
Variables (lp : lapack) (nx ny mx my : nat).
Variables (obs : dual nx -> R -> dual ny) (A Q : 'M[R]_nx) (xi : 'cV[R]_nx) (Rn : 'M[R]_ny).
Variables (obs1 : dual mx -> R -> dual my) (A1 Q1 : 'M[R]_mx) (xi1 : 'cV[R]_mx) (Rn1 : 'M[R]_my).
Variables (E : 'M[R]_(mx, nx)) (U : 'M[R]_(my, ny)).
Hypotheses (EE : E *m E^T = 1%:M) (UU : U *m U^T = 1%:M).
Hypotheses (EA : E *m A = A1 *m E) (EAt : E *m A^T = A1^T *m E) (EQ : E *m Q = Q1 *m E) (Exi : E *m xi = xi1)
  (UR : U *m Rn = Rn1 *m U).
Hypotheses (Oc : forall m t, U *m dprimal (obs^~ t) m = dprimal (obs1^~ t) (E *m m))
  (OJ : forall m t, U *m jacfwd (obs^~ t) m = jacfwd (obs1^~ t) (E *m m) *m E)
  (OJt : forall m t, E *m (jacfwd (obs^~ t) m)^T = (jacfwd (obs1^~ t) (E *m m))^T *m U).
Hypotheses (pQ : psd Q) (pR : psd Rn).

Lemma conj_psd a b (T : 'M[R]_(b, a)) (X : 'M[R]_a) (X1 : 'M[R]_b) :
  T *m T^T = 1%:M -> T *m X = X1 *m T -> X1 = T *m X *m T^T.
Proof. by move=> TT ->; rewrite -mulmxA TT mulmx1. Qed.

Lemma intertwine m P m1 P1 ts r : psd P -> E *m m = m1 -> E *m P = P1 *m E ->
  ekf lp obs A Q xi Rn false (m, P) ts = Val r ->
  exists r1, [/\ ekf lp obs1 A1 Q1 xi1 Rn1 false (m1, P1) ts = Val r1, E *m r.1 = r1.1 & E *m r.2 = r1.2 *m E].
Proof.
move=> pP Em EP; elim/last_ind: ts r => [|ts t IH] r.
  by rewrite !ekf_nil => -[<-]; exists (m1, P1).
rewrite !ekf_rcons; case Ex: (ekf _ _ _ _ _ _ _ _ ts) IH => [[m2 P2]||] //= /(_ _ erefl) [[m3 P3] [-> /= E1 E2]].
have pP2 := ekf_psd pP pQ pR Ex.
rewrite /ekf_body /predict; cbn [fst snd rbind].
have Emp : E *m (A *m m2 + xi) = A1 *m m3 + xi1 by rewrite mulmxDr Exi mulmxA EA -mulmxA E1.
have EPp : E *m (A *m P2 *m A^T + Q) = (A1 *m P3 *m A1^T + Q1) *m E.
  rewrite mulmxDr mulmxDl EQ; congr (_ + _).
  by rewrite mulmxA [E *m (A *m P2)]mulmxA EA -[A1 *m E *m P2]mulmxA E2 -2!mulmxA EAt !mulmxA.
have pPp : psd (A *m P2 *m A^T + Q) by apply: psdD => //; exact: psd_congr.
set mp := A *m m2 + xi in Emp *; set Pp := A *m P2 *m A^T + Q in EPp pPp *.
set mp1 := A1 *m m3 + xi1 in Emp *; set Pp1 := A1 *m P3 *m A1^T + Q1 in EPp *.
have pPp1 : psd Pp1 by rewrite (conj_psd EE EPp); exact: psd_congr.
have pR1 : psd Rn1 by rewrite (conj_psd UU UR); exact: psd_congr.
have := Oc mp t; have := OJ mp t; have := OJt mp t; rewrite Emp.
set c := dprimal _ mp; set c1 := dprimal _ mp1; set H := jacfwd _ mp; set H1 := jacfwd _ mp1 => OJt' OJ' Oc'.
case U2: (update _ _ c _ _ _) => [[[m4 C4] S4]||] //; cbn [rbind fst snd] => -[<-].
have [pS [-> -> _]] := update_val pPp pR U2.
have US : U *m (H *m Pp *m H^T + Rn) = (H1 *m Pp1 *m H1^T + Rn1) *m U.
  rewrite mulmxDr mulmxDl UR; congr (_ + _).
  by rewrite mulmxA [U *m (H *m Pp)]mulmxA OJ' -[H1 *m E *m Pp]mulmxA EPp -2!mulmxA OJt' !mulmxA.
have pS1 : pd (H1 *m Pp1 *m H1^T + Rn1).
  by rewrite (conj_psd UU US); apply: (pd_congr_inv (C := U^T)).
rewrite (updateE lp mp1 c1 pPp1 pS1); cbn [rbind]; eexists; split; first by [].
all: cbn [fst snd].
all: set S := _ + Rn in pS US *; set S1 := _ + Rn1 in pS1 US *.
all: have UI : U *m invmx S = invmx S1 *m U
  by rewrite -[LHS]mul1mx -(mulVmx (pd_unit pS1)) -mulmxA [S1 *m (U *m _)]mulmxA -US mulmxK //; exact: pd_unit.
all: have EK : E *m (Pp *m H^T *m invmx S) = Pp1 *m H1^T *m invmx S1 *m U
  by rewrite !mulmxA EPp -[Pp1 *m E *m H^T]mulmxA OJt' !mulmxA -[_ *m U *m invmx S]mulmxA UI !mulmxA.
- by rewrite mulmxBr Emp mulmxA EK -[_ *m U *m c]mulmxA Oc'.
- rewrite mulmxBr mulmxBl EPp; congr (_ - _).
  by rewrite !mulmxA; rewrite !mulmxA in EK; rewrite EK -[_ *m U *m H]mulmxA OJ' -!mulmxA EPp !mulmxA.
Qed.
End Intertwine.

Lemma kron_eye1 d n : (1%:M : 'M[R]_d) *t (1%:M : 'M[R]_n) = 1%:M.
Proof.
apply/matrixP=> x y; case: (mxtens_indexP x) => k i; case: (mxtens_indexP y) => l j.
rewrite tensmxE !idmxE (can_eq (@mxtens_indexK _ _)) xpair_eqE -natrM mulnb //.
Qed.

(** ** The coordinate map of the interlaced state *)
Section Coord.
Variables (d d' : nat) (p : 'M[R]_(d', d)).

Definition coord_map n : 'M[R]_(d' * n, d * n) := p *t (1%:M : 'M[R]_n).

Lemma coord_kron n (M : 'M[R]_n) : coord_map n *m kron_eye d M = kron_eye d' M *m coord_map n.
Proof. by rewrite /coord_map /kron_eye !tensmx_mul !mul1mx !mulmx1. Qed.

Lemma coord_iso n : p *m p^T = 1%:M -> coord_map n *m (coord_map n)^T = 1%:M.
Proof. by move=> pp; rewrite /coord_map trmx_tens trmx1 tensmx_mul pp mul1mx; exact: kron_eye1. Qed.

Lemma coord_sel n (i : 'I_n) : p *m selector d i = selector d' i *m coord_map n.
Proof.
apply/matrixP=> k y; case: (mxtens_indexP y) => l j.
rewrite sel_mul tensmxE idmxE -[LHS]trmxE trmx_mul selT_mul trmxE mulrC.
by [].
Qed.

Lemma coord_slice n (i : 'I_n) (x : 'cV[R]_(d * n)) : slice i (coord_map n *m x) = p *m slice i x.
Proof. by rewrite -!sel_slice !mulmxA coord_sel. Qed.
End Coord.

Lemma coord_tr d d' (p : 'M[R]_(d', d)) n : (coord_map p n)^T = coord_map p^T n.
Proof. by rewrite /coord_map trmx_tens trmx1. Qed.

Lemma coord_selT d d' (p : 'M[R]_(d', d)) n (i : 'I_n) : coord_map p n *m (selector d i)^T = (selector d' i)^T *m p.
Proof. by rewrite -{1}[p]trmxK -coord_tr -trmx_mul -coord_sel trmx_mul trmxK. Qed.

(** ** Fields related by a linear map with orthonormal rows *)
Section Fields.
Variables (lp : lapack) (d d' : nat) (p : 'M[R]_(d', d)).
Variables (f : 'cV[R]_d -> R -> 'cV[R]_d) (g : 'cV[R]_d' -> R -> 'cV[R]_d').
Hypotheses (pp : p *m p^T = 1%:M) (pf : forall x t, p *m f x t = g (p *m x) t).
Notation Ep n := (coord_map p n).

Definition jac_related := forall x t,
  p *m jac (f^~ t) x = jac (g^~ t) (p *m x) *m p /\ p *m (jac (f^~ t) x)^T = (jac (g^~ t) (p *m x))^T *m p.

Section Run.
Variables (EKF0 : bool) (n : nat).
Hypothesis pJ : EKF0 = false -> jac_related.

Lemma rel_obs (m : 'cV[R]_(d * n.+2)) t :
  let ob z := @observation_function d EKF0 f n z t in let ob1 z := @observation_function d' EKF0 g n z t in
  [/\ p *m dprimal ob m = dprimal ob1 (Ep n.+2 *m m),
      p *m jacfwd ob m = jacfwd ob1 (Ep n.+2 *m m) *m Ep n.+2 &
      Ep n.+2 *m (jacfwd ob m)^T = (jacfwd ob1 (Ep n.+2 *m m))^T *m p].
Proof.
move=> ob ob1; split.
- by rewrite !obs_residual mulmxBr pf !coord_slice.
- rewrite /ob /ob1; case: (EKF0) pJ => [_|/(_ erefl) J]; first by rewrite !obs_jac0 coord_sel.
  by rewrite !obs_jac1 mulmxBr mulmxBl mulmxA (J _ _).1 coord_sel coord_slice -!mulmxA coord_sel.
- rewrite /ob /ob1; case: (EKF0) pJ => [_|/(_ erefl) J]; first by rewrite !obs_jac0 coord_selT.
  rewrite !obs_jac1 !linearB /= mulmxBl !trmx_mul coord_selT mulmxA coord_selT -mulmxA (J _ _).2 coord_slice.
  by rewrite mulmxA.
Qed.

Lemma rel_solver (Q A : 'M[R]_n.+2) h N m P m1 P1 r : psd Q -> psd P ->
  Ep n.+2 *m m = m1 -> Ep n.+2 *m P = P1 *m Ep n.+2 ->
  @_solver lp d n (m, P) f h N false EKF0 (a_prior (0, kron_eye d Q, kron_eye d A)) None = Val r ->
  exists r1, [/\ @_solver lp d' n (m1, P1) g h N false EKF0 (a_prior (0, kron_eye d' Q, kron_eye d' A)) None = Val r1,
    Ep n.+2 *m r.1 = r1.1 & Ep n.+2 *m r.2 = r1.2 *m Ep n.+2].
Proof.
move=> pQ pP Em EP.
rewrite (solver_run (xi := 0) (A := kron_eye d A) (Rn := 0) (Q' := kron_eye d Q) _ _ _ _ (get_prior_id h _)) //.
rewrite (solver_run (xi := 0) (A := kron_eye d' A) (Rn := 0) (Q' := kron_eye d' Q) _ _ _ _ (get_prior_id h _)) //.
apply: (intertwine (U := p)) => //.
- exact: coord_iso.
- exact: coord_kron.
- by rewrite !kron_tr; exact: coord_kron.
- exact: coord_kron.
- by rewrite mulmx0.
- by rewrite mulmx0 mul0mx.
- by move=> x t; case: (rel_obs x t).
- by move=> x t; case: (rel_obs x t).
- by move=> x t; case: (rel_obs x t).
- exact: kron_psd.
- exact: psd0.
Qed.
End Run.

Lemma rel_init n x0 : (n <= 2)%N \/ jac_related -> Ep n *m init_mean f x0 n = init_mean g (p *m x0) n.
Proof.
move=> J; apply: slice_ext => i; rewrite coord_slice !slice_interl.
case: i => [[|[|[|i]]] ilt]; cbn [nat_of_ord val]; rewrite ?pf ?mulmx0 //=.
by case: J => [n2|J]; [move: (leq_trans ilt n2) | rewrite mulmxA (J _ _).1 -mulmxA pf].
Qed.

Variables (gen : prng) (h : R) (N : nat).
Hypotheses (d0 : (0 < d)%N) (d0' : (0 < d')%N).

Section Prior.
Variables (n : nat) (A Q : 'M[R]_n.+2).
Hypotheses (pQ : pd Q) (n2 : (n < 2)%N).
Let tr e : transition (e * n.+2) := (0, kron_eye e Q, kron_eye e A).

Lemma tr_pd e : pd (tr e).1.2. Proof. exact: kron_pd. Qed.

Lemma comm0 : Ep n.+2 *m 0 = (0 : 'M[R]_(d' * n.+2)) *m Ep n.+2.
Proof. by rewrite mulmx0 mul0mx. Qed.

Lemma rel_ekf0 x0 sq : n = 0%N \/ jac_related ->
  exists2 y, ekf0 lp (None : option (key gen)) x0 f h N sq (a_prior (tr d)) None = Val y &
    ekf0 lp (None : option (key gen)) (p *m x0) g h N sq (a_prior (tr d')) None = Val (p *m y).
Proof.
move=> J.
suff [y E1 E2] : exists2 y, ekf0 lp (None : option (key gen)) x0 f h N false (a_prior (tr d)) None = Val y &
    ekf0 lp (None : option (key gen)) (p *m x0) g h N false (a_prior (tr d')) None = Val (p *m y).
  exists y; case: sq => //.
    by rewrite (modes_agree _ _ _ _ _ _ d0 (tr_pd d) (or_introl erefl)).1.
  by rewrite (modes_agree _ _ _ _ _ _ d0' (tr_pd d') (or_introl erefl)).1.
have [y Ey] := @ekf0_total lp d f h N false gen None x0 n (tr d) None d0 n2 (tr_pd d) (or_introl erefl).
exists y => //; move: Ey; rewrite !ekf0_run // n2.
case E: (_solver _ _ _ _ _ _ _ _ _) => [r||] //=.
have i2 : (n.+2 <= 2)%N \/ jac_related by case: J => [->|]; [left | right].
have nJ : true = false -> jac_related by [].
have [r1 [-> E1 _]] := @rel_solver true n nJ Q A h N (init_mean f x0 n.+2) 0 (init_mean g (p *m x0) n.+2) 0 r
  (pd_psd pQ) (psd0 _) (rel_init x0 i2) comm0 E.
by case: r E1 {E} => [m P] /= E1 [<-]; case: r1 E1 => m1 P1 /= <-; rewrite coord_slice.
Qed.

Lemma rel_ekf1 x0 sq : jac_related ->
  exists2 y, ekf1 lp (None : option (key gen)) x0 f h N sq (a_prior (tr d)) None = Val y &
    ekf1 lp (None : option (key gen)) (p *m x0) g h N sq (a_prior (tr d')) None = Val (p *m y).
Proof.
move=> J.
suff [y E1 E2] : exists2 y, ekf1 lp (None : option (key gen)) x0 f h N false (a_prior (tr d)) None = Val y &
    ekf1 lp (None : option (key gen)) (p *m x0) g h N false (a_prior (tr d')) None = Val (p *m y).
  exists y; case: sq => //.
    by rewrite (modes_agree _ _ _ _ _ _ d0 (tr_pd d) (or_introl erefl)).2.
  by rewrite (modes_agree _ _ _ _ _ _ d0' (tr_pd d') (or_introl erefl)).2.
have [y Ey] := @ekf1_total lp d f h N false gen None x0 n (tr d) None d0 (tr_pd d) (or_introl erefl).
exists y => //; move: Ey; rewrite !ekf1_run // /ekf1_var n2.
case E: (_solver _ _ _ _ _ _ _ _ _) => [r||] //=.
have [r1 [-> E1 _]] := @rel_solver false n (fun _ => J) Q A h N (init_mean f x0 n.+2) 0 (init_mean g (p *m x0) n.+2) 0 r
  (pd_psd pQ) (psd0 _) (rel_init x0 (or_intror J)) comm0 E.
by case: r E1 {E} => [m P] /= E1 [<-]; case: r1 E1 => m1 P1 /= <-; rewrite coord_slice.
Qed.
End Prior.
End Fields.

(** ** Product fields *)
Lemma product_jac d (phi : 'I_d -> R -> R -> R) (i : 'I_d) :
  let f (x : 'cV[R]_d) t := \col_k phi k (x k 0) t in
  let g (x : 'cV[R]_1) t := (phi i (x 0 0) t)%:M : 'cV[R]_1 in
  let p := row i (1%:M : 'M[R]_d) in
  [/\ p *m p^T = 1%:M, forall x t, p *m f x t = g (p *m x) t & jac_related p f g].
Proof.
move=> f g p.
have pE e (x : 'M[R]_(d, e)) k : (p *m x) 0 k = x i k by rewrite -row_mul mul1mx mxE.
have Jd t x k l : k != l -> jac (f^~ t) x k l = 0.
  move=> kl; rewrite mxE -[RHS](pderiv_const (phi k (x k 0) t) l x).
  by apply: Derive_ext => s; rewrite mxE vshift_other.
have Ji t x : jac (f^~ t) x i i = jac (g^~ t) (p *m x) 0 0.
  rewrite ![jac _ _ _ _]mxE; apply: Derive_ext => s; rewrite /f /g [LHS]mxE [RHS]mxE eqxx mulr1n; by rewrite !vshift_same pE.
have pd' k l (x : 'M[R]_1) : (x *m p) k l = x 0 0 * (i == l)%:R by rewrite mulmxE big_ord1 !ord1 mxE idmxE.
split.
- by apply/matrixP=> k l; rewrite !ord1 pE !mxE eqxx.
- by move=> x t; apply/matrixP=> k l; rewrite !ord1 pE /f /g [LHS]mxE [RHS]mxE eqxx mulr1n pE.
move=> x t; split; apply/matrixP=> k l; rewrite ord1 pE pd' ?trmxE -Ji.
  by case: eqP => [<-|/eqP il]; rewrite ?mulr1 ?mulr0 // Jd.
by case: eqP => [<-|/eqP il]; rewrite ?mulr1 ?mulr0 // Jd // eq_sym.
Qed.

(** ** Renaming the coordinates *)
Lemma perm_jac d (s : 'S_d) (f : 'cV[R]_d -> R -> 'cV[R]_d) :
  let p := perm_mx s in let g x t := p *m f (p^T *m x) t in
  [/\ p *m p^T = 1%:M, forall x t, p *m f x t = g (p *m x) t & jac_related p f g].
Proof.
move=> p g.
have pp : p *m p^T = 1%:M by rewrite /p tr_perm_mx -perm_mxM mulgV perm_mx1.
have pp' : p^T *m p = 1%:M by rewrite /p tr_perm_mx -perm_mxM mulVg perm_mx1.
have pE (x : 'cV[R]_d) k : (p *m x) k 0 = x (s k) 0 by rewrite -row_permE mxE.
have gE x t : g (p *m x) t = p *m f x t by rewrite /g mulmxA pp' mul1mx.
have J x t : jac (g^~ t) (p *m x) = p *m jac (f^~ t) x *m p^T.
  apply/matrixP=> k l; rewrite [RHS](_ : _ = jac (f^~ t) x (s k) (s l)); last first.
    by rewrite -[LHS]trmxE trmx_mul trmxK -row_permE mxE trmxE -row_permE mxE.
  rewrite !mxE; apply: Derive_ext => e; rewrite pE; congr (f _ t _ _).
  have D : p *m delta_mx (s l) 0 = delta_mx l 0 :> 'cV[R]_d.
    by apply/colP=> a; rewrite pE ![delta_mx _ _ _ _]mxE (inj_eq perm_inj).
  by rewrite /vshift mulmxDr mulmxA pp' mul1mx -scalemxAr -D mulmxA pp' mul1mx.
split=> // x t; rewrite J; split; first by rewrite -mulmxA pp' mulmx1.
by rewrite !trmx_mul trmxK -!mulmxA pp' mulmx1.
Qed.

(** ** Splitting a run *)
Section Split.
Variables (lp : lapack) (nx ny : nat) (A Q : 'M[R]_nx) (xi : 'cV[R]_nx) (Rn : 'M[R]_ny) (sq : bool).

Lemma ekf_cat (obs : dual nx -> R -> dual ny) init ts ts' :
  ekf lp obs A Q xi Rn sq init (ts ++ ts') =
  let! x := ekf lp obs A Q xi Rn sq init ts in ekf lp obs A Q xi Rn sq x ts'.
Proof.
elim/last_ind: ts' => [|ts' t IH].
  by rewrite cats0; case: (ekf _ _ _ _ _ _ _ init ts) => //= x; rewrite ekf_nil.
rewrite -rcons_cat ekf_rcons IH; case: (ekf _ _ _ _ _ _ _ init ts) => //= x.
by rewrite ekf_rcons.
Qed.

Lemma ekf_map (obs obs' : dual nx -> R -> dual ny) (s : R -> R) init ts :
  (forall t x, obs' x t = obs x (s t)) ->
  ekf lp obs' A Q xi Rn sq init ts = ekf lp obs A Q xi Rn sq init (map s ts).
Proof.
move=> O; elim/last_ind: ts => [|ts t IH]; first by rewrite !ekf_nil.
rewrite map_rcons !ekf_rcons IH; case: (ekf _ _ _ _ _ _ _ _ _) => //= x.
rewrite /ekf_body; cbv zeta.
by have -> : obs'^~ t = obs^~ (s t) by apply: functional_extensionality => z; exact: O.
Qed.
End Split.

Lemma grid_split (h : R) N M : mkseq (fun k => k.+1%:R * h) (N + M) =
  mkseq (fun k => k.+1%:R * h) N ++ map (fun t => t + N%:R * h) (mkseq (fun k => k.+1%:R * h) M).
Proof.
rewrite /mkseq iotaD map_cat; congr (_ ++ _).
rewrite add0n -[N in iota N M]addn0 iotaDl -!map_comp; apply: eq_map => k /=.
by rewrite -mulrDl -natrD addSn addnC.
Qed.

Lemma solver_split (lp : lapack) d n init f h N M sq EKF0 prior noise :
  @_solver lp d n init f h (N + M) sq EKF0 prior noise =
  let! x := @_solver lp d n init f h N sq EKF0 prior noise in
  @_solver lp d n x (fun z t => f z (t + N%:R * h)) h M sq EKF0 prior noise.
Proof.
case En: (get_noise d noise) => [Rn||e]; [|by rewrite /_solver En..].
case Ep: (get_prior d n h prior) => [[[xi Q] A]||e]; [|by rewrite /_solver En Ep..].
case EQ: (if sq then cholesky lp Q else Val Q) => [Q'||e].
- rewrite !(solver_run _ _ _ _ Ep En EQ) grid_split ekf_cat.
  case: (ekf _ _ _ _ _ _ _ init _) => //= x; rewrite (solver_run _ _ _ _ Ep En EQ).
  by symmetry; apply: ekf_map => t z; case: (EKF0).
all: rewrite /_solver En Ep; cbn [rbind]; rewrite EQ.
all: case: N => [|N]; first by case: M.
all: by rewrite addSn.
Qed.

Lemma product_run (lp : lapack) d (phi : 'I_d -> R -> R -> R) (i : 'I_d) (gen : prng) (h : R) (N : nat)
  n (A Q : 'M[R]_n.+2) (x0 : 'cV[R]_d) (sq : bool) : pd Q -> (n < 2)%N ->
  let f (x : 'cV[R]_d) t := \col_k phi k (x k 0) t in
  let g (x : 'cV[R]_1) t := (phi i (x 0 0) t)%:M : 'cV[R]_1 in
  let pr e := a_prior ((0, kron_eye e Q, kron_eye e A) : transition (e * n.+2)) in
  (exists2 y, ekf0 lp (None : option (key gen)) x0 f h N sq (pr d) None = Val y &
    ekf0 lp (None : option (key gen)) (x0 i 0)%:M g h N sq (pr 1%N) None = Val (y i 0)%:M) /\
  (exists2 y, ekf1 lp (None : option (key gen)) x0 f h N sq (pr d) None = Val y &
    ekf1 lp (None : option (key gen)) (x0 i 0)%:M g h N sq (pr 1%N) None = Val (y i 0)%:M).
Proof.
move=> pQ n2 f g pr; have [pp pf J] := product_jac phi i.
have pE (x : 'cV[R]_d) : row i (1%:M : 'M[R]_d) *m x = (x i 0)%:M.
  by rewrite -row_mul mul1mx [RHS]mx11_scalar; apply/matrixP=> k l; rewrite !ord1 !mxE eqxx mulr1n.
have d0 : (0 < d)%N := leq_ltn_trans (leq0n i) (ltn_ord i).
rewrite -pE; split.
  have [y E1 E2] := rel_ekf0 lp pp pf gen h N d0 erefl A pQ n2 x0 sq (or_intror J).
  by exists y => //; rewrite -pE.
have [y E1 E2] := rel_ekf1 lp pp pf gen h N d0 erefl A pQ n2 x0 sq J.
by exists y => //; rewrite -pE.
Qed.

Lemma perm_run (lp : lapack) d (s : 'S_d) (f : 'cV[R]_d -> R -> 'cV[R]_d) (gen : prng) (h : R) (N : nat)
  n (A Q : 'M[R]_n.+2) (x0 : 'cV[R]_d) (sq : bool) : (0 < d)%N -> pd Q -> (n < 2)%N ->
  let g x t := row_perm s (f (row_perm s^-1 x) t) in
  let pr := a_prior ((0, kron_eye d Q, kron_eye d A) : transition (d * n.+2)) in
  (exists2 y, ekf0 lp (None : option (key gen)) x0 f h N sq pr None = Val y &
    ekf0 lp (None : option (key gen)) (row_perm s x0) g h N sq pr None = Val (row_perm s y)) /\
  (exists2 y, ekf1 lp (None : option (key gen)) x0 f h N sq pr None = Val y &
    ekf1 lp (None : option (key gen)) (row_perm s x0) g h N sq pr None = Val (row_perm s y)).
Proof.
move=> d0 pQ n2 g pr; have [pp pf J] := perm_jac s f.
have -> : g = fun x t => perm_mx s *m f ((perm_mx s)^T *m x) t.
  apply: functional_extensionality => x; apply: functional_extensionality => t.
  by rewrite /g !row_permE tr_perm_mx.
rewrite row_permE; split.
  have [y E1 E2] := rel_ekf0 lp pp pf gen h N d0 d0 A pQ n2 x0 sq (or_intror J).
  by exists y => //; rewrite row_permE.
have [y E1 E2] := rel_ekf1 lp pp pf gen h N d0 d0 A pQ n2 x0 sq J.
by exists y => //; rewrite row_permE.
Qed.

Lemma ioup_Q_pd h : 0 < h -> pd (ioup_Q 1 1 h).
Proof. by move=> h0; rewrite ioup_Q_cov ioup_F_comp; apply: comp_cov_pd; rewrite ?oner_eq0. Qed.
