(** Linear SDEs with additive noise whose random ODEs are solved exactly. *)
From Coq Require Import Reals Lra FunctionalExtensionality.
From Coquelicot Require Import Coquelicot.
From mathcomp Require Import all_ssreflect all_algebra mxtens.
From Verif Require Import Rstruct Base Linalg Calc Prob Expm Spec Spec3 M_Foster M_ItoStrat M_SdeSolver M_Prior
  L_Foster L_ItoStrat L_SdeSolver L_Prior L_Quad L_Chain L_Proj.

Set Implicit Arguments.
Unset Strict Implicit.
Unset Printing Implicit Defensive.
Import Order.TTheory GRing.Theory Num.Theory.
Local Open Scope ring_scope.

(** ** Matrix integrals *)
Lemma mx_int_deriv m n (f : R -> 'M[R]_(m, n)) t : mx_cont f -> mx_deriv (mx_int f) t (f t).
Proof.
move=> fc i j; apply: (@is_derive_ext _ _ (fun h => RInt (fun s => f s i j) 0 h)).
  by move=> h; rewrite mxE.
apply: (@is_derive_RInt _ (fun s => f s i j) _ 0); last exact: fc.
apply: filter_forall => x.
by apply: (@RInt_correct R_CompleteNormedModule); apply: ex_RInt_continuous => z _; exact: fc.
Qed.

Lemma mx_intE m n (f : R -> 'M[R]_(m, n)) t i j : mx_int f t i j = RInt (fun s => f s i j) 0 t.
Proof. by rewrite mxE. Qed.

Lemma mx_int0 m n (f : R -> 'M[R]_(m, n)) : mx_int f 0 = 0.
Proof. by apply/matrixP=> i j; rewrite !mxE RInt_point. Qed.

Lemma mx_deriv_eq m n (V W D : R -> 'M[R]_(m, n)) : (forall t, mx_deriv V t (D t)) -> (forall t, mx_deriv W t (D t)) ->
  V 0 = W 0 -> forall t, V t = W t.
Proof.
move=> HV HW E t; apply/eqP; rewrite -subr_eq0; apply/eqP.
have H := @mx_deriv0_const _ _ (fun s => V s - W s).
rewrite (H _ t 0) ?E ?subrr // => s i j.
apply: (@is_derive_ext _ _ (fun s => minus (V s i j) (W s i j))) => [x|].
  by rewrite !mxE.
have := @is_derive_minus _ R_NormedModule _ _ _ _ _ (HV s i j) (HW s i j).
by rewrite mxE; congr is_derive; rewrite /minus /plus /opp /= Rplus_opp_r.
Qed.

Lemma mx_int_unique m n (V D : R -> 'M[R]_(m, n)) : (forall t, mx_deriv V t (D t)) -> mx_cont D -> V 0 = 0 ->
  forall t, V t = mx_int D t.
Proof. by move=> HV Dc V0; apply: (mx_deriv_eq HV) => [t|]; [exact: mx_int_deriv | rewrite mx_int0]. Qed.

Lemma mx_deriv_cont m n (V D : R -> 'M[R]_(m, n)) : (forall t, mx_deriv V t (D t)) -> mx_cont V.
Proof. by move=> H t i j; apply: (@ex_derive_continuous _ R_NormedModule); exists (D t i j); exact: H. Qed.


Lemma cont_sum (I : Type) (r : seq I) (F : I -> R -> R) t : (forall i, continuous (F i) t) ->
  continuous (fun s => \sum_(i <- r) F i s) t.
Proof.
move=> H; elim: r => [|i r IH].
  by apply: (@continuous_ext R_UniformSpace R_UniformSpace (fun _ => 0)) => [x|]; [rewrite big_nil | exact: continuous_const].
apply: (@continuous_ext R_UniformSpace R_UniformSpace (fun s => plus (F i s) (\sum_(i <- r) F i s))) => [x|]; first by rewrite big_cons.
exact: (@continuous_plus _ _ R_NormedModule).
Qed.

Lemma mx_contM m n p (V : R -> 'M[R]_(m, n)) (W : R -> 'M[R]_(n, p)) : mx_cont V -> mx_cont W -> mx_cont (fun t => V t *m W t).
Proof.
move=> HV HW t i j; apply: (@continuous_ext R_UniformSpace R_UniformSpace (fun s => \sum_k V s i k * W s k j)) => [x|]; first by rewrite mxE.
by apply: cont_sum => k; apply: (@continuous_mult _ R_AbsRing).
Qed.

Lemma mx_cont_const m n (C : 'M[R]_(m, n)) : mx_cont (fun _ => C).
Proof. by move=> t i j; exact: continuous_const. Qed.

(** ** Variation of constants *)
Section Affine.
Variables (d : nat) (A : 'M[R]_d) (u : R -> 'cV[R]_d).
Hypothesis uc : mx_cont u.

Lemma expmN_cont p (v : R -> 'M[R]_(d, p)) : mx_cont v -> mx_cont (fun s => expm (- s *: A) *m v s).
Proof. by move=> vc; apply: mx_contM => //; apply: (mx_deriv_cont (expmN_mx_deriv A)). Qed.

Definition voc x t := expm (t *: A) *m (x + mx_int (fun s => expm (- s *: A) *m u s) t).

Lemma voc0 x : voc x 0 = x.
Proof. by rewrite /voc mx_int0 addr0 scale0r expm0 mul1mx. Qed.

Lemma voc_deriv x t : mx_deriv (voc x) t (A *m voc x t + u t).
Proof.
have H := mx_derivM (expm_mx_deriv A t)
  (mx_derivD (mx_deriv_const x t) (mx_int_deriv t (expmN_cont uc))).
move: H; rewrite add0r !mulmxA expm_inv mul1mx /voc; exact.
Qed.

Lemma voc_unique x (y : R -> 'cV[R]_d) : y 0 = x -> (forall t, mx_deriv y t (A *m y t + u t)) -> forall t, y t = voc x t.
Proof.
move=> y0 yd t.
have E : expm (- t *: A) *m y t = x + mx_int (fun s => expm (- s *: A) *m u s) t.
  apply: (@mx_deriv_eq _ _ (fun t => expm (- t *: A) *m y t) (fun t => x + mx_int (fun s => expm (- s *: A) *m u s) t)
    (fun t => expm (- t *: A) *m u t)) => [s|s|].
  - have := mx_derivM (expmN_mx_deriv A s) (yd s).
    have C : A *m expm (- s *: A) = expm (- s *: A) *m A by rewrite expm_comm.
    by rewrite mulmxDr mulNmx C !mulmxA addrA addNr add0r.
  - by have := mx_derivD (mx_deriv_const x s) (mx_int_deriv s (expmN_cont uc)); rewrite add0r.
  - by rewrite oppr0 scale0r expm0 mul1mx y0 mx_int0 addr0.
by rewrite /voc -E mulmxA expm_inv mul1mx.
Qed.

(** The noise part, as an integral of the propagated input. *)
Lemma voc_int x t : voc x t = expm (t *: A) *m x + mx_int (fun s => expm ((t - s) *: A) *m u s) t.
Proof.
rewrite /voc mulmxDr; congr (_ + _).
transitivity (mx_int (fun s => expm (t *: A) *m (expm (- s *: A) *m u s)) t).
  apply: (@mx_int_unique _ _ (fun r => expm (t *: A) *m mx_int (fun s => expm (- s *: A) *m u s) r)
     (fun s => expm (t *: A) *m (expm (- s *: A) *m u s))) => [r||].
  - by have := mx_derivM (mx_deriv_const (expm (t *: A)) r) (mx_int_deriv r (expmN_cont uc)); rewrite mul0mx add0r.
  - apply: mx_contM; [exact: mx_cont_const | exact: expmN_cont].
  - by rewrite mx_int0 mulmx0.
by congr mx_int; apply: functional_extensionality => s; rewrite expm_add mulmxA.
Qed.
End Affine.

Lemma mx_int_mull m n p (C : 'M[R]_(p, m)) (f : R -> 'M[R]_(m, n)) t : mx_cont f -> C *m mx_int f t = mx_int (fun s => C *m f s) t.
Proof.
move=> fc; apply: (@mx_int_unique _ _ (fun r => C *m mx_int f r) (fun s => C *m f s)) => [r||].
- by have := mx_derivM (mx_deriv_const C r) (mx_int_deriv r fc); rewrite mul0mx add0r.
- by apply: mx_contM => //; exact: mx_cont_const.
- by rewrite mx_int0 mulmx0.
Qed.

Lemma qf_gramE n m (L : 'M[R]_(n, m)) x : qf (L *m L^T) x = \sum_j ((x^T *m L) 0 j) ^+ 2.
Proof.
rewrite qf_gram mulmxE; apply: eq_bigr => k _.
by rewrite trmxE -[_^T *m x]trmxK trmx_mul trmxK trmxE expr2.
Qed.

Lemma psd_offdiag n (D : 'M[R]_n) (c : R) i j : psd D -> (forall i, D i i <= c) -> `|D i j| <= c.
Proof.
move=> [sD pD] H.
have qd (k l : 'I_n) : ((delta_mx k 0 : 'cV[R]_n)^T *m D *m (delta_mx l 0 : 'cV[R]_n)) 0 0 = D k l.
  by rewrite trmx_delta -rowE mulmxE (bigD1 l) //= !mxE !eqxx mulr1 big1 ?addr0 // => p /negPf pl; rewrite !mxE pl mulr0.
have Q (e : R) : 0 <= D i i + e * (D j i *+ 2) + e ^+ 2 * D j j.
  by have := pD (delta_mx i 0 + e *: delta_mx j 0); rewrite qf_lin // {1 2}/qf !qd.
have ji : D j i = D i j by rewrite -{2}sD trmxE.
have Q1 := Q 1; have Q2 := Q (-1); have H1 := H i; have H2 := H j.
rewrite !expr2 !mulr1 ?mul1r ji in Q1; rewrite !expr2 mulrNN !mul1r mulN1r ji in Q2.
rewrite ler_norml; apply/andP; split; [move: Q1 H1 H2 | move: Q2 H1 H2]; rewrite mulr2n => /RleP K1 /RleP K2 /RleP K3; apply/RleP; move: K1 K2 K3; toR; lra.
Qed.

(** ** The covariance of one exactly solved interval *)
Section Interval.
Variables (d m : nat) (A : 'M[R]_d) (S : 'M[R]_(d, m)) (h : R).
Hypothesis h0 : 0 < h.
Let q (s : R) : R := 1 - 2%:R * (s / h).
Let B (s : R) := expm ((h - s) *: A) *m S.

Lemma B_deriv t : mx_deriv B t (- (A *m B t)).
Proof.
move=> i j.
have H := covB_deriv A S (h - t) i j.
rewrite oppmxE mulmxA -mulN1r.
have D : is_derive (fun s : R => (h - s)%Re) t (-1)%Re by auto_derive => //; ring.
have := @is_derive_comp R_AbsRing R_NormedModule (fun s => (expm (s *: A) *m S) i j) (fun s => (h - s)%Re) t _ _ H D.
by [].
Qed.

Lemma B_cont : mx_cont B. Proof. exact: (mx_deriv_cont B_deriv). Qed.

Lemma q_continuous t : continuous q t.
Proof.
have -> : q = (fun r => 1 - 2 * (r / h))%Re by apply: functional_extensionality => r; rewrite /q; toR.
exact: q_cont.
Qed.

Lemma qB_cont : mx_cont (fun s => q s *: B s).
Proof.
move=> t i j; apply: (@continuous_ext R_UniformSpace R_UniformSpace (fun s => q s * B s i j)) => [x|].
  by rewrite scalemxE.
by apply: (@continuous_mult _ R_AbsRing); [exact: q_continuous | exact: B_cont].
Qed.

Definition I0 := mx_int B h.
Definition I1 := mx_int (fun s => q s *: B s) h.
Definition step_cov := h^-1 *: (I0 *m I0^T) + (3%:R / h) *: (I1 *m I1^T).
Definition step_defect := lin_sde_cov A S h - step_cov.

Lemma qf_covE x : qf (lin_sde_cov A S h) x = \sum_j RInt (fun s => pow ((x^T *m B s) 0 j) 2) 0 h.
Proof.
pose f (j : 'I_m) (s : R) : R := (x^T *m (expm (s *: A) *m S)) 0 j.
have fc j t : @continuous R_UniformSpace R_UniformSpace (f j) t.
  have C : mx_cont (fun s => x^T *m (expm (s *: A) *m S)).
    by apply: mx_contM; [exact: mx_cont_const | exact: (mx_deriv_cont (covB_deriv A S))].
  exact: C.
have f2c j t : continuous (fun s => (f j s) ^ 2)%Re t by apply: f2_cont; exact: fc.
have E t : qf (lin_sde_cov A S t) x = \sum_j RInt (fun s => (f j s) ^ 2)%Re 0 t.
  have D2 s : is_derive (fun t => \sum_j RInt (fun s => (f j s) ^ 2)%Re 0 t) s (\sum_j (f j s) ^+ 2).
    apply: is_derive_sum => j.
    have -> : f j s ^+ 2 = (f j s ^ 2)%Re by rewrite expr2; toR; ring.
    apply: (@is_derive_RInt _ (fun s => (f j s) ^ 2)%Re _ 0); last exact: f2c.
    apply: filter_forall => y.
    by apply: (@RInt_correct R_CompleteNormedModule); apply: ex_RInt_continuous => z _; exact: f2c.
  have D s : is_derive (fun t => qf (lin_sde_cov A S t) x - \sum_j RInt (fun s => (f j s) ^ 2)%Re 0 t) s 0.
    have := is_derive_minus _ _ _ _ _ (qf_cov_deriv A S x s) (D2 s).
    by rewrite qf_g minus_eq_zero.
  have Z : \sum_j RInt (fun s => (f j s) ^ 2)%Re 0 0 = 0 by rewrite big1 // => j _; rewrite RInt_point.
  have := deriv0_const D t 0; rewrite cov0 qf0 Z subr0.
  by move/eqP; rewrite subr_eq0 => /eqP.
rewrite E; apply: eq_bigr => j _.
have I : is_RInt (fun s => f j s ^ 2)%Re 0 h (RInt (fun s => (f j s) ^ 2)%Re 0 h).
  by apply: (@RInt_correct R_CompleteNormedModule); apply: ex_RInt_continuous => z _; exact: f2c.
have I' := @is_RInt_comp_lin R_NormedModule (fun s => f j s ^ 2)%Re (-1)%Re h 0 h (opp (RInt (fun s => (f j s) ^ 2)%Re 0 h)).
have J : is_RInt (fun s => f j s ^ 2)%Re (-1 * 0 + h)%Re (-1 * h + h)%Re (opp (RInt (fun s => (f j s) ^ 2)%Re 0 h)).
  have -> : (-1 * 0 + h = h)%Re by ring.
  have -> : (-1 * h + h = 0)%Re by ring.
  exact: is_RInt_swap.
have {I'}I' := is_RInt_opp _ _ _ _ (I' J); rewrite opp_opp in I'.
apply/esym/is_RInt_unique; apply: (is_RInt_ext _ _ _ _ _ _ I') => s _.
rewrite /f /B /opp /scal /= /mult /=.
have -> : (-1 * s + h)%Re = h - s by toR; ring.
by ring.
Qed.

Lemma qf_defect x : qf step_defect x = \sum_j proj_defect (fun s => (x^T *m B s) 0 j) h.
Proof.
rewrite /step_defect /step_cov qfB qfD !qfZ !qf_gramE qf_covE !mulr_sumr -big_split /= -sumrB.
apply: eq_bigr => j _; rewrite /I0 /I1 !mx_int_mull; [|exact: qB_cont|exact: B_cont].
rewrite !mx_intE /proj_defect.
have -> : (fun s => (x^T *m (q s *: B s)) 0 j) = (fun s => Rmult (1 - 2 * (s / h))%Re ((x^T *m B s) 0 j)).
  by apply: functional_extensionality => s; rewrite -scalemxAr scalemxE /q; toR.
set a := RInt _ _ _; set b := RInt _ _ _; set c := RInt _ _ _.
by rewrite !expr2; toR; field; apply/eqP; rewrite gt_eqF.
Qed.

Lemma f_cont (x : 'cV[R]_d) j t : continuous (fun s => (x^T *m B s) 0 j) t.
Proof.
have C : mx_cont (fun s => x^T *m B s) by apply: mx_contM; [exact: mx_cont_const | exact: B_cont].
exact: C.
Qed.

Lemma step_cov_sym : sym step_cov.
Proof. by rewrite /sym /step_cov linearD /= !linearZ /= !trmx_mul !trmxK. Qed.

Lemma defect_psd : psd step_defect.
Proof.
split; first by rewrite /sym /step_defect linearB /= step_cov_sym cov_sym.
move=> x; rewrite qf_defect; apply: sumr_ge0 => j _; apply/RleP; apply: proj_ge0; [exact/RltP | exact: f_cont].
Qed.

Lemma defect_small x (K : 'I_m -> R) :
  (forall r j, 0 <= r -> r <= h -> `|(x^T *m (A *m (A *m (expm (r *: A) *m S)))) 0 j| <= K j) ->
  qf step_defect x <= (\sum_j K j ^+ 2) * (h ^+ 5 / 80%:R).
Proof.
move=> H; rewrite qf_defect mulr_suml; apply: ler_sum => j _.
have -> : K j ^+ 2 * (h ^+ 5 / 80%:R) = (K j ^ 2 * (h ^ 5 / 80))%Re.
  by rewrite !exprS !expr0; toR; field.
pose f1 s := - (x^T *m (A *m B s)) 0 j.
pose f2 s := (x^T *m (A *m (A *m B s))) 0 j.
have D0 s : mx_deriv (fun s => x^T *m B s) s (- (x^T *m (A *m B s))).
  by have := mx_derivM (mx_deriv_const x^T s) (B_deriv s); rewrite mul0mx add0r mulmxN.
have D1 s : mx_deriv (fun s => - (x^T *m (A *m B s))) s (x^T *m (A *m (A *m B s))).
  have := mx_derivM (mx_deriv_const (- x^T) s) (mx_derivM (mx_deriv_const A s) (B_deriv s)).
  by rewrite !mul0mx !add0r !mulmxN mulNmx opprK => D; move=> i k; have := D i k; apply: is_derive_ext => z; rewrite mulNmx.
have FC t : continuous (fun s => (x^T *m B s) 0 j) t by exact: f_cont.
have hp : Rlt 0 h by exact/RltP.
apply/RleP; apply: (@proj_small _ _ hp FC f1 f2) => [t|t|t [t0 th]].
- by have := D0 t 0 j; rewrite oppmxE.
- by have := D1 t 0 j; apply: is_derive_ext => z; rewrite oppmxE.
- move/RleP: t0 => t0; move/RleP: th => th; rewrite -RnormE; apply/RleP; rewrite /f2 /B; apply: H.
    by rewrite subr_ge0.
  by rewrite ler_subl_addr ler_addl.
Qed.
End Interval.

Lemma natr1' n : n%:R + 1 = n.+1%:R :> R.
Proof. by rewrite -addn1 natrD. Qed.

(** ** Whole runs *)
Section Run.
Variables (g : prng) (d m : nat) (A : 'M[R]_d) (S : 'M[R]_(d, m)) (h : R).
Variable int : key g -> 'cV[R]_d -> ('cV[R]_d -> R -> 'cV[R]_d) -> R -> 'cV[R]_d.
Hypotheses (h0 : 0 < h) (exact_int : solves_affine int h).
Variables (N : nat) (x0 : 'cV[R]_d).
Let fs := to_stratonovich (fun z _ => A *m z) (fun _ _ => S).
Let run (k : key g) := sde_solver fs.1 fs.2 (get_approx g m) h int k x0 N.
Let x n k := nth x0 (run k).1.2 n.

Lemma lin_field (ab : 'cV[R]_m * 'cV[R]_m) tk :
  (fun z t => fs.1 z (t + tk) + fs.2 z (t + tk) *m jacR (fun s => eval_parabola s h ab.1 ab.2) t) =
  (fun z t => A *m z + S *m jacR (fun s => eval_parabola s h ab.1 ab.2) t).
Proof.
apply: functional_extensionality => z; apply: functional_extensionality => t.
by rewrite (correction_additive (fun z _ => A *m z) (fun _ => S) z (t + tk)).2.
Qed.

Lemma slope_cont (a b : 'cV[R]_m) : mx_cont (fun t => S *m jacR (fun s => eval_parabola s h a b) t).
Proof.
apply: mx_contM; first exact: mx_cont_const.
move=> t i j.
pose f s := h^-1 * (a i 0 + sqrt 6%:R * (1 - 2%:R * (s / h)) * b i 0).
apply: (@continuous_ext R_UniformSpace R_UniformSpace f) => [s|].
  by rewrite jacR_eval ?gt_eqF // !mxE ord1.
have -> : f = (fun s : R => (/ h * (a i 0%R + sqrt 6%Re * (1 - 2 * (s / h)) * b i 0%R))%Re).
  by apply: functional_extensionality => s; rewrite /f; move: (a i 0) (b i 0) => u v; toR.
move: (a i 0) (b i 0) => u v; apply: (@ex_derive_continuous _ R_NormedModule).
by auto_derive.
Qed.

Lemma lin_step n k : (n < N)%N ->
  let: (a, b) := parabolas m (child (child k N n) 2 0) h in
  x n.+1 k = expm (h *: A) *m x n k +
    mx_int (fun s => expm ((h - s) *: A) *m (S *m jacR (fun r => eval_parabola r h a b) s)) h.
Proof.
move=> nN.
have [E1 E2] : nth (0, 0) (run k).2 n = parabolas m (child (child k N n) 2 0) h /\
    x n.+1 k = int (child (child k N n) 2 1) (x n k) (fun z t => fs.1 z (t + n%:R * h) +
      fs.2 z (t + n%:R * h) *m jacR (fun s => eval_parabola s h (nth (0, 0) (run k).2 n).1 (nth (0, 0) (run k).2 n).2) t) h.
  exact: (@interval_ode g d m _ fs.1 fs.2 (get_approx g m) h int k x0 N n (0, 0) nN).
rewrite E2 E1 lin_field; case: (parabolas m _ h) => a b; cbn [fst snd].
have SC := @slope_cont a b.
rewrite (exact_int _ SC (voc0 A _ _) (fun t => @voc_deriv d A _ SC _ t)).
exact: (voc_int A SC).
Qed.

Definition kick (k : key g) : 'cV[R]_d :=
  let: (a, b) := parabolas m (child k 2 0) h in
  h^-1 *: (I0 A S h *m a) + (sqrt 6%:R / h) *: (I1 A S h *m b).

Lemma kick_int k : let: (a, b) := parabolas m (child k 2 0) h in
  mx_int (fun s => expm ((h - s) *: A) *m (S *m jacR (fun r => eval_parabola r h a b) s)) h = kick k.
Proof.
rewrite /kick; case: (parabolas m _ h) => a b.
have BC := @B_cont _ _ A S h; have QC := @qB_cont _ _ A S h.
symmetry; rewrite /I0 /I1.
set D := fun s => _ *m (S *m _).
have DE s : D s = h^-1 *: ((expm ((h - s) *: A) *m S) *m a) +
   (sqrt 6%:R / h) *: (((1 - 2%:R * (s / h)) *: (expm ((h - s) *: A) *m S)) *m b).
  rewrite /D jacR_eval ?gt_eqF // !mulmxA -!scalemxAr mulmxDr scalerDr; congr (_ + _).
  rewrite -!scalemxAr -!scalemxAl !scalerA; congr (_ *: _).
  by toR; move: (/ h)%Re (sqrt 6%Re) => u v; ring.
pose V0 := fun s => expm ((h - s) *: A) *m S.
pose V1 := fun s => (1 - 2%:R * (s / h)) *: (expm ((h - s) *: A) *m S).
rewrite !scalemxAr; apply: (@mx_int_unique _ _ (fun t => mx_int V0 t *m (h^-1 *: a) + mx_int V1 t *m ((sqrt 6%:R / h) *: b)) D).
- move=> t; rewrite DE.
  have := mx_derivD (mx_derivM (mx_int_deriv t BC) (mx_deriv_const (h^-1 *: a) t))
    (mx_derivM (mx_int_deriv t QC) (mx_deriv_const ((sqrt 6%:R / h) *: b) t)).
  by rewrite !mulmx0 !addr0 -!scalemxAr.
- apply: mx_contM (@slope_cont a b); have C := @B_cont d d A 1%:M h.
  by move=> t i j; have := C t i j; apply: continuous_ext => s; rewrite mulmx1.
- by rewrite !mx_int0 !mul0mx addr0.
Qed.

Variables (E F : expectation (key g)).
Hypotheses (split_iid : forall G, F (fun k => G (split k N)) = iid E N G)
  (std : standard2 E (fun k => normal2 (child k 2 0) 2 m)).
Let a (k : key g) := (parabolas m (child k 2 0) h).1.
Let b (k : key g) := (parabolas m (child k 2 0) h).2.

Lemma ab_moments : [/\ Emx E a = 0, Emx E b = 0, Emx E (fun k => a k *m (a k)^T) = h%:M,
  Emx E (fun k => a k *m (b k)^T) = 0 & Emx E (fun k => b k *m (b k)^T) = (h / 2%:R)%:M].
Proof.
pose E' := pushE (fun k : key g => child k 2 0) E.
have std' : standard2 E' (fun k => normal2 k 2 m).
  by have [s1 s2] := std; split=> [i j|i j k l]; [exact: s1 | exact: s2].
have L i j := parabola_law std' i j (ltW h0).
have L1 i : E (fun k => a k i 0) = 0 by have [] := L i i.
have L2 i : E (fun k => b k i 0) = 0 by have [] := L i i.
have L3 i j : E (fun k => a k i 0 * a k j 0) = (i == j)%:R * h by have [] := L i j.
have L4 i j : E (fun k => a k i 0 * b k j 0) = 0 by have [] := L i j.
have L5 i j : E (fun k => b k i 0 * b k j 0) = (i == j)%:R * (h / 2%:R) by have [] := L i j.
have O (u v : key g -> 'cV[R]_m) i j : Emx E (fun k => u k *m (v k)^T) i j = E (fun k => u k i 0 * v k j 0).
  by rewrite mxE; apply: E_ext => k; rewrite mulmxE big_ord1 trmxE.
split; apply/matrixP=> i j.
- by rewrite [LHS]mxE [RHS]mxE -[RHS](L1 i) ord1.
- by rewrite [LHS]mxE [RHS]mxE -[RHS](L2 i) ord1.
- by rewrite O L3 mxE mulr_natl.
- by rewrite O L4 mxE.
- by rewrite O L5 mxE mulr_natl.
Qed.

Lemma kickE k : kick k = h^-1 *: (I0 A S h *m a k) + (sqrt 6%:R / h) *: (I1 A S h *m b k).
Proof. by rewrite /kick /a /b; case: (parabolas m _ h). Qed.

Lemma kick_mean : Emx E kick = 0.
Proof.
have [a0 b0 _ _ _] := ab_moments.
by rewrite (Emx_ext _ kickE) EmxD !EmxZ !Emx_mull a0 b0 !mulmx0 !scaler0 addr0.
Qed.

Lemma kick_cov : Emx E (fun k => kick k *m (kick k)^T) = step_cov A S h.
Proof.
have [_ _ aa ab bb] := ab_moments.
have ba : Emx E (fun k => b k *m (a k)^T) = 0.
  by rewrite -[LHS]trmxK -EmxT -[RHS]trmx0 -ab; congr (_^T); apply: Emx_ext => k; rewrite trmx_mul trmxK.
set P := h^-1 *: I0 A S h; set Q := (sqrt 6%:R / h) *: I1 A S h.
have KE k : kick k *m (kick k)^T = P *m (a k *m (a k)^T) *m P^T + P *m (a k *m (b k)^T) *m Q^T +
    (Q *m (b k *m (a k)^T) *m P^T + Q *m (b k *m (b k)^T) *m Q^T).
  rewrite kickE !scalemxAl -/P -/Q linearD /= !trmx_mul !mulmxDl !mulmxDr !mulmxA.
  by rewrite -!addrA; congr (_ + _); rewrite addrCA.
rewrite (Emx_ext _ KE) !EmxD !Emx_mulr !Emx_mull aa ab ba bb !mulmx0 !mul0mx addr0 add0r.
have G p (C : R) (M : 'M[R]_(d, p)) (u : R) : (u *: M) *m C%:M *m (u *: M)^T = (u * u * C) *: (M *m M^T).
  have -> : (u *: M)^T = u *: M^T by apply/matrixP=> i j; rewrite !mxE.
  by rewrite mul_mx_scalar -!scalemxAl -scalemxAr !scalerA; congr (_ *: _); rewrite mulrAC -mulrA mulrC.
rewrite /step_cov /P /Q !G; congr (_ *: _ + _ *: _); first by rewrite mulfVK // gt_eqF.
have hn : h <> 0%Re by apply/eqP; rewrite gt_eqF.
have := sqrt6_sq; toR; move: (sqrt 6%Re) => s6 S6.
have -> : (s6 * / h * (s6 * / h) * (h * / 2) = s6 * s6 * / h * / 2)%Re by field.
by rewrite S6; toR; field.
Qed.

Let mean n := expm ((n%:R * h) *: A) *m x0.
Let cov n := Emx F (fun k => (x n k - mean n) *m (x n k - mean n)^T).

Lemma mxpow_expm n : mxpow (expm (h *: A)) n = expm ((n%:R * h) *: A).
Proof.
elim: n => [|n IH]; first by rewrite mul0r scale0r expm0.
by rewrite mxpowS IH -expm_add -natr1' mulrDl mul1r addrC.
Qed.

Lemma lin_moments : [/\ forall n, (n <= N)%N -> Emx F (x n) = mean n, cov 0%N = 0 &
  forall n, (n < N)%N -> cov n.+1 = expm (h *: A) *m cov n *m (expm (h *: A))^T + step_cov A S h].
Proof.
pose st (z : 'cV[R]_d) (k : key g) := expm (h *: A) *m z + kick k.
have xE n k : (n <= N)%N -> x n k = chain N st x0 n k.
  elim: n => [|n IH] nN.
    by rewrite chain0 /x /run sde_solverE.
  rewrite chainS // -IH ?(ltnW nN) // /st.
  have := lin_step k nN; have := kick_int (child k N n); rewrite -/(child k N n).
  by case: (@parabolas g m (child (child k N n) 2 0) h) => u v -> ->.
have [C1 C2 C3] := @chain_moments g E F N split_iid d st x0 (expm (h *: A)) _ kick (fun _ _ => erefl) kick_mean kick_cov.
have cE n : (n <= N)%N -> cov n = Emx F (fun k => (chain N st x0 n k - mxpow (expm (h *: A)) n *m x0) *m
    (chain N st x0 n k - mxpow (expm (h *: A)) n *m x0)^T).
  by move=> nN; apply: Emx_ext => k; rewrite xE // mxpow_expm.
split=> [n nN||n nN].
- by rewrite /mean -mxpow_expm -C1 //; apply: Emx_ext => k; rewrite xE.
- by rewrite cE.
- by rewrite !cE ?(ltnW nN) // C3.
Qed.

Let gap n := lin_sde_cov A S (n%:R * h) - cov n.

Lemma gapS n : (n < N)%N -> gap n.+1 = expm (h *: A) *m gap n *m (expm (h *: A))^T + step_defect A S h.
Proof.
move=> nN; have [_ _ CS] := lin_moments.
rewrite /gap CS // -natr1' mulrDl mul1r (cov_consistent A S _ h).2 mulmxBr mulmxBl /step_defect.
by rewrite opprD addrACA.
Qed.

Lemma gap0 : gap 0%N = 0.
Proof. by have [_ C0 _] := lin_moments; rewrite /gap C0 mul0r cov0 subrr. Qed.

Lemma gap_psd n : (n <= N)%N -> psd (gap n).
Proof.
elim: n => [|n IH] nN; first by rewrite gap0; exact: psd0.
by rewrite gapS //; apply: psdD; [apply: psd_congr; apply: IH; exact: ltnW | exact: defect_psd].
Qed.

Lemma gap_small n z (K : 'I_m -> R) : (n <= N)%N ->
  (forall r j, 0 <= r -> r <= n%:R * h -> `|(z^T *m (A *m (A *m (expm (r *: A) *m S)))) 0 j| <= K j) ->
  qf (gap n) z <= n%:R * ((\sum_j K j ^+ 2) * (h ^+ 5 / 80%:R)).
Proof.
elim: n z => [|n IH] z nN H; first by rewrite gap0 qf0 mul0r.
rewrite gapS // qfD -natr1' mulrDl mul1r; apply: ler_add.
  rewrite qf_congr; apply: IH => [|r j r0 rn]; first exact: ltnW.
  have -> : ((expm (h *: A))^T *m z)^T *m (A *m (A *m (expm (r *: A) *m S))) =
      z^T *m (A *m (A *m (expm ((h + r) *: A) *m S))).
    have C : expm (h *: A) *m A = A *m expm (h *: A) by rewrite expm_comm.
    have X (Y : 'M[R]_(d, m)) : expm (h *: A) *m (A *m Y) = A *m (expm (h *: A) *m Y) by rewrite mulmxA C -mulmxA.
    by rewrite trmx_mul trmxK -mulmxA !X expm_add !mulmxA.
  apply: H; first by rewrite addr_ge0 // ltW.
  by rewrite -natr1' mulrDl mul1r addrC ler_add2r.
apply: defect_small => // r j r0 rh; apply: H => //.
rewrite -natr1' mulrDl mul1r; apply: le_trans rh _; rewrite ler_addr.
by apply: mulr_ge0; [exact: ler0n | exact: ltW].
Qed.

Lemma qf_delta (M : 'M[R]_d) i : qf M (delta_mx i 0) = M i i.
Proof.
rewrite /qf trmx_delta -rowE mulmxE (bigD1 i) //= !mxE !eqxx mulr1 big1 ?addr0 // => p /negPf pl.
by rewrite !mxE pl mulr0.
Qed.

Lemma gap_entry n i j (T := n%:R * h) (al := \sum_i \sum_j `|A i j|) (ga := \sum_k (\sum_l `|S l k|) ^+ 2) : (n <= N)%N ->
  `|gap n i j| <= T * (al ^+ 4 * exp (2%:R * T * al) * ga / 80%:R) * h ^+ 4.
Proof.
move=> nN; apply: psd_offdiag; first exact: gap_psd.
move=> {i j} i; rewrite -qf_delta.
pose K j := al ^+ 2 * (exp (T * al) * \sum_l `|S l j|).
have al0 : 0 <= al by exact: l1norm_ge0.
have e0 (u : R) : 0 <= exp u by apply/RleP; left; exact: exp_pos.
apply: (le_trans (@gap_small n (delta_mx i 0) K nN _)).
  move=> r j r0 rT; rewrite trmx_delta -rowE mxE.
  have -> : (A *m (A *m (expm (r *: A) *m S))) i j = (A *m (A *m (expm (r *: A) *m col j S))) i 0.
    by rewrite !colE !mulmxA -colE [RHS]mxE.
  rewrite /K expr2 -mulrA; apply: lmul_bound => [|i1 j1].
    by rewrite !mulr_ge0 // sumr_ge0.
  apply: lmul_bound => [|i2 j2]; first by rewrite mulr_ge0 // sumr_ge0.
  rewrite mulmxE; apply: le_trans (ler_norm_sum _ _ _) _; rewrite mulr_sumr; apply: ler_sum => l _.
  by rewrite normrM [col _ _ _ _]mxE ler_wpmul2r // expm_bound.
rewrite le_eqVlt; apply/orP; left; apply/eqP.
have -> : \sum_j K j ^+ 2 = al ^+ 4 * exp (2%:R * T * al) * ga.
  rewrite /K /ga mulr_sumr; apply: eq_bigr => j _.
  have -> : exp (2%:R * T * al) = exp (T * al) * exp (T * al).
    transitivity (exp (Rplus (T * al) (T * al))); [by congr exp; toR; ring | exact: exp_plus].
  by move: (exp _) (\sum_l _) => u v; rewrite !exprS !expr0; toR; ring.
rewrite /T; set u := exp _; clearbody u; move: (n%:R : R) => t.
by rewrite !exprS !expr0; toR; field.
Qed.

Lemma cov_exact n : A *m (A *m S) = 0 -> (n <= N)%N -> cov n = lin_sde_cov A S (n%:R * h).
Proof.
move=> AAS nN; apply/eqP; rewrite eq_sym -subr_eq0 -/(gap n); apply/eqP/matrixP=> i j.
rewrite [RHS]mxE; apply/eqP; rewrite -normr_le0; apply: psd_offdiag; first exact: gap_psd.
move=> {i j} i; rewrite -qf_delta; apply: (le_trans (@gap_small n (delta_mx i 0) (fun _ => 0) nN _)).
  move=> r j _ _.
  have C : expm (r *: A) *m A = A *m expm (r *: A) by rewrite expm_comm.
  have -> : A *m (A *m (expm (r *: A) *m S)) = 0.
    by rewrite mulmxA -mulmxA [A *m (_ *m S)]mulmxA -C -mulmxA mulmxA -C -mulmxA AAS mulmx0.
  by rewrite mulmx0 mxE normr0.
by rewrite big1 ?mul0r ?mulr0 // => j _; rewrite expr0n.
Qed.

Lemma gap1 : (0 < N)%N -> gap 1%N = step_defect A S h.
Proof. by move=> N0; rewrite gapS // gap0 mulmx0 mul0mx add0r. Qed.
End Run.

(** ** Twice integrated Brownian motion: the covariance is not exact *)
Lemma poly_defect (c h : R) : 0 < h -> proj_defect (fun s => (c * ((h - s) ^ 2 / 2))%Re) h = (c ^ 2 * h ^ 5 / 720)%Re.
Proof.
move=> hp; have {hp} hn : h <> 0%Re by apply/eqP; rewrite gt_eqF.
rewrite /proj_defect.
have I2 : RInt (fun s => (c * ((h - s) ^ 2 / 2)) ^ 2)%Re 0 h = (c ^ 2 * h ^ 5 / 20)%Re.
  apply: is_RInt_unique.
  have -> : (c ^ 2 * h ^ 5 / 20 = minus (- c ^ 2 * (h - h) ^ 5 / 20) (- c ^ 2 * (h - 0) ^ 5 / 20))%Re.
    by rewrite /minus /plus /opp /=; field.
  apply: (@is_RInt_derive _ (fun s => - c ^ 2 * (h - s) ^ 5 / 20)%Re) => s _.
    by auto_derive => //; field.
  by apply: (@ex_derive_continuous _ R_NormedModule); auto_derive.
have J0 : RInt (fun s => c * ((h - s) ^ 2 / 2))%Re 0 h = (c * h ^ 3 / 6)%Re.
  apply: is_RInt_unique.
  have -> : (c * h ^ 3 / 6 = minus (- c * (h - h) ^ 3 / 6) (- c * (h - 0) ^ 3 / 6))%Re.
    by rewrite /minus /plus /opp /=; field.
  apply: (@is_RInt_derive _ (fun s => - c * (h - s) ^ 3 / 6)%Re) => s _.
    by auto_derive => //; field.
  by apply: (@ex_derive_continuous _ R_NormedModule); auto_derive.
have J1 : RInt (fun s => (1 - 2 * (s / h)) * (c * ((h - s) ^ 2 / 2)))%Re 0 h = (c * h ^ 3 / 12)%Re.
  apply: is_RInt_unique.
  pose P := (fun s => c * ((h - s) ^ 3 / 6 - (h - s) ^ 4 / (4 * h)))%Re.
  have -> : (c * h ^ 3 / 12 = minus (P h) (P 0))%Re.
    by rewrite /minus /plus /opp /= /P; field; exact: hn.
  apply: (@is_RInt_derive _ P) => s _.
    by rewrite /P; auto_derive => //; field; exact: hn.
  by apply: (@ex_derive_continuous _ R_NormedModule); auto_derive.
by rewrite I2 J0 J1; field; exact: hn.
Qed.

Lemma ibm2_entry (h s : R) : ((delta_mx 0 0 : 'cV[R]_3)^T *m (expm ((h - s) *: ioup_F 0 2) *m last_noise 2 1)) 0 0 =
  (1 * ((h - s) ^ 2 / 2))%Re.
Proof.
rewrite trmx_delta -rowE mxE ibm_B /= mul1r.
by rewrite subn0 expr2 (_ : 2`! = 2%N) //; toR; field.
Qed.

Lemma companion_ibm : companion 2 (fun _ => 0) = ioup_F 0 2.
Proof. by rewrite ioup_F_comp; congr companion; apply: functional_extensionality => j; case: eqP; rewrite ?oppr0. Qed.

Lemma ibm2_defect (h : R) : 0 < h -> step_defect (companion 2 (fun _ => 0)) (last_noise 2 1) h 0 0 = h ^+ 5 / 720%:R.
Proof.
move=> h0; rewrite companion_ibm -qf_delta qf_defect // big_ord1.
transitivity (proj_defect (fun s => (1 * ((h - s) ^ 2 / 2))%Re) h).
  congr proj_defect; apply: functional_extensionality => s; rewrite -ibm2_entry.
  by congr (_ _ _); apply: val_inj.
by rewrite poly_defect // !exprS expr0; toR; field.
Qed.

(** An integrator that solves affine equations: read the matrix off the field, then vary the constants. *)
Definition affine_solver (K : Type) d (k : K) (x : 'cV[R]_d) (f : 'cV[R]_d -> R -> 'cV[R]_d) (T : R) : 'cV[R]_d :=
  voc (jac (f^~ 0) 0) (f 0) x T.

Lemma affine_solver_exact (K : Type) d T : solves_affine (@affine_solver K d) T.
Proof.
move=> k x A u y uc y0 yd; rewrite /affine_solver jac_lin (voc_unique uc y0 yd).
by congr (voc _ _ _ _); apply: functional_extensionality => s; rewrite mulmx0 add0r.
Qed.

(** Keys whose first child gives independent signs for the two rows of coefficients. *)
Definition coefkeyE m : expectation ktree := pushE (fun l => Node [:: l; kzero]) (signkeyE 2 m).
Lemma coefkey_standard m : standard2 (coefkeyE m) (fun k => normal2 (child (k : key tree_prng) 2 0) 2 m).
Proof.
have [H1 H2] := signkey_standard 2 m; split=> [i j|i j k l].
  by rewrite -[RHS](H1 i j).
by rewrite -[RHS](H2 i j k l).
Qed.

Section Law.
Variables (g : prng) (d m : nat) (A : 'M[R]_d) (S : 'M[R]_(d, m)) (h : R).
Variable int : key g -> 'cV[R]_d -> ('cV[R]_d -> R -> 'cV[R]_d) -> R -> 'cV[R]_d.
Variables (N : nat) (x0 : 'cV[R]_d) (E F : expectation (key g)).
Let fs := to_stratonovich (fun z _ => A *m z) (fun _ _ => S).
Let x n (k : key g) := nth x0 (sde_solver fs.1 fs.2 (get_approx g m) h int k x0 N).1.2 n.
Let mean n := expm ((n%:R * h) *: A) *m x0.
Let cov n := Emx F (fun k => (x n k - mean n) *m (x n k - mean n)^T).

Lemma linear_law : 0 < h -> solves_affine int h ->
  (forall G, F (fun k => G (split k N)) = iid E N G) -> standard2 E (fun k => normal2 (child k 2 0) 2 m) ->
  forall n, (n <= N)%N ->
  let T := n%:R * h in
  let al := \sum_i \sum_j `|A i j| in let ga := \sum_k (\sum_l `|S l k|) ^+ 2 in
  [/\ Emx F (x n) = mean n, psd (lin_sde_cov A S T - cov n) &
      forall i j, `|(lin_sde_cov A S T - cov n) i j| <= T * (al ^+ 4 * exp (2%:R * T * al) * ga / 80%:R) * h ^+ 4].
Proof.
move=> h0 ex si st n nN T al ga; split.
- by have [H _ _] := @lin_moments g d m A S h int h0 ex N x0 E F si st; exact: H.
- exact: (@gap_psd g d m A S h int h0 ex N x0 E F si st).
- by move=> i j; exact: (@gap_entry g d m A S h int h0 ex N x0 E F si st).
Qed.

Lemma linear_cov : 0 < h -> solves_affine int h ->
  (forall G, F (fun k => G (split k N)) = iid E N G) -> standard2 E (fun k => normal2 (child k 2 0) 2 m) ->
  let B s := expm ((h - s) *: A) *m S in
  let I0 := mx_int B h in let I1 := mx_int (fun s => (1 - 2%:R * (s / h)) *: B s) h in
  let P := expm (h *: A) in
  cov 0%N = 0 /\
  forall n, (n < N)%N -> cov n.+1 = P *m cov n *m P^T + (h^-1 *: (I0 *m I0^T) + (3%:R / h) *: (I1 *m I1^T)).
Proof. by move=> h0 ex si st B J0 J1 P; have [] := @lin_moments g d m A S h int h0 ex N x0 E F si st. Qed.
End Law.

Lemma ibm2_refuted : exists d m (A : 'M[R]_d) (S : 'M[R]_(d, m)) i, forall (g : prng) (h : R) int N x0 (E F : expectation (key g)),
  0 < h -> solves_affine int h -> (0 < N)%N ->
  (forall G, F (fun k => G (split k N)) = iid E N G) -> standard2 E (fun k => normal2 (child k 2 0) 2 m) ->
  let fs := to_stratonovich (fun z _ => A *m z) (fun _ _ => S) in
  let x1 k := nth x0 (sde_solver fs.1 fs.2 (get_approx g m) h int k x0 N).1.2 1 in
  let mean := expm (h *: A) *m x0 in
  lin_sde_cov A S h i i - Emx F (fun k => (x1 k - mean) *m (x1 k - mean)^T) i i = h ^+ 5 / 720%:R.
Proof.
exists 3%N, 1%N, (companion 2 (fun _ => 0)), (last_noise 2 1), 0 => g h int N x0 E F h0 ex N0 si st fs x1 mean.
rewrite -(ibm2_defect h0) -(@gap1 g _ _ _ _ h int h0 ex N x0 E F si st N0) addmxE oppmxE mul1r.
by [].
Qed.
