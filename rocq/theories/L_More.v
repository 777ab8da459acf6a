(** Further proofs about the EKF solvers: the initial law of Algorithm 3, Algorithm 3 from a
    point, polynomial solutions, and stability of EKF1. *)
From Coq Require Import Reals Lra FunctionalExtensionality.
From Coquelicot Require Import Coquelicot.
From mathcomp Require Import all_ssreflect all_algebra mxtens.
From Verif Require Import Rstruct Base Linalg Lapack Calc Prob Spec M_Utils L_Utils M_Foster L_Foster M_SdeSolver L_SdeSolver
  M_Filter L_Filter M_Prior L_Prior M_OdeSolvers L_Ivp L_OdeSolvers L_Alg3 L_Init L_Total.

Set Implicit Arguments.
Unset Strict Implicit.
Unset Printing Implicit Defensive.
Import Order.TTheory GRing.Theory Num.Theory.
Local Open Scope ring_scope.

(** ** The initial law of Algorithm 3 *)
Section InitLaw.
Variables (lp : lapack) (d : nat) (f : 'cV[R]_d -> R -> 'cV[R]_d) (h : R) (sq : bool).
Variables (prior : prior_arg) (noise : noise_arg) (tr : transition (d * 2)) (V : 'M[R]_d).
Hypotheses (Ep : get_prior d 0 h prior = Val tr) (En : get_noise d noise = Val V).

Lemma alg3_all_zero EKF0 (H : 'M[R]_d) (g : prng) (k : option (key g)) s m0 P00 : psd P00 ->
  exists o smp P a b,
  alg3_all lp EKF0 H k (s, m0, P00) f h 0 sq prior noise =
    Val (o, (smp, interl (pair2 m0 (f m0 0)), P, a, b)) /\
  [/\ o.1.2 = m0, o.2 = P00 & P = interlace_matrix P00 (P00 *m H^T) (H *m P00) (H *m P00 *m H^T)].
Proof.
move=> pP; rewrite /alg3_all /_solver_all En Ep; cbn [rbind].
case: tr => [[xi Q] A]; rewrite /init_joint; set var := interlace_matrix _ _ _ _.
rewrite /output2; set W := if sq then sqrtm lp var else var.
have EW : (if sq then (if sq then W else sqrtm lp W) *m (if sq then W else sqrtm lp W)^T else W) = var.
  by rewrite /W; case: (sq) => //; exact: sqrtm_gram (joint_psd _ pP).
cbv beta iota zeta; cbn [rbind]; cbv beta iota zeta; rewrite EW; do 5 eexists; split; first reflexivity; cbn [fst snd].
split=> //; first by rewrite slice_interl.
by have [-> _ _ _] := interlace_matrix_slices P00 (P00 *m H^T) (H *m P00) (H *m P00 *m H^T).
Qed.
End InitLaw.

(** The covariance of (X, v + H (X - m0)). *)
Lemma joint_law (Om : Type) (E : expectation Om) d (X : Om -> 'cV[R]_d) (m0 v : 'cV[R]_d) P00 (H : 'M[R]_d) :
  Emx E X = m0 -> Emx E (fun w => (X w - m0) *m (X w - m0)^T) = P00 ->
  let Z w := interl (pair2 (X w) (v + H *m (X w - m0))) in
  let mu := interl (pair2 m0 v) in
  Emx E Z = mu /\
  Emx E (fun w => (Z w - mu) *m (Z w - mu)^T) = interlace_matrix P00 (P00 *m H^T) (H *m P00) (H *m P00 *m H^T).
Proof.
move=> E1 E2 Z mu.
pose B : 'M[R]_(d * 2, d) := (selector d 0)^T + (selector d (1 : 'I_2))^T *m H.
have EZ w : Z w - mu = B *m (X w - m0).
  apply: slice_ext => i; rewrite sliceB /Z /mu !slice_interl -sel_slice mulmxA.
  have -> : selector d i *m B = (i == 0)%:R%:M + (i == 1)%:R *: H.
    by rewrite /B mulmxDr mulmxA !sel_ortho mul_scalar_mx.
  elim/ord2P: i; rewrite /pair2 /= ?scalar0 ?scale0r ?scale1r ?addr0 ?mul1mx ?add0r //.
  by rewrite addrC addKr.
split.
  have -> : Emx E Z = Emx E (fun w => B *m (X w - m0) + mu) by apply: Emx_ext => w; rewrite -EZ subrK.
  by rewrite EmxD Emx_const Emx_mull (_ : Emx E (fun w => X w - m0) = 0) ?mulmx0 ?add0r // EmxD Emx_const E1 subrr.
rewrite (@Emx_ext _ _ _ _ _ (fun w => B *m ((X w - m0) *m (X w - m0)^T) *m B^T)).
  by rewrite Emx_mulr Emx_mull E2 joint_cov.
by move=> w; rewrite EZ trmx_mul !mulmxA.
Qed.

(** Mean and covariance at the start are those of (X, f m0 + H (X - m0)). *)
Lemma init_law (lp : lapack) (Om : Type) (E : expectation Om) d (f : 'cV[R]_d -> R -> 'cV[R]_d) h sq prior noise
  tr V (EKF0 : bool) (g : prng) (k : option (key g)) s (X : Om -> 'cV[R]_d) m0 P00 :
  get_prior d 0 h prior = Val tr -> get_noise d noise = Val V -> psd P00 ->
  Emx E X = m0 -> Emx E (fun w => (X w - m0) *m (X w - m0)^T) = P00 ->
  let H := if EKF0 then 0 else jac (f^~ 0) m0 in
  let Z w := interl (pair2 (X w) (f m0 0 + H *m (X w - m0))) in
  exists o smp m P a b,
  (if EKF0 then ekf0_2_all lp k (s, m0, P00) f h 0 sq prior noise
   else ekf1_2_all lp k (s, m0, P00) f h 0 sq prior noise) = Val (o, (smp, m, P, a, b)) /\
  [/\ m = Emx E Z, P = Emx E (fun w => (Z w - m) *m (Z w - m)^T), o.1.2 = m0 & o.2 = P00].
Proof.
move=> Ep En pP E1 E2 H Z; rewrite /ekf0_2_all /ekf1_2_all.
have [o [smp [P [a [b [Er [Eo1 Eo2 EP]]]]]]] := @alg3_all_zero lp d f h sq prior noise tr V Ep En EKF0 H g k s m0 P00 pP.
have [Z1 Z2] := @joint_law Om E d X m0 (f m0 0) P00 H E1 E2.
exists o, smp, (interl (pair2 m0 (f m0 0))), P, a, b; split.
  by rewrite -Er /H; case: (EKF0).
by split=> //; rewrite EP -Z2.
Qed.

Lemma alg3_all_fst (lp : lapack) d (f : 'cV[R]_d -> R -> 'cV[R]_d) h N sq prior noise (g : prng) (k : option (key g)) x :
  rmap fst (ekf0_2_all lp k x f h N sq prior noise) = ekf0_2 lp k x f h N sq prior noise /\
  rmap fst (ekf1_2_all lp k x f h N sq prior noise) = ekf1_2 lp k x f h N sq prior noise.
Proof.
case: x => [[s m0] P00]; rewrite /ekf0_2 /ekf1_2 /ekf0_2_all /ekf1_2_all /alg3 /alg3_all -!solver_all_fst.
by split; case: _solver_all => [[[x a] b]||].
Qed.

(** ** Algorithm 3 from a point mass *)
Lemma sqrtm0 (lp : lapack) n : sqrtm lp (0 : 'M[R]_n) = 0.
Proof.
have [_ E] := sqrtmP lp (psd0 n); have [[sW _] _] := sqrtmP lp (psd0 n).
set W := sqrtm lp 0 in E sW *; apply/matrixP=> i j; rewrite zeromxE.
have C : col j W = 0.
  by apply: sumsq_eq0; rewrite tr_col -row_mul sW colE mulmxA E mul0mx row0 zeromxE.
by have /colP/(_ i) := C; rewrite !mxE.
Qed.

Lemma init_joint_point (lp : lapack) d (H : 'M[R]_d) (f : 'cV[R]_d -> R -> 'cV[R]_d) x0 sq :
  init_joint lp H f x0 0 sq = (init_mean f x0 2, 0).
Proof.
rewrite /init_joint mulmx0 !mul0mx.
have -> : interlace_matrix (0 : 'M[R]_d) 0 0 0 = 0.
  have [e1 e2 e3 e4] := interlace_matrix_slices (0 : 'M[R]_d) 0 0 0.
  by apply: slice2_ext => i j; rewrite slice20; elim/ord2P: i; elim/ord2P: j.
rewrite sqrtm0; congr (_, _); last by case: sq.
by apply: slice_ext; elim/ord2P; rewrite !slice_interl.
Qed.

Section PointMass.
Variables (lp : lapack) (d : nat) (f : 'cV[R]_d -> R -> 'cV[R]_d) (h : R) (N : nat) (sq : bool).
Variables (tr : transition (d * 2)) (noise : noise_arg) (g : prng) (k : option (key g)) (s x0 : 'cV[R]_d).
Hypothesis d0 : (0 < d)%N.

Lemma point_ekf0 : ekf0 lp k x0 f h N sq (a_prior tr) noise =
  rmap (fun r : gauss d => r.1.1) (ekf0_2 lp k (s, x0, 0) f h N sq (a_prior tr) noise).
Proof.
rewrite (@ekf0_run lp d f h N sq g k d0 0 tr) /ekf0_2 /alg3 init_joint_point /=.
by case: (_solver _ _ _ _ _ _ _ _) => [[m P]||] //=; case: k.
Qed.

Lemma point_ekf1 : ekf1 lp k x0 f h N sq (a_prior tr) noise =
  rmap (fun r : gauss d => r.1.1) (ekf1_2 lp k (s, x0, 0) f h N sq (a_prior tr) noise).
Proof.
rewrite (@ekf1_run lp d f h N sq g k d0 0 tr) /ekf1_2 /alg3 init_joint_point /=.
by case: (_solver _ _ _ _ _ _ _ _) => [[m P]||] //=; case: k.
Qed.
End PointMass.

(** ** Means that satisfy the ODE are not corrected *)
Section Follow.
Variables (lp : lapack) (nx ny : nat) (obs : dual nx -> R -> dual ny) (A : 'M[R]_nx) (xi : 'cV[R]_nx).

Lemma update_zero (m : 'cV[R]_nx) P (H : 'M[R]_(ny, nx)) Rn sq r :
  update lp (m, P) 0 H Rn sq = Val r -> r.1.1 = m.
Proof.
rewrite /update; case: sq.
  rewrite /solve_lower; case: ifP => //= _ [<-] /=; by rewrite !mulmx0 subr0.
by case: solve_pos => [K||] //= [<-] /=; rewrite mulmx0 subr0.
Qed.

Lemma ekf_follow Q Rn sq init (mu : nat -> 'cV[R]_nx) (ts : seq R) r :
  init.1 = mu 0%N ->
  (forall k, (k < size ts)%N -> A *m mu k + xi = mu k.+1 /\ dprimal (obs^~ (nth 0 ts k)) (mu k.+1) = 0) ->
  ekf lp obs A Q xi Rn sq init ts = Val r -> r.1 = mu (size ts).
Proof.
move=> E0; elim/last_ind: ts r => [|ts t IH] r Hs; first by rewrite ekf_nil => -[<-].
rewrite ekf_rcons; case E: ekf => [x||] //; cbn [rbind]; rewrite /ekf_body size_rcons.
have {}IH : x.1 = mu (size ts).
  apply: IH E => k kn; have := Hs k; rewrite size_rcons nth_rcons kn; apply; exact: ltnW.
have [HA HO] := Hs (size ts) ltac:(by rewrite size_rcons).
move: HO; rewrite nth_rcons ltnn eqxx => HO.
have Em : (predict lp x A Q xi sq).1 = mu (size ts).+1.
  by case: (x) IH => m P /= ->; rewrite -HA; case: (sq).
case: (predict _ _ _ _ _ _) Em => mp Pp; cbn [fst] => ->; rewrite HO.
by case U: (update lp (mu (size ts).+1, Pp) 0 (jacfwd (obs^~ t) (mu (size ts).+1)) Rn sq) => [u||] //; cbn [rbind] => -[<-]; exact: update_zero U.
Qed.
End Follow.

Lemma sum_first3 (V : zmodType) n (G : nat -> V) : (forall j, (2 < j)%N -> G j = 0) -> (n = 0%N -> G 2%N = 0) ->
  \sum_(j < n.+2) G j = G 0%N + G 1%N + G 2%N.
Proof.
move=> H3 H2; rewrite !big_ord_recl addrA; congr (_ + _); case: n H2 => [|n] H2; first by rewrite big_ord0 H2.
by rewrite big_ord_recl big1 ?addr0 // => j _; apply: H3.
Qed.

(** ** Polynomial solutions *)
Section Poly.
Variables (lp : lapack) (d : nat) (f : 'cV[R]_d -> R -> 'cV[R]_d) (h sigma : R) (n : nat).
Hypotheses (h0 : 0 < h) (s0 : sigma != 0).
Variables (x0 v w : 'cV[R]_d) (N : nat).
(** The solution, and its derivative. *)
Let y (t : R) := x0 + t *: v + (t ^+ 2 / 2%:R) *: w.
Let y' (t : R) := v + t *: w.
Hypothesis Hv : f x0 0 = v.
Hypothesis Hw : w = if n == 0%N then 0 else jac (f^~ 0) x0 *m v.
Hypothesis Hf : forall k, (k < N)%N -> f (y (k.+1%:R * h)) (k.+1%:R * h) = y' (k.+1%:R * h).

Let mu (k : nat) : 'cV[R]_(d * n.+2) := interl (fun i : 'I_n.+2 =>
  match val i with 0 => y (k%:R * h) | 1 => y' (k%:R * h) | 2 => w | _ => 0 end).

Lemma mu0 : mu 0 = init_mean f x0 n.+2.
Proof.
apply: slice_ext => i; rewrite !slice_interl /y /y' mul0r expr2 !mul0r !scale0r !addr0.
case: i => [[|[|[|i]]]] //= H; rewrite Hv //.
by move: H Hw; case: (n).
Qed.

Lemma muS k : (ioup 0 sigma n.+1 h d).2 *m mu k = mu k.+1.
Proof.
apply: slice_ext => i; rewrite slice_mul [in RHS]slice_interl.
pose c (j : nat) : R := if (i <= j)%N then h ^+ (j - i) / (j - i)`!%:R else 0.
pose s (k j : nat) : 'cV[R]_d := match j with 0 => y (k%:R * h) | 1 => y' (k%:R * h) | 2 => w | _ => 0 end.
have -> : \sum_j slice2 i j (ioup 0 sigma n.+1 h d).2 *m slice j (mu k) = \sum_(j < n.+2) c j *: s k j.
  by apply: eq_bigr => j _; rewrite /= slice2_kron ibm_exp slice_interl mul_scalar_mx.
rewrite (@sum_first3 _ n (fun j => c j *: s k j)); [|by case=> [|[|[|j]]] // _; rewrite scaler0|by move=> n0; rewrite /= Hw n0 scaler0].
have Ek : k.+1%:R * h = k%:R * h + h by rewrite -addn1 natrD mulrDl mul1r.
rewrite /s /c Ek /y /y'; move: (k%:R * h) => t; move: (w) => w'.
rewrite ![val i]/=; case: (nat_of_ord i) => [|[|[|j]]]; rewrite /= ?subnn ?subn0.
- rewrite !fact0 ![_`!]/= expr0 ?expr1; apply/colP=> l; rewrite !(addmxE, scalemxE); rfield.
- rewrite scale0r add0r fact0 expr0 ?expr1; apply/colP=> l; rewrite !(addmxE, scalemxE); rfield.
- by rewrite !scale0r !add0r fact0 expr0 divr1 scale1r.
- by rewrite !scale0r !addr0.
Qed.

Lemma poly_exact sq EKF0 P0 noise m P :
  @_solver lp d n (init_mean f x0 n.+2, P0) f h N sq EKF0 (a_prior (ioup 0 sigma n.+1 h d)) noise = Val (m, P) ->
  slice 0 m = y (N%:R * h).
Proof.
rewrite /_solver; case: (get_noise _ _) => [Rn||] //; cbn [rbind].
rewrite get_prior_id /ioup; cbn [rbind].
case EN: N => [|N']; first by move=> -[<- _]; rewrite -mu0 slice_interl.
case: (if sq then _ else _) => [Q'||] //; cbn [rbind]; rewrite linspace_grid1 -EN => E.
have -> : m = mu N; last by rewrite slice_interl.
have := @ekf_follow lp _ _ _ _ _ _ _ _ _ mu _ _ _ _ E; cbn [fst]; rewrite size_mkseq; apply; first by rewrite mu0.
move=> k kN; rewrite nth_mkseq // obs_residual; split; first by rewrite addr0 -[RHS]muS.
by rewrite !slice_interl /= Hf // subrr.
Qed.
End Poly.

Lemma poly_linear (lp : lapack) d (f : 'cV[R]_d -> R -> 'cV[R]_d) (h sigma : R) (x0 v : 'cV[R]_d) N sq g noise :
  (0 < d)%N -> 0 < h -> sigma != 0 ->
  noise = None \/ (exists2 V : 'M[R]_d, noise = a_noise V & (sq = false -> psd V)) ->
  (forall k, (k <= N)%N -> f (x0 + (k%:R * h) *: v) (k%:R * h) = v) ->
  let tr := ioup 0 sigma 1 h d in
  ekf0 lp (None : option (key g)) x0 f h N sq (a_prior tr) noise = Val (x0 + (N%:R * h) *: v) /\
  ekf1 lp (None : option (key g)) x0 f h N sq (a_prior tr) noise = Val (x0 + (N%:R * h) *: v).
Proof.
move=> d0 h0 s0 nO Hf tr; have pQ : pd tr.1.2 by exact: ioup_pd.
have Hv : f x0 0 = v by have := Hf 0%N isT; rewrite mul0r scale0r addr0.
have HF k : (k < N)%N -> f (x0 + (k.+1%:R * h) *: v + ((k.+1%:R * h) ^+ 2 / 2%:R) *: (0 : 'cV_d)) (k.+1%:R * h) =
                 v + (k.+1%:R * h) *: (0 : 'cV_d).
  by move=> kN; rewrite !scaler0 !addr0; exact: Hf.
have Px := @poly_exact lp d f h sigma 0%N x0 v 0 N Hv erefl HF sq.
split.
- have [y] := @ekf0_total lp d f h N sq g None x0 0%N tr noise d0 isT pQ nO; rewrite ekf0_run //.
  case E: _solver => [[m P]||] //; cbn [rbind] => _; congr Val; rewrite /output.
  by rewrite (Px _ _ _ _ _ E) scaler0 addr0.
- have [y] := @ekf1_total lp d f h N sq g None x0 0%N tr noise d0 pQ nO; rewrite ekf1_run //.
  case E: _solver => [[m P]||] //; cbn [rbind] => _; congr Val; rewrite /output.
  by rewrite (Px _ _ _ _ _ E) scaler0 addr0.
Qed.

Lemma poly_quadratic (lp : lapack) d (f : 'cV[R]_d -> R -> 'cV[R]_d) (h sigma : R) (x0 v w : 'cV[R]_d) N sq g noise n :
  (0 < d)%N -> 0 < h -> sigma != 0 ->
  noise = None \/ (exists2 V : 'M[R]_d, noise = a_noise V & (sq = false -> psd V)) ->
  (forall k, (k <= N)%N -> let t := k%:R * h in f (x0 + t *: v + (t ^+ 2 / 2%:R) *: w) t = v + t *: w) ->
  jac (f^~ 0) x0 *m v = w ->
  let T := N%:R * h in
  let y := x0 + T *: v + (T ^+ 2 / 2%:R) *: w in
  ekf0 lp (None : option (key g)) x0 f h N sq (a_prior (ioup 0 sigma 2 h d)) noise = Val y /\
  ekf1 lp (None : option (key g)) x0 f h N sq (a_prior (ioup 0 sigma n.+2 h d)) noise = Val y.
Proof.
move=> d0 h0 s0 nO Hf Hw T y.
have Hv : f x0 0 = v by have := Hf 0%N isT; rewrite /= mul0r expr2 !mul0r !scale0r !addr0.
have Px m := @poly_exact lp d f h sigma m.+1 x0 v w N Hv (esym Hw) (fun k kN => Hf k.+1 kN) sq.
split.
- have [z] := @ekf0_total lp d f h N sq g None x0 1%N (ioup 0 sigma 2 h d) noise d0 isT (ioup_pd _ _ s0 h0) nO; rewrite ekf0_run //.
  by case E: _solver => [[m P]||] //; cbn [rbind] => _; congr Val; rewrite /output (Px _ _ _ _ _ _ E).
- have [z] := @ekf1_total lp d f h N sq g None x0 n.+1 (ioup 0 sigma n.+2 h d) noise d0 (ioup_pd _ _ s0 h0) nO; rewrite ekf1_run //.
  by case E: _solver => [[m P]||] //; cbn [rbind] => _; congr Val; rewrite /output (Px _ _ _ _ _ _ E).
Qed.
