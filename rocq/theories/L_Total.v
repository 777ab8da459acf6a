(** The EKF solvers return a value when the prior has a positive definite covariance; Algorithm 4
    with the missing argument supplied. *)
From Coq Require Import Reals Lra FunctionalExtensionality.
From Coquelicot Require Import Coquelicot.
From mathcomp Require Import all_ssreflect all_algebra mxtens.
From Verif Require Import Rstruct Base Linalg Lapack Calc Prob Spec M_Utils L_Utils M_Foster L_Foster M_SdeSolver L_SdeSolver
  M_Filter L_Filter M_Prior L_Prior M_OdeSolvers L_OdeSolvers L_Alg3 L_Init M_Ssm L_Ssm.

Set Implicit Arguments.
Unset Strict Implicit.
Unset Printing Implicit Defensive.
Import Order.TTheory GRing.Theory Num.Theory.
Local Open Scope ring_scope.

Lemma pd_congr_inv n m (B : 'M[R]_(m, n)) (C : 'M[R]_(n, m)) (A : 'M[R]_n) :
  B *m C = 1%:M -> pd A -> pd (B *m A *m B^T).
Proof.
move=> BC pA; have [sA pA'] := pA; split=> [|y y0]; first exact: (psd_congr B (pd_psd pA)).1.
rewrite qf_congr; apply: pA'; apply: contra y0 => /eqP E.
by apply/eqP; rewrite -[y]mul1mx -trmx1 -BC trmx_mul -mulmxA E mulmx0.
Qed.

Section Total.
Variables (lp : lapack) (nx ny : nat) (obs : dual nx -> R -> dual ny) (A : 'M[R]_nx) (xi : 'cV[R]_nx).

Lemma ekf_total_plain Q Rn m P ts : psd P -> psd Q -> psd Rn ->
  (forall x t, let H := jacfwd (obs^~ t) x in pd (H *m Q *m H^T)) ->
  exists r, ekf lp obs A Q xi Rn false (m, P) ts = Val r.
Proof.
move=> pP pQ pR HQ; elim/last_ind: ts => [|ts t [[m1 P1] E]]; first by exists (m, P).
rewrite ekf_rcons E; cbn [rbind]; rewrite /ekf_body /predict; cbn [fst snd].
have pP1 := ekf_psd pP pQ pR E.
set mp := A *m m1 + xi; set H := jacfwd _ _.
have pPp : psd (A *m P1 *m A^T + Q) by apply: psdD => //; exact: psd_congr.
have pS : pd (H *m (A *m P1 *m A^T + Q) *m H^T + Rn).
  rewrite mulmxDr mulmxDl -addrA addrC -addrA; apply: pdD; first exact: HQ.
  by apply: psdD => //; apply: psd_congr; exact: psd_congr.
by rewrite (updateE lp mp (dprimal (obs^~ t) mp) pPp pS); eexists.
Qed.

Lemma ekf_total sq Q Rn m P ts : (sq = false -> [/\ psd P, psd Q & psd Rn]) ->
  (forall x t, let H := jacfwd (obs^~ t) x in pd (H *m (if sq then Q *m Q^T else Q) *m H^T)) ->
  exists r, ekf lp obs A Q xi Rn sq (m, P) ts = Val r.
Proof.
case: sq => [_|/(_ erefl) [pP pQ pR]] HQ; last exact: ekf_total_plain.
have [r E] := @ekf_total_plain (Q *m Q^T) (Rn *m Rn^T) m (P *m P^T) ts (psd_gram _) (psd_gram _) (psd_gram _) HQ.
by move: E; rewrite ekf_sqrt_state; case: ekf => [x||] //= _; exists x.
Qed.
End Total.

(** ** Algorithms 1-3 *)
Section Ode.
Variables (lp : lapack) (d : nat) (f : 'cV[R]_d -> R -> 'cV[R]_d) (h : R) (N : nat) (sq : bool).

Lemma obs_pd n EKF0 (Q : 'M[R]_(d * n.+2)) x t : pd Q ->
  let H := jacfwd (fun z => @observation_function d EKF0 f n z t) x in pd (H *m Q *m H^T).
Proof.
move=> pQ; apply: (pd_congr_inv (C := (selector d 1)^T)) pQ.
have ort (i : 'I_n.+2) : selector d i *m (selector d 1)^T = (i == 1)%:R%:M.
  apply/matrixP=> k l; rewrite mul_selT !mxE (can_eq (@mxtens_indexK _ _)) xpair_eqE.
  by rewrite [l == k]eq_sym [1 == i]eq_sym; case: (k == l); case: (i == 1).
case: EKF0; first by rewrite obs_jac0 ort eqxx.
have z1 : (0 == 1 :> 'I_n.+2) = false by [].
by rewrite obs_jac1 mulmxBl -mulmxA !ort eqxx z1 scalar0 mulmx0 subr0.
Qed.

(** The noise is absent, or usable: any (dim, dim) array as a factor, a covariance otherwise. *)
Definition noise_ok (noise : noise_arg) : Prop :=
  noise = None \/ exists2 V : 'M[R]_d, noise = a_noise V & (sq = false -> psd V).

Lemma noise_okP noise : noise_ok noise -> exists2 V : 'M[R]_d, get_noise d noise = Val V & (sq = false -> psd V).
Proof.
case=> [->|[V -> pV]]; first by exists 0 => // _; exact: psd0.
by exists V => //; exact: get_noise_id.
Qed.

Lemma solver_total n EKF0 m0 P0 prior noise (tr : transition (d * n.+2)) :
  get_prior d n h prior = Val tr -> pd tr.1.2 -> (sq = false -> psd P0) -> noise_ok noise ->
  exists r, @_solver lp d n (m0, P0) f h N sq EKF0 prior noise = Val r.
Proof.
case: tr => [[xi Q] A] /= Ep pQ pP /noise_okP [V En pV].
have [Q' EQ GQ] : exists2 Q', (if sq then cholesky lp Q else Val Q) = Val Q' & (if sq then Q' *m Q'^T else Q') = Q.
  case: (sq); last by exists Q.
  by have [L [E _ _ LL]] := cholP lp pQ; exists L => //; rewrite /cholesky E.
rewrite (solver_run f EKF0 (m0, P0) N Ep En EQ); apply: ekf_total.
  move=> e; split; [exact: pP | | exact: pV].
  by move: GQ; rewrite e => ->; exact: pd_psd.
by move=> x t; rewrite GQ; exact: obs_pd.
Qed.

Lemma ekf0_total g (k : option (key g)) x0 n (tr : transition (d * n.+2)) noise :
  (0 < d)%N -> (n < 2)%N -> pd tr.1.2 -> noise_ok noise ->
  exists y, ekf0 lp k x0 f h N sq (a_prior tr) noise = Val y.
Proof.
move=> d0 n2 pQ nO; rewrite ekf0_run // n2.
have [r ->] := @solver_total n true (init_mean f x0 n.+2) 0 (a_prior tr) noise tr (get_prior_id _ _) pQ (fun _ => psd0 _) nO.
by eexists.
Qed.

Lemma ekf1_total g (k : option (key g)) x0 n (tr : transition (d * n.+2)) noise :
  (0 < d)%N -> pd tr.1.2 -> noise_ok noise ->
  exists y, ekf1 lp k x0 f h N sq (a_prior tr) noise = Val y.
Proof.
move=> d0 pQ nO; rewrite ekf1_run //.
have [r ->] := @solver_total n false (init_mean f x0 n.+2) (ekf1_var d n) (a_prior tr) noise tr (get_prior_id _ _) pQ
  (fun _ => free_psd _ _) nO.
by eexists.
Qed.

Lemma alg3_total EKF0 H g (k : option (key g)) s m0 P00 prior noise (tr : transition (d * 2)) :
  get_prior d 0 h prior = Val tr -> pd tr.1.2 -> psd P00 -> noise_ok noise ->
  exists s' m' P', psd P' /\ alg3 lp EKF0 H k (s, m0, P00) f h N sq prior noise = Val (s', m', P').
Proof.
move=> Ep pQ pP nO; rewrite /alg3.
have := @init_joint_slices lp d f sq H m0 P00 pP.
case EI: (init_joint _ _ _ _ _ _) => [m W] [[_ _ pC] _].
have pW : sq = false -> psd W.
  by move=> e; move: pC EI; rewrite /init_joint e => pC [_ <-].
have [[m' P'] E] := @solver_total 0 EKF0 m W prior noise tr Ep pQ pW nO; rewrite E; cbn [rbind].
exists (output2 lp k sq (m', P')).1.1.1, (output2 lp k sq (m', P')).1.1.2, (output2 lp k sq (m', P')).1.2.
split; last by case: (output2 _ _ _ _) => [[[? ?] ?] ?].
have pP' : psd (if sq then P' *m P'^T else P').
  case es: (sq); first exact: psd_gram.
  have [V En pV] := noise_okP nO.
  case: tr Ep pQ => [[xi Q] A] Ep pQ.
  move: E; rewrite es (@solver_run lp d 0 f h false EKF0 prior noise (m, W) N xi Q A V Q Ep En erefl).
  by apply: ekf_psd; [exact: pW | exact: pd_psd | exact: pV].
by rewrite /output2; cbn [fst snd]; rewrite -sel_slice2; apply: psd_congr; case: (sq) pP'.
Qed.
End Ode.

(** ** Whole runs *)
Lemma driver_inv (g : prng) d m X (drift : 'cV[R]_d -> R -> 'cV[R]_d) (sigma : 'cV[R]_d -> R -> 'M[R]_(d, m))
  (bm : path_approx g m) delta (int : key g -> X -> ('cV[R]_d -> R -> 'cV[R]_d) -> R -> X) (I : X -> Prop) k x0 N :
  (forall k x f, I x -> I (int k x f delta)) -> I x0 ->
  forall i, (i <= N)%N -> I (nth x0 (sde_solver drift sigma bm delta int k x0 N).1.2 i).
Proof.
move=> step I0.
have c0 : coeffs bm := get_coeffs bm k delta.
elim=> [|i IH] iN.
  by have [-> _] := @driver_states g d m X drift sigma bm delta int k x0 N c0.
have [_ st] := @driver_states g d m X drift sigma bm delta int k x0 N c0.
by have [_ ->] := st i iN; apply: step; apply: IH; exact: ltnW.
Qed.

(** ** Algorithm 4 with [xi = 0] *)
Section Repaired.
Variables (lp : lapack) (d : nat) (drift : 'cV[R]_d -> R -> 'cV[R]_d) (diffusion : 'cV[R]_d -> R -> 'M[R]_d)
  (delta h : R) (N : nat) (sq EKF0 : bool).
Notation sel4 := (@selector d 4).
Notation sel2 := (@selector d 2).

Definition emb : 'M[R]_(d * 4, d * 2) := (sel4 0)^T *m sel2 0 + (sel4 1)^T *m sel2 1.

Lemma sel_emb (i : 'I_4) : sel4 i *m emb = match val i with 0 => sel2 0 | 1 => sel2 1 | _ => 0 end.
Proof.
rewrite mulmxDr !mulmxA !sel4_ortho.
have -> : (i == 0) = (val i == 0%N) by [].
have -> : (i == 1) = (val i == 1%N) by [].
by case: i => [[|[|[|[|i]]]] Hi] //; rewrite ![val (Ordinal _)]/= ?eqxx ?mulr0n ?mulr1n ?scalar0 ?mul0mx ?mul1mx ?add0r ?addr0.
Qed.

Lemma pad_kron (Q : 'M[R]_2) : kron_eye d (ssm_pad Q 0) = emb *m kron_eye d Q *m emb^T.
Proof.
apply: slice2_ext => i j; rewrite slice2_kron -[RHS]sel_slice2 !mulmxA sel_emb -[in RHS]mulmxA -trmx_mul sel_emb /ssm_pad.
have e0 : lshift 2 (0 : 'I_2) = 0 :> 'I_4 by apply/val_inj.
have e1 : lshift 2 (1 : 'I_2) = 1 :> 'I_4 by apply/val_inj.
have er (l : 'I_2) : val (rshift 2 l : 'I_4) = l.+2 by [].
case: (@split_ordP 2 2 i) => i' ->; case: (@split_ordP 2 2 j) => j' ->.
- have -> : (block_mx Q 0 0 0 : 'M[R]_4) (lshift 2 i') (lshift 2 j') = Q i' j' by [exact: block_mxEul]; rewrite -slice2_kron -sel_slice2.
  by case: (ord2P i') => ->; case: (ord2P j') => ->.
- by have -> : (block_mx Q 0 0 0 : 'M[R]_4) (lshift 2 i') (rshift 2 j') = (0 : 'M[R]_2) i' j' by [exact: block_mxEur]; rewrite er zeromxE scalar0 trmx0 mulmx0.
- by have -> : (block_mx Q 0 0 0 : 'M[R]_4) (rshift 2 i') (lshift 2 j') = (0 : 'M[R]_2) i' j' by [exact: block_mxEdl]; rewrite er zeromxE scalar0 !mul0mx.
- by have -> : (block_mx Q 0 0 0 : 'M[R]_4) (rshift 2 i') (rshift 2 j') = (0 : 'M[R]_2) i' j' by [exact: block_mxEdr]; rewrite er zeromxE scalar0 !mul0mx.
Qed.

Lemma ssm_obs_pd (Q : 'M[R]_2) x t : pd Q ->
  let H := jacfwd (fun z => ssm_observation EKF0 drift diffusion delta z t) x in
  pd (H *m kron_eye d (ssm_pad Q 0) *m H^T).
Proof.
move=> pQ H; rewrite pad_kron !mulmxA -mulmxA -trmx_mul.
apply: (pd_congr_inv (C := (sel2 1)^T)); last exact: kron_pd.
have sl : slopes d delta t *m emb = 0.
  by rewrite /slopes -scalemxAl mulmxDl -scalemxAl !sel_emb v2 v3 scaler0 addr0 scaler0.
have ort1 : sel2 1 *m (sel2 1)^T = 1%:M by rewrite sel_ortho eqxx.
have ort0 : sel2 0 *m (sel2 1)^T = 0 by rewrite sel_ortho scalar0.
rewrite /H; case: (EKF0); [rewrite jac_ssm0 | rewrite jac_ssm1]; rewrite !mulmxBl -!mulmxA.
  by rewrite [slopes _ _ _ *m (_ *m _)]mulmxA sl mul0mx mulmx0 subr0 mulmxA sel_emb ort1.
by rewrite [slopes _ _ _ *m (_ *m _)]mulmxA sl mul0mx mulmx0 subr0 !(mulmxA (sel4 _)) !sel_emb ort1 ort0 mulmx0 subr0.
Qed.

Lemma emb_ortho : emb^T *m emb = 1%:M.
Proof.
have trD m n (B C : 'M[R]_(m, n)) : (B + C)^T = B^T + C^T by apply/matrixP=> i j; rewrite !mxE.
rewrite {1}/emb trD !trmx_mul !trmxK mulmxDl -!mulmxA !sel_emb; cbn [nat_of_ord].
by rewrite -sel_full sum2V.
Qed.

Lemma pad_gram (L : 'M[R]_2) : kron_eye d (ssm_pad L 0) *m (kron_eye d (ssm_pad L 0))^T = kron_eye d (ssm_pad (L *m L^T) 0).
Proof.
rewrite !pad_kron !trmx_mul trmxK !mulmxA -[_ *m emb^T *m emb]mulmxA emb_ortho mulmx1.
by rewrite kron_tr -[emb *m _ *m _]mulmxA kron_mul.
Qed.

Lemma pad_psd (Q : 'M[R]_2) : psd Q -> psd (kron_eye d (ssm_pad Q 0)).
Proof. by move=> pQ; rewrite pad_kron; apply: psd_congr; exact: kron_psd. Qed.

Definition ssm_A (A : 'M[R]_2) := kron_eye d (ssm_pad A 1%:M).

(** The run as a filter run. *)
Lemma ssm_run x0 prior noise xi Q A Rn Q' : (0 < d)%N ->
  ssm_prior h prior = Val (xi, Q, A) -> get_noise d noise = Val Rn -> (if sq then cholesky lp Q else Val Q) = Val Q' ->
  ssm_solver_xi lp x0 drift diffusion delta h N sq EKF0 prior noise (Some 0) =
  ekf lp (ssm_observation EKF0 drift diffusion delta) (ssm_A A) (kron_eye d (ssm_pad Q' 0)) 0 Rn sq
    (ssm_mean x0 drift, if sq then sqrtm lp (ssm_var delta (diffusion x0 0)) else ssm_var delta (diffusion x0 0))
    (mkseq (fun k => k.+1%:R * h) N).
Proof.
move=> d0 Ep En EQ; rewrite /ssm_solver_xi eqxx En Ep; cbn [rbind]; rewrite eqn0Ngt d0 EQ.
rewrite /call_ekf linspace_grid1 as_mx_id.
have -> : (fun x t => as_mx d d (diffusion x t)) = diffusion.
  by apply: functional_extensionality => x; apply: functional_extensionality => t; rewrite as_mx_id.
by case: N => [|N'].
Qed.

Lemma sqrt_or_var x0 : 0 < delta ->
  let W := if sq then sqrtm lp (ssm_var delta (diffusion x0 0)) else ssm_var delta (diffusion x0 0) in
  (if sq then W *m W^T else W) = ssm_var delta (diffusion x0 0).
Proof. by move=> dl; case: (sq) => //=; apply: sqrtm_gram; exact: var_psd. Qed.

Lemma chol_or Q : pd Q -> exists2 Q' : 'M[R]_2, (if sq then cholesky lp Q else Val Q) = Val Q' & (if sq then Q' *m Q'^T else Q') = Q.
Proof.
move=> pQ; case: (sq); last by exists Q.
by have [L [E _ _ LL]] := cholP lp pQ; exists L => //; rewrite /cholesky E.
Qed.

Lemma ssm_total x0 prior noise tr : (0 < d)%N -> 0 < delta ->
  ssm_prior h prior = Val tr -> pd tr.1.2 -> noise_ok d sq noise ->
  exists r, ssm_solver_xi lp x0 drift diffusion delta h N sq EKF0 prior noise (Some 0) = Val r.
Proof.
case: tr => [[xi Q] A] d0 dl Ep /= pQ /noise_okP [V En pV].
have [Q' EQ GQ] := chol_or pQ.
rewrite (ssm_run x0 d0 Ep En EQ); apply: ekf_total.
  move=> e; split; [|apply: pad_psd | exact: pV].
    by rewrite e; exact: var_psd.
  by move: GQ; rewrite e => ->; exact: pd_psd.
move=> x t H; have -> : (if sq then kron_eye d (ssm_pad Q' 0) *m (kron_eye d (ssm_pad Q' 0))^T else kron_eye d (ssm_pad Q' 0)) =
    kron_eye d (ssm_pad Q 0).
  by move: GQ; case: (sq) => [<-|-> //]; exact: pad_gram.
exact: ssm_obs_pd.
Qed.

Lemma ssm_A_slices (A : 'M[R]_2) x v a b :
  ssm_A A *m joint4 x v a b = joint4 (A 0 0 *: x + A 0 1 *: v) (A 1 0 *: x + A 1 1 *: v) a b.
Proof.
have e0 : lshift 2 (0 : 'I_2) = 0 :> 'I_4 by apply/val_inj.
have e1 : lshift 2 (1 : 'I_2) = 1 :> 'I_4 by apply/val_inj.
have e2 : rshift 2 (0 : 'I_2) = inord 2 :> 'I_4 by apply/val_inj; rewrite v2.
have e3 : rshift 2 (1 : 'I_2) = inord 3 :> 'I_4 by apply/val_inj; rewrite v3.
have bl (i j : 'I_2) : (ssm_pad A 1%:M) (lshift 2 i) (lshift 2 j) = A i j by exact: block_mxEul.
have bu (i j : 'I_2) : (ssm_pad A 1%:M) (lshift 2 i) (rshift 2 j) = 0.
  by transitivity ((0 : 'M[R]_2) i j); [exact: block_mxEur | rewrite mxE].
have bd (i j : 'I_2) : (ssm_pad A 1%:M) (rshift 2 i) (lshift 2 j) = 0.
  by transitivity ((0 : 'M[R]_2) i j); [exact: block_mxEdl | rewrite mxE].
have br (i j : 'I_2) : (ssm_pad A 1%:M) (rshift 2 i) (rshift 2 j) = (i == j)%:R.
  by transitivity ((1%:M : 'M[R]_2) i j); [exact: block_mxEdr | rewrite mxE].
have sum4 (F : 'I_4 -> 'cV[R]_d) : \sum_j F j = (F (lshift 2 (0 : 'I_2)) + F (lshift 2 (1 : 'I_2))) + (F (rshift 2 (0 : 'I_2)) + F (rshift 2 (1 : 'I_2))).
  by rewrite (@big_split_ord _ _ _ 2 2) /= !sum2V.
apply: slice_ext => i; rewrite slice_mul sum4 !slice2_kron !mul_scalar_mx.
case: (@split_ordP 2 2 i) => i' ->; rewrite ?bl ?bu ?bd ?br.
  rewrite !scale0r !addr0 e0 e1 !slice_interl.
  by case: (ord2P i') => ->.
rewrite !scale0r !add0r e2 e3 !slice_interl v2 v3.
by case: (ord2P i') => ->; rewrite ?scale0r ?scale1r ?addr0 ?add0r ?e2 ?e3 ?v2 ?v3.
Qed.

Lemma ssm_default_A x v a b : ssm_A ((ioup 0 1 1 h 1 : transition 2).2) *m joint4 x v a b = joint4 (x + h *: v) v a b.
Proof.
have [a00 a01 a10 a11] := @ibm_A 1 h 1.
have en (M : 'M[R]_(1 * 2)) (i j : 'I_2) : (M : 'M[R]_2) i j = slice2 i j M 0 0.
  by rewrite mxE; congr (M _ _); apply/val_inj.
rewrite ssm_A_slices !en a00 a01 a10 a11 !mxE !mulr1n.
by rewrite scale1r scale0r scale1r add0r.
Qed.
End Repaired.

Lemma zm d (v f a v' b j : 'cV[R]_d) : v - (f + a) + (v' - v - (b - a) - j) = 0 -> v' = f + b + j.
Proof.
by move=> /colP H; apply/colP=> i; have := H i; rewrite !(addmxE, oppmxE, zeromxE) => {}H; move: H; toR; lra.
Qed.

Section RepairedRuns.
Variables (lp : lapack) (d : nat) (drift : 'cV[R]_d -> R -> 'cV[R]_d) (diffusion : 'cV[R]_d -> R -> 'M[R]_d)
  (delta h : R) (sq EKF0 : bool).

Lemma marginal_total N g (k : option (key g)) x0 prior noise : (0 < d)%N -> 0 < delta ->
  (prior = None /\ 0 < h) \/ (exists2 tr : transition 2, prior = a_prior tr & pd tr.1.2) -> noise_ok d sq noise ->
  exists y, marginal_xi (fun _ => Some 0) EKF0 lp k x0 delta drift diffusion h N sq prior noise = Val y.
Proof.
move=> d0 dl Hp nO.
have [tr Ep pQ] : exists2 tr : transition 2, ssm_prior h prior = Val tr & pd tr.1.2.
  case: Hp => [[-> h0]|[tr -> pQ]].
    exists (ioup 0 1 1 h 1 : transition 2) => //.
    by apply: (@ioup_pd 1 1 h 1); rewrite ?oner_neq0.
  by exists tr => //; rewrite /ssm_prior /a_prior eqxx as_transition_id.
have [r E] := @ssm_total lp d drift diffusion delta h N sq EKF0 x0 prior noise tr d0 dl Ep pQ nO.
by rewrite /marginal_xi E; eexists.
Qed.

Lemma ssm_exact N x0 m' P' : (0 < d)%N -> 0 < delta -> 0 < h ->
  ssm_solver_xi lp x0 drift diffusion delta h N.+1 sq EKF0 None None (Some 0) = Val (m', P') ->
  exists m P, ssm_solver_xi lp x0 drift diffusion delta h N sq EKF0 None None (Some 0) = Val (m, P) /\
    let t := N.+1%:R * h in
    let xp := slice 0 m + h *: slice 1 m in
    let dW c := jacR (fun s => eval_parabola s delta (slice (inord 2) c) (slice (inord 3) c)) t in
    let J := if EKF0 then 0 else jac (fun z => drift z t + diffusion z t *m dW m) xp in
    let C := if sq then P' *m P'^T else P' in
    slice 1 m' = drift xp t + diffusion xp t *m dW m' + J *m (slice 0 m' - xp) /\
    forall y, C *m y = joint4 (slice 0 (C *m y)) (diffusion xp t *m dW (C *m y) + J *m slice 0 (C *m y))
      (slice (inord 2) (C *m y)) (slice (inord 3) (C *m y)).
Proof.
move=> d0 dl h0.
have pQ : pd (ioup 0 1 1 h 1 : transition 2).1.2 by apply: (@ioup_pd 1 1 h 1); rewrite ?oner_neq0.
have [Q' EQ GQ] := chol_or lp sq pQ.
have run M := @ssm_run lp d drift diffusion delta h M sq EKF0 x0 None None 0 _ _ 0 Q' d0 erefl erefl EQ.
rewrite !run.
have -> : mkseq (fun k : nat => k.+1%:R * h) N.+1 = rcons (mkseq (fun k => k.+1%:R * h) N) (N.+1%:R * h).
  by rewrite /mkseq -addn1 iotaD map_cat /= cats1 add0n addn1.
move=> E.
have pp : sq = false -> psd (kron_eye d (ssm_pad Q' 0)) /\
    psd (ssm_mean x0 drift, if sq then sqrtm lp (ssm_var delta (diffusion x0 0)) else ssm_var delta (diffusion x0 0)).2.
  move=> e; move: GQ; rewrite e => ->; split; last exact: var_psd.
  by apply: pad_psd; exact: pd_psd.
have [m [P [Er H]]] := ekf_exact pp E; exists m, P; split=> //.
move: H; cbv zeta; rewrite addr0.
set t := N.+1%:R * h; set xp := slice 0 m + h *: slice 1 m.
set dW := fun c : 'cV[R]_(d * 4) => jacR (fun s => eval_parabola s delta (slice (inord 2) c) (slice (inord 3) c)) t.
set J := if EKF0 then 0 else _; set C := if sq then _ else _.
have -> : ssm_A d (ioup 0 1 1 h 1 : transition 2).2 *m m = joint4 xp (slice 1 m) (slice (inord 2) m) (slice (inord 3) m).
  by rewrite {1}[m]joint4_slices ssm_default_A.
set mp := joint4 xp _ _ _.
have dn : delta != 0 by exact: lt0r_neq0.
have jacE (c : 'cV[R]_(d * 4)) : jacfwd (fun x => ssm_observation EKF0 drift diffusion delta x t) mp *m c =
    slice 1 c - diffusion xp t *m dW c - J *m slice 0 c.
  rewrite [in LHS](joint4_slices c) /J /mp; case: (EKF0); last by rewrite ssm_ekf1_jac.
  by rewrite ssm_ekf0_jac // mul0mx subr0.
rewrite jacE ssm_residual // => -[H1 H2 _]; split.
  move: H1; rewrite !sliceB.
  have -> : dW (m' - mp) = dW m' - dW m.
    rewrite /dW !jacR_eval // !sliceB -scalerBr; congr (_ *: _).
    by rewrite /mp !slice_interl v2 v3 scalerBr opprD addrACA.
  rewrite mulmxBr {1 2}/mp !slice_interl; cbn [nat_of_ord].
  by move=> H1; have := zm H1.
move=> y; rewrite [LHS]joint4_slices; congr (joint4 _ _ _ _).
have : jacfwd (fun x => ssm_observation EKF0 drift diffusion delta x t) mp *m (C *m y) = 0 by rewrite mulmxA H2 mul0mx.
by rewrite jacE -addrA -opprD => /subr0_eq ->.
Qed.
End RepairedRuns.

(** ** Whole runs of sde_solver *)
Section Runs.
Variables (lp : lapack) (g : prng) (d m : nat) (drift : 'cV[R]_d -> R -> 'cV[R]_d) (sigma : 'cV[R]_d -> R -> 'M[R]_(d, m))
  (bm : path_approx g m) (delta : R) (M : nat) (sq : bool) (g' : prng) (phi : key g -> option (key g')).

Lemma ode_runs (EKF0 : bool) n (tr : transition (d * n.+2)) noise k x0 N :
  (0 < d)%N -> (EKF0 -> (n < 2)%N) -> pd tr.1.2 -> noise_ok d sq noise ->
  let int kk (x : res 'cV[R]_d) f T := let! x := x in
    if EKF0 then ekf0 lp (phi kk) x f (T / M%:R) M sq (a_prior tr) noise
    else ekf1 lp (phi kk) x f (T / M%:R) M sq (a_prior tr) noise in
  forall i, (i <= N)%N -> exists y, nth (Val x0) (sde_solver drift sigma bm delta int k (Val x0) N).1.2 i = Val y.
Proof.
move=> d0 n2 pQ nO int.
apply: (@driver_inv g d m _ drift sigma bm delta int (fun x => exists y, x = Val y)); last by exists x0.
move=> kk x f [y ->]; rewrite /int; cbn [rbind]; case: (EKF0) n2 => n2.
  by apply: ekf0_total => //; exact: n2.
exact: ekf1_total.
Qed.

Lemma alg3_runs (EKF0 : bool) prior noise (tr : transition (d * 2)) k s m0 P00 N :
  get_prior d 0 (delta / M%:R) prior = Val tr -> pd tr.1.2 -> psd P00 -> noise_ok d sq noise ->
  let int kk (x : res (gauss d)) f T := let! x := x in
    if EKF0 then ekf0_2 lp (phi kk) x f (T / M%:R) M sq prior noise
    else ekf1_2 lp (phi kk) x f (T / M%:R) M sq prior noise in
  forall i, (i <= N)%N -> exists s' m' P', psd P' /\
    nth (Val (s, m0, P00)) (sde_solver drift sigma bm delta int k (Val (s, m0, P00)) N).1.2 i = Val (s', m', P').
Proof.
move=> Ep pQ pP nO int.
apply: (@driver_inv g d m _ drift sigma bm delta int (fun x => exists s' m' P', psd P' /\ x = Val (s', m', P'))).
  move=> kk x f [s' [m' [P' [pP' ->]]]]; rewrite /int; cbn [rbind].
  by rewrite /ekf0_2 /ekf1_2; case: (EKF0); apply: alg3_total Ep pQ _ _.
by exists s, m0, P00.
Qed.
End Runs.
