(** Proofs about the square-root mode, Algorithm 3 (ekf0_2.py, ekf1_2.py) and the initial states. *)
From Coq Require Import Reals Lra FunctionalExtensionality.
From Coquelicot Require Import Coquelicot.
From mathcomp Require Import all_ssreflect all_algebra mxtens.
From Verif Require Import Rstruct Base Linalg Calc Prob Spec Expm M_Utils M_Foster M_SdeSolver M_Euler
  M_Filter M_Prior M_OdeSolvers L_Utils L_Foster L_SdeSolver L_Euler L_Ivp L_Filter L_Prior L_OdeSolvers.

Set Implicit Arguments.
Unset Strict Implicit.
Unset Printing Implicit Defensive.
Import Order.TTheory GRing.Theory Num.Theory.
Local Open Scope ring_scope.

(** ** The wrappers ekf0 and ekf1 on priors with [n.+2] states *)
Section Wrappers.
Variables (lp : lapack) (d : nat) (f : 'cV[R]_d -> R -> 'cV[R]_d) (h : R) (N : nat) (sq : bool).
Variables (g : prng) (k : option (key g)).
Hypothesis d0 : (0 < d)%N.

Lemma ekf0_run n (tr : transition (d * n.+2)) x0 noise :
  ekf0 lp k x0 f h N sq (a_prior tr) noise =
  if (n < 2)%N then
    let! filtered := @_solver lp d n (init_mean f x0 n.+2, 0) f h N sq true (a_prior tr) noise in
    Val (output lp k sq filtered)
  else Raise TypeError.
Proof.
rewrite /ekf0 {1}/a_prior gtn_eqF // mulKn //.
by case: n tr => [|[|n]] tr.
Qed.

Definition ekf1_var n : 'M[R]_(d * n.+2) := if (n < 2)%N then 0 else init_var1 d n.+2.

Lemma ekf1_run n (tr : transition (d * n.+2)) x0 noise :
  ekf1 lp k x0 f h N sq (a_prior tr) noise =
  let! filtered := @_solver lp d n (init_mean f x0 n.+2, ekf1_var n) f h N sq false (a_prior tr) noise in
  Val (output lp k sq filtered).
Proof.
rewrite /ekf1 {1}/a_prior gtn_eqF // mulKn //.
by case: n tr => [|[|n]] tr.
Qed.
End Wrappers.

Lemma ekf1_var_gram d n : ekf1_var d n *m (ekf1_var d n)^T = ekf1_var d n.
Proof.
rewrite /ekf1_var; case: ifP => _; first by rewrite mul0mx.
apply/matrixP=> p q; rewrite mulmxE (bigD1 p) //= [X in _ + X]big1 ?addr0.
  rewrite trmxE !mxE eqxx [p == q]eq_sym; case: (p =P q) => [->|/eqP pq].
    by rewrite eqxx; case: ifP; rewrite ?mul0r ?mul1r.
  have -> : (q == p) = false by rewrite eq_sym (negPf pq).
  by rewrite !if_same mulr0.
move=> r rp; rewrite trmxE !mxE [p == r]eq_sym (negPf rp).
by rewrite if_same mul0r.
Qed.

(** ** The noise argument *)
Section Noise.
Variables (lp : lapack) (d : nat) (f : 'cV[R]_d -> R -> 'cV[R]_d) (h : R) (N : nat) (EKF0 : bool).

Lemma solver_noise n (tr : transition (d * n.+2)) (m0 : 'cV[R]_(d * n.+2)) W (V : 'M[R]_d) : pd tr.1.2 ->
  @_solver lp d n (m0, W *m W^T) f h N false EKF0 (a_prior tr) (a_noise (V *m V^T)) =
  rmap (fun x => (x.1, x.2 *m x.2^T)) (@_solver lp d n (m0, W) f h N true EKF0 (a_prior tr) (a_noise V)).
Proof.
case: tr => [[xi Q] A] /= pQ; rewrite /_solver !get_noise_id !get_prior_id; cbn [rbind].
case: N => [//|N']; have [L [E _ _ LL]] := cholP lp pQ.
by rewrite /cholesky E; cbn [rbind]; rewrite -LL; exact: ekf_sqrt_state.
Qed.

Lemma output_rmap g n (r : res ('cV[R]_(d * n.+1) * 'M[R]_(d * n.+1))) :
  (let! x := rmap (fun x => (x.1, x.2 *m x.2^T)) r in Val (output lp (None : option (key g)) false x)) =
  let! x := r in Val (output lp (None : option (key g)) true x).
Proof. by case: r => [[m P]||]. Qed.

Lemma noise_agree n (tr : transition (d * n.+2)) (m0 : 'cV[R]_(d * n.+2)) W (V : 'M[R]_d) g : pd tr.1.2 ->
  W *m W^T = W ->
  (let! x := @_solver lp d n (m0, W) f h N true EKF0 (a_prior tr) (a_noise V) in
   Val (output lp (None : option (key g)) true x)) =
  (let! x := @_solver lp d n (m0, W) f h N false EKF0 (a_prior tr) (a_noise (V *m V^T)) in
   Val (output lp (None : option (key g)) false x)).
Proof.
move=> pQ EW; rewrite -(output_rmap g (_solver _ _ _ _ _ true _ _ _)) -solver_noise //.
by rewrite EW.
Qed.
End Noise.

Section Noise2.
Variables (lp : lapack) (g : prng) (d : nat) (f : 'cV[R]_d -> R -> 'cV[R]_d) (h : R) (N n : nat).
Variables (tr : transition (d * n.+2)) (x0 : 'cV[R]_d) (V : 'M[R]_d).
Hypotheses (d0 : (0 < d)%N) (pQ : pd tr.1.2).
Let nokey : option (key g) := None.

Lemma ekf0_noise : ekf0 lp nokey x0 f h N true (a_prior tr) (a_noise V) =
  ekf0 lp nokey x0 f h N false (a_prior tr) (a_noise (V *m V^T)).
Proof. by rewrite !ekf0_run // noise_agree // mul0mx. Qed.

Lemma ekf1_noise : ekf1 lp nokey x0 f h N true (a_prior tr) (a_noise V) =
  ekf1 lp nokey x0 f h N false (a_prior tr) (a_noise (V *m V^T)).
Proof. by rewrite !ekf1_run // noise_agree // ekf1_var_gram. Qed.

Lemma ekf0_none sq : ekf0 lp nokey x0 f h N sq (a_prior tr) None =
  ekf0 lp nokey x0 f h N sq (a_prior tr) (a_noise (0 : 'M[R]_d)).
Proof. by rewrite !ekf0_run // /_solver get_noise_id. Qed.

Lemma ekf1_none sq : ekf1 lp nokey x0 f h N sq (a_prior tr) None =
  ekf1 lp nokey x0 f h N sq (a_prior tr) (a_noise (0 : 'M[R]_d)).
Proof. by rewrite !ekf1_run // /_solver get_noise_id. Qed.
End Noise2.

(** One step with observation noise [r]. *)
Section OneStep.
Variables (lp : lapack) (g : prng) (d : nat) (f : 'cV[R]_d -> R -> 'cV[R]_d) (h sigma : R).
Hypotheses (d0 : (0 < d)%N) (h0 : 0 < h) (s0 : sigma != 0).
Let nokey : option (key g) := None.

Lemma ekf0_one_step (r : R) x0 : 0 <= r ->
  ekf0 lp nokey x0 f h 1 false (a_prior (ioup 0 sigma 1 h d)) (a_noise (r%:M : 'M[R]_d)) =
  let v := f x0 0 in
  Val (x0 + h *: v - (sigma ^+ 2 * h ^+ 2 / 2%:R / (sigma ^+ 2 * h + r)) *: (v - f (x0 + h *: v) h)).
Proof.
move=> r0; rewrite (@ekf0_run lp d f h 1 false g nokey d0 0) /= /_solver get_noise_id (@get_prior_id d 0).
rewrite /= linspace_grid1 /= /mkseq; cbn [map iota]; rewrite mul1r.
set A := kron_eye d _; set Q := kron_eye d _; set m0 := init_mean f x0 2.
rewrite -[[:: h]]/(rcons [::] h) ekf_rcons ekf_nil /= /ekf_body /predict; cbn [fst snd].
have [E1 E2] := @ibm_Am d h sigma m0.
have P0 : (0 : 'M[R]_(d * 2)) = pos_cov 0 by rewrite /pos_cov mulmx0 mul0mx.
have [p1 p2 p3 p4] := @ibm_P' d h sigma 0.
rewrite !addr0 [in A *m 0]P0 obs_jac0 obs_residual E1 E2 slice_init_mean0 slice_init_mean1.
set P' := A *m pos_cov 0 *m A^T + Q in p1 p2 p3 p4 *; set c := _ - _.
have pP : psd P'.
  by apply: psdD; [apply: psd_congr; apply: pos_cov_psd; exact: psd0 | apply: pd_psd; exact: ioup_pd].
have SE : selector d 1 *m P' *m (selector d 1)^T + r%:M = (sigma ^+ 2 * h + r)%:M.
  by rewrite sel_slice2 [slice2 1 1 _]p4 -raddfD.
have sr : 0 < sigma ^+ 2 * h + r by rewrite ltr_paddr // s2h.
have pS : pd (selector d 1 *m P' *m (selector d 1)^T + r%:M) by rewrite SE; apply: scalar_pd.
rewrite (updateE lp _ _ pP pS) SE /= sliceB E1 slice_init_mean0 slice_init_mean1; congr (Val (_ - _)).
rewrite invmx_scalar mul_mx_scalar -!scalemxAl sliceZ -sel_slice !mulmxA sel_slice2 [slice2 0 1 _]p2.
by rewrite mul_scalar_mx scalerA mulrC.
Qed.
End OneStep.

Lemma noise_differs (lp : lapack) (g : prng) :
  let f (x : 'cV[R]_1) (t : R) : 'cV[R]_1 := const_mx t in
  let run sq := ekf0 lp (None : option (key g)) 0 f 1 1 sq (a_prior (ioup 0 1 1 1 1)) (a_noise (4%:R%:M : 'M[R]_1)) in
  run false = Val (const_mx (1 / 10%:R)) /\ run true = Val (const_mx (1 / 34%:R)).
Proof.
have pQ : pd (ioup 0 1 1 1 1).1.2 by apply: ioup_pd; [exact: oner_neq0 | exact: ltr01].
have step (r : R) (x : R) : 0 <= r -> x = 1 / 2%:R / (1 + r) ->
  ekf0 lp (None : option (key g)) (0 : 'cV[R]_1) (fun _ t => const_mx t) 1 1 false (a_prior (ioup 0 1 1 1 1))
    (a_noise (r%:M : 'M[R]_1)) = Val (const_mx x).
  move=> r0 ->; rewrite (@ekf0_one_step lp g 1 _ 1 1 (ltn0Sn 0) ltr01 (oner_neq0 _)) //=; congr Val.
  apply/colP=> i; rewrite !(addmxE, scalemxE, oppmxE, mxE) !expr1n !mul1r !add0r mulrN opprK mulr1.
  by [].
move=> f run; split.
  by apply: step; [exact: ler0n | rfield].
rewrite /run (@ekf0_noise lp g 1 f 1 1 0 (ioup 0 1 1 1 1)) // tr_scalar_mx -scalar_mxM.
apply: step; last by rfield.
by rewrite mulr_ge0 // ler0n.
Qed.

(** ** Algorithm 3 *)
Section Alg3.
Variables (lp : lapack) (d : nat) (f : 'cV[R]_d -> R -> 'cV[R]_d) (h : R) (N : nat) (sq : bool).
Variables (prior : prior_arg) (noise : noise_arg).

(** Mean and covariance. *)
Definition law (x : gauss d) : 'cV[R]_d * 'M[R]_d := (x.1.2, x.2).

Lemma alg3_law EKF0 H (g g' : prng) (k : option (key g)) (k' : option (key g')) s s' m0 P00 :
  rmap law (alg3 lp EKF0 H k (s, m0, P00) f h N sq prior noise) =
  rmap law (alg3 lp EKF0 H k' (s', m0, P00) f h N sq prior noise).
Proof. by rewrite /alg3; case: _solver => [[m P]||]. Qed.

Lemma alg3_sample EKF0 H (g : prng) (k : option (key g)) s s' m0 P00 :
  alg3 lp EKF0 H k (s, m0, P00) f h N sq prior noise = alg3 lp EKF0 H k (s', m0, P00) f h N sq prior noise.
Proof. by []. Qed.

Lemma alg3_nokey EKF0 H (g : prng) x r :
  alg3 lp EKF0 H (None : option (key g)) x f h N sq prior noise = Val r -> r.1.1 = r.1.2.
Proof. by case: x => [[s m0] P00]; rewrite /alg3; case: _solver => [[m P]||] //= [<-]. Qed.

(** The joint covariance at the start. *)
Lemma joint_cov H (P00 : 'M[R]_d) :
  interlace_matrix P00 (P00 *m H^T) (H *m P00) (H *m P00 *m H^T) =
  ((selector d 0)^T + (selector d (1 : 'I_2))^T *m H) *m P00 *m ((selector d 0)^T + (selector d (1 : 'I_2))^T *m H)^T.
Proof.
set B := (selector d 0)^T + _; apply: slice2_ext => i j.
have EB k : selector d k *m B = if k == 0 then 1%:M else H.
  rewrite /B mulmxDr mulmxA !sel_ortho; elim/ord2P: k => /=; rewrite scalar0 ?mul0mx ?addr0 ?mul1mx ?add0r //.
rewrite -[RHS]sel_slice2 !mulmxA EB -[in RHS]mulmxA -trmx_mul EB.
have [E1 E2 E3 E4] := interlace_matrix_slices P00 (P00 *m H^T) (H *m P00) (H *m P00 *m H^T).
elim/ord2P: i; elim/ord2P: j; rewrite ?E1 ?E2 ?E3 ?E4 /= ?trmx1 ?mul1mx ?mulmx1 //.
Qed.

Lemma joint_psd H (P00 : 'M[R]_d) : psd P00 ->
  psd (interlace_matrix P00 (P00 *m H^T) (H *m P00) (H *m P00 *m H^T)).
Proof. by move=> pP; rewrite joint_cov; exact: psd_congr. Qed.

Lemma init_joint_slices H m0 P00 : psd P00 ->
  let: (m, W) := init_joint lp H f m0 P00 sq in
  let C := if sq then W *m W^T else W in
  [/\ slice 0 m = m0, slice 1 m = f m0 0 & psd C] /\
  [/\ slice2 0 0 C = P00, slice2 0 1 C = P00 *m H^T, slice2 1 0 C = H *m P00 & slice2 1 1 C = H *m P00 *m H^T].
Proof.
move=> pP; rewrite /init_joint /=; set var := interlace_matrix _ _ _ _.
have pV : psd var by exact: joint_psd.
have -> : (if sq then (if sq then sqrtm lp var else var) *m (if sq then sqrtm lp var else var)^T
           else if sq then sqrtm lp var else var) = var.
  by case: (sq) => //; exact: sqrtm_gram.
split; first by rewrite !slice_interl.
exact: interlace_matrix_slices.
Qed.
End Alg3.

(** Both modes of Algorithm 3 carry the same law, with [noise] squared in the square-root mode. *)
Lemma alg3_noise (lp : lapack) d (f : 'cV[R]_d -> R -> 'cV[R]_d) h N EKF0 H (g : prng) s m0 P00 (tr : transition (d * 2)) V :
  psd P00 -> pd tr.1.2 ->
  alg3 lp EKF0 H (None : option (key g)) (s, m0, P00) f h N true (a_prior tr) (a_noise (V : 'M[R]_d)) =
  alg3 lp EKF0 H (None : option (key g)) (s, m0, P00) f h N false (a_prior tr) (a_noise (V *m V^T)).
Proof.
move=> pP pQ; rewrite /alg3.
have -> : init_joint lp H f m0 P00 false =
    ((init_joint lp H f m0 P00 true).1, (init_joint lp H f m0 P00 true).2 *m (init_joint lp H f m0 P00 true).2^T).
  by rewrite /init_joint /= sqrtm_gram //; exact: joint_psd.
case: (init_joint lp H f m0 P00 true) => m W /=.
rewrite (@solver_noise lp d f h N EKF0 0 tr m W V pQ).
by case: (_solver _ _ _ _ _ _ _ _) => [[m' W']||].
Qed.

Section Alg3Ibm.
Variables (lp : lapack) (d : nat) (f : 'cV[R]_d -> R -> 'cV[R]_d) (h sigma : R).
Hypotheses (h0 : 0 < h) (s0 : sigma != 0).
Variables (prior : prior_arg).
Hypothesis Ep : get_prior d 0 h prior = Val (ioup 0 sigma 1 h d).
Notation cc := (sigma ^+ 2 * h ^+ 3 / 12%:R).

Lemma init_joint0 m0 P00 sq : psd P00 -> exists W,
  [/\ init_joint lp 0 f m0 P00 sq = (interl (pair2 m0 (f m0 0)), W) &
      (if sq then W *m W^T else W) = pos_cov P00].
Proof.
move=> pP; exists (init_joint lp 0 f m0 P00 sq).2; split=> //; apply/pos_covP.
have [_ [-> -> -> ->]] := @init_joint_slices lp d f sq 0 m0 P00 pP.
by rewrite !mul0mx trmx0 mulmx0.
Qed.

Lemma ekf0_2_ibm (g : prng) (k : option (key g)) s m0 P00 N sq : psd P00 -> exists s',
  ekf0_2 lp k (s, m0, P00) f h N sq prior None = Val (s', (pec f h m0 N).1, P00 + (N%:R * cc)%:M) /\
  (k = None -> s' = (pec f h m0 N).1).
Proof.
move=> pP; rewrite /ekf0_2 /alg3; have [W [-> EW]] := init_joint0 m0 sq pP.
have E0 : slice 1 (interl (pair2 m0 (f m0 0))) = f (slice 0 (interl (pair2 m0 (f m0 0)))) 0 by rewrite !slice_interl.
have [m [P [-> H2 H3]]] := @ibm_solver lp d f h sigma h0 s0 sq (interl (pair2 m0 (f m0 0))) W P00 N prior None
   Ep erefl pP E0 EW.
rewrite slice_interl in H3.
have -> : (let! filtered := Val (m, P) in Val (output2 lp k sq filtered).1) =
    Val (slice 0 (output2 lp k sq (m, P)).2.1.1, slice 0 m, slice2 0 0 (if sq then P *m P^T else P)).
  by case: (sq).
rewrite H2 -H3; cbn [fst]; have [-> _] := proj2 (pos_covP (P00 + (N%:R * cc)%:M) _) erefl.
by eexists; split; [reflexivity | move=> ->].
Qed.

End Alg3Ibm.

(** ** Calibration outputs *)
Section All.
Variables (lp : lapack) (d n : nat) (f : 'cV[R]_d -> R -> 'cV[R]_d) (h : R) (sq EKF0 : bool).
Variables (prior : prior_arg) (noise : noise_arg).
Variable init : 'cV[R]_(d * n.+2) * 'M[R]_(d * n.+2).
Notation obs := (@observation_function d EKF0 f n).

Lemma solver_all_fst N :
  rmap (fun r => r.1.1) (@_solver_all lp d n init f h N sq EKF0 prior noise) =
  @_solver lp d n init f h N sq EKF0 prior noise.
Proof.
rewrite /_solver_all /_solver; case: (get_noise _ _) => [Rn||] //; cbn [rbind].
case: (get_prior _ _ _ _) => [[[xi Q] A]||] //; cbn [rbind]; case: N => [//|N].
case: (if sq then _ else _) => [Q'||] //; cbn [rbind]; rewrite -ekf_UC_fst.
by case: ekf_UC.
Qed.

Lemma solver_all_out N x a b :
  @_solver_all lp d n init f h N.+1 sq EKF0 prior noise = Val (x, a, b) ->
  exists xi Q A Rn Q' m P,
  [/\ get_prior d n h prior = Val (xi, Q, A), get_noise d noise = Val Rn,
      (if sq then cholesky lp Q else Val Q) = Val Q' &
      ekf lp obs A Q' xi Rn sq init (mkseq (fun k => k.+1%:R * h) N) = Val (m, P)] /\
  let t := N.+1%:R * h in let mp := A *m m + xi in let H := jacfwd (obs^~ t) mp in
  b = Arr1 (slice 1 mp - f (slice 0 mp) t) /\
  a = Arr2 (if sq then H *m (A *m (P *m P^T) *m A^T + Q' *m Q'^T) *m H^T + Rn *m Rn^T
            else H *m (A *m P *m A^T + Q') *m H^T + Rn).
Proof.
rewrite /_solver_all; case: (get_noise _ _) => [Rn||] //; cbn [rbind].
case: (get_prior _ _ _ _) => [[[xi Q] A]||] //; cbn [rbind].
case EQ: (if sq then _ else _) => [Q'||] //; cbn [rbind]; rewrite linspace_grid1.
have -> : mkseq (fun k : nat => k.+1%:R * h) N.+1 = rcons (mkseq (fun k => k.+1%:R * h) N) (N.+1%:R * h).
  by rewrite /mkseq -addn1 iotaD map_cat /= cats1 add0n addn1.
case E: ekf_UC => [[[x' S0] z]||] //; cbn [rbind fst snd] => -[_ <- <-].
have [m [P [E1 _ -> ->]]] := ekf_UC_out E.
exists xi, Q, A, Rn, Q', m, P; split=> //; cbv zeta; split=> //.
by congr Arr1; exact: obs_residual.
Qed.
End All.

Lemma alg3_all_out (lp : lapack) d (f : 'cV[R]_d -> R -> 'cV[R]_d) h N EKF0 H (g : prng) (k : option (key g))
  x sq prior noise o s m' P' a b :
  alg3_all lp EKF0 H k x f h N.+1 sq prior noise = Val (o, (s, m', P', a, b)) ->
  (exists C : 'M[R]_d, a = Arr2 C) /\ (exists r : 'cV[R]_d, b = Arr1 r) /\
  alg3 lp EKF0 H k x f h N.+1 sq prior noise = Val o.
Proof.
case: x => [[s0 m0] P00]; rewrite /alg3_all /alg3.
have := @solver_all_fst lp d 0 f h sq EKF0 prior noise (init_joint lp H f m0 P00 sq) N.+1.
case E: _solver_all => [[[x a'] b']||] //= <- /=.
have [xi [Q [A [Rn [Q' [m1 [P1 [_ [Hb Ha]]]]]]]]] := solver_all_out E.
case: x E => m2 P2 E [Eo _ _ _ <- <-]; rewrite -Eo.
by split; [rewrite Ha; eexists | split; [rewrite Hb; eexists |]].
Qed.

(** The values: innovation covariance, then residual, at the last step. *)
Lemma alg3_all_values (lp : lapack) d (f : 'cV[R]_d -> R -> 'cV[R]_d) h N EKF0 H (g : prng) (k : option (key g))
  s0 m0 P00 sq prior noise o s m' P' a b :
  alg3_all lp EKF0 H k (s0, m0, P00) f h N.+1 sq prior noise = Val (o, (s, m', P', a, b)) ->
  exists xi Q A Rn Q' m P,
  [/\ get_prior d 0 h prior = Val (xi, Q, A), get_noise d noise = Val Rn,
      (if sq then cholesky lp Q else Val Q) = Val Q' &
      ekf lp (@observation_function d EKF0 f 0) A Q' xi Rn sq (init_joint lp H f m0 P00 sq)
        (mkseq (fun k => k.+1%:R * h) N) = Val (m, P)] /\
  let t := N.+1%:R * h in let mp := A *m m + xi in
  let J := selector d 1 - if EKF0 then 0 else jac (f^~ t) (slice 0 mp) *m selector d 0 in
  a = Arr2 (if sq then J *m (A *m (P *m P^T) *m A^T + Q' *m Q'^T) *m J^T + Rn *m Rn^T
            else J *m (A *m P *m A^T + Q') *m J^T + Rn) /\
  b = Arr1 (slice 1 mp - f (slice 0 mp) t).
Proof.
rewrite /alg3_all; case E: _solver_all => [[[x a'] b']||] //=.
have [xi [Q [A [Rn [Q' [m1 [P1 [H1 [H2 H3]]]]]]]]] := solver_all_out E.
case: x E => m2 P2 E [_ _ _ _ <- <-]; exists xi, Q, A, Rn, Q', m1, P1; split=> //.
rewrite H2 H3; split=> //; case: EKF0 {E H1 H2 H3}; first by rewrite obs_jac0 subr0.
by rewrite obs_jac1.
Qed.

Lemma solver_run (lp : lapack) d n f h sq EKF0 prior noise init N xi Q A Rn Q' :
  get_prior d n h prior = Val (xi, Q, A) -> get_noise d noise = Val Rn ->
  (if sq then cholesky lp Q else Val Q) = Val Q' ->
  @_solver lp d n init f h N sq EKF0 prior noise =
  ekf lp (@observation_function d EKF0 f n) A Q' xi Rn sq init (mkseq (fun k => k.+1%:R * h) N).
Proof.
move=> Ep En EQ; rewrite /_solver En Ep; cbn [rbind].
by case: N => [|N]; [rewrite ekf_nil | rewrite EQ; cbn [rbind]; rewrite linspace_grid1].
Qed.

Lemma ekf0_2_all_ibm (lp : lapack) d (f : 'cV[R]_d -> R -> 'cV[R]_d) h sigma prior
  (g : prng) (k : option (key g)) s m0 P00 N sq :
  0 < h -> sigma != 0 -> get_prior d 0 h prior = Val (ioup 0 sigma 1 h d) -> psd P00 ->
  exists o x, let: (p, v) := pec f h m0 N in
  ekf0_2_all lp k (s, m0, P00) f h N.+1 sq prior None =
    Val (o, (x, Arr2 (sigma ^+ 2 * h)%:M, Arr1 (v - f (p + h *: v) (N.+1%:R * h)))).
Proof.
move=> h0 s0 Ep pP; rewrite /ekf0_2_all.
have [s' [E _]] := @ekf0_2_ibm lp d f h sigma h0 s0 prior Ep g k s m0 P00 N.+1 sq pP.
case E2: (alg3_all lp true 0 k (s, m0, P00) f h N.+1 sq prior None) => [[o [[[[x m'] P'] a] b]]||]; last first.
- move: E; rewrite /ekf0_2 /alg3; move: E2; rewrite /alg3_all -solver_all_fst.
  by case: _solver_all => [[[x a'] b']||].
- move: E; rewrite /ekf0_2 /alg3; move: E2; rewrite /alg3_all -solver_all_fst.
  by case: _solver_all => [[[x a'] b']||].
have [xi [Q [A [Rn [Q' [m [P [[Ep' En EQ Er] [-> ->]]]]]]]]] := alg3_all_values E2.
have [W [EI EW]] := @init_joint0 lp d f m0 P00 sq pP.
have E0 : slice 1 (interl (pair2 m0 (f m0 0))) = f (slice 0 (interl (pair2 m0 (f m0 0)))) 0 by rewrite !slice_interl.
have [m1 [P1 [S1 S2 S3]]] := @ibm_solver lp d f h sigma h0 s0 sq (interl (pair2 m0 (f m0 0))) W P00 N prior None
   Ep erefl pP E0 EW.
move: S1; rewrite -EI (solver_run f true _ N Ep' En EQ) Er => -[em eP]; subst m1 P1.
rewrite slice_interl in S3; rewrite -S3; exists o, (x, m', P').
have := Ep; rewrite Ep' => -[exi eQ eA]; move: En => -[eR].
have eQ2 : (if sq then Q' *m Q'^T else Q') = Q.
  case: (sq) EQ => [|[->] //].
  have [_ [L [EL _ LL]]] := @ioup_chol lp sigma 1 h d s0 h0; rewrite eQ EL => -[<-].
  exact: LL.
have [E1 E2'] := @ibm_Am d h sigma m.
have {}E1 : slice 0 (A *m m + xi) = slice 0 m + h *: slice 1 m by rewrite exi addr0 eA.
have {}E2' : slice 1 (A *m m + xi) = slice 1 m by rewrite exi addr0 eA.
rewrite E1 E2' subr0 -eR trmx0 mulmx0 !addr0; congr (Val (_, (_, Arr2 _, _))).
have -> : (if sq then selector d 1 *m (A *m (P *m P^T) *m A^T + Q' *m Q'^T) *m (selector d 1)^T
   else selector d 1 *m (A *m P *m A^T + Q') *m (selector d 1)^T) =
   slice2 1 1 (A *m (if sq then P *m P^T else P) *m A^T + (if sq then Q' *m Q'^T else Q')).
  by rewrite -sel_slice2; case: (sq).
rewrite eQ2 S2; have [_ _ _ <-] := @ibm_P' d h sigma (P00 + (N%:R * (sigma ^+ 2 * h ^+ 3 / 12%:R))%:M).
by rewrite eA eQ.
Qed.
