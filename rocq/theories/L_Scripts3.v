(** Lemmas about the experiment scripts: pairing of samples and references, the posterior sampling
    script's four curves, and which scripts return numbers. *)
From Coq Require Import Reals Lra FunctionalExtensionality.
From mathcomp Require Import all_ssreflect all_algebra mxtens.
From Verif Require Import Rstruct Base Linalg Lapack Expm Calc Prob Spec M_Utils L_Utils M_Foster L_Foster M_SdeSolver
  L_SdeSolver M_Euler L_Euler M_ItoStrat L_ItoStrat M_Filter L_Filter M_Prior L_Prior M_OdeSolvers L_OdeSolvers
  L_Alg3 L_Init L_Total M_Scripts L_Scripts L_Scripts2.

Set Implicit Arguments.
Unset Strict Implicit.
Unset Printing Implicit Defensive.
Import Order.TTheory GRing.Theory Num.Theory.
Local Open Scope ring_scope.

(** ** The four curves *)
Lemma wrapped_eulerE (g : prng) d m fine (k : key g) x f (T : R) :
  @wrapped_euler g d m fine k x f T = euler x f (T / fine%:R) fine.
Proof.
have V A (a b : A) : Val a = Val b -> a = b by case.
have := em_agree f (fun _ _ => (0 : 'M[R]_(d, m))) (T / fine%:R) k x fine.
rewrite em_pathwiseE ?size_map ?size_split // => E0; have E := V _ _ _ E0; rewrite /wrapped_euler E; cbn [snd].
rewrite size_mkseq nth_mkseq // eulerE {E E0}; move: (T / _) (dWs _ _ _) => h w.
by elim: fine => //= n ->; rewrite /emstep mul0mx addr0.
Qed.

Lemma sampling_curvesE (g : prng) d m X (fine : nat) (delta : R) (drift : 'cV[R]_d -> R -> 'cV[R]_d)
  (sigma : 'cV[R]_d -> R -> 'M[R]_(d, m)) (wrapped : key g -> X -> ('cV[R]_d -> R -> 'cV[R]_d) -> R -> X)
  (k : key g) (init : X) (x0 : 'cV[R]_d) (N : nat) : (0 < fine)%N ->
  let st := to_stratonovich drift sigma in
  let bm := get_approx_fine g m fine in
  let filter := sde_solver st.1 st.2 bm delta wrapped k init N in
  let ode := sde_solver st.1 st.2 bm delta (fun _ x f T => euler x f (T / fine%:R) fine) k x0 N in
  exists tsf ysf tsc ysc,
    [/\ em_pathwise drift sigma (delta / fine%:R) (flatten [seq fine_incs c | c <- filter.2]) x0 (fine * N) false = Val (tsf, ysf),
        em_pathwise drift sigma delta [seq c.1.1.1 | c <- filter.2] x0 N false = Val (tsc, ysc) &
        sampling_curves fine delta drift sigma wrapped k init x0 N = Val (filter.1.2, ode.1.2, ysf, ysc)].
Proof.
move=> f0 st bm filter ode.
have We : @wrapped_euler g d m fine = (fun _ x f T => euler x f (T / fine%:R) fine).
  do 4 (apply: functional_extensionality => ?); exact: wrapped_eulerE.
rewrite /sampling_curves We (surjective_pairing (to_stratonovich _ _)) -/st -/bm -/filter -/ode.
have Ec : ode.2 = filter.2 by rewrite /ode /filter !sde_coeffs.
rewrite (surjective_pairing filter) (surjective_pairing filter.1) (surjective_pairing ode) (surjective_pairing ode.1) Ec.
rewrite /filter !sde_coeffs -!map_comp.
rewrite !em_pathwiseE; try first [by rewrite size_map size_split |
  by rewrite (size_chunks (@all_chunks g m fine delta k N)) size_map size_split].
rewrite !rbind_val; eexists _, _, _, _; split; [reflexivity | reflexivity |].
cbn [fst snd]; congr (Val (_, _, _, _)).
congr (mkseq (emseq _ _ _ (dWs _ _ _) _) _); apply: eq_map => k' /=; exact: fine_total.
Qed.

(** ** The pairing of samples and references *)
Section Ram2.
Variables (g : prng) (d m : nat) (X Y : Type) (fine : nat) (delta : R).
Variables (drift : 'cV[R]_d -> R -> 'cV[R]_d) (sigma : 'cV[R]_d -> R -> 'M[R]_(d, m)).
Variable ode_int : key g -> X -> ('cV[R]_d -> R -> 'cV[R]_d) -> R -> X.

(** What is saved: the samples of every key, the reference of the first one. *)
Lemma ram2E (sample_of : X -> Y) k0 keys x0 y0 N i : (i <= size keys)%N ->
  let r k := ram_solver fine delta drift sigma ode_int k x0 y0 N in
  let out := ram2_experiment fine delta drift sigma ode_int sample_of (k0 :: keys) x0 y0 N in
  nth [::] out.1 i = [seq sample_of x | x <- (r (nth k0 (k0 :: keys) i)).1.2] /\ out.2 = (r k0).2.
Proof.
move=> iN r out; split=> //; rewrite /out /ram2_experiment /ram_experiment; cbn [fst snd].
by rewrite -!map_comp (nth_map k0).
Qed.
End Ram2.

(** A generator whose key is the value of all its draws. *)
Definition value_prng : prng :=
  @Prng R (fun k n => nseq n k) (fun k n => size_nseq n k) (fun k n => const_mx k) (fun k m n => const_mx k).

Definition midpoint (d : nat) (x : 'cV[R]_d) (f : 'cV[R]_d -> R -> 'cV[R]_d) (T : R) := x + T *: f x (T / 2%:R).

Lemma emseq_noise d (h : R) (w : nat -> 'cV[R]_d) x n :
  emseq (fun _ _ => 0) (fun _ _ => 1%:M) h w x n = x + \sum_(i < n) w i.
Proof.
elim: n => [|n IH] /=; first by rewrite big_ord0 addr0.
by rewrite IH /emstep scaler0 addr0 mul1mx big_ord_recr addrA.
Qed.

(** For pure noise with the midpoint rule sample and reference agree for every key, ... *)
Lemma noise_paired (g : prng) d fine (delta : R) (k : key g) (x0 : 'cV[R]_d) : (0 < fine)%N -> 0 < delta ->
  let r := ram_solver fine delta (fun _ _ => 0) (fun _ _ => 1%:M : 'M[R]_d) (fun _ => @midpoint d) k x0 x0 1 in
  [seq Val x | x <- r.1.2] = r.2 /\
  nth 0 r.1.2 1 = x0 + (parabolas_fine d fine (split2 (nth k (split k 1) 0)).1 delta).1.1.1.
Proof.
move=> f0 d0 r.
have E1 : r.1 = (sde_solver (fun _ _ => 0) (fun _ _ => 1%:M : 'M[R]_d) (get_approx_fine g d fine) delta
  (fun _ => @midpoint d) k x0 1).1 by rewrite /r ram_solverE; case: (sde_solver _ _ _ _ _ _ _ _) => [[? ?] ?].
have E2 : r.2 = mkseq (fun i => Val (emseq (fun _ _ => 0) (fun _ _ => 1%:M : 'M[R]_d) (delta / fine%:R)
   (nth 0 (flatten [seq fine_incs (get_coeffs (get_approx_fine g d fine) (split2 k').1 delta) | k' <- split k 1]))
   x0 (i * fine))) 2.
  by rewrite /r ram_solverE; apply: (@ram_second g d d fine delta (fun _ _ => 0) (fun _ _ => 1%:M)).
rewrite E1 E2 sde_solverE; cbn [fst snd].
have sk : size (split k 1) = 1%N by rewrite size_split.
case: (split k 1) sk => [|k' []] // _; rewrite /run /grid /mkseq; cbn [iota map zip scan unzip1 nth fst snd flatten foldr].
rewrite mul0n mul1n cats0 /step /sde_body; case Ek: (split2 k') => [k1 k2]; cbn [fst snd unzip1 map nth emseq].
have E : midpoint x0 (fun z t => 0 + 1%:M *m jacR (fun t0 => eval_fn t0 delta
    (get_coeffs (get_approx_fine g d fine) k1 delta)) t) delta =
  x0 + (parabolas_fine d fine k1 delta).1.1.1.
  rewrite /midpoint add0r mul1mx /=; congr (_ + _).
  have d0' : delta != 0 by rewrite gt_eqF.
  rewrite jacR_eval // scalerA mulfV // scale1r.
  rewrite (_ : 1 - _ = 0) ?mulr0 ?scale0r ?addr0 //.
  by rewrite [delta / _ / _]mulrAC mulfV // mul1r divff ?subrr // pnatr_eq0.
split; last exact: E.
rewrite [midpoint _ _ _]E emseq_noise; do 3 f_equal.
rewrite -(_ : \sum_(w <- fine_incs (parabolas_fine d fine k1 delta)) w = (parabolas_fine d fine k1 delta).1.1.1); last exact: fine_sum.
have sz : size (fine_incs (parabolas_fine d fine k1 delta)) = fine.
  rewrite /fine_incs /parabolas_fine /parabolas_fine_keys.
  by case: (scan _ _ _).1 => a b /=; rewrite !size_map size_split.
by rewrite (big_nth 0) big_mkord sz.
Qed.

Lemma value_fine (delta : R) (k : R) :
  (parabolas_fine 1 1 (k : key value_prng) delta).1.1.1 = const_mx (sqrt delta * k).
Proof.
rewrite -fine_sum /fine_incs /parabolas_fine /parabolas_fine_keys.
case: (scan _ _ _).1 => a b; cbn [fst snd]; rewrite /= big_cons big_nil addr0 divr1.
by apply/colP=> j; rewrite !mxE.
Qed.

(** ... but the saved reference is the one of the first key. *)
Lemma ram2_differ (delta : R) : 0 < delta ->
  let r (k : R) := ram_solver 1 delta (fun _ _ => 0) (fun _ _ => 1%:M : 'M[R]_1) (fun _ => @midpoint 1) (k : key value_prng) 0 0 1 in
  let out := ram2_experiment 1 delta (fun _ _ => 0) (fun _ _ => 1%:M : 'M[R]_1) (fun _ => @midpoint 1) id
    [:: (0 : R) : key value_prng; (1 : R) : key value_prng] 0 0 1 in
  [/\ [seq Val x | x <- (r 0).1.2] = (r 0).2, [seq Val x | x <- (r 1).1.2] = (r 1).2,
      nth [::] out.1 1 = (r 1).1.2 & [seq Val x | x <- nth [::] out.1 1] <> out.2].
Proof.
move=> d0 r out.
have [E0 F0] := @noise_paired value_prng 1 1 delta (0 : R) 0 erefl d0.
have [E1 F1] := @noise_paired value_prng 1 1 delta (1 : R) 0 erefl d0.
have [G1 G2] := @ram2E value_prng 1 1 _ _ 1 delta (fun _ _ => 0) (fun _ _ => 1%:M) (fun _ => @midpoint 1) id
  (0 : R) [:: (1 : R) : key value_prng] 0 0 1 1 erefl.
rewrite map_id in G1; split; [exact: E0 | exact: E1 | exact: G1 |].
rewrite G1 G2 -E0 => H.
have {}H : (r 1).1.2 = (r 0).1.2 by move: H; apply: inj_map => x y [].
have F1' : nth 0 (r 1).1.2 1 = 0 + (parabolas_fine 1 1 ((1 : R) : key value_prng) delta).1.1.1 := F1.
have F0' : nth 0 (r 0).1.2 1 = 0 + (parabolas_fine 1 1 ((0 : R) : key value_prng) delta).1.1.1 := F0.
move: F1'; rewrite H F0' !add0r !value_fine mulr0 mulr1 => /matrixP /(_ 0 0); rewrite !mxE => q0.
have q1 : 0 < sqrt delta by apply/RltP; apply: sqrt_lt_R0; exact/RltP.
by move: q1; rewrite -q0 ltxx.
Qed.

(** ** Which scripts return numbers *)

(** pathwise_convergence_experiment_2.py: a (1, 1) noise for a problem in dimension 2. *)
Lemma noise_rejected (lp : lapack) d (g : prng) (k : option (key g)) f (x : 'cV[R]_d) h N sq
  (tr : transition (d * 2)) (V : 'M[R]_1) : (0 < d)%N ->
  (d != 1)%N -> ekf0 lp k x f h N sq (a_prior tr) (a_noise V) = Raise AssertionError.
Proof.
move=> d0 d1; rewrite ekf0_run // /_solver.
have -> : @get_noise d (a_noise V) = Raise AssertionError; last by [].
by rewrite /get_noise /a_noise eq_sym (negPf d1).
Qed.

(** comparison_2_RAM_setup_in_the_response_to_the_reviewer.py: priors of different orders per
    coordinate.  ekf0 only needs the noise of the slopes to be invertible. *)
Lemma ekf0_slopes (lp : lapack) d (f : 'cV[R]_d -> R -> 'cV[R]_d) h N (g : prng) (k : option (key g)) x0 n (tr : transition (d * n.+2)) noise :
  (0 < d)%N -> (n < 2)%N -> psd tr.1.2 -> pd (slice2 1 1 tr.1.2) -> noise_ok d false noise ->
  exists y, ekf0 lp k x0 f h N false (a_prior tr) noise = Val y.
Proof.
case: tr => [[xi Q] A] d0 n2 pQ pS /noise_okP [V En /(_ erefl) pV]; cbn [fst snd] in pQ, pS.
rewrite ekf0_run // n2 (@solver_run lp d n f h false true _ noise _ N xi Q A V Q (get_prior_id _ _) En erefl).
have HQ x t : let H := jacfwd (fun z => @observation_function d true f n z t) x in pd (H *m Q *m H^T).
  by rewrite obs_jac0 /= sel_slice2.
have [r ->] := ekf_total_plain lp A xi (init_mean f x0 n.+2) (mkseq (fun k => k.+1%:R * h) N) (psd0 _) pQ pV HQ.
by eexists.
Qed.

Lemma psd_block n m (A : 'M[R]_n) (B : 'M[R]_m) : psd A -> psd B -> psd (block_mx A 0 0 B).
Proof.
move=> [sA pA] [sB pB]; split; first by rewrite /sym tr_block_mx !trmx0 sA sB.
move=> x; rewrite /qf -[x]vsubmxK tr_col_mx mul_row_block !mulmx0 addr0 add0r mul_row_col addmxE.
by apply: addr_ge0; [exact: pA | exact: pB].
Qed.

Lemma psd_pad n q (Q : 'M[R]_n) : psd Q -> psd (pad_mx q Q).
Proof.
move=> pQ; pose E : 'M[R]_(q, n) := \matrix_(i, k) (val i == val k)%:R.
suff -> : pad_mx q Q = E *m Q *m E^T by exact: psd_congr.
apply/matrixP=> i j; rewrite mxE mulmxE.
have pick (a : 'I_q) (F : 'I_n -> R) : \sum_k E a k * F k = if insub (val a) is Some a' then F a' else 0.
  case: insubP => [a' _ Ea|an].
    rewrite (bigD1 a') //= mxE Ea eqxx mul1r big1 ?addr0 // => k ka.
    by rewrite mxE -Ea eq_sym (inj_eq val_inj) (negPf ka) mul0r.
  rewrite big1 // => k _; rewrite mxE; case: eqP => [e|_]; last by rewrite mul0r.
  by case/negP: an; rewrite e; exact: ltn_ord.
rewrite (eq_bigr (fun l => E j l * \sum_k E i k * Q k l)); last by move=> l _; rewrite mulmxE trmxE mulrC.
rewrite pick; case: (insub (val j)) => [j'|]; last by case: insub.
by rewrite pick.
Qed.

Section Reviewer.
Variables (t1 : transition 3) (t2 : transition 2).
Hypotheses (p1 : psd t1.1.2) (p2 : psd t2.1.2) (q1 : 0 < t1.1.2 1 1) (q2 : 0 < t2.1.2 1 1).

Lemma reviewer_prior : exists t2' r, [/\ pad_prior t2 2 = Val t2',
  factorized_prior [:: existT transition 3%N t1; existT transition 3%N t2'] = Val r,
  projT1 r = 6%N & forall (lp : lapack) f h N (g : prng) (k : option (key g)) x0,
   (exists y, @ekf0 lp 2 g k x0 f h N false (Some r) None = Val y) /\
   @ekf0 lp 2 g k x0 f h N.+1 true (Some r) None = Nan].
Proof.
move: p1 p2 q1 q2; case: t1 => [[xi1 Q1] A1]; case: t2 => [[xi2 Q2] A2]; cbn [fst snd] => pQ1 pQ2 q1' q2'.
eexists _, _; split; [reflexivity | reflexivity | reflexivity |].
move=> lp f h N g k x0; set r := Some _.
pose tr : transition (2 * 3) := (col_mx xi1 (col_mx (pad_cv 3 xi2) 0), block_mx Q1 0 0 (block_mx (pad_mx 3 Q2) 0 0 0),
  block_mx A1 0 0 (block_mx (pad_mx 3 A2) 0 0 0)).
have -> : r = a_prior tr by [].
have pQ : psd tr.1.2 := psd_block pQ1 (psd_block (psd_pad 3 pQ2) (psd0 0)).
have w1 : (1 : 'I_3) = widen_ord (ltnW (isT : (2 < 3)%N)) (1 : 'I_2) by apply/val_inj.
have o2 (i : 'I_2) : i = 0 \/ i = 1 by case: i => [[|[|//]] H]; [left | right]; apply/val_inj.
have pS : pd (slice2 1 1 tr.1.2).
  pose i0 : 'I_(3 + (3 + 0)) := lshift _ (1 : 'I_3); pose i1 : 'I_(3 + (3 + 0)) := rshift 3 (lshift 0 (1 : 'I_3)).
  have e0 : mxtens_index (0 : 'I_2, 1 : 'I_3) = i0 by apply/val_inj.
  have e1 : mxtens_index (1 : 'I_2, 1 : 'I_3) = i1 by apply/val_inj.
  have E00 : slice2 1 1 tr.1.2 0 0 = Q1 1 1 by rewrite mxE e0; exact: block_mxEul.
  have E01 : slice2 1 1 tr.1.2 0 1 = 0 by rewrite mxE e0 e1; apply: etrans (block_mxEur _ _ _ _ _ _) _; rewrite mxE.
  have E10 : slice2 1 1 tr.1.2 1 0 = 0 by rewrite mxE e0 e1; apply: etrans (block_mxEdl _ _ _ _ _ _) _; rewrite mxE.
  have E11 : slice2 1 1 tr.1.2 1 1 = Q2 1 1.
    rewrite mxE e1; apply: etrans (block_mxEdr _ _ _ _ _ _) _; apply: etrans (block_mxEul _ _ _ _ _ _) _.
    by rewrite w1; exact: pad_mxE.
  split; first by apply/matrixP=> i j; rewrite trmxE; case: (o2 i) => ->; case: (o2 j) => ->; rewrite ?E01 ?E10.
  move=> x x0'; rewrite /qf mulmxE sum2V !mulmxE !sum2V !trmxE E00 E01 E10 E11 !mulr0 addr0 add0r.
  have g0 (a y : R) : 0 < a -> 0 <= y * a * y by move=> a0; rewrite mulrAC; apply: mulr_ge0; [exact: sqr_ge0 | exact: ltW].
  have g1 (a y : R) : 0 < a -> y != 0 -> 0 < y * a * y.
    by move=> a0 y0; rewrite mulrAC; apply: mulr_gt0 => //; rewrite lt_neqAle eq_sym mulf_neq0 // sqr_ge0.
  case: (eqVneq (x 0 0) 0) => [z0|z0]; last by apply: ltr_paddr; [exact: g0 | exact: g1].
  apply: ltr_paddl; [exact: g0 | apply: g1 => //].
  by apply: contra x0' => /eqP z1; apply/eqP/colP=> i; rewrite mxE; case: (o2 i) => ->.
split; first by apply: (@ekf0_slopes lp 2 f h N g k x0 1 tr None) => //; left.
rewrite ekf0_run // /_solver [get_noise _ _]/= (get_prior_id _ _) !rbind_val.
have nQ : ~ pd tr.1.2.
  case=> _ H; apply: (@pad_not_pd 2 2 isT Q2); split; first by have [] := psd_pad 3 pQ2.
  move=> y y0; pose x : 'cV[R]_(3 + (3 + 0)) := col_mx 0 (col_mx y 0).
  have x0' : x != 0.
    by rewrite /x !col_mx_eq0 eqxx andTb negb_and y0.
  have : 0 < @qf (3 + (3 + 0)) (block_mx Q1 0 0 (block_mx (pad_mx 3 Q2) 0 0 0)) x := H x x0'.
  have E2 (B : 'M[R]_(3 + 0)) (z : 'cV[R]_(3 + 0)) : @qf (3 + (3 + 0)) (block_mx Q1 0 0 B) (col_mx 0 z) = qf B z.
    by rewrite /qf tr_col_mx mul_row_block mul_row_col trmx0 !mulmx0 !add0r.
  have E3 : @qf (3 + 0) (block_mx (pad_mx 3 Q2) 0 0 0) (col_mx y 0) = qf (pad_mx 3 Q2) y.
    by rewrite /qf tr_col_mx mul_row_block mul_row_col trmx0 !mulmx0 !addr0.
  by rewrite E2 E3.
have EC : cholesky lp tr.1.2 = Nan by rewrite /cholesky chol_nan //; case: pQ.
move: EC; case: (tr) => [[xi Q] A]; cbn [fst snd] => EC.
by rewrite EC.
Qed.
End Reviewer.
