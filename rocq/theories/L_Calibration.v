(** Lemmas about the calibration scripts. *)
From Coq Require Import Reals Lra FunctionalExtensionality.
From mathcomp Require Import all_ssreflect all_algebra mxtens.
From Verif Require Import Rstruct Base Linalg Lapack Expm Calc Prob Spec M_Utils L_Utils M_Foster L_Foster M_SdeSolver
  L_SdeSolver M_Euler L_Euler M_ItoStrat L_ItoStrat M_Filter L_Filter M_Prior L_Prior M_OdeSolvers L_OdeSolvers
  L_Alg3 L_Init L_Total L_More M_Scripts L_Scripts L_Scripts2.

Set Implicit Arguments.
Unset Strict Implicit.
Unset Printing Implicit Defensive.
Import Order.TTheory GRing.Theory Num.Theory.
Local Open Scope ring_scope.

(** ** The estimate under a change of scale *)
Lemma mle_terms_scale n (zs : seq 'cV[R]_n) (Ss : seq 'M[R]_n) (c : R) : c != 0 ->
  mle_terms zs [seq c *: C | C <- Ss] = rmap (map (fun s => s / c)) (mle_terms zs Ss).
Proof.
move=> c0; elim: zs Ss => [|z zs IH] [|C Ss] //=; rewrite IH /solve_gen unitmxZ ?unitfE //.
case: ifP => // uC; rewrite !rbind_val; case: (mle_terms zs Ss) => [r||] //.
rewrite /rmap !rbind_val [map _ (_ :: _)]/=; congr (Val (_ :: _)).
rewrite invmxZ; last by rewrite unitmxZ ?unitfE.
by rewrite -scalemxAl -scalemxAr scalemxE mulrC.
Qed.

Lemma mle_scale n (zs : seq 'cV[R]_n) (Ss : seq 'M[R]_n) (c : R) : c != 0 ->
  mle_diffusion zs [seq c *: C | C <- Ss] = rmap (fun s => s / c) (mle_diffusion zs Ss).
Proof.
move=> c0; rewrite /mle_diffusion size_map; case: ifP => // _; rewrite mle_terms_scale //.
case: (mle_terms zs Ss) => [r||] //=; case: ifP => // _ /=.
by congr Val; rewrite big_map [RHS]mulrAC; congr (_ / _); rewrite mulr_suml.
Qed.

Lemma ioup_scale (a s : R) q dt d :
  ioup 0 (a * s) q dt d = ((ioup 0 s q dt d).1.1, a ^+ 2 *: (ioup 0 s q dt d).1.2, (ioup 0 s q dt d).2).
Proof.
rewrite /ioup; congr (_, _, _); cbn [fst snd].
apply/matrixP=> p r; rewrite /ioup_Q exprMn -scalerA [RHS]scalemxE !mxE.
by rewrite mulrCA.
Qed.

(** ** One call of Algorithm 3 *)
Section Step.
Variables (lp : lapack) (d : nat) (f : 'cV[R]_d -> R -> 'cV[R]_d) (h hp s a : R) (N : nat) (EKF0 : bool) (H : 'M[R]_d).
Hypotheses (s0 : 0 < s) (a0 : 0 < a) (hp0 : 0 < hp) (N0 : (0 < N)%N).
Variables (g : prng) (k : option (key g)).
Notation prior s := (a_prior (ioup 0 s 1 hp d)).

(** In square-root form: the covariances of the plain form. *)
Lemma alg3_all_plain (s' : R) x m P : 0 < s' -> psd P ->
  let tr := ioup 0 s' 1 hp d in
  let V := interlace_matrix P (P *m H^T) (H *m P) (H *m P *m H^T) in
  let m0 := interl (fun i : 'I_2 => if i == 0 then m else f m 0) in
  (exists m' (L' : 'M[R]_(d * 2)) S z sm smp, [/\
     ekf_UC lp (@observation_function d EKF0 f 0) tr.2 tr.1.2 tr.1.1 0 false (m0, V)
       (mkseq (fun k => k.+1%:R * h) N) = Val ((m', L' *m L'^T), S, z),
     alg3_all lp EKF0 H k (x, m, P) f h N true (prior s') None =
       Val ((sm, slice 0 m', slice2 0 0 (L' *m L'^T)), (smp, m', L' *m L'^T, Arr2 S, Arr1 z)) &
     psd (slice2 0 0 (L' *m L'^T))]) \/
  (ekf_UC lp (@observation_function d EKF0 f 0) tr.2 tr.1.2 tr.1.1 0 false (m0, V)
     (mkseq (fun k => k.+1%:R * h) N) = Nan /\
   alg3_all lp EKF0 H k (x, m, P) f h N true (prior s') None = Nan).
Proof.
move=> s'0 pP tr V m0.
have pQ : pd tr.1.2 by apply: ioup_pd => //; rewrite gt_eqF.
have [LQ [EQ _ _ LLQ]] := cholP lp pQ.
have pV : psd V by apply: joint_psd.
rewrite /alg3_all /_solver_all /get_noise (get_prior_id _ _) -/tr (surjective_pairing tr) (surjective_pairing tr.1) !rbind_val.
case: N N0 => // n _; rewrite /cholesky EQ rbind_val linspace_grid1 /init_joint -/V -/m0; cbn [fst snd].
have := ekf_sqrt lp (@observation_function d EKF0 f 0) tr.2 tr.1.1 LQ 0 m0 (sqrtm lp V) (mkseq (fun k => k.+1%:R * h) n.+1).
rewrite LLQ trmx0 mulmx0 sqrtm_gram //.
case=> [[m' [L' [S [z [-> -> _]]]]]|[-> ->]]; [left | by right].
rewrite /=; do 6 eexists; split; [reflexivity | reflexivity | ].
by rewrite -sel_slice2; apply: psd_congr; exact: psd_gram.
Qed.

Lemma alg3_all_scale x x' m P : psd P ->
  (exists m' P' S z sm smp m2 P2 sm' smp' m2' P2',
    [/\ alg3_all lp EKF0 H k (x, m, P) f h N true (prior s) None =
          Val ((sm, m', P'), (smp, m2, P2, Arr2 S, Arr1 z)),
        alg3_all lp EKF0 H k (x', m, a ^+ 2 *: P) f h N true (prior (a * s)) None =
          Val ((sm', m', a ^+ 2 *: P'), (smp', m2', P2', Arr2 (a ^+ 2 *: S), Arr1 z)) & psd P']) \/
  (alg3_all lp EKF0 H k (x, m, P) f h N true (prior s) None = Nan /\
   alg3_all lp EKF0 H k (x', m, a ^+ 2 *: P) f h N true (prior (a * s)) None = Nan).
Proof.
move=> pP; have aa : 0 < a ^+ 2 by exact: exprn_gt0.
have pP' : psd (a ^+ 2 *: P) by apply: psdZ => //; exact: ltW.
have as0 : 0 < a * s by exact: mulr_gt0.
have := alg3_all_plain x m s0 pP; have := alg3_all_plain x' m as0 pP'; cbv zeta.
have -> : interlace_matrix (a ^+ 2 *: P) (a ^+ 2 *: P *m H^T) (H *m (a ^+ 2 *: P)) (H *m (a ^+ 2 *: P) *m H^T) =
  a ^+ 2 *: interlace_matrix P (P *m H^T) (H *m P) (H *m P *m H^T).
  by rewrite !joint_cov -scalemxAr -scalemxAl.
rewrite ioup_scale; cbn [fst snd].
have S0 := ekf_UC_scale' lp (@observation_function d EKF0 f 0) (ioup 0 s 1 hp d).2 (ioup 0 s 1 hp d).1.2
  (ioup 0 s 1 hp d).1.1 0 (interl (fun i : 'I_2 => if i == 0 then m else f m 0))
  (interlace_matrix P (P *m H^T) (H *m P) (H *m P *m H^T)) (mkseq (fun k => k.+1%:R * h) N) aa.
rewrite scaler0 in S0; rewrite {}S0.
case=> [[m1' [L1' [S1 [z1 [sm1 [smp1 [E1 A1 _]]]]]]]|[E1 A1]];
case=> [[m2' [L2' [S2 [z2 [sm2 [smp2 [E2 A2 p2]]]]]]]|[E2 A2]]; move: E1; rewrite E2; cbn [rmap rbind] => //; last by right.
case=> Em EL ES Ez; left; do 12 eexists; split; [exact: A2 | | exact: p2].
rewrite A1 -Em -ES -Ez; congr (Val (_, _, _, _)); rewrite -EL -!sel_slice2.
by rewrite -scalemxAr -scalemxAl.
Qed.

(** The call always returns, with an invertible innovation covariance. *)
Lemma alg3_all_total x m P : psd P ->
  exists o m' P' C z sm smp m2 P2, [/\ alg3_all lp EKF0 H k (x, m, P) f h N true (prior s) None =
    Val (o, (smp, m2, P2, Arr2 C, Arr1 z)), o = (sm, m', P'), psd P' & pd C].
Proof.
move=> pP; have pQ : pd (ioup 0 s 1 hp d).1.2 by apply: ioup_pd => //; rewrite gt_eqF.
have Ep := @get_prior_id d 0 h (ioup 0 s 1 hp d).
have [sm [m' [P' [pP' E]]]] := @alg3_total lp d f h N true EKF0 H g k x m P _ None _ Ep pQ pP (or_introl erefl).
move: E; rewrite /alg3 -solver_all_fst => E.
case: N N0 E => // n _ E.
case EA: (alg3_all lp EKF0 H k (x, m, P) f h n.+1 true (prior s) None) => [[o [[[[smp m2] P2] a'] b']]||]; first last.
- by move: EA E; rewrite /alg3_all; case: _solver_all => [[[? ?] ?]||].
- by move: EA E; rewrite /alg3_all; case: _solver_all => [[[? ?] ?]||].
have [_ [_ E']] := alg3_all_out EA.
have Eo : o = (sm, m', P') by move: E'; rewrite /alg3 -solver_all_fst E => -[].
have [xi [Q [A [Rn [Q' [m3 [P3 [[Ep' _ EQ _] [Ha Hb]]]]]]]]] := alg3_all_values EA.
rewrite Ha Hb; exists o, m', P'; do 6 eexists; split; [reflexivity | exact: Eo | exact: pP' |].
have pQ' : pd Q by move: Ep'; rewrite Ep => -[_ <- _].
have [LQ [EL _ _ LLQ]] := cholP lp pQ'; move: EQ; rewrite /cholesky EL => -[<-]; rewrite LLQ.
have pJ := @obs_pd d f 0 EKF0 Q (A *m m3 + xi) (n.+1%:R * h) pQ'.
have EJ : jacfwd (fun z => @observation_function d EKF0 f 0 z (n.+1%:R * h)) (A *m m3 + xi) =
  selector d 1 - if EKF0 then 0 else jac (f^~ (n.+1%:R * h)) (slice 0 (A *m m3 + xi)) *m selector d 0.
  by case: (EKF0); rewrite ?obs_jac0 ?obs_jac1 ?subr0.
move: pJ; cbv zeta; rewrite EJ => pJ.
rewrite mulmxDr mulmxDl addrAC addrC; apply: pdD => //.
by apply: psdD; [apply: psd_congr; apply: psd_congr |]; exact: psd_gram.
Qed.
End Step.

(** ** The whole run *)
Definition collect d (others : seq (res ('cV[R]_(d * 2) * 'cV[R]_(d * 2) * 'M[R]_(d * 2) * arr d * arr d)))
  : res (seq 'cV[R]_d * seq 'M[R]_d) :=
  let! others := rseq others in
  let! vars := rseq [seq out_var o.1.2 | o <- others] in
  let! means := rseq [seq out_mean o.2 | o <- others] in
  Val (means, vars).

Lemma collect_cons d x m P (C : 'M[R]_d) z os :
  collect (Val (x, m, P, Arr2 C, Arr1 z) :: os) = rmap (fun r => (z :: r.1, C :: r.2)) (collect os).
Proof.
rewrite /collect [rseq (_ :: _)]/=; case: (rseq os) => [r||] //; rewrite !rbind_val !map_cons.
rewrite [rseq (_ :: _)]/=; case: (rseq _) => [v||] //; rewrite !rbind_val.
by rewrite [rseq (_ :: _)]/=; case: (rseq _).
Qed.

Lemma collect_mle d (o : seq (res ('cV[R]_(d * 2) * 'cV[R]_(d * 2) * 'M[R]_(d * 2) * arr d * arr d))) :
  (let! others := rseq o in
   let! vars := rseq [seq out_var o0.1.2 | o0 <- others] in
   let! means := rseq [seq out_mean o0.2 | o0 <- others] in mle_diffusion means vars) =
  let! r := collect o in mle_diffusion r.1 r.2.
Proof.
rewrite /collect; case: (rseq o) => [r||] //; rewrite !rbind_val.
by case: (rseq _) => [v||] //; rewrite !rbind_val; case: (rseq _).
Qed.

Section Run.
Variables (lp : lapack) (g : prng) (d m : nat) (b : path_approx g m) (delta : R) (M : nat).
Variables (drift : 'cV[R]_d -> R -> 'cV[R]_d) (sigma : 'cV[R]_d -> R -> 'M[R]_(d, m)) (s a : R).
Hypotheses (s0 : 0 < s) (a0 : 0 < a) (delta0 : 0 < delta) (M0 : (0 < M)%N).
Notation body c := (custom_body drift sigma b delta (calibration_int lp delta M c)).

Definition related (r1 r2 : res (gauss d)) :=
  (exists x x' y P, [/\ r1 = Val (x, y, P), r2 = Val (x', y, a ^+ 2 *: P) & psd P]) \/ (r1 = Nan /\ r2 = Nan).

Lemma calib_scan inps r1 r2 : related r1 r2 ->
  let o1 := [seq o.2 | o <- (scan (body s) r1 inps).2] in
  let o2 := [seq o.2 | o <- (scan (body (a * s)) r2 inps).2] in
  (exists zs Ss, collect o1 = Val (zs, Ss) /\ collect o2 = Val (zs, [seq a ^+ 2 *: C | C <- Ss])) \/
  (collect o1 = Nan /\ collect o2 = Nan).
Proof.
have dM : 0 < delta / M%:R by rewrite divr_gt0 // ltr0n.
elim: inps r1 r2 => [|[i [k t]] inps IH] r1 r2 rel o1 o2.
  by left; exists [::], [::].
rewrite {}/o1 {}/o2; cbn [scan]; rewrite /custom_body -!/(body _); case: (split2 k) => k1 k2.
rewrite /calibration_int -!/(calibration_int _ _ _ _).
case: rel => [[x [x' [y [P [-> -> pP]]]]]|[-> ->]]; last first.
  by right; rewrite /collect.
rewrite !rbind_val /ekf1_2_all; cbn [fst snd].
set vf := fun z t0 => drift z _ + _.
have := @alg3_all_scale lp d vf (delta / M%:R) (delta / M%:R) s a M false (jac (vf^~ 0) y) s0 a0 dM M0 g (Some k2) x x' y P pP.
case=> [[m' [P' [C [z [sm [smp [m2 [P2 [sm' [smp' [m2' [P2' [-> -> pP']]]]]]]]]]]]]|[-> ->]]; last first.
  by right; rewrite /collect.
rewrite /rmap !rbind_val; cbn [map fst snd]; rewrite !collect_cons.
case: (IH (Val (sm, m', P')) (Val (sm', m', a ^+ 2 *: P'))).
- by left; exists sm, sm', m', P'.
- by case=> zs [Ss [-> ->]]; left; exists (z :: zs), (C :: Ss).
by case=> -> ->; right.
Qed.

(** Every step returns: residuals and invertible covariances. *)
Lemma calib_scan_total inps x y P : psd P ->
  exists zs Ss, [/\ collect [seq o.2 | o <- (scan (body s) (Val (x, y, P)) inps).2] = Val (zs, Ss),
    size zs = size inps, size Ss = size inps & forall C, C \in Ss -> pd C].
Proof.
have dM : 0 < delta / M%:R by rewrite divr_gt0 // ltr0n.
elim: inps x y P => [|[i [k t]] inps IH] x y P pP; first by exists [::], [::].
cbn [scan]; rewrite /custom_body -!/(body _); case: (split2 k) => k1 k2.
rewrite /calibration_int -!/(calibration_int _ _ _ _) !rbind_val /ekf1_2_all; cbn [fst snd].
set vf := fun z t0 => drift z _ + _.
have [o [m' [P' [C [z [sm [smp [m2 [P2 [-> Eo pP' pC]]]]]]]]]] :=
  @alg3_all_total lp d vf (delta / M%:R) (delta / M%:R) s M false (jac (vf^~ 0) y) s0 dM M0 g (Some k2) x y P pP.
rewrite /rmap !rbind_val; cbn [map fst snd]; rewrite Eo collect_cons.
have [zs [Ss [-> sz sS pS]]] := IH sm m' P' pP'.
exists (z :: zs), (C :: Ss); split=> //=; [by rewrite sz | by rewrite sS |].
by move=> B; rewrite inE => /orP [/eqP ->|/pS].
Qed.
End Run.

Section Script.
Variables (lp : lapack) (g : prng) (d m fine : nat) (delta : R) (M : nat).
Variables (drift : 'cV[R]_d -> R -> 'cV[R]_d) (sigma : 'cV[R]_d -> R -> 'M[R]_(d, m)).
Notation calib := (@calibration lp g d m fine delta M drift sigma).
Notation script := (@calibration_script lp g d m fine delta M drift sigma).
Hypotheses (delta0 : 0 < delta) (M0 : (0 < M)%N).

Lemma calibration_scale s a k x0 N : 0 < s -> 0 < a ->
  calib (a * s) k x0 N = rmap (fun v => v / a ^+ 2) (calib s k x0 N).
Proof.
move=> s0 a0; have aa : a ^+ 2 != 0 by rewrite gt_eqF // exprn_gt0.
rewrite /calibration (surjective_pairing (to_stratonovich _ _)) /custom_sde_solver !scan_ev_progress.
set inps := zip (iota 0 N) _; set dr := (to_stratonovich _ _).1; set sg := (to_stratonovich _ _).2.
have rel : related a (Val (x0, x0, 0)) (Val (x0, x0, 0) : res (gauss d)).
  by left; exists x0, x0, x0, 0; split; rewrite ?scaler0 //; exact: psd0.
have := calib_scan lp (get_approx_fine g m fine) dr sg s0 a0 delta0 M0 inps rel; cbv zeta.
rewrite !collect_mle.
by case=> [[zs [Ss [-> ->]]]|[-> ->]] //; rewrite !rbind_val mle_scale.
Qed.

(** The estimate is always a number, and not negative. *)
Lemma calibration_total s k x0 N : 0 < s -> (0 < d)%N -> (0 < N)%N ->
  exists2 v, calib s k x0 N = Val v & 0 <= v.
Proof.
move=> s0 d0 N0; rewrite /calibration (surjective_pairing (to_stratonovich _ _)) /custom_sde_solver scan_ev_progress.
set inps := zip (iota 0 N) _; set dr := (to_stratonovich _ _).1; set sg := (to_stratonovich _ _).2.
have := calib_scan_total lp (get_approx_fine g m fine) dr sg s0 delta0 M0 inps x0 x0 (psd0 d).
case=> zs [Ss [E sz sS pS]]; rewrite collect_mle E rbind_val; cbn [fst snd].
have sN : size inps = N.
  by rewrite /inps !size_zip size_iota size_split but_last_grid size_mkseq !minnn.
have nz : (0 < size zs * d)%N by rewrite sz sN muln_gt0 N0.
rewrite mleE //; last by rewrite sz sS.
eexists; first reflexivity.
apply: divr_ge0; last exact: ler0n.
rewrite big_seq; apply: sumr_ge0 => p pz; apply: maha_ge0; exact: zip_pd pz.
Qed.

(** The second estimate of the script is the square of the first scale; multiplying the two
    scales instead gives 1. *)
Lemma script_second (s : R) (k : key g) x0 N v v' : 0 < s -> 0 < v ->
  script s k x0 N = Val (v, v') -> v' = s ^+ 2.
Proof.
move=> s0 v0; rewrite /calibration_script; case E: (calib s k x0 N) => [w||] //; rewrite rbind_val.
case E2: (calib _ k x0 N) => [w'||] //; rewrite rbind_val => -[wv wv']; move: E2; rewrite wv wv' in E *.
have q0 : 0 < sqrt v by apply/RltP; apply: sqrt_lt_R0; exact/RltP.
have -> : sqrt v = (sqrt v / s) * s by rewrite divfK // gt_eqF.
rewrite calibration_scale // ?divr_gt0 // E /rmap rbind_val => -[<-].
have -> : (sqrt v / s) ^+ 2 = v / s ^+ 2.
  by rewrite expr_div_n; congr (_ / _); rewrite expr2; apply: sqrt_sqrt; apply: Rlt_le; exact/RltP.
by rewrite invf_div mulrC divfK // gt_eqF.
Qed.

Lemma script_right (s : R) (k : key g) x0 N v : 0 < s -> 0 < v ->
  calib s k x0 N = Val v -> calib (sqrt v * s) k x0 N = Val 1.
Proof.
move=> s0 v0 E; have q0 : 0 < sqrt v by apply/RltP; apply: sqrt_lt_R0; exact/RltP.
rewrite calibration_scale // E /rmap rbind_val expr2; congr Val.
have -> : sqrt v * sqrt v = v by apply: sqrt_sqrt; apply: Rlt_le; exact/RltP.
by rewrite divff // gt_eqF.
Qed.

Lemma script_returns (s : R) (k : key g) x0 N v : 0 < s -> 0 < v -> calib s k x0 N = Val v ->
  script s k x0 N = Val (v, s ^+ 2).
Proof.
move=> s0 v0 E; have q0 : 0 < sqrt v by apply/RltP; apply: sqrt_lt_R0; exact/RltP.
have : exists v', script s k x0 N = Val (v, v').
  rewrite /calibration_script E rbind_val.
  have -> : sqrt v = (sqrt v / s) * s by rewrite divfK // gt_eqF.
  by rewrite calibration_scale // ?divr_gt0 // E /rmap !rbind_val; eexists.
by case=> v' E'; rewrite E' (script_second s0 v0 E').
Qed.

(** With a scale of zero there is no Cholesky factor. *)
Lemma alg3_all0 f h hp EKF0 H (k : option (key g)) x n : (0 < d)%N -> (0 < n)%N ->
  @alg3_all lp d EKF0 H g k x f h n true (a_prior (ioup 0 0 1 hp d)) None = Nan.
Proof.
case: n => // n d0 _; case: x => [[x y] P]; rewrite /alg3_all /_solver_all /get_noise (get_prior_id _ _) !rbind_val.
have Q0 : (ioup 0 0 1 hp d).1.2 = 0.
  by have := ioup_scale 0 1 1 hp d; rewrite mul0r => ->; cbn [fst snd]; rewrite expr0n /= scale0r.
rewrite (surjective_pairing (ioup 0 0 1 hp d)) (surjective_pairing (ioup 0 0 1 hp d).1) Q0.
have -> : cholesky lp (0 : 'M[R]_(d * 2)) = Nan.
  rewrite /cholesky chol_nan //; first by rewrite /sym trmx0.
  case=> _ H0; have dd : (0 < d * 2)%N by rewrite muln_gt0 d0.
  have := H0 (delta_mx (Ordinal dd) 0) _; rewrite /qf mulmx0 mul0mx mxE ltxx => H'.
  suff : false by []. 
  apply: H'; apply/eqP=> /matrixP /(_ (Ordinal dd) 0).
  by rewrite !mxE !eqxx => /eqP; rewrite oner_eq0.
by [].
Qed.

Lemma calibration0 k x0 N : (0 < d)%N -> (0 < N)%N -> calib 0 k x0 N = Nan.
Proof.
move=> d0; case: N => // N _; rewrite /calibration (surjective_pairing (to_stratonovich _ _)) /custom_sde_solver scan_ev_progress.
rewrite collect_mle; set dr := (to_stratonovich _ _).1; set sg := (to_stratonovich _ _).2.
have sz : size (zip (split k N.+1) (but_last (linspace 0 (N.+1%:R * delta) N.+2))) = N.+1.
  by rewrite size_zip size_split but_last_grid size_mkseq minnn.
case: (zip (split k N.+1) _) sz => [//|[k' t] l] _.
cbn [iota zip scan]; rewrite /custom_body; case: (split2 k') => k1 k2.
by rewrite /calibration_int rbind_val /ekf1_2_all alg3_all0 //; cbn [fst snd map rmap rbind].
Qed.

(** Everything the script can return. *)
Lemma script_exact (s : R) (k : key g) x0 N : 0 < s -> (0 < d)%N -> (0 < N)%N ->
  exists v, [/\ 0 <= v, calib s k x0 N = Val v & script s k x0 N = if v == 0 then Nan else Val (v, s ^+ 2)].
Proof.
move=> s0 d0 N0; have [v E v0] := calibration_total k x0 s0 d0 N0; exists v; split=> //.
case: eqP => [v00|/eqP vn]; last by apply: script_returns => //; rewrite lt_neqAle eq_sym vn.
rewrite /calibration_script E rbind_val v00.
have -> : sqrt 0 = 0 :> R by exact: sqrt_0.
by rewrite calibration0.
Qed.
End Script.

(** One interval, one step, no noise: the estimate is zero exactly when the field is the same at
    both ends of the Euler step. *)
Lemma calibration_one (lp : lapack) (g : prng) d m fine delta (drift : 'cV[R]_d -> R -> 'cV[R]_d) s (k : key g) x0 :
  0 < delta -> 0 < s -> (0 < d)%N ->
  exists2 v, @calibration lp g d m fine delta 1 drift (fun _ _ => 0) s k x0 1 = Val v &
    v = 0 <-> drift x0 0 = drift (x0 + delta *: drift x0 0) delta.
Proof.
move=> delta0 s0 d0; rewrite /calibration (surjective_pairing (to_stratonovich _ _)) /custom_sde_solver scan_ev_progress.
set sg := (to_stratonovich _ _).2; set dr := (to_stratonovich _ _).1.
have drE z t : dr z t = drift z t by rewrite /dr (correction_additive drift (fun _ => 0) z t).2.
have sgE z t : sg z t = 0 by [].
rewrite collect_mle but_last_grid /mkseq [iota 0 1]/= [split k 1]/= [map _ _]/= mul0r.
set keys := split k 1; have : size keys = 1%N by rewrite size_split.
case: keys => [|k' []] // _; cbn [zip scan map fst snd]; rewrite /custom_body; case: (split2 k') => k1 k2.
rewrite /calibration_int rbind_val /ekf1_2_all; cbn [fst snd map].
set vf := fun z t0 => dr z _ + _.
have vfE z t : vf z t = drift z t by rewrite /vf sgE drE addr0 mul0mx addr0.
have d1 : 0 < delta / 1 by rewrite divr1.
have [o [m' [P' [C [z [sm [smp [m2 [P2 [E Eo pP' pC]]]]]]]]]] :=
  @alg3_all_total lp d vf (delta / 1) (delta / 1) s 1 false (jac (vf^~ 0) x0) s0 d1 erefl g (Some k2) x0 x0 0 (psd0 d).
rewrite E; cbn [rmap rbind fst snd]; rewrite collect_cons; cbn [rmap rbind fst snd collect rseq map].
have pCs B : B \in [:: C] -> pd B by rewrite inE => /eqP ->.
have dd : (0 < size [:: z] * d)%N by rewrite mul1n.
have [v Ev [_ [_ v0 _]]] := @mle_max d [:: z] [:: C] erefl pCs dd; exists v; first exact: Ev.
have [xi [Q [A [Rn [Q' [m3 [P3 [[Ep' _ EQ Er] [_ [Hb]]]]]]]]]] := alg3_all_values E.
have [E1 E2] := @ibm_Am d (delta / 1) s m3.
move: Ep'; rewrite (get_prior_id _ _) => -[exi eQ eA].
have {}E1 : slice 0 (A *m m3 + xi) = slice 0 m3 + (delta / 1) *: slice 1 m3 by rewrite -exi addr0 -eA.
have {}E2 : slice 1 (A *m m3 + xi) = slice 1 m3 by rewrite -exi addr0 -eA.
move: Er; rewrite ekf_nil /init_joint => -[Em _].
rewrite {}v0; have -> : z = drift x0 0 - drift (x0 + delta *: drift x0 0) delta.
  by rewrite Hb E1 E2 -Em !slice_interl !vfE mul1r divr1.
split=> [H|H z']; last by rewrite inE => /eqP ->; rewrite -H subrr.
by apply/eqP; rewrite -subr_eq0; apply/eqP; apply: H; rewrite mem_head.
Qed.
