(** Counterexamples about the experiment scripts, and runs that return numbers. *)
From Coq Require Import Reals Lra FunctionalExtensionality.
From mathcomp Require Import all_ssreflect all_algebra mxtens.
From Verif Require Import Rstruct Base Linalg Lapack Expm Calc Prob Spec M_Utils L_Utils M_Foster L_Foster M_SdeSolver
  L_SdeSolver M_Euler L_Euler M_ItoStrat L_ItoStrat M_Filter L_Filter M_Prior L_Prior M_OdeSolvers L_OdeSolvers
  L_Alg3 L_Init L_Total M_Scripts L_Scripts L_Scripts2 L_Scripts3 L_Posterior L_Calibration.

Set Implicit Arguments.
Unset Strict Implicit.
Unset Printing Implicit Defensive.
Import Order.TTheory GRing.Theory Num.Theory.
Local Open Scope ring_scope.

(** ** local_order_experiment_from_scratch.py, Brownian motion, the numbers of the script *)
Lemma local_refuted (fine_N : nat) (delta c : R) : (0 < fine_N)%N -> 0 < delta -> fine_N%:R / delta = c ^+ 2 -> 1 < c ->
  exists (g : prng) (k : key g),
  let k' := nth k (split k 1) 0 in
  let coeffs := parabolas_fine 1 fine_N k' delta in
  let W := coeffs.1.1.1 in
  [/\ local_reference fine_N delta 0 (fun _ _ => 0) (fun _ _ => 1%:M) k = Val (c *: W),
      final (em_pathwise (fun _ _ => 0) (fun _ _ => 1%:M) (delta / fine_N%:R) (fine_incs coeffs) 0 fine_N false) = Val W &
      c *: W <> W].
Proof.
move=> f0 d0 Ec c1; exists ones_prng, tt => k' coeffs W; split.
- rewrite local_bm // add0r Ec; congr (Val (_ *: _)); rewrite expr2; apply: sqrt_square; apply: Rlt_le; apply/RltP.
  exact: lt_trans ltr01 c1.
- rewrite final_em ?size_local // emseq_noise add0r; congr Val; rewrite /W -fine_sum.
  by rewrite (big_nth 0) big_mkord size_local.
rewrite /W /coeffs ones_fine => /matrixP /(_ 0 0); rewrite !mxE => /eqP; rewrite -subr_eq0 -{2}[_ * sqrt _]mul1r -mulrBl.
rewrite !mulf_eq0 subr_eq0 gt_eqF // pnatr_eq0 -[_ == 0%N]negbK -lt0n f0 /= gt_eqF //.
by apply/RltP; apply: sqrt_lt_R0; apply/RltP; rewrite divr_gt0 // ltr0n.
Qed.

(** ** breaking_multidimensionnal.py *)
Lemma closed_refuted (delta : R) (M : nat) : 0 < delta -> delta <= M%:R ->
  exists (A : 'M[R]_2) (S : 'M[R]_(2, 1)) (incs : seq 'cV[R]_1), forall x,
    closed_step A S delta M incs x <> docstring_step A S delta incs x.
Proof.
move=> d0 dM; pose A : 'M[R]_2 := \matrix_(i, j) ((val i == 0%N) && (val j == 1%N))%:R.
pose S : 'M[R]_(2, 1) := \matrix_(i, j) (val i == 1%N)%:R.
exists A, S, [:: 0; const_mx 1] => x E.
have AA : A *m A = 0.
  by apply/matrixP=> i j; rewrite mulmxE sum2V !mxE /= !andbF !mul0r mulr0 addr0.
have := @closed_step_nilp 2 1 A S delta M [:: 0; const_mx 1] x AA d0 dM; rewrite E subrr => H.
have := congr1 (fun B : 'cV[R]_2 => B 0 0) H; rewrite zeromxE mulmxE big_ord1 mulmxE sum2V !mxE.
rewrite !big_ord_recl big_ord0 /= !mxE /= !mul0r !mul1r !add0r !addr0 !mulr1 => /esym/eqP.
by rewrite !mulf_eq0 invr_eq0 !pnatr_eq0 /= orbF gt_eqF.
Qed.

(** ** Posterior samples: a correlated posterior *)
Lemma posterior_refuted (lp : lapack) : exists (g : prng) (n dim : nat) (mu : 'I_n -> 'cV[R]_dim) (V : 'I_n -> 'M[R]_dim)
  (Om : Type) (E : expectation Om) (ks : Om -> key g) (X : Om -> 'cV[R]_(n * dim)),
  [/\ forall k, pd (V k), standard E (fun w => normal (ks w) (n * dim)),
      forall w, posterior_sample lp mu V (ks w) = Val (X w) &
      Emx E (fun w => (X w - stacked_mean mu) *m (X w - stacked_mean mu)^T) <> stacked_var V].
Proof.
pose L : 'M[R]_2 := \matrix_(i, j) (val j <= val i)%:R.
pose V (k : 'I_1) : 'M[R]_2 := L *m L^T.
have Vpd k : pd (V k).
  apply: pd_gram; apply: lower_unit; first by move=> i j ij; rewrite mxE leqNgt ij.
  by move=> i; rewrite mxE leqnn ltr0n.
have std := signkey_standard1 (1 * 2).
have [_ [X [_ HX _ _]]] := @posterior_law lp tree_prng 1 2 (fun _ => 0) V Vpd _ _ id std.
exists tree_prng, 1%N, 2%N, (fun _ => 0), V, _, (signkeyE 1 (1 * 2)), id, X; split=> //.
have [H _] := posterior_exact Vpd std HX.
move/H => /(_ 0 0 1 isT) /eqP; apply/negP.
by rewrite mulmxE sum2V !trmxE !mxE /= !mulr1 addr0 oner_eq0.
Qed.

(** ** The low-memory scripts return numbers *)
Lemma ram_numbers (lp : lapack) (g : prng) d m fine (delta : R) (M : nat) (drift : 'cV[R]_d -> R -> 'cV[R]_d)
  (sigma : 'cV[R]_d -> R -> 'M[R]_(d, m)) (EKF0 : bool) n (s : R) (k : key g) x0 N :
  (0 < d)%N -> (EKF0 -> (n < 2)%N) -> (0 < fine)%N -> s != 0 -> 0 < delta -> (0 < M)%N ->
  let prior := a_prior (ioup 0 s n.+1 (delta / M%:R) d) in
  let int kk (x : res 'cV[R]_d) f T := let! x := x in
    if EKF0 then ekf0 lp (Some kk) x f (T / M%:R) M true prior None
    else ekf1 lp (Some kk) x f (T / M%:R) M true prior None in
  let r := ram_solver fine delta drift sigma int k (Val x0) x0 N in
  forall i, (i <= N)%N -> (exists y, nth Nan r.1.2 i = Val y) /\ (exists y, nth Nan r.2 i = Val y).
Proof.
move=> d0 n2 f0 s0 D0 M0 prior int r i iN.
have [E1 [ts [ys [_ _ H2]]]] := @ram_pair g d m _ fine delta int drift sigma k (Val x0) x0 N f0.
split; last by rewrite H2 //; eexists.
have sz : size (sde_solver drift sigma (get_approx_fine g m fine) delta int k (Val x0) N).1.2 = N.+1.
  by rewrite sde_solverE; cbn [fst snd size]; rewrite size_map run_size ?size_split ?size_mkseq.
have pQ : pd (ioup 0 s n.+1 (delta / M%:R) d).1.2 by apply: ioup_pd => //; rewrite divr_gt0 // ltr0n.
have [y Ey] := @ode_runs lp g d m drift sigma (get_approx_fine g m fine) delta M true g (fun kk => Some kk) EKF0 n
  (ioup 0 s n.+1 (delta / M%:R) d) None k x0 N d0 n2 pQ (or_introl erefl) i iN.
by exists y; rewrite E1 -Ey; apply: set_nth_default; rewrite sz ltnS.
Qed.

(** ** Calibration: the second estimate is 10 *)
Lemma calibrated_refuted (lp : lapack) (g : prng) : exists d m fine (delta : R) M (drift : 'cV[R]_d -> R -> 'cV[R]_d)
  (sigma : 'cV[R]_d -> R -> 'M[R]_(d, m)) x0 N, forall k : key g,
  exists2 v, 0 < v & calibration_script lp fine delta M drift sigma (sqrt 10%:R) k x0 N = Val (v, 10%:R).
Proof.
exists 1%N, 1%N, 1%N, 1, 1%N, (fun _ t => const_mx t), (fun _ _ => 0), 0, 1%N => k.
have s0 : 0 < sqrt 10%:R :> R by apply/RltP; apply: sqrt_lt_R0; apply/RltP; rewrite ltr0n.
have [v Ev v0] := @calibration_one lp g 1 1 1 1 (fun _ t => const_mx t) (sqrt 10%:R) k 0 ltr01 s0 isT.
have [w [w0 Ew ->]] := @script_exact lp g 1 1 1 1 1 (fun _ t => const_mx t) (fun _ _ => 0) ltr01 isT (sqrt 10%:R) k 0 1 s0 isT isT.
move: Ew; rewrite Ev => -[vw]; move: v0 w0; rewrite vw => v0 w0.
have nz : w != 0.
  by apply/eqP => /v0 /matrixP /(_ 0 0); rewrite !mxE => /eqP; rewrite eq_sym oner_eq0.
exists w; first by rewrite lt_neqAle eq_sym nz.
rewrite (negPf nz) expr2; congr (Val (_, _)); apply: sqrt_sqrt; apply: Rlt_le; apply/RltP; rewrite ltr0n //.
Qed.

Lemma reviewer_ex (dt : R) : 0 < dt -> let t1 : transition 3 := ioup 1 1 2 dt 1 in let t2 : transition 2 := ioup 1 1 1 dt 1 in
  [/\ psd t1.1.2, psd t2.1.2, 0 < t1.1.2 1 1 & 0 < t2.1.2 1 1].
Proof.
move=> dt0 t1 t2.
have D n (A : 'M[R]_n) i : pd A -> 0 < A i i.
  move=> [_ /(_ (delta_mx i 0))]; rewrite /qf trmx_delta -rowE -colE !mxE; apply.
  by apply/eqP => /matrixP /(_ i 0); rewrite !mxE !eqxx => /eqP; rewrite oner_eq0.
have p1 : pd t1.1.2 by apply: (@ioup_pd 1 2 dt 1); rewrite ?oner_eq0.
have p2 : pd t2.1.2 by apply: (@ioup_pd 1 1 dt 1); rewrite ?oner_eq0.
by split; [exact: pd_psd | exact: pd_psd | exact: D | exact: D].
Qed.
