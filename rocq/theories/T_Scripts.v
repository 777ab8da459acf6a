(** Properties C88 to C96: the experiment scripts. *)
From Coq Require Import Reals Lra.
From mathcomp Require Import all_ssreflect all_algebra mxtens.
From Verif Require Import Rstruct Base Linalg Lapack Expm Calc Prob Spec M_Utils M_Foster M_SdeSolver M_Euler M_ItoStrat
  M_Filter M_Prior M_OdeSolvers M_Scripts L_Scripts L_Scripts2 L_Scripts3 L_Scripts4 L_Posterior L_Calibration L_Scripts5.

Set Implicit Arguments.
Unset Strict Implicit.
Unset Printing Implicit Defensive.
Import Order.TTheory GRing.Theory Num.Theory.
Local Open Scope ring_scope.

(** C88: the low-memory scripts.  The samples are those of sde_solver, and the second trajectory
    is Euler-Maruyama on the fine increments of the same run, at every [fine]-th point. *)
Theorem C88_pairs (g : prng) d m X (fine : nat) (delta : R) (ode_int : key g -> X -> ('cV[R]_d -> R -> 'cV[R]_d) -> R -> X)
  (drift : 'cV[R]_d -> R -> 'cV[R]_d) (sigma : 'cV[R]_d -> R -> 'M[R]_(d, m)) k x0 y0 N : (0 < fine)%N ->
  let s := sde_solver drift sigma (get_approx_fine g m fine) delta ode_int k x0 N in
  let r := ram_solver fine delta drift sigma ode_int k x0 y0 N in
  r.1 = s.1 /\
  exists ts ys, [/\ em_pathwise drift sigma (delta / fine%:R) (flatten [seq fine_incs c | c <- s.2]) y0 (fine * N) false
                      = Val (ts, ys),
    size r.2 = N.+1 & forall i, (i <= N)%N -> nth Nan r.2 i = Val (nth 0 ys (i * fine))].
Proof. exact: ram_pair. Qed.
Print Assumptions C88_pairs.

(** For noise that does not depend on the state they compute what the plain script does ... *)
Theorem C88_additive (g : prng) d m X (fine : nat) (delta : R) (ode_int : key g -> X -> ('cV[R]_d -> R -> 'cV[R]_d) -> R -> X)
  (drift : 'cV[R]_d -> R -> 'cV[R]_d) (G : R -> 'M[R]_(d, m)) k x0 y0 N : (0 < fine)%N ->
  let s := to_stratonovich drift (fun _ => G) in
  exists sols ys incs,
    plain_experiment fine delta drift (fun _ => G) ode_int k x0 y0 N = Val (sols, ys, incs) /\
    ram_solver fine delta s.1 s.2 ode_int k x0 y0 N =
      (mkseq (fun i => i%:R * delta) N.+1, sols, [seq Val y | y <- ys]).
Proof. exact: ram_plain. Qed.
Print Assumptions C88_additive.

(** ... but not in general: they hand the Stratonovich drift to the Ito scheme. *)
Theorem C88_multiplicative_refuted : exists (drift : 'cV[R]_1 -> R -> 'cV[R]_1) (sigma : 'cV[R]_1 -> R -> 'M[R]_1),
  forall (g : prng) (X : Type) (k : key g) (x0 : X) ode_int,
  let s := to_stratonovich drift sigma in
  exists sols ys incs, plain_experiment 1 1 drift sigma ode_int k x0 (const_mx 1) 1 = Val (sols, ys, incs) /\
    nth Nan (ram_solver 1 1 s.1 s.2 ode_int k x0 (const_mx 1) 1).2 1 = Val (nth 0 ys 1 - 2%:R^-1 *: const_mx 1).
Proof. by exists (fun _ _ => 0), (fun x _ => diag_mx x^T) => *; exact: ram_plain_differ. Qed.
Print Assumptions C88_multiplicative_refuted.

(** Three intervals of four fine steps, Brownian motion. *)
Example C88_ex (g : prng) (k : key g) : exists sols ys incs,
  plain_experiment 4 1 (fun _ _ => 0) (fun _ _ => 1%:M : 'M[R]_1) (fun (_ : key g) (x : 'cV[R]_1) f T => x + T *: f x 0)
    k 0 0 3 = Val (sols, ys, incs) /\ size ys = 4%N.
Proof.
have [sols [ys [incs [E1 E2]]]] := @C88_additive g 1 1 'cV[R]_1 4 1 (fun _ x f T => x + T *: f x 0) (fun _ _ => 0)
  (fun _ => 1%:M) k 0 0 3 isT.
have [_ [ts [zs [_ sz _]]]] := @C88_pairs g 1 1 'cV[R]_1 4 1 (fun _ x f T => x + T *: f x 0)
  (to_stratonovich (fun _ _ => 0) (fun _ _ => 1%:M : 'M[R]_1)).1 (to_stratonovich (fun _ _ => 0) (fun _ _ => 1%:M : 'M[R]_1)).2
  k 0 0 3 isT.
by exists sols, ys, incs; split=> //; move: sz; rewrite E2 /= size_map.
Qed.

(** C89: the two Euler-Maruyama runs of EM_FHN use the same Brownian path: the coarse one takes
    the increments over the intervals, the fine one the increments over their parts. *)
Theorem C89_same_path (g : prng) d m fine (delta : R) (drift : 'cV[R]_d -> R -> 'cV[R]_d)
  (sigma : 'cV[R]_d -> R -> 'M[R]_(d, m)) X (ode_int : key g -> X -> ('cV[R]_d -> R -> 'cV[R]_d) -> R -> X) z0 k x0 N :
  (0 < fine)%N ->
  let c := (sde_solver drift sigma (get_approx_fine g m fine) delta ode_int k z0 N).2 in
  exists ts ys tsf ysf,
    [/\ em_pathwise drift sigma delta [seq b.1.1.1 | b <- c] x0 N false = Val (ts, ys),
        em_pathwise drift sigma (delta / fine%:R) (flatten [seq fine_incs b | b <- c]) x0 (fine * N) false = Val (tsf, ysf)
      & two_em_solver fine delta drift sigma k x0 N =
          (ts, [seq Val y | y <- ys], mkseq (fun i => Val (nth 0 ysf (i * fine))) N.+1)].
Proof. exact: two_em_pair. Qed.
Print Assumptions C89_same_path.

(** The increment over an interval is the sum of the fine ones. *)
Theorem C89_total (g : prng) m fine (delta : R) (k : key g) :
  \sum_(w <- fine_incs (parabolas_fine m fine k delta)) w = (parabolas_fine m fine k delta).1.1.1.
Proof. exact: fine_sum. Qed.
Print Assumptions C89_total.

(** Draws that are all 1, a hundred of them to the interval. *)
Example C89_ex : (parabolas_fine 1 (10 ^ 2) (tt : key ones_prng) 1).1.1.1 = const_mx ((10 ^ 2)%:R * sqrt (1 / (10 ^ 2)%:R)).
Proof. exact: ones_fine. Qed.

(** C90: the local order script.  Every call raises, since ekf0 gets no prior. *)
Theorem C90_raises (lp : lapack) (g : prng) fine_N (delta : R) x0 (drift : 'cV[R]_1 -> R -> 'cV[R]_1)
  (sigma : 'cV[R]_1 -> R -> 'M[R]_1) N (k : key g) :
  local_step lp fine_N delta x0 drift sigma N k = Raise TypeError.
Proof. exact: local_step_raises. Qed.
Print Assumptions C90_raises.

(** The reference it would compare with solves another equation: the noise is multiplied by
    sqrt(1 / h). *)
Theorem C90_reference (g : prng) fine_N (delta : R) x0 (drift : 'cV[R]_1 -> R -> 'cV[R]_1)
  (sigma : 'cV[R]_1 -> R -> 'M[R]_1) (k : key g) :
  let h := delta / fine_N%:R in
  let incs := fine_incs (parabolas_fine 1 fine_N (nth k (split k 1) 0) delta) in
  local_reference fine_N delta x0 drift sigma k =
  final (em_pathwise drift (fun z t => sqrt (1 / h) *: sigma z t) h incs x0 fine_N false).
Proof. exact: local_referenceE. Qed.
Print Assumptions C90_reference.

(** With standard=True it would be the right one. *)
Theorem C90_standard (fine_N : nat) (delta : R) x0 (drift : 'cV[R]_1 -> R -> 'cV[R]_1)
  (sigma : 'cV[R]_1 -> R -> 'M[R]_1) incs : 0 < delta -> size incs = fine_N -> (0 < fine_N)%N ->
  let h := delta / fine_N%:R in
  em_pathwise drift sigma h [seq sqrt (1 / h) *: w | w <- incs] x0 fine_N true =
  em_pathwise drift sigma h incs x0 fine_N false.
Proof. exact: (@local_standard ones_prng fine_N delta x0 drift sigma tt incs). Qed.
Print Assumptions C90_standard.

(** The numbers of the script: 1000 fine steps, delta = 1/10, so a factor 100. *)
Theorem C90_reference_refuted : exists (g : prng) (k : key g),
  let k' := nth k (split k 1) 0 in
  let coeffs := parabolas_fine 1 1000 k' 10%:R^-1 in
  let W := coeffs.1.1.1 in
  [/\ local_reference 1000 10%:R^-1 0 (fun _ _ => 0) (fun _ _ => 1%:M) k = Val (100%:R *: W),
      final (em_pathwise (fun _ _ => 0) (fun _ _ => 1%:M) (10%:R^-1 / 1000%:R) (fine_incs coeffs) 0 1000 false) = Val W &
      100%:R *: W <> W].
Proof. by apply: local_refuted; rewrite ?invr_gt0 ?ltr0n ?invrK -?natrM -?natrX ?ltr1n. Qed.
Print Assumptions C90_reference_refuted.

(** C91: the closed formula of breaking_multidimensionnal.py.  [jnp.arange(0, delta, M)] has one
    entry, so that every increment gets the same weight. *)
Theorem C91_step d m (A : 'M[R]_d) (S : 'M[R]_(d, m)) (delta : R) (M : nat) incs x : 0 < delta -> delta <= M%:R ->
  closed_step A S delta M incs x = expm (delta *: A) *m (x + S *m \sum_(w <- incs) w).
Proof. exact: closed_stepE. Qed.
Print Assumptions C91_step.

(** The distance to the formula in the docstring, with the increments at the points i delta / n. *)
Theorem C91_gap d m (A : 'M[R]_d) (S : 'M[R]_(d, m)) (delta : R) (M : nat) incs x : 0 < delta -> delta <= M%:R ->
  let ds := delta / (size incs)%:R in
  closed_step A S delta M incs x -
  (expm (delta *: A) *m x + \sum_(i < size incs) expm ((delta - i%:R * ds) *: A) *m S *m nth 0 incs i) =
  \sum_(i < size incs) expm ((delta - i%:R * ds) *: A) *m (expm ((i%:R * ds) *: A) - 1%:M) *m S *m nth 0 incs i.
Proof. exact: closed_step_diff. Qed.
Print Assumptions C91_gap.

Theorem C91_formula_refuted : exists (A : 'M[R]_2) (S : 'M[R]_(2, 1)) (incs : seq 'cV[R]_1), forall x,
  let delta := 128%:R^-1 in
  closed_step A S delta 1 incs x <>
  expm (delta *: A) *m x +
  \sum_(i < size incs) expm ((delta - i%:R * (delta / (size incs)%:R)) *: A) *m S *m nth 0 incs i.
Proof. by apply: closed_refuted; rewrite ?invr_gt0 ?ltr0n ?invr_le1 ?ler1n ?unitfE ?pnatr_eq0 ?ltr0n. Qed.
Print Assumptions C91_formula_refuted.

(** The step 1/128 with M = 1, as in the script. *)
Example C91_ex : 0 < 128%:R^-1 :> R /\ 128%:R^-1 <= 1%:R :> R.
Proof. by rewrite invr_gt0 ltr0n invf_le1 ?ltr0n // ler1n. Qed.

(** C92: samples of the posterior.  The mean is right; the covariance at each time is L^T L
    instead of L L^T. *)
Theorem C92_law (lp : lapack) (g : prng) (n dim : nat) (mu : 'I_n -> 'cV[R]_dim) (V : 'I_n -> 'M[R]_dim)
  (Om : Type) (E : expectation Om) (ks : Om -> key g) : (forall k, pd (V k)) ->
  standard E (fun w => normal (ks w) (n * dim)) ->
  exists (L : 'I_n -> 'M[R]_dim) (X : Om -> 'cV[R]_(n * dim)),
  [/\ forall k, [/\ lower_tri (L k), forall i, 0 < L k i i & L k *m (L k)^T = V k],
      forall w, posterior_sample lp mu V (ks w) = Val (X w),
      Emx E X = stacked_mean mu &
      forall k i l j, Emx E (fun w => (X w - stacked_mean mu) *m (X w - stacked_mean mu)^T)
        (mxtens_index (k, i)) (mxtens_index (l, j)) = if k == l then ((L k)^T *m L k) i j else 0].
Proof. exact: (fun Vpd => @posterior_law lp g n dim mu V Vpd Om E ks). Qed.
Print Assumptions C92_law.

(** The vector and the matrix are those of the claim: coordinate i at time k is entry (k, i), and
    different times are uncorrelated. *)
Theorem C92_stacking (n dim : nat) (mu : 'I_n -> 'cV[R]_dim) (V : 'I_n -> 'M[R]_dim) k i l j :
  stacked_mean mu (mxtens_index (k, i)) 0 = mu k i 0 /\
  stacked_var V (mxtens_index (k, i)) (mxtens_index (l, j)) = if k == l then V k i j else 0.
Proof. exact: stacking. Qed.
Print Assumptions C92_stacking.

(** It is the wanted one exactly when all posterior covariances are diagonal. *)
Theorem C92_exact (lp : lapack) (g : prng) (n dim : nat) (mu : 'I_n -> 'cV[R]_dim) (V : 'I_n -> 'M[R]_dim)
  (Om : Type) (E : expectation Om) (ks : Om -> key g) (X : Om -> 'cV[R]_(n * dim)) : (forall k, pd (V k)) ->
  standard E (fun w => normal (ks w) (n * dim)) -> (forall w, posterior_sample lp mu V (ks w) = Val (X w)) ->
  let C := Emx E (fun w => (X w - stacked_mean mu) *m (X w - stacked_mean mu)^T) in
  (C = stacked_var V <-> forall k i j, i != j -> V k i j = 0) /\ \tr C = \tr (stacked_var V) /\ \det C = \det (stacked_var V).
Proof. exact: (fun Vpd => @posterior_exact lp g n dim mu V Vpd Om E ks X). Qed.
Print Assumptions C92_exact.

Theorem C92_covariance_refuted (lp : lapack) : exists (g : prng) (n dim : nat) (mu : 'I_n -> 'cV[R]_dim)
  (V : 'I_n -> 'M[R]_dim) (Om : Type) (E : expectation Om) (ks : Om -> key g) (X : Om -> 'cV[R]_(n * dim)),
  [/\ forall k, pd (V k), standard E (fun w => normal (ks w) (n * dim)),
      forall w, posterior_sample lp mu V (ks w) = Val (X w) &
      Emx E (fun w => (X w - stacked_mean mu) *m (X w - stacked_mean mu)^T) <> stacked_var V].
Proof. exact: posterior_refuted. Qed.
Print Assumptions C92_covariance_refuted.

(** C93: calibration.  The driver of the script is sde_solver, with the second output of the ODE
    solver collected along the way. *)
Theorem C93_driver (g : prng) d m X Y (drift : 'cV[R]_d -> R -> 'cV[R]_d) (sigma : 'cV[R]_d -> R -> 'M[R]_(d, m))
  (bm : path_approx g m) (delta : R) (int : key g -> X -> ('cV[R]_d -> R -> 'cV[R]_d) -> R -> X * Y) k x0 N :
  let: (ts, traj, cs, others) := custom_sde_solver drift sigma bm delta int k x0 N in
  [/\ sde_solver drift sigma bm delta (fun k x f T => (int k x f T).1) k x0 N = (ts, traj, cs), size others = N &
      forall i c0 o0, (i < N)%N -> nth o0 others i =
        (int (child (child k N i) 2 1) (nth x0 traj i)
          (fun z t => drift z (t + i%:R * delta) +
             sigma z (t + i%:R * delta) *m jacR (fun s => eval_fn s delta (nth c0 cs i)) t) delta).2].
Proof. exact: custom_driver. Qed.
Print Assumptions C93_driver.

(** The estimate is that of mle_diffusion for the residuals and their covariances at the end of
    each interval of the Algorithm 3 run. *)
Theorem C93_estimate (lp : lapack) (g : prng) d m fine (delta : R) M (drift : 'cV[R]_d -> R -> 'cV[R]_d)
  (sigma : 'cV[R]_d -> R -> 'M[R]_(d, m)) (s : R) (k : key g) x0 N : 0 < delta -> (0 < M)%N -> 0 < s ->
  let st := to_stratonovich drift sigma in
  let bm := get_approx_fine g m fine in
  let filter kk (x : gauss d) f T :=
    ekf1_2_all lp (Some kk) x f (T / M%:R) M true (a_prior (ioup 0 s 1 (delta / M%:R) d)) None in
  let: (_, traj, cs) := sde_solver st.1 st.2 bm delta (fun kk x f T => let! x := x in rmap fst (filter kk x f T))
     k (Val (x0, x0, 0)) N in
  exists zs Ss, [/\ size zs = N, size Ss = N, calibration lp fine delta M drift sigma s k x0 N = mle_diffusion zs Ss &
    forall i c0, (i < N)%N -> exists x p,
      nth Nan traj i = Val x /\
      rmap snd (filter (child (child k N i) 2 1) x
        (fun z t => st.1 z (t + i%:R * delta) +
             st.2 z (t + i%:R * delta) *m jacR (fun s => eval_fn (p := bm) s delta (nth c0 cs i)) t) delta) =
      Val (p, Arr2 (nth 0 Ss i), Arr1 (nth 0 zs i))].
Proof. exact: (fun d0 M0 => @calibration_mle lp g d m fine delta M drift sigma d0 M0 s k x0 N). Qed.
Print Assumptions C93_estimate.

(** The estimate of a run whose prior scale is multiplied by [a] is divided by
    a^2. *)
Theorem C93_scale (lp : lapack) (g : prng) d m fine (delta : R) M (drift : 'cV[R]_d -> R -> 'cV[R]_d)
  (sigma : 'cV[R]_d -> R -> 'M[R]_(d, m)) s a (k : key g) x0 N : 0 < delta -> (0 < M)%N -> 0 < s -> 0 < a ->
  calibration lp fine delta M drift sigma (a * s) k x0 N =
  rmap (fun v => v / a ^+ 2) (calibration lp fine delta M drift sigma s k x0 N).
Proof. exact: (fun d0 M0 => @calibration_scale lp g d m fine delta M drift sigma d0 M0 s a k x0 N). Qed.
Print Assumptions C93_scale.

(** All that the script can return: the second estimate, meant to be 1, is the square of the first
    prior scale. *)
Theorem C93_outcome (lp : lapack) (g : prng) d m fine (delta : R) M (drift : 'cV[R]_d -> R -> 'cV[R]_d)
  (sigma : 'cV[R]_d -> R -> 'M[R]_(d, m)) (s : R) (k : key g) x0 N :
  0 < delta -> (0 < M)%N -> 0 < s -> (0 < d)%N -> (0 < N)%N ->
  exists v, [/\ 0 <= v, calibration lp fine delta M drift sigma s k x0 N = Val v &
    calibration_script lp fine delta M drift sigma s k x0 N = if v == 0 then Nan else Val (v, s ^+ 2)].
Proof. exact: (fun d0 M0 => @script_exact lp g d m fine delta M drift sigma d0 M0 s k x0 N). Qed.
Print Assumptions C93_outcome.

(** Multiplying the old scale by the square root of the estimate gives 1. *)
Theorem C93_right (lp : lapack) (g : prng) d m fine (delta : R) M (drift : 'cV[R]_d -> R -> 'cV[R]_d)
  (sigma : 'cV[R]_d -> R -> 'M[R]_(d, m)) (s : R) (k : key g) x0 N v : 0 < delta -> (0 < M)%N -> 0 < s -> 0 < v ->
  calibration lp fine delta M drift sigma s k x0 N = Val v ->
  calibration lp fine delta M drift sigma (sqrt v * s) k x0 N = Val 1.
Proof. exact: (fun d0 M0 => @script_right lp g d m fine delta M drift sigma d0 M0 s k x0 N v). Qed.
Print Assumptions C93_right.

(** The script's first scale is sqrt 10. *)
Theorem C93_calibrated_refuted (lp : lapack) (g : prng) : exists d m fine (delta : R) M (drift : 'cV[R]_d -> R -> 'cV[R]_d)
  (sigma : 'cV[R]_d -> R -> 'M[R]_(d, m)) x0 N, forall k : key g,
  exists2 v, 0 < v & calibration_script lp fine delta M drift sigma (sqrt 10%:R) k x0 N = Val (v, 10%:R).
Proof. exact: calibrated_refuted. Qed.
Print Assumptions C93_calibrated_refuted.

(** One interval, one step, no noise: when the estimate is zero. *)
Example C93_ex (lp : lapack) (g : prng) d m fine delta (drift : 'cV[R]_d -> R -> 'cV[R]_d) s (k : key g) x0 :
  0 < delta -> 0 < s -> (0 < d)%N ->
  exists2 v, @calibration lp g d m fine delta 1 drift (fun _ _ => 0) s k x0 1 = Val v &
    v = 0 <-> drift x0 0 = drift (x0 + delta *: drift x0 0) delta.
Proof. exact: calibration_one. Qed.

(** C94: the scripts for Algorithm 3 save the samples of all keys, but the reference of the first
    key only. *)
Theorem C94_saved (g : prng) d m X Y (fine : nat) (delta : R) (drift : 'cV[R]_d -> R -> 'cV[R]_d)
  (sigma : 'cV[R]_d -> R -> 'M[R]_(d, m)) (ode_int : key g -> X -> ('cV[R]_d -> R -> 'cV[R]_d) -> R -> X)
  (sample_of : X -> Y) k0 keys x0 y0 N i : (i <= size keys)%N ->
  let r k := ram_solver fine delta drift sigma ode_int k x0 y0 N in
  let out := ram2_experiment fine delta drift sigma ode_int sample_of (k0 :: keys) x0 y0 N in
  nth [::] out.1 i = [seq sample_of x | x <- (r (nth k0 (k0 :: keys) i)).1.2] /\ out.2 = (r k0).2.
Proof. exact: ram2E. Qed.
Print Assumptions C94_saved.

(** Pure noise and the midpoint rule: every sample equals its own reference, ... *)
Theorem C94_paired (g : prng) d fine (delta : R) (k : key g) (x0 : 'cV[R]_d) : (0 < fine)%N -> 0 < delta ->
  let r := ram_solver fine delta (fun _ _ => 0) (fun _ _ => 1%:M : 'M[R]_d) (fun _ x f T => x + T *: f x (T / 2%:R)) k x0 x0 1 in
  [seq Val x | x <- r.1.2] = r.2 /\
  nth 0 r.1.2 1 = x0 + (parabolas_fine d fine (child (child k 1 0) 2 0) delta).1.1.1.
Proof. exact: noise_paired. Qed.
Print Assumptions C94_paired.

(** ... but the saved reference is that of another path. *)
Theorem C94_pairing_refuted : exists (g : prng) (k0 k1 : key g) (delta : R),
  let int (_ : key g) (x : 'cV[R]_1) (f : 'cV[R]_1 -> R -> 'cV[R]_1) T := x + T *: f x (T / 2%:R) in
  let r k := ram_solver 1 delta (fun _ _ => 0) (fun _ _ => 1%:M : 'M[R]_1) int k 0 0 1 in
  let out := ram2_experiment 1 delta (fun _ _ => 0) (fun _ _ => 1%:M : 'M[R]_1) int id [:: k0; k1] 0 0 1 in
  [/\ [seq Val x | x <- (r k0).1.2] = (r k0).2, [seq Val x | x <- (r k1).1.2] = (r k1).2,
      nth [::] out.1 1 = (r k1).1.2 & [seq Val x | x <- nth [::] out.1 1] <> out.2].
Proof. exists value_prng, (0 : R), (1 : R), 1; exact: ram2_differ ltr01. Qed.
Print Assumptions C94_pairing_refuted.

(** C95: the four curves of the sampling script are driven by one Brownian path; the curve of the
    random ODE is Euler's method with [fine] steps per interval. *)
Theorem C95_curves (g : prng) d m X (fine : nat) (delta : R) (drift : 'cV[R]_d -> R -> 'cV[R]_d)
  (sigma : 'cV[R]_d -> R -> 'M[R]_(d, m)) (wrapped : key g -> X -> ('cV[R]_d -> R -> 'cV[R]_d) -> R -> X)
  (k : key g) (init : X) (x0 : 'cV[R]_d) (N : nat) : (0 < fine)%N ->
  let st := to_stratonovich drift sigma in
  let bm := get_approx_fine g m fine in
  let filter := sde_solver st.1 st.2 bm delta wrapped k init N in
  let ode := sde_solver st.1 st.2 bm delta (fun _ x f T => euler x f (T / fine%:R) fine) k x0 N in
  exists tsf ysf tsc ysc,
    [/\ em_pathwise drift sigma (delta / fine%:R) (flatten [seq fine_incs c | c <- filter.2]) x0 (fine * N) false = Val (tsf, ysf),
        em_pathwise drift sigma delta [seq c.1.1.1 | c <- filter.2] x0 N false = Val (tsc, ysc) &
        sampling_curves fine delta drift sigma wrapped k init x0 N = Val (filter.1.2, ode.1.2, ysf, ysc)].
Proof. exact: sampling_curvesE. Qed.
Print Assumptions C95_curves.

(** Two intervals of five steps, geometric Brownian motion. *)
Example C95_ex (g : prng) (k : key g) : exists sols ode fine coarse,
  sampling_curves 5 1 (fun x _ => x) (fun x _ => diag_mx x^T : 'M[R]_1) (fun (_ : key g) (x : 'cV[R]_1) f T => x + T *: f x 0)
    k (const_mx 1) (const_mx 1) 2 = Val (sols, ode, fine, coarse).
Proof.
have [a [b [c [e [_ _ ->]]]]] := @C95_curves g 1 1 'cV[R]_1 5 1 (fun x _ => x) (fun x _ => diag_mx x^T)
  (fun _ x f T => x + T *: f x 0) k (const_mx 1) (const_mx 1) 2 isT.
by do 4 eexists.
Qed.

(** C96: which scripts return.  The low-memory scripts with the integrated Brownian prior do, ... *)
Theorem C96_numbers (lp : lapack) (g : prng) d m fine (delta : R) (M : nat) (drift : 'cV[R]_d -> R -> 'cV[R]_d)
  (sigma : 'cV[R]_d -> R -> 'M[R]_(d, m)) (EKF0 : bool) n (s : R) (k : key g) x0 N :
  (0 < d)%N -> (EKF0 -> (n < 2)%N) -> (0 < fine)%N -> s != 0 -> 0 < delta -> (0 < M)%N ->
  let prior := a_prior (ioup 0 s n.+1 (delta / M%:R) d) in
  let int kk (x : res 'cV[R]_d) f T := let! x := x in
    if EKF0 then ekf0 lp (Some kk) x f (T / M%:R) M true prior None
    else ekf1 lp (Some kk) x f (T / M%:R) M true prior None in
  let r := ram_solver fine delta drift sigma int k (Val x0) x0 N in
  forall i, (i <= N)%N -> (exists y, nth Nan r.1.2 i = Val y) /\ (exists y, nth Nan r.2 i = Val y).
Proof. exact: ram_numbers. Qed.
Print Assumptions C96_numbers.

(** ... the plain script, with its (1, 1) noise matrix and a problem in dimension 2, does not: each
    call of its solver raises; ... *)
Theorem C96_noise (lp : lapack) d (g : prng) (k : option (key g)) f (x : 'cV[R]_d) h N sq
  (tr : transition (d * 2)) (V : 'M[R]_1) : (0 < d)%N ->
  (d != 1)%N -> ekf0 lp k x f h N sq (a_prior tr) (a_noise V) = Raise AssertionError.
Proof. exact: noise_rejected. Qed.
Print Assumptions C96_noise.

(** ... and the comparison with one prior of order 2 and one padded prior of order 1 returns
    numbers in plain form, as the script has it, and NaN in square-root form. *)
Theorem C96_mixed_orders (t1 : transition 3) (t2 : transition 2) :
  psd t1.1.2 -> psd t2.1.2 -> 0 < t1.1.2 1 1 -> 0 < t2.1.2 1 1 ->
  exists t2' r, [/\ pad_prior t2 2 = Val t2',
  factorized_prior [:: existT transition 3%N t1; existT transition 3%N t2'] = Val r,
  projT1 r = 6%N & forall (lp : lapack) f h N (g : prng) (k : option (key g)) x0,
   (exists y, @ekf0 lp 2 g k x0 f h N false (Some r) None = Val y) /\
   @ekf0 lp 2 g k x0 f h N.+1 true (Some r) None = Nan].
Proof. exact: reviewer_prior. Qed.
Print Assumptions C96_mixed_orders.

(** The priors of the script. *)
Example C96_ex (dt : R) : 0 < dt -> let t1 : transition 3 := ioup 1 1 2 dt 1 in let t2 : transition 2 := ioup 1 1 1 dt 1 in
  [/\ psd t1.1.2, psd t2.1.2, 0 < t1.1.2 1 1 & 0 < t2.1.2 1 1].
Proof. exact: reviewer_ex. Qed.
