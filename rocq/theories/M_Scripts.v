(** Model of the experiment scripts in /repo/scripts.  File names below are relative to that
    directory.  What the scripts print or save is the returned value; [jax.vmap] over the keys
    is [map] over a list of keys. *)
From Coq Require Import Reals.
From mathcomp Require Import all_ssreflect all_algebra mxtens.
From Verif Require Import Rstruct Base Linalg Calc Prob M_Utils M_Foster M_SdeSolver M_Euler M_ItoStrat
  M_Filter M_Prior M_OdeSolvers.

Set Implicit Arguments.
Unset Strict Implicit.
Unset Printing Implicit Defensive.
Import Order.TTheory GRing.Theory Num.Theory.
Local Open Scope ring_scope.

(** [xs[::p]] along the leading axis. *)
Definition stride T (x0 : T) (p : nat) (xs : seq T) : seq T :=
  mkseq (fun i => nth x0 xs (i * p)) ((size xs + p.-1) %/ p).

(** [xs[-1]] *)
Definition final d (r : res (seq R * seq 'cV[R]_d)) : res 'cV[R]_d :=
  let! p := r in Val (nth 0 p.2 (size p.2).-1).

(** The third entry of the coefficients of [get_approx_fine]: the increments of the fine path. *)
Definition fine_incs m (c : 'cV[R]_m * 'cV[R]_m * seq 'cV[R]_m * seq 'cV[R]_m) : seq 'cV[R]_m := c.1.2.

Section Pathwise.
Variables (g : prng) (d m : nat) (X : Type).
Variables (fine : nat) (delta : R).
Notation bm := (get_approx_fine g m fine).

(** ** pathwise_convergence_experiment_2_RAM.py, pathwise_convergence_experiment_2_RAM_2.py and
    their copies in EKF0_FHN, EKF0_IBM, EKF1_FHN, EKF1_IBM and EKF0_Mat_vs_IBM_FHN *)
Section Ram.
Variables (drift : 'cV[R]_d -> R -> 'cV[R]_d) (sigma : 'cV[R]_d -> R -> 'M[R]_(d, m)).
Variable ode_int : key g -> X -> ('cV[R]_d -> R -> 'cV[R]_d) -> R -> X.

(** [body], ..._RAM.py lines 62-82 and ..._RAM_2.py lines 67-88. *)
Definition ram_body (x : X * res 'cV[R]_d) (inp : nat * (key g * R))
  : (X * res 'cV[R]_d) * (X * res 'cV[R]_d) :=
  let: (x1, x2) := x in
  let: (_, (key_k, t_k)) := inp in
  let: (bm_key, sample_key) := split2 key_k in
  let coeffs_k := get_coeffs bm bm_key delta in
  let func := fun t => eval_fn t delta coeffs_k in
  let drift_shifted := fun z t => drift z (t + t_k) in
  let sigma_shifted := fun z t => sigma z (t + t_k) in
  let vector_field := fun z t => drift z (t + t_k) + sigma z (t + t_k) *m jacR func t in
  let next_x := ode_int sample_key x1 vector_field delta in
  let dt := delta / fine%:R in
  let incs := fine_incs coeffs_k in
  let next_x2 := let! x2 := x2 in
                 final (em_pathwise drift_shifted sigma_shifted dt incs x2 fine false) in
  ((next_x, next_x2), (next_x, next_x2)).

(** [sde_solver] of the scripts, ..._RAM.py lines 44-92 and ..._RAM_2.py lines 49-97.  The second
    trajectory starts at [init] in the former, where it is an array, and at [init[0]] in the
    latter, where [init] is a tuple; here it is the argument [y0]. *)
Definition ram_solver (k : key g) (x0 : X) (y0 : 'cV[R]_d) (N : nat)
  : seq R * seq X * seq (res 'cV[R]_d) :=
  let keys := split k N in
  let ts := linspace 0 (N%:R * delta) N.+1 in
  let inps := zip (iota 0 N) (zip keys (but_last ts)) in
  let samples := (scan_ev (progress_bar N ram_body) (x0, Val y0) inps).1.2 in
  (ts, jnp_insert (unzip1 samples) 0 x0, jnp_insert (unzip2 samples) 0 (Val y0)).

(** [experiment] of ..._RAM.py lines 94-118: every sample with its own reference ... *)
Definition ram_experiment (keys : seq (key g)) (x0 : X) (y0 : 'cV[R]_d) (N : nat)
  : seq (seq X) * seq (seq (res 'cV[R]_d)) :=
  let out := [seq ram_solver k x0 y0 N | k <- keys] in
  ([seq o.1.2 | o <- out], [seq o.2 | o <- out]).

(** ... and of ..._RAM_2.py lines 99-126: [sols[0]] selects the samples of the tuple of
    trajectories, but [sol2] is a single array of shape (keys, N + 1, d), so that [sol2[0]]
    selects the first key.  (The copy in EKF1_FHN does not have this line.) *)
Definition ram2_experiment Y (sample_of : X -> Y) (keys : seq (key g)) (x0 : X) (y0 : 'cV[R]_d) (N : nat)
  : seq (seq Y) * seq (res 'cV[R]_d) :=
  let: (sols, sol2) := ram_experiment keys x0 y0 N in
  ([seq [seq sample_of x | x <- s] | s <- sols], nth [::] sol2 0).
End Ram.

(** ** pathwise_convergence_experiment_2.py, [experiment], lines 35-77, for one key.
    [incs.reshape((keys, fine * N, m))] concatenates the increments of the intervals. *)
Definition plain_experiment (drift : 'cV[R]_d -> R -> 'cV[R]_d) (sigma : 'cV[R]_d -> R -> 'M[R]_(d, m))
  (ode_int : key g -> X -> ('cV[R]_d -> R -> 'cV[R]_d) -> R -> X) (k : key g) (x0 : X) (y0 : 'cV[R]_d) (N : nat)
  : res (seq X * seq 'cV[R]_d * seq 'cV[R]_m) :=
  let: (drift_s, sigma_s) := to_stratonovich drift sigma in
  let: (_, sols, coeffs) := sde_solver drift_s sigma_s bm delta ode_int k x0 N in
  let incs := [seq fine_incs c | c <- coeffs] in
  let dt := delta / fine%:R in
  let incs := flatten incs in
  let! r := em_pathwise drift sigma dt incs y0 (fine * N) false in
  Val (sols, stride 0 fine r.2, incs).
End Pathwise.

Section TwoEuler.
Variables (g : prng) (d m fine : nat) (delta : R).
Variables (drift : 'cV[R]_d -> R -> 'cV[R]_d) (sigma : 'cV[R]_d -> R -> 'M[R]_(d, m)).
Notation bm := (get_approx_fine g m fine).

(** ** EM_FHN/pathwise_convergence_experiment_2_RAM.py, [body], lines 53-79. *)
Definition two_em_body (x : res 'cV[R]_d * res 'cV[R]_d) (inp : nat * (key g * R)) :=
  let: (x1, x2) := x in
  let: (_, (key_k, t_k)) := inp in
  let: (bm_key, sample_key) := split2 key_k in
  let coeffs_k := get_coeffs bm bm_key delta in
  let incs := fine_incs coeffs_k in
  let total_inc := [:: \sum_(w <- incs) w] in
  let drift_shifted := fun z t => drift z (t + t_k) in
  let sigma_shifted := fun z t => sigma z (t + t_k) in
  let next_x := let! x1 := x1 in
                final (em_pathwise drift_shifted sigma_shifted delta total_inc x1 1 false) in
  let dt := delta / fine%:R in
  let next_x2 := let! x2 := x2 in
                 final (em_pathwise drift_shifted sigma_shifted dt incs x2 fine false) in
  ((next_x, next_x2), (next_x, next_x2)).

(** lines 35-89 *)
Definition two_em_solver (k : key g) (x0 : 'cV[R]_d) (N : nat)
  : seq R * seq (res 'cV[R]_d) * seq (res 'cV[R]_d) :=
  let keys := split k N in
  let ts := linspace 0 (N%:R * delta) N.+1 in
  let inps := zip (iota 0 N) (zip keys (but_last ts)) in
  let samples := (scan_ev (progress_bar N two_em_body) (Val x0, Val x0) inps).1.2 in
  (ts, jnp_insert (unzip1 samples) 0 (Val x0), jnp_insert (unzip2 samples) 0 (Val x0)).
End TwoEuler.

(** ** local_order_experiment_from_scratch.py *)
Section LocalOrder.
Variables (lp : lapack) (g : prng) (fine_N : nat) (delta : R).
Variables (init_x0 : 'cV[R]_1) (drift : 'cV[R]_1 -> R -> 'cV[R]_1) (sigma : 'cV[R]_1 -> R -> 'M[R]_1).

(** The reference solution, [local_step], lines 70-82. *)
Definition local_reference (key_OP : key g) : res 'cV[R]_1 :=
  let fine_delta := delta / fine_N%:R in
  let k := nth key_OP (split key_OP 1) 0 in
  let coeffs := parabolas_fine 1 fine_N k delta in
  let incs := [seq sqrt (1 / fine_delta) *: w | w <- fine_incs coeffs] in
  final (em_pathwise drift sigma fine_delta incs init_x0 fine_N false).

(** [local_step], lines 69-117, with [wrapped], lines 20-21: no prior is passed to ekf0. *)
Definition local_step (N : nat) (key_OP : key g) : res ('cV[R]_1 * 'cV[R]_1) :=
  let k := nth key_OP (split key_OP 1) 0 in
  let coeffs := parabolas_fine 1 fine_N k delta in
  let! x_euler := local_reference key_OP in
  let func := fun t => eval_parabola t delta coeffs.1.1.1 coeffs.1.1.2 in
  let vector_field := fun x t => drift x t + sigma x t *m jacR func t in
  let! x_ekf0 := ekf0 lp (None : option (key g)) init_x0 vector_field (delta / N%:R) N false None None in
  Val (x_ekf0, x_euler).
End LocalOrder.

(** ** breaking_multidimensionnal.py *)

(** [jnp.arange(0, stop, step)]: ceil(stop / step) elements. *)
Definition arange (stop step : R) : seq R :=
  mkseq (fun i => i%:R * step) (Z.to_nat (- Int_part (- (stop / step)))).

(** The reference step, lines 32-39 and 69-77, for a linear problem with drift matrix [A] and
    diffusion matrix [S]; [fine_ts.at[idx].get()] clamps its index. *)
Definition closed_step d m (A : 'M[R]_d) (S : 'M[R]_(d, m)) (delta : R) (M : nat) (incs : seq 'cV[R]_m) (x2 : 'cV[R]_d)
  : 'cV[R]_d :=
  let transition_matrix := expm (delta *: A) in
  let fine_ts := arange delta M%:R in
  let integrand idx := expm ((delta - get_clamped 0 fine_ts idx) *: A) *m S *m get_clamped 0 incs idx in
  transition_matrix *m x2 + \sum_(idx <- iota 0 (size incs)) integrand idx.

(** ** sampling_from_posterior_alg3 *)

(** [wrapped_euler], pathwise_sampling_from_posterior.py lines 45-48 (and the same function in
    uncertainty_calibration.py lines 88-91, sanity_check_calibration_ode.py lines 90-93). *)
Definition wrapped_euler (g : prng) d m (fine : nat) (k : key g) (init : 'cV[R]_d)
  (vector_field : 'cV[R]_d -> R -> 'cV[R]_d) (T : R) : 'cV[R]_d :=
  let y := (euler_maruyama vector_field (fun _ _ => (0 : 'M[R]_(d, m))) (T / fine%:R) k init fine).2 in
  nth 0 y (size y).-1.

(** The four curves of pathwise_sampling_from_posterior.py, lines 34-99, for the kept path: the
    filter, the random ODE by Euler's method, Euler-Maruyama on the fine and on the coarse grid.
    [wrapped] is the filter; [init] is x0, or a tuple for the solvers with a carried law. *)
Definition sampling_curves (g : prng) d m X (fine : nat) (delta : R) (drift : 'cV[R]_d -> R -> 'cV[R]_d)
  (sigma : 'cV[R]_d -> R -> 'M[R]_(d, m)) (wrapped : key g -> X -> ('cV[R]_d -> R -> 'cV[R]_d) -> R -> X)
  (k : key g) (init : X) (x0 : 'cV[R]_d) (N : nat)
  : res (seq X * seq 'cV[R]_d * seq 'cV[R]_d * seq 'cV[R]_d) :=
  let: (drift_s, sigma_s) := to_stratonovich drift sigma in
  let bm := get_approx_fine g m fine in
  let: (_, sols, _) := sde_solver drift_s sigma_s bm delta wrapped k init N in
  let: (_, sols_parabola_ode_euler, coeffs) := sde_solver drift_s sigma_s bm delta (@wrapped_euler g d m fine) k x0 N in
  let inc := [seq fine_incs c | c <- coeffs] in
  let total_inc := [seq \sum_(w <- c) w | c <- inc] in
  let inc := flatten inc in
  let! sols2 := em_pathwise drift sigma (delta / fine%:R) inc x0 (fine * N) false in
  let! sols3 := em_pathwise drift sigma delta total_inc x0 N false in
  Val (sols, sols_parabola_ode_euler, sols2.2, sols3.2).

Section Sampling.
Variables (lp : lapack) (g : prng) (n dim : nat).
Variables (mean_gaussian_pn : 'I_n -> 'cV[R]_dim) (var_gaussian_pn : 'I_n -> 'M[R]_dim).

(** [mean] and [var], pathwise_sampling_from_posterior.py lines 106-107: the entry (time k,
    coordinate i) is at position k * dim + i. *)
Definition stacked_mean : 'cV[R]_(n * dim) :=
  \col_p let: (k, i) := mxtens_unindex p in mean_gaussian_pn k i 0.
Definition stacked_var : 'M[R]_(n * dim) :=
  \matrix_(p, q) let: (k, i) := mxtens_unindex p in let: (l, j) := mxtens_unindex q in
                 if k == l then var_gaussian_pn k i j else 0.

(** [jax.scipy.linalg.cholesky(var)] returns the upper factor (its default is lower=False). *)
Definition upper_cholesky p (A : 'M[R]_p) : res 'M[R]_p := let! L := cholesky lp A in Val L^T.

(** [sample], lines 109-111. *)
Definition posterior_sample (key_sample : key g) : res 'cV[R]_(n * dim) :=
  let! U := upper_cholesky stacked_var in
  Val (stacked_mean + U *m normal key_sample (n * dim)).
End Sampling.

Section Calibration.
Variables (g : prng) (d m : nat) (X Y : Type).
Variables (drift : 'cV[R]_d -> R -> 'cV[R]_d) (sigma : 'cV[R]_d -> R -> 'M[R]_(d, m)).
Variables (bm : path_approx g m) (delta : R).
Variable ode_int : key g -> X -> ('cV[R]_d -> R -> 'cV[R]_d) -> R -> X * Y.

(** [custom_sde_solver.body], uncertainty_calibration.py lines 49-57. *)
Definition custom_body (x : X) (inp : nat * (key g * R)) : X * (X * coeffs bm * Y) :=
  let: (_, (key_k, t_k)) := inp in
  let: (bm_key, sample_key) := split2 key_k in
  let coeffs_k := get_coeffs bm bm_key delta in
  let func := fun t => eval_fn t delta coeffs_k in
  let vector_field := fun z t => drift z (t + t_k) + sigma z (t + t_k) *m jacR func t in
  let: (next_x, next_others) := ode_int sample_key x vector_field delta in
  (next_x, (next_x, coeffs_k, next_others)).

(** [custom_sde_solver], lines 32-66: (ts, traj, coeffs, others). *)
Definition custom_sde_solver (k : key g) (x0 : X) (N : nat)
  : seq R * seq X * seq (coeffs bm) * seq Y :=
  let keys := split k N in
  let ts := linspace 0 (N%:R * delta) N.+1 in
  let inps := zip (iota 0 N) (zip keys (but_last ts)) in
  let out := (scan_ev (progress_bar N custom_body) x0 inps).1.2 in
  (ts, jnp_insert [seq o.1.1 | o <- out] 0 x0, [seq o.1.2 | o <- out], [seq o.2 | o <- out]).
End Calibration.

(** An array of a list of outcomes. *)
Fixpoint rseq T (xs : seq (res T)) : res (seq T) :=
  if xs is x :: xs' then let! x := x in let! r := rseq xs' in Val (x :: r) else Val [::].

Section CalibrationRun.
Variables (lp : lapack) (g : prng) (d m fine : nat) (delta : R) (M : nat).
Variables (drift : 'cV[R]_d -> R -> 'cV[R]_d) (sigma : 'cV[R]_d -> R -> 'M[R]_(d, m)).

(** [wrapped], uncertainty_calibration.py lines 79-86: ekf1_2 with the integrated Brownian prior
    of scale [sigma_prior], in square-root form, with [return_all=True]. *)
Definition calibration_int (sigma_prior : R) (k : key g) (init : res (gauss d))
  (vector_field : 'cV[R]_d -> R -> 'cV[R]_d) (T : R) :=
  let prior := a_prior (ioup 0 sigma_prior 1 (delta / M%:R) d) in
  let r := let! x := init in ekf1_2_all lp (Some k) x vector_field (T / M%:R) M true prior None in
  (rmap fst r, rmap snd r).

(** The [z] and [S] arrays of [others], lines 140-141: entries 3 and 4. *)
Definition out_var d' (a : arr d') : res 'M[R]_d' := if a is Arr2 C then Val C else Raise TypeError.
Definition out_mean d' (a : arr d') : res 'cV[R]_d' := if a is Arr1 z then Val z else Raise TypeError.

(** [experiment], uncertainty_calibration.py lines 78-152 (sanity_check_calibration_ode.py lines
    80-154), for the kept path: the estimated diffusion scale. *)
Definition calibration (sigma_prior : R) (k : key g) (x0 : 'cV[R]_d) (N : nat) : res R :=
  let: (drift_s, sigma_s) := to_stratonovich drift sigma in
  let: (_, _, _, others) := custom_sde_solver drift_s sigma_s (get_approx_fine g m fine) delta
    (calibration_int sigma_prior) k (Val (x0, x0, 0)) N in
  let! others := rseq others in
  let! vars := rseq [seq out_var o.1.2 | o <- others] in
  let! means := rseq [seq out_mean o.2 | o <- others] in
  mle_diffusion means vars.

(** The two calls, lines 155-194: [sigma_prior0] is sqrt(10) there, and the second prior scale
    is mle ** 0.5; the result is the estimate of the second, calibrated, call. *)
Definition calibration_script (sigma_prior0 : R) (k : key g) (x0 : 'cV[R]_d) (N : nat) : res (R * R) :=
  let! mle := calibration sigma_prior0 k x0 N in
  let! mle' := calibration (sqrt mle) k x0 N in
  Val (mle, mle').
End CalibrationRun.
