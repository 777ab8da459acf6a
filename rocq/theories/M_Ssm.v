(** Model of ssm_parabola/ekf.py, ekf0.py, ekf1.py and ssm_parabola_ode.py. *)
From Coq Require Import Reals.
From mathcomp Require Import all_ssreflect all_algebra mxtens.
From Verif Require Import Rstruct Base Linalg Calc Prob M_Utils M_Filter M_Prior M_OdeSolvers.

Set Implicit Arguments.
Unset Strict Implicit.
Unset Printing Implicit Defensive.
Import Order.TTheory GRing.Theory Num.Theory.
Local Open Scope ring_scope.

(** A call [ekf(init=, observation_function=, A=, Q_or_cholQ=, R_or_cholR=, params=,
    lower_sqrt=)] of ode_solvers/probnum/ekf.py line 46, with or without the keyword [xi],
    which has no default.  Python binds the arguments before the body runs, so an omitted
    [xi] raises whatever the value (NaN included) of the others. *)
Definition call_ekf (lp : lapack) nx ny (obs : dual nx -> R -> dual ny) (A : 'M[R]_nx) (Q_or_cholQ : res 'M[R]_nx)
  (xi : option 'cV[R]_nx) (R_or_cholR : 'M[R]_ny) (lower_sqrt : bool)
  (init : 'cV[R]_nx * 'M[R]_nx) (params : seq R) : res ('cV[R]_nx * 'M[R]_nx) :=
  match xi with
  | None => Raise TypeError
  | Some xi =>
      if params is [::] then Val init else
      let! Q_or_cholQ := Q_or_cholQ in
      ekf lp obs A Q_or_cholQ xi R_or_cholR lower_sqrt init params
  end.

Section Ssm.
Variable d : nat.
Notation field := ('cV[R]_d -> R -> 'cV[R]_d).
Notation dfield := ('cV[R]_d -> R -> 'M[R]_d).

(** ekf.py, line 29 *)
Definition ssm_mean (init : 'cV[R]_d) (drift : field) : 'cV[R]_(d * 4) :=
  interl (fun i : 'I_4 => match val i with 0 => init | 1 => drift init 0 | _ => 0 end).

(** ekf.py, lines 31-33 *)
Definition Evfvf (delta : R) (D : 'M[R]_d) : 'M[R]_d := (4%:R / delta) *: D *m D^T.
Definition Evfw (D : 'M[R]_d) : 'M[R]_d := D.
Definition Evfi (D : 'M[R]_d) : 'M[R]_d := (sqrt 6%:R / 2%:R) *: D.

(** [block], ekf.py lines 35-39, entry (r, c) *)
Definition ssm_block (delta : R) (D : 'M[R]_d) (i j : 'I_d) : 'M[R]_4 := \matrix_(r, c)
  match val r, val c with
  | 1, 1 => Evfvf delta D i j | 1, 2 => Evfw D i j | 1, 3 => Evfi D i j
  | 2, 1 => Evfw D j i | 2, 2 => if i == j then delta else 0
  | 3, 1 => Evfi D j i | 3, 3 => if i == j then delta / 2%:R else 0
  | _, _ => 0
  end.

(** [var], ekf.py line 41: the d x d block matrix of 4 x 4 blocks *)
Definition ssm_var (delta : R) (D : 'M[R]_d) : 'M[R]_(d * 4) := \matrix_(p, q)
  let: (i, r) := mxtens_unindex p in let: (j, c) := mxtens_unindex q in ssm_block delta D i j r c.

(** [pol], ekf.py lines 43-49 *)
Definition pol_block (delta t : R) : 'M[R]_4 := \matrix_(r, c)
  match val r, val c with
  | 0, 0 => 1
  | 2, 2 => 1 / delta
  | 3, 3 => sqrt 6%:R * (1 - 2%:R * t / delta) / delta
  | _, _ => 0
  end.
Definition pol (delta t : R) : 'M[R]_(d * 4) := kron_eye d (pol_block delta t).

(** [H23], ekf.py line 51: kron(eye(dim), [[0, 0, 1, 1]]), of shape (dim * 1, 4 dim). *)
Definition H23 : 'M[R]_(d, d * 4) := \matrix_(i, p)
  (((1%:M : 'M[R]_d) *t (\row_(c < 4) (2 <= c)%N%:R : 'rV[R]_4)) : 'M[R]_(d * 1, d * 4)) (mxtens_index (i, 0)) p.

(** [extended_vector_field], ekf.py lines 53-54 *)
Definition extended_vector_field (drift : field) (diffusion : dfield) (delta : R) (x : 'cV[R]_(d * 4)) (t : R) : 'cV[R]_d :=
  drift (slice 0 x) t + diffusion (slice 0 x) t *m H23 *m pol delta t *m x.

(** x.at[::4].set(jax.lax.stop_gradient(x[::4])), ekf.py line 59: the values are those of x,
    the tangents of the entries 0::4 are zero. *)
Definition stop_positions (x : dual (d * 4)) : dual (d * 4) :=
  (interl (fun i : 'I_4 => if i == 0 then (stop_gradient (dslice 0 x)).1 else slice i x.1),
   interl (fun i : 'I_4 => if i == 0 then (stop_gradient (dslice 0 x)).2 else slice i x.2)).

(** [observation_function], ekf.py lines 56-64 *)
Definition ssm_observation (EKF0 : bool) (drift : field) (diffusion : dfield) (delta : R)
  (x : dual (d * 4)) (t : R) : dual d :=
  let evf := dlift (fun z => extended_vector_field drift diffusion delta z t) in
  if EKF0 then dsub (dslice 1 x) (evf (stop_positions x)) else dsub (dslice 1 x) (evf x).

(** The prior, ekf.py lines 65-76; an array that is not 2 x 2 does not fit into the blocks of
    lines 83-90 (TypeError). *)
Definition ssm_prior (h : R) (prior : prior_arg) : res (transition 2) :=
  match prior with
  | None => Val (ioup 0 1 1 h 1 : transition 2)
  | Some (existT n tr) => if n == 2%N then Val (as_transition 2 tr) else Raise TypeError
  end.
(** ekf.py, lines 83-86 and 87-90: [[M, 0], [0, corner]] *)
Definition ssm_pad (M corner : 'M[R]_2) : 'M[R]_4 := block_mx M 0 0 corner.
End Ssm.

(** [_solver], ekf.py lines 10-98.  [diffusion] returns a (dim, m) array.  [xi] is what the
    call of [ekf] passes as [xi]: see [ssm_solver]. *)
Section Solver.
Variables (lp : lapack) (d m : nat).
Variables (init : 'cV[R]_d) (drift : 'cV[R]_d -> R -> 'cV[R]_d) (diffusion : 'cV[R]_d -> R -> 'M[R]_(d, m))
  (delta h : R) (N : nat) (sqrt EKF0 : bool) (prior : prior_arg) (noise : noise_arg).

Definition ssm_solver_xi (xi : option 'cV[R]_(d * 4)) : res ('cV[R]_(d * 4) * 'M[R]_(d * 4)) :=
  let ts := linspace h (N%:R * h) N in
  if d != m then Raise AssertionError else
  let diffusion x t : 'M[R]_d := as_mx d d (diffusion x t) in
  let! noise := get_noise d noise in
  let mean := ssm_mean init drift in
  (* jnp.block does not accept an empty list *)
  if d == 0%N then Raise ValueError else
  let var := ssm_var delta (diffusion init 0) in
  let! tr := ssm_prior h prior in
  let: (_, one_block_transition_covariance, one_block_transition_matrix) := tr in
  let one_block_transition_covariance :=
    if sqrt then cholesky lp one_block_transition_covariance else Val one_block_transition_covariance in
  let var := if sqrt then sqrtm lp var else var in
  let transition_matrix := kron_eye d (ssm_pad one_block_transition_matrix 1%:M) in
  let transition_covariance := rmap (fun Q => kron_eye d (ssm_pad Q 0)) one_block_transition_covariance in
  call_ekf lp (ssm_observation EKF0 drift diffusion delta) transition_matrix transition_covariance xi noise sqrt
    (mean, var) ts.

(** The repository's call, lines 95-96, does not pass [xi]. *)
Definition ssm_solver := ssm_solver_xi None.
End Solver.

(** [solver], ekf0.py lines 8-26 (EKF0 true) and ekf1.py lines 8-26 (EKF0 false). *)
Definition marginal_output (lp : lapack) (g : prng) d (k : option (key g)) (sqrt : bool)
  (filtered : 'cV[R]_(d * 4) * 'M[R]_(d * 4)) : 'cV[R]_d * ('cV[R]_d * 'cV[R]_d) :=
  let: (m, P) := filtered in
  let sample := match k with
    | Some k => let sqrtP := if sqrt then P else sqrtm lp P in m + sqrtP *m mvn_std k (d * 4)
    | None => m
    end in
  (slice 0 sample, (slice (inord 2) sample, slice (inord 3) sample)).
Definition marginal_xi (xi : forall d, option 'cV[R]_(d * 4)) (EKF0 : bool) (lp : lapack) (g : prng) d m (k : option (key g))
  (init : 'cV[R]_d) (delta : R) (drift : 'cV[R]_d -> R -> 'cV[R]_d) (diffusion : 'cV[R]_d -> R -> 'M[R]_(d, m))
  (h : R) (N : nat) (sqrt : bool) (prior : prior_arg) (noise : noise_arg) : res ('cV[R]_d * ('cV[R]_d * 'cV[R]_d)) :=
  let! filtered := ssm_solver_xi lp init drift diffusion delta h N sqrt EKF0 prior noise (xi d) in
  Val (marginal_output lp k sqrt filtered).
Definition marginal := marginal_xi (fun _ => None).
Definition ekf0_marginal_parabola := marginal true.
Definition ekf1_marginal_parabola := marginal false.

(** ** ssm_parabola_ode.py *)
Section Driver.
Variables (g : prng) (d m : nat) (X C : Type).
Variables (drift : 'cV[R]_d -> R -> 'cV[R]_d) (sigma : 'cV[R]_d -> R -> 'M[R]_(d, m)) (delta : R).
(** [solver(key, init=, drift=, diffusion=, T=)], returning the next state and more. *)
Variable solver : key g -> X -> ('cV[R]_d -> R -> 'cV[R]_d) -> ('cV[R]_d -> R -> 'M[R]_(d, m)) -> R -> res (X * C).

(** [body], lines 27-35.  The carried state is a [res], as values may be NaN. *)
Definition ssm_body (x : res X) (inp : nat * (key g * R)) : res X * res X :=
  let: (_, (key_k, t_k)) := inp in
  let: (bm_key, sample_key) := split2 key_k in
  let sigma_shifted := fun z t => sigma z (t + t_k) in
  let drift_shifted := fun z t => drift z (t + t_k) in
  let next_x := let! x := x in let! r := solver sample_key x drift_shifted sigma_shifted delta in Val r.1 in
  (next_x, next_x).

(** [sde_solver], lines 11-44.  [jax.lax.scan] traces the body once before running it, also
    when N = 0; Python exceptions come from that trace.  They depend on shapes only, so the
    trace is represented by a call at the initial state (with key [k], time 0). *)
Definition ssm_parabola_ode_solver (k : key g) (x0 : X) (N : nat) : res (seq R * seq (res X)) :=
  let init := x0 in
  let keys := split k N in
  let ts := linspace 0 (N%:R * delta) N.+1 in
  let inps := zip (iota 0 N) (zip keys (but_last ts)) in
  match (ssm_body (Val init) (0%N, (k, 0))).1 with
  | Raise e => Raise e
  | _ =>
      let samples := (scan_ev (progress_bar N ssm_body) (Val init) inps).1.2 in
      let traj := samples in
      let traj := jnp_insert traj 0 (Val init) in
      Val (ts, traj)
  end.
End Driver.
