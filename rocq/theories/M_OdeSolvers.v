(** Model of ode_solvers/ekf.py, ekf0.py, ekf1.py, ekf0_2.py and ekf1_2.py. *)
From Coq Require Import Reals.
From mathcomp Require Import all_ssreflect all_algebra mxtens.
From Verif Require Import Rstruct Base Linalg Calc Prob M_Utils M_Filter M_Prior.

Set Implicit Arguments.
Unset Strict Implicit.
Unset Printing Implicit Defensive.
Import Order.TTheory GRing.Theory Num.Theory.
Local Open Scope ring_scope.

(** ** Arrays whose shape is only known at run time *)

(** The [noise] argument: None or a 2-D array of any shape. *)
Definition noise_arg := option {p : nat & {q : nat & 'M[R]_(p, q)}}.
Definition a_noise p q (M : 'M[R]_(p, q)) : noise_arg := Some (existT _ p (existT _ q M)).
(** The [prior] argument: None or a transition (simplification: its three arrays fit
    together, xi of shape (n,), Q and A of shape (n, n), for some n). *)
Definition prior_arg := option any_transition.
Definition a_prior n (tr : transition n) : prior_arg := Some (existT transition n tr).

(** An array read at a shape already checked to be its own. *)
Definition as_mx m n p q (M : 'M[R]_(p, q)) : 'M[R]_(m, n) :=
  \matrix_(i, j) if insub (val i) is Some i' then
                   if insub (val j) is Some j' then M i' j' else 0 else 0.
Definition as_transition m n (tr : transition n) : transition m :=
  let: (xi, Q, A) := tr in (as_mx m 1 xi, as_mx m m Q, as_mx m m A).

(** A 1-D or 2-D array. *)
Inductive arr (d : nat) := Arr1 of 'cV[R]_d | Arr2 of 'M[R]_d.

Section OdeSolvers.
Variables (lp : lapack) (d : nat).
Notation field := ('cV[R]_d -> R -> 'cV[R]_d).

(** ekf.py, lines 21-24 *)
Definition get_noise (noise : noise_arg) : res 'M[R]_d :=
  match noise with
  | None => Val 0
  | Some (existT p (existT q M)) =>
      if (p == d) && (q == d) then Val (as_mx d d M) else Raise AssertionError
  end.

(** [observation_function], ekf.py lines 26-33: x[1::n_states] - f(x[::n_states], t). *)
Definition observation_function (EKF0 : bool) (vector_field : field) n (x : dual (d * n.+2)) (t : R) : dual d :=
  if EKF0 then dsub (dslice 1 x) (stop_gradient (dlift (vector_field^~ t) (dslice 0 x)))
  else dsub (dslice 1 x) (dlift (vector_field^~ t) (dslice 0 x)).

(** ekf.py, lines 34-45.  A prior of the wrong size makes the products in the filter
    raise TypeError. *)
Definition get_prior n (h : R) (prior : prior_arg) : res (transition (d * n.+2)) :=
  match prior with
  | None => Val (ioup 0 1 n.+1 h d)
  | Some (existT m tr) =>
      if m == (d * n.+2)%N then Val (as_transition (d * n.+2) tr) else Raise TypeError
  end.

(** [_solver], ekf.py lines 8-52, for n_states = n + 2 and an initial state of length
    dim * n_states, as in every call below.  Without steps the transition is not used. *)
Section Solver.
Variables (n : nat) (init : 'cV[R]_(d * n.+2) * 'M[R]_(d * n.+2)) (vector_field : field) (h : R) (N : nat)
  (sqrt EKF0 : bool) (prior : prior_arg) (noise : noise_arg).

Definition _solver : res ('cV[R]_(d * n.+2) * 'M[R]_(d * n.+2)) :=
  let ts := linspace h (N%:R * h) N in
  let! noise := get_noise noise in
  let! tr := get_prior n h prior in
  let: (transition_incr, transition_covariance, transition_matrix) := tr in
  if N is 0%N then Val init else
  let! transition_covariance :=
    if sqrt then cholesky lp transition_covariance else Val transition_covariance in
  ekf lp (@observation_function EKF0 vector_field n) transition_matrix transition_covariance
    transition_incr noise sqrt init ts.

(** The same with [return_all=True]: state, then innovation covariance, then residual. *)
Definition _solver_all : res (('cV[R]_(d * n.+2) * 'M[R]_(d * n.+2)) * arr d * arr d) :=
  let ts := linspace h (N%:R * h) N in
  let! noise := get_noise noise in
  let! tr := get_prior n h prior in
  let: (transition_incr, transition_covariance, transition_matrix) := tr in
  if N is 0%N then Val (init, Arr2 0, Arr1 0) else
  let! transition_covariance :=
    if sqrt then cholesky lp transition_covariance else Val transition_covariance in
  let! r := ekf_UC lp (@observation_function EKF0 vector_field n) transition_matrix transition_covariance
    transition_incr noise sqrt init ts in
  Val (r.1.1, Arr2 r.1.2, Arr1 r.2).
End Solver.

(** The initial mean of ekf0.py lines 18-37 and ekf1.py lines 15-33:
    interlace((y, f(y,0), J_f(y,0) f(y,0), 0, ...)). *)
Definition init_mean (vector_field : field) (init : 'cV[R]_d) n : 'cV[R]_(d * n) :=
  interl (fun i : 'I_n => match val i with
    | 0 => init
    | 1 => vector_field init 0
    | 2 => jac (vector_field^~ 0) init *m vector_field init 0
    | _ => 0
    end).

(** [jnp.eye(n_states * dim).at[:3 * dim, :3 * dim].set(0.0)], ekf1.py line 32. *)
Definition init_var1 n : 'M[R]_(d * n) :=
  \matrix_(p, q) if ((p < 3 * d) && (q < 3 * d))%N then 0 else (p == q)%:R.

(** ekf0.py lines 39-46 and ekf1.py lines 35-41 *)
Definition output (g : prng) (k : option (key g)) n (sqrt : bool) (filtered : 'cV[R]_(d * n.+1) * 'M[R]_(d * n.+1))
  : 'cV[R]_d :=
  let: (m, P) := filtered in
  match k with
  | Some k =>
      let sqrtP := if sqrt then P else sqrtm lp P in
      let last_sample := m + sqrtP *m mvn_std k (d * n.+1) in
      slice 0 last_sample
  | None => slice 0 m
  end.

(** [solver], ekf0.py lines 9-46.  With n_states other than 2 and 3, line 36 hands
    jnp.kron an index helper instead of an array (and line 34 multiplies a tuple). *)
Definition ekf0 (g : prng) (k : option (key g)) (init : 'cV[R]_d) (vector_field : field) (h : R) (N : nat)
  (sqrt : bool) (prior : prior_arg) (noise : noise_arg) : res 'cV[R]_d :=
  match prior with
  | None => Raise TypeError
  | Some (existT m _) =>
      if d == 0%N then Raise ZeroDivisionError else
      let run n :=
        let! filtered := @_solver n (init_mean vector_field init n.+2, 0) vector_field h N sqrt true prior noise in
        Val (output k sqrt filtered) in
      match (m %/ d)%N with
      | 2 => run 0%N
      | 3 => run 1%N
      | _ => Raise TypeError
      end
  end.

(** [solver], ekf1.py lines 9-41.  n_states = 0: division by zero in [_solver]; n_states = 1:
    three slices are interlaced but read with stride 1, so that [_solver] wants a
    (3 dim, 3 dim) noise and the filter's first product fails. *)
Definition ekf1 (g : prng) (k : option (key g)) (init : 'cV[R]_d) (vector_field : field) (h : R) (N : nat)
  (sqrt : bool) (prior : prior_arg) (noise : noise_arg) : res 'cV[R]_d :=
  match prior with
  | None => Raise TypeError
  | Some (existT m _) =>
      if d == 0%N then Raise ZeroDivisionError else
      let run n (var : 'M[R]_(d * n.+2)) :=
        let! filtered := @_solver n (init_mean vector_field init n.+2, var) vector_field h N sqrt false prior noise in
        Val (output k sqrt filtered) in
      match (m %/ d)%N with
      | 0 => Raise ZeroDivisionError
      | 1 => match noise with
             | Some (existT p (existT q _)) =>
                 if (p == 3 * d)%N && (q == 3 * d)%N then Raise TypeError else Raise AssertionError
             | None => Raise TypeError
             end
      | 2 => run 0%N 0
      | 3 => run 1%N 0
      | n.+4 => run n.+2 (init_var1 n.+4)
      end
  end.

(** ** Algorithm 3: ekf0_2.py and ekf1_2.py *)

(** The carried state: a sample, and mean and covariance of the position. *)
Definition gauss := ('cV[R]_d * 'cV[R]_d * 'M[R]_d)%type.

(** ekf0_2.py lines 19-28 and ekf1_2.py lines 24-33 *)
Definition init_joint (H : 'M[R]_d) (vector_field : field) (m_0 : 'cV[R]_d) (P_00 : 'M[R]_d) (sqrt : bool)
  : 'cV[R]_(d * 2) * 'M[R]_(d * 2) :=
  let P_10 := H *m P_00 in
  let P_11 := P_10 *m H^T in
  let P_01 := P_00 *m H^T in
  let var := interlace_matrix P_00 P_01 P_10 P_11 in
  let var := if sqrt then sqrtm lp var else var in
  (interl (fun i : 'I_2 => if i == 0 then m_0 else vector_field m_0 0), var).

(** ekf0_2.py lines 35-44 and ekf1_2.py lines 40-49: ((s_0, m_0, P_00), (sample, m, P)). *)
Definition output2 (g : prng) (k : option (key g)) (sqrt : bool) (filtered : 'cV[R]_(d * 2) * 'M[R]_(d * 2))
  : gauss * ('cV[R]_(d * 2) * 'cV[R]_(d * 2) * 'M[R]_(d * 2)) :=
  let: (m, P) := filtered in
  let sqrtP := if sqrt then P else sqrtm lp P in
  let P := if sqrt then sqrtP *m sqrtP^T else P in
  let sample := if k is Some k then m + sqrtP *m mvn_std k (d * 2) else m in
  ((slice 0 sample, slice 0 m, slice2 0 0 P), (sample, m, P)).

(** [_solver] is called with its default n_states = 2. *)
Definition alg3 (EKF0 : bool) (H : 'M[R]_d) (g : prng) (k : option (key g)) (init : gauss) (vector_field : field)
  (h : R) (N : nat) (sqrt : bool) (prior : prior_arg) (noise : noise_arg) : res gauss :=
  let: (_, m_0, P_00) := init in
  let! filtered := @_solver 0 (init_joint H vector_field m_0 P_00 sqrt) vector_field h N sqrt EKF0 prior noise in
  Val (output2 k sqrt filtered).1.

(** With [return_all=True]; line 31 (36) reads [x, z, S = filtered]. *)
Definition alg3_all (EKF0 : bool) (H : 'M[R]_d) (g : prng) (k : option (key g)) (init : gauss) (vector_field : field)
  (h : R) (N : nat) (sqrt : bool) (prior : prior_arg) (noise : noise_arg)
  : res (gauss * ('cV[R]_(d * 2) * 'cV[R]_(d * 2) * 'M[R]_(d * 2) * arr d * arr d)) :=
  let: (_, m_0, P_00) := init in
  let! filtered := @_solver_all 0 (init_joint H vector_field m_0 P_00 sqrt) vector_field h N sqrt EKF0 prior noise in
  let: (x, z, S0) := filtered in
  let o := output2 k sqrt x in
  Val (o.1, (o.2, z, S0)).

(** [solver], ekf0_2.py lines 9-47: H = 0 (line 18). *)
Definition ekf0_2 (g : prng) (k : option (key g)) (init : gauss) (vector_field : field) (h : R) (N : nat)
  (sqrt : bool) (prior : prior_arg) (noise : noise_arg) : res gauss :=
  alg3 true 0 k init vector_field h N sqrt prior noise.
Definition ekf0_2_all (g : prng) (k : option (key g)) (init : gauss) (vector_field : field) (h : R) (N : nat)
  (sqrt : bool) (prior : prior_arg) (noise : noise_arg) :=
  alg3_all true 0 k init vector_field h N sqrt prior noise.

(** [solver], ekf1_2.py lines 9-52: H is the Jacobian of the field (line 23). *)
Definition ekf1_2 (g : prng) (k : option (key g)) (init : gauss) (vector_field : field) (h : R) (N : nat)
  (sqrt : bool) (prior : prior_arg) (noise : noise_arg) : res gauss :=
  alg3 false (jac (vector_field^~ 0) init.1.2) k init vector_field h N sqrt prior noise.
Definition ekf1_2_all (g : prng) (k : option (key g)) (init : gauss) (vector_field : field) (h : R) (N : nat)
  (sqrt : bool) (prior : prior_arg) (noise : noise_arg) :=
  alg3_all false (jac (vector_field^~ 0) init.1.2) k init vector_field h N sqrt prior noise.
End OdeSolvers.
