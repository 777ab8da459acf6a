(** Specifications.  Nothing here refers to the model of the package
    (files M_...); only standard mathematical notions and the array
    conventions of [Base] are used. *)
From Coq Require Import Reals Lra.
From Coquelicot Require Import Coquelicot.
From mathcomp Require Import all_ssreflect all_algebra mxtens.
From Verif Require Import Rstruct Base Linalg Calc Prob.

Set Implicit Arguments.
Unset Strict Implicit.
Unset Printing Implicit Defensive.
Import Order.TTheory GRing.Theory Num.Theory.
Local Open Scope ring_scope.

(** The i-th of the n keys [jax.random.split(k, n)]. *)
Definition child (g : prng) (k : key g) (n i : nat) : key g := nth k (split k n) i.

(** ** Arrays *)

(** Python's strided slice [s[i::n]]: the entries whose position is i modulo n. *)
Definition stride (T : Type) (i n : nat) (s : seq T) : seq T :=
  mask (mkseq (fun p => (p %% n == i)%N) (size s)) s.

(** The entries of a vector, in order. *)
Definition entries n (x : 'cV[R]_n) : seq R := [seq x i 0 | i <- enum 'I_n].

(** [n] entries of every row, column by column: a trajectory of tuples seen as a
    tuple of trajectories. *)
Definition columns (T : Type) (x0 : T) (w : nat) (rows : seq (seq T)) : seq (seq T) :=
  mkseq (fun i => [seq nth x0 r i | r <- rows]) w.

(** The two slices of a vector with two states per coordinate. *)
Definition pair2 d (a b : 'cV[R]_d) : 'I_2 -> 'cV[R]_d := fun i => if i == 0 then a else b.

(** ** Progress bars *)
Definition ev_amount (e : event) : nat := if e is Update n then n else 0.
Definition ev_total (es : seq event) : nat := sumn (map ev_amount es).
Definition is_define e := if e is Define then true else false.
Definition is_update e := if e is Update _ then true else false.
Definition is_close e := if e is Close then true else false.

(** ** Parabola paths *)

(** The parabola on [0,T] with increment [a] and second coefficient [b]. *)
Definition parab (T a b t : R) : R :=
  a * (t / T) + sqrt 6%:R * b * ((t / T) * (1 - t / T)).

(** A path made of consecutive parabolas on intervals of length [h], started at [s]. *)
Fixpoint pieced (h : R) (ps : seq (R * R)) (s t : R) : R :=
  if ps is (a, b) :: ps' then
    if t <= h then s + parab h a b t else pieced h ps' (s + a) (t - h)
  else s.

(** The Brownian path with normalised increments [incs] on a grid of step [h]:
    its value after [j] steps. *)
Definition bm_at n (h : R) (incs : seq 'cV[R]_n) (j : nat) : 'cV[R]_n :=
  sqrt h *: \sum_(0 <= i < j) nth 0 incs i.

(** Trapezoidal area of a path given at the N+1 points 0, h, ..., N h. *)
Definition trapezoid n (h : R) (w : nat -> 'cV[R]_n) (N : nat) : 'cV[R]_n :=
  \sum_(0 <= j < N) (h / 2%:R) *: (w j + w j.+1).

(** ** Change of coordinates *)

(** [f] has a linear directional derivative at [x] (implied by differentiability). *)
Definition dir_diff d (f : 'cV[R]_d -> R) (x : 'cV[R]_d) : Prop :=
  forall v : 'cV[R]_d, is_derive (fun s : R => f (x + s *: v)) 0 (\sum_j v j 0 * pderiv f j x).

(** The column vector fields of a diffusion matrix. *)
Definition field_col d m (g : 'cV[R]_d -> 'M[R]_(d, m)) (k : 'I_m) : 'cV[R]_d -> 'cV[R]_d :=
  fun x => col k (g x).

(** ** Numerical schemes *)

(** Every component is at most [e] in absolute value (maximum norm at most [e]). *)
Definition sup_le n (x : 'cV[R]_n) (e : R) : Prop := forall i, `|x i 0| <= e.

(** [f] is [L]-Lipschitz in the state, in the maximum norm, uniformly in time. *)
Definition lipschitz n (f : 'cV[R]_n -> R -> 'cV[R]_n) (L : R) : Prop :=
  forall x y t e, sup_le (x - y) e -> sup_le (f x t - f y t) (L * e).

(** [y'] is the derivative of [y] on [0, T]. *)
Definition deriv_on n (T : R) (y y' : R -> 'cV[R]_n) : Prop :=
  forall (t : R) (i : 'I_n), 0 <= t -> t <= T -> is_derive (fun s : R => y s i 0) t (y' t i 0).

(** One run after another: each chunk of inputs is handed to [run] together with the
    number of inputs already consumed and the state reached; the new states are
    appended. *)
Fixpoint chunked (S I : Type) (run : nat -> seq I -> S -> seq S) (n : nat) (x : S)
  (chunks : seq (seq I)) : seq S :=
  if chunks is c :: cs then
    let out := run n c x in out ++ chunked run (n + size c) (last x out) cs
  else [::].

(** ** Diffusions *)

(** The generator of dX = a dt + s dW acting on [f]:
    sum_j a_j d_j f + 1/2 sum_jk (s s^T)_jk d_k d_j f. *)
Definition generator d m n (a : 'cV[R]_d -> 'cV[R]_d) (s : 'cV[R]_d -> 'M[R]_(d, m))
  (f : 'cV[R]_d -> 'cV[R]_n) (x : 'cV[R]_d) : 'cV[R]_n :=
  \col_i (\sum_j a x j 0 * pderiv (fun z => f z i 0) j x +
     2%:R^-1 * \sum_j \sum_k (\sum_l s x j l * s x k l) *
       pderiv (fun y => pderiv (fun z => f z i 0) j y) k x).

(** The order 1.5 strong Taylor step in one dimension (Kloeden and Platen, (10.4.1)):
    [eta] is the increment of W over the step, [zeta] the integral of W - W_0. *)
Definition kp15 (a s : R -> R) (x h zeta eta : R) : R :=
  let a' := Derive a x in let a'' := Derive (Derive a) x in
  let s' := Derive s x in let s'' := Derive (Derive s) x in
  x + a x * h + s x * eta + 2%:R^-1 * s x * s' * (eta ^+ 2 - h) + a' * s x * zeta
  + 2%:R^-1 * (a x * a' + 2%:R^-1 * s x ^+ 2 * a'') * h ^+ 2
  + (a x * s' + 2%:R^-1 * s x ^+ 2 * s'') * (eta * h - zeta)
  + 2%:R^-1 * s x * (s x * s'' + s' ^+ 2) * (3%:R^-1 * eta ^+ 2 - h) * eta.

(** Covariances of Brownian motion and of its time integral over [0,h], from the
    covariance kernel E[W_s W_t] = min(s,t). *)
Definition cov_W_W (h : R) : R := Rmin h h.
Definition cov_I_W (h : R) : R := RInt (fun s => Rmin s h) 0 h.
Definition cov_I_I (h : R) : R := RInt (fun s => RInt (fun t => Rmin s t) 0 h) 0 h.
(** ... for [m] independent Brownian motions, ordered (integrals, values). *)
Definition brownian_cov m (h : R) : 'M[R]_(m + m) :=
  block_mx (cov_I_I h)%:M (cov_I_W h)%:M (cov_I_W h)%:M (cov_W_W h)%:M.

(** [D] is the derivative of the matrix function [V] at [t], entrywise. *)
Definition mx_deriv m n (V : R -> 'M[R]_(m, n)) (t : R) (D : 'M[R]_(m, n)) : Prop :=
  forall i j, is_derive (fun s => V s i j) t (D i j).

(** The mean of the solution of dX = a dt + s dW from [x], expanded to order [t^2]. *)
Definition mean_taylor2 d m (a : 'cV[R]_d -> 'cV[R]_d) (s : 'cV[R]_d -> 'M[R]_(d, m))
  (x : 'cV[R]_d) (t : R) : 'cV[R]_d :=
  x + t *: a x + (t ^+ 2 / 2%:R) *: generator a s a x.

(** A component [i] without direct noise has variance [t^3/3 sum_l (sum_j d_j a_i s_jl)^2]
    at leading order. *)
Definition lead_var3 d m (a : 'cV[R]_d -> 'cV[R]_d) (s : 'cV[R]_d -> 'M[R]_(d, m))
  (x : 'cV[R]_d) (i : 'I_d) (t : R) : R :=
  t ^+ 3 / 3%:R * \sum_l (\sum_j pderiv (fun z => a z i 0) j x * s x j l) ^+ 2.

(** ** Gaussian likelihoods *)

(** Log-density at [z] of the centred Gaussian law with covariance [S]. *)
Definition gauss_logpdf n (S : 'M[R]_n) (z : 'cV[R]_n) : R :=
  - (2%:R^-1 * (n%:R * ln (2%:R * PI) + ln (\det S) + (z^T *m invmx S *m z) 0 0)).

(** Log-likelihood of independent residuals with covariances [s S_k]. *)
Definition scale_loglik n (zs : seq 'cV[R]_n) (Ss : seq 'M[R]_n) (s : R) : R :=
  \sum_(p <- zip zs Ss) gauss_logpdf (s *: p.2) p.1.

(** ** Linear stochastic differential equations dX = F X dt + L dW *)

(** The transition covariance over a time [h]. *)
Definition lin_sde_cov n m (F : 'M[R]_n) (L : 'M[R]_(n, m)) (h : R) : 'M[R]_n :=
  \matrix_(i, j) RInt (fun s => (expm (s *: F) *m L *m (expm (s *: F) *m L)^T) i j) 0 h.

(** The drift matrix of x^(q+1) = c_0 x + c_1 x' + ... + c_q x^(q), plus noise in the last
    component, as a first order system for (x, x', ..., x^(q)). *)
Definition companion (q : nat) (c : nat -> R) : 'M[R]_q.+1 :=
  \matrix_(i, j) if (i < q)%N then (val j == i.+1)%:R else c j.
(** The last row for the integrated Ornstein-Uhlenbeck process: x^(q+1) = - theta x^(q). *)
Definition ou_row (q : nat) (theta : R) (j : nat) : R := if j == q then - theta else 0.
Definition last_noise (q : nat) (sigma : R) : 'cV[R]_q.+1 := \col_i if val i == q then sigma else 0.

(** A pair (A(t), Q(t)) of transition matrices and covariances is consistent under step
    splitting when moving by s, then by t, is moving by s + t. *)
Definition consistent n (A Q : R -> 'M[R]_n) (s t : R) : Prop :=
  A (s + t) = A t *m A s /\ Q (s + t) = A t *m Q s *m (A t)^T + Q t.

(** The states of coordinate [k] of a vector with [n] states per coordinate. *)
Definition coord d n (k : 'I_d) (x : 'cV[R]_(d * n)) : 'cV[R]_(1 * n) :=
  \col_p x (mxtens_index (k, (mxtens_unindex p).2)) 0.
(** The covariances between the states of coordinates [k] and [l]. *)
Definition coord2 d n (k l : 'I_d) (P : 'M[R]_(d * n)) : 'M[R]_(1 * n) :=
  \matrix_(p, r) P (mxtens_index (k, (mxtens_unindex p).2)) (mxtens_index (l, (mxtens_unindex r).2)).

(** Consecutive entries of vectors and matrices of any size, 0 outside. *)
Definition ventry n (x : 'cV[R]_n) (i : nat) : R := if insub i is Some i' then x i' 0 else 0.
Definition mentry m n (A : 'M[R]_(m, n)) (i j : nat) : R :=
  if insub i is Some i' then if insub j is Some j' then A i' j' else 0 else 0.
Definition vblock n (x : 'cV[R]_n) (o k : nat) : 'cV[R]_k := \col_i ventry x (o + i).
Definition mblock n (P : 'M[R]_n) (o k o' k' : nat) : 'M[R]_(k, k') :=
  \matrix_(i, j) mentry P (o + i) (o' + j).
(** Where block [b] of blocks of the given sizes starts. *)
Definition offset (ns : seq nat) (b : nat) : nat := sumn (take b ns).

(** ** Probabilistic ODE solvers *)

(** The matrix selecting the [i]-th state of every coordinate. *)
Definition selector d n (i : 'I_n) : 'M[R]_(d, d * n) :=
  \matrix_(k, p) (p == mxtens_index (k, i))%:R.

(** The predictor-corrector scheme p = x + h v, v' = f(p, t + h), x' = x + h (v + v')/2
    started at v = f(x, 0): position and derivative after [k] steps. *)
Fixpoint pec d (f : 'cV[R]_d -> R -> 'cV[R]_d) (h : R) (x0 : 'cV[R]_d) (k : nat) : 'cV[R]_d * 'cV[R]_d :=
  if k is k'.+1 then
    let: (x, v) := pec f h x0 k' in
    let v' := f (x + h *: v) (k%:R * h) in
    (x + (h / 2%:R) *: (v + v'), v')
  else (x0, f x0 0).

(** The Kalman recursion for x' = lam x observed exactly: factor of the mean and variance of the
    state after k steps of length h, from a known state, with an integrated Brownian motion of
    intensity s2 as prior. *)
Fixpoint dahlquist (lam h s2 : R) (k : nat) : R * R :=
  if k is k'.+1 then
    let: (r, p) := dahlquist lam h s2 k' in
    let z := lam * h in
    let den := p * lam ^+ 2 * z ^+ 2 + s2 * h * (1 - z + z ^+ 2 / 3%:R) in
    (s2 * h * (1 - z ^+ 2 / 6%:R) / den * r,
     (s2 ^+ 2 * h ^+ 4 / 12%:R + p * s2 * h * (1 + z + z ^+ 2 / 3%:R)) / den)
  else (1, 0).

(** One step of Heun's method from time 0. *)
Definition heun d (f : 'cV[R]_d -> R -> 'cV[R]_d) (h : R) (x : 'cV[R]_d) : 'cV[R]_d :=
  x + (h / 2%:R) *: (f x 0 + f (x + h *: f x 0) h).

(** [f] is (Frechet) differentiable at (x, t), with derivative [J] in the state and [ft] in time. *)
Definition frechet d e (f : 'cV[R]_d -> R -> 'cV[R]_e) (x : 'cV[R]_d) (t : R)
  (J : 'M[R]_(e, d)) (ft : 'cV[R]_e) : Prop :=
  forall eps : R, 0 < eps -> exists2 del : R, 0 < del &
    forall v s r, sup_le v r -> `|s| <= r -> r <= del ->
      sup_le (f (x + v) (t + s) - f x t - J *m v - s *: ft) (eps * r).

(** Unit variance for the states from the [b]-th derivative on, no uncertainty on the others. *)
Definition free_states d n (b : nat) : 'M[R]_(d * n) :=
  \matrix_(p, q) ((p == q) && (b <= (mxtens_unindex p).2)%N)%:R.

(** The interlaced vector with slices [x], [v], [a], [b]. *)
Definition joint4 d (x v a b : 'cV[R]_d) : 'cV[R]_(d * 4) :=
  interl (fun i : 'I_4 => match val i with 0 => x | 1 => v | 2 => a | _ => b end).
