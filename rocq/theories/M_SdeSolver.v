(** Model of bayesian_sde_solver/sde_solver.py. *)
From Coq Require Import Reals.
From mathcomp Require Import all_ssreflect all_algebra mxtens.
From Verif Require Import Rstruct Base Linalg Calc Prob M_Utils M_Foster.

Set Implicit Arguments.
Unset Strict Implicit.
Unset Printing Implicit Defensive.
Import Order.TTheory GRing.Theory Num.Theory.
Local Open Scope ring_scope.

Section SdeSolver.
Variables (g : prng) (d m : nat).
(** The state carried between intervals: a vector for Algorithms 1 and 2, a tuple
    (sample, mean, variance) for Algorithm 3, a [res] when the integrator can fail.
    A trajectory of tuples stands for the tuple of trajectories (see C03). *)
Variable X : Type.
Variables (drift : 'cV[R]_d -> R -> 'cV[R]_d) (sigma : 'cV[R]_d -> R -> 'M[R]_(d, m)).
Variable bm : path_approx g m.
Variable delta : R.
(** [ode_int(key, init=, vector_field=, T=)] *)
Variable ode_int : key g -> X -> ('cV[R]_d -> R -> 'cV[R]_d) -> R -> X.

(** [body], lines 29-36. *)
Definition sde_body (x : X) (inp : nat * (key g * R)) : X * (X * coeffs bm) :=
  let: (_, (key_k, t_k)) := inp in
  let: (bm_key, sample_key) := split2 key_k in
  let coeffs_k := get_coeffs bm bm_key delta in
  let func := fun t => eval_fn t delta coeffs_k in
  let vector_field := fun z t => drift z (t + t_k) + sigma z (t + t_k) *m jacR func t in
  let next_x := ode_int sample_key x vector_field delta in
  (next_x, (next_x, coeffs_k)).

(** [sde_solver], lines 25-45: (ts, traj, coeffs). *)
Definition sde_solver (k : key g) (x0 : X) (N : nat) : seq R * seq X * seq (coeffs bm) :=
  let init := x0 in
  let keys := split k N in
  let ts := linspace 0 (N%:R * delta) N.+1 in
  let inps := zip (iota 0 N) (zip keys (but_last ts)) in
  let out := (scan_ev (progress_bar N sde_body) init inps).1.2 in
  let traj := unzip1 out in let coeffs := unzip2 out in
  (ts, jnp_insert traj 0 init, coeffs).
End SdeSolver.
