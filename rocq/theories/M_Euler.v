(** Model of bayesian_sde_solver/ode_solvers/euler.py and
    bayesian_sde_solver/sde_solvers/euler_maruyama.py. *)
From Coq Require Import Reals.
From mathcomp Require Import all_ssreflect all_algebra mxtens.
From Verif Require Import Rstruct Base Linalg Calc Prob M_Utils.

Set Implicit Arguments.
Unset Strict Implicit.
Unset Printing Implicit Defensive.
Import Order.TTheory GRing.Theory Num.Theory.
Local Open Scope ring_scope.

Section Euler.
Variable d : nat.

(** [solver.body], euler.py lines 10-12. *)
Definition euler_body (vector_field : 'cV[R]_d -> R -> 'cV[R]_d) (h : R)
  (x : 'cV[R]_d) (t : R) : 'cV[R]_d * unit :=
  let out := x + h *: vector_field x t in (out, tt).

(** [solver], euler.py lines 5-16. *)
Definition euler (init : 'cV[R]_d) (vector_field : 'cV[R]_d -> R -> 'cV[R]_d) (h : R) (N : nat)
  : 'cV[R]_d :=
  let inps := linspace 0 (N%:R * h - h) N in
  (scan (euler_body vector_field h) init inps).1.
End Euler.

Section EulerMaruyama.
Variables (d m : nat).
Variables (drift : 'cV[R]_d -> R -> 'cV[R]_d) (sigma : 'cV[R]_d -> R -> 'M[R]_(d, m)) (h : R).

(** [solver.body], euler_maruyama.py lines 11-16.  The length of the draw
    ([dim = sigma(init, 0.0).shape[1]], line 9) is the column count of the type.
    (For h < 0 the code gives NaN; theorems in which this matters assume h >= 0.) *)
Definition em_body (g : prng) (x : 'cV[R]_d) (inp : key g * R) : 'cV[R]_d * 'cV[R]_d :=
  let: (key_k, t) := inp in
  let: (bm_key, _) := split2 key_k in
  let dW := sqrt h *: normal bm_key m in
  let out := x + h *: drift x t + sigma x t *m dW in (out, out).

(** [solver], euler_maruyama.py lines 18-23. *)
Definition euler_maruyama (g : prng) (k : key g) (init : 'cV[R]_d) (N : nat)
  : seq R * seq 'cV[R]_d :=
  let keys := split k N in
  let ts := linspace 0 (N%:R * h) N.+1 in
  let samples := (scan (@em_body g) init (zip keys (but_last ts))).2 in
  (ts, jnp_insert samples 0 init).

(** [solver_pathwise.body], euler_maruyama.py lines 35-38. *)
Definition em_pathwise_body (x : 'cV[R]_d) (inp : 'cV[R]_m * R) : 'cV[R]_d * 'cV[R]_d :=
  let: (dW, t) := inp in
  let out := x + h *: drift x t + sigma x t *m dW in (out, out).

(** The array object passed as [incs]: a JAX array is immutable, so [incs *= c]
    rebinds the local name; a NumPy array is updated in place. *)
Inductive array_kind := JaxArray | NumpyArray.

(** [solver_pathwise], euler_maruyama.py lines 26-46: the outcome of the call, and the
    content of the caller's array afterwards.  [lax.scan] refuses leading axes of
    different lengths (ValueError). *)
Definition em_pathwise_call (kind : array_kind) (incs : seq 'cV[R]_m) (init : 'cV[R]_d) (N : nat)
  (standard : bool) : res (seq R * seq 'cV[R]_d) * seq 'cV[R]_m :=
  let ts := linspace 0 (N%:R * h) N.+1 in
  let local := if standard then [seq sqrt h *: w | w <- incs] else incs in
  let caller := if kind is NumpyArray then local else incs in
  let inps := zip local (but_last ts) in
  if size local == size (but_last ts) then
    let samples := (scan em_pathwise_body init inps).2 in
    (Val (ts, jnp_insert samples 0 init), caller)
  else (Raise ValueError, caller).

(** The returned value only. *)
Definition em_pathwise (incs : seq 'cV[R]_m) (init : 'cV[R]_d) (N : nat) (standard : bool)
  : res (seq R * seq 'cV[R]_d) := (em_pathwise_call JaxArray incs init N standard).1.
End EulerMaruyama.
