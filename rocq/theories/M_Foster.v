(** Model of bayesian_sde_solver/foster_polynomial.py. *)
From Coq Require Import Reals.
From mathcomp Require Import all_ssreflect all_algebra mxtens.
From Verif Require Import Rstruct Base Linalg Prob.

Set Implicit Arguments.
Unset Strict Implicit.
Unset Printing Implicit Defensive.
Import Order.TTheory GRing.Theory Num.Theory.
Local Open Scope ring_scope.

(** What [bm()] returns: a sampler of coefficients and an evaluation function. *)
Record path_approx (g : prng) (m : nat) := PathApprox {
  coeffs : Type;
  get_coeffs : key g -> R -> coeffs;
  eval_fn : R -> R -> coeffs -> 'cV[R]_m
}.

Section Foster.
Variables (g : prng) (dim : nat).

(** The rows of a 2-D array. *)
Definition rows m n (e : 'M[R]_(m, n)) : seq 'cV[R]_n := [seq (row i e)^T | i <- enum 'I_m].

(** [get_approx.parabolas], lines 12-19, at one batch element.
    (For dt < 0 the code gives NaN; theorems assume dt >= 0.) *)
Definition parabolas (k : key g) (dt : R) : 'cV[R]_dim * 'cV[R]_dim :=
  let e := normal2 k 2 dim in
  let eps_0 := (row 0 e)^T in let eps_1 := (row 1 e)^T in
  let eps_0 := sqrt dt *: eps_0 in
  let eps_1 := sqrt (2%:R^-1 * dt) *: eps_1 in
  (eps_0, eps_1).

(** [get_approx.eval_parabola], lines 21-25: scalar, then vectorised over coordinates. *)
Definition eval_parabola1 (t dt a b : R) : R :=
  let u := t / dt in a * u + b * sqrt 6%:R * u * (1 - u).
Definition eval_parabola (t dt : R) (a b : 'cV[R]_dim) : 'cV[R]_dim :=
  \col_i eval_parabola1 t dt (a i 0) (b i 0).

Definition get_approx : path_approx g dim :=
  PathApprox parabolas (fun t dt ab => eval_parabola t dt ab.1 ab.2).

(** [get_approx_and_brownian.parabolas], lines 35-51. *)
Definition parabolas_bm (N : nat) (k : key g) (dt : R)
  : 'cV[R]_dim * 'cV[R]_dim * seq 'cV[R]_dim :=
  let incs := rows (normal2 k N dim) in
  let bm := cumsum incs in
  let bm := [seq sqrt (dt / N%:R) *: b | b <- bm] in
  let idx := iota 1 N in
  let eps_0 := nth 0 bm (size bm).-1 in
  let integrand i := sqrt 6%:R *: get_clamped 0 bm i in
  let eps_1 := trapz_dx [seq integrand i | i <- idx] (1 / N%:R)
               - (2%:R^-1 * sqrt 6%:R) *: eps_0 in
  (eps_0, eps_1, incs).

(** lines 53-57 *)
Definition get_approx_and_brownian (N : nat) : path_approx g dim :=
  PathApprox (parabolas_bm N) (fun t dt abw => eval_parabola t dt abw.1.1 abw.1.2).

(** [get_approx_fine.update_eps], lines 76-81. *)
Definition update_eps (fine_dt : R) (carry inps : 'cV[R]_dim * 'cV[R]_dim)
  : ('cV[R]_dim * 'cV[R]_dim) * unit :=
  let: (eps_0, eps_1) := carry in
  let: (fine_eps_0, fine_eps_1) := inps in
  let eps_1 := eps_1 + fine_dt *: (eps_0 + 2%:R^-1 *: fine_eps_0 + fine_eps_1) in
  let eps_0 := eps_0 + fine_eps_0 in
  ((eps_0, eps_1), tt).

(** [get_approx_fine.parabolas], lines 67-87; first as a function of the [N] split keys. *)
Definition parabolas_fine_keys (N : nat) (keys : seq (key g)) (dt : R)
  : 'cV[R]_dim * 'cV[R]_dim * seq 'cV[R]_dim * seq 'cV[R]_dim :=
  let fine_dt := dt / N%:R in
  let fine := [seq parabolas k fine_dt | k <- keys] in
  let fine_eps_0s := unzip1 fine in
  let fine_eps_1s := [seq (1 / sqrt 6%:R) *: e | e <- unzip2 fine] in
  let res := scan (update_eps fine_dt) (0, 0) (zip fine_eps_0s fine_eps_1s) in
  let: (eps_0, eps_1) := res.1 in
  let eps_1 := (1 / dt) *: eps_1 - 2%:R^-1 *: eps_0 in
  let eps_1 := sqrt 6%:R *: eps_1 in
  (eps_0, eps_1, fine_eps_0s, fine_eps_1s).
Definition parabolas_fine (N : nat) (k : key g) (dt : R) :=
  parabolas_fine_keys N (split k N) dt.

(** lines 89-92 *)
Definition get_approx_fine (N : nat) : path_approx g dim :=
  PathApprox (parabolas_fine N) (fun t dt c => eval_parabola t dt c.1.1.1 c.1.1.2).
End Foster.
