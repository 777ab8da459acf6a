(** Model of bayesian_sde_solver/sde_solvers/diag_15_scheme.py and
    bayesian_sde_solver/sde_solvers/hypoelliptic_diffusion__diag_15_scheme.py. *)
From Coq Require Import Reals.
From mathcomp Require Import all_ssreflect all_algebra mxtens.
From Verif Require Import Rstruct Base Linalg Calc Prob M_Utils.

Set Implicit Arguments.
Unset Strict Implicit.
Unset Printing Implicit Defensive.
Import Order.TTheory GRing.Theory Num.Theory.
Local Open Scope ring_scope.

(** [u @ v] of two 1-D arrays is a number, which is then added to every entry of
    an array ("broadcasting"). *)
Definition dotv n (u v : 'cV[R]_n) : R := (u^T *m v) 0 0.

Section Diag15.
Variables (lp : lapack) (g : prng) (d : nat).
(** The square shape of [sigma] is checked by [assert dim == sigma(init).shape[1]]
    (line 13); here it is the type. *)
Variables (drift : 'cV[R]_d -> 'cV[R]_d) (sigma : 'cV[R]_d -> 'M[R]_d) (h : R).

(** lines 15-16 *)
Definition partialxdrift (x : 'cV[R]_d) : 'M[R]_d := jac drift x.
(** lines 18-19: [jnp.diag] of a matrix is its diagonal. *)
Definition diagSigma (x : 'cV[R]_d) : 'cV[R]_d := \col_i sigma x i i.
(** lines 21-22 *)
Definition partialxsigma (x : 'cV[R]_d) : 'M[R]_d := jac diagSigma x.
(** lines 24-28 *)
Definition laplaceweighted_diag m (f : 'cV[R]_d -> 'cV[R]_m) (x : 'cV[R]_d) : 'cV[R]_m :=
  let diagsigma := \col_j (sigma x *m (sigma x)^T) j j in
  \col_i dotv diagsigma (\col_j hess f x i j j).
(** lines 30-31 and 33-34 *)
Definition laplacesigma (x : 'cV[R]_d) : 'cV[R]_d := laplaceweighted_diag diagSigma x.
Definition laplacedrift (x : 'cV[R]_d) : 'cV[R]_d := laplaceweighted_diag drift x.

(** The covariance of the draw, lines 42-47. *)
Definition diag15_cov : 'M[R]_(d + d) :=
  block_mx ((h ^+ 3 / 3%:R) *: 1%:M) ((h ^+ 2 / 2%:R) *: 1%:M)
           ((h ^+ 2 / 2%:R) *: 1%:M) (h *: 1%:M).

(** The expression of lines 51-67 with NumPy's shapes:
    line 62 is (vector @ vector), a number; line 63 likewise; in line 65 a matrix plus a
    vector adds entry j of the vector to column j; in line 66 [eta @ eta.T] of a 1-D
    array is a number. *)
Definition diag15_step (x zeta eta : 'cV[R]_d) : 'cV[R]_d :=
  x + h *: drift x
  + ((h ^+ 2 / 2%:R) *: partialxdrift x) *m drift x
  + (h ^+ 2 / 4%:R) *: laplacedrift x
  + sigma x *m eta
  + partialxdrift x *m sigma x *m zeta
  + (2%:R^-1 *: partialxsigma x) *m sigma x *m (\col_i (eta i 0) ^+ 2 - h *: const_mx 1)
  + const_mx (dotv (partialxsigma x *m drift x) (h *: eta - zeta))
  + const_mx (dotv (2%:R^-1 *: laplacesigma x) (h *: eta - zeta))
  + (2%:R^-1 *: (partialxsigma x *m partialxsigma x *m sigma x
                 + \matrix_(i, j) laplacesigma x j 0))
    *m (const_mx (dotv (3%:R^-1 *: eta) eta) - h *: const_mx 1).

(** [body], lines 36-68.  [jax.random.split(key_k, 1)] is an array holding one key; it
    is used as that key (newer JAX versions refuse the extra axis instead). *)
Definition diag15_body (x : res 'cV[R]_d) (key_k : key g) : res 'cV[R]_d * res 'cV[R]_d :=
  let bm_key := nth key_k (split key_k 1) 0 in
  let out := let! x' := x in
             let! ze := mvn lp bm_key (0 : 'cV[R]_(d + d)) diag15_cov in
             Val (diag15_step x' (usubmx ze) (dsubmx ze)) in
  (out, out).

(** [solver], lines 70-75. *)
Definition diag15 (k : key g) (init : 'cV[R]_d) (N : nat) : seq R * seq (res 'cV[R]_d) :=
  let keys := split k N in
  let ts := linspace 0 (N%:R * h) N.+1 in
  let samples := (scan diag15_body (Val init) keys).2 in
  (ts, jnp_insert samples 0 (Val init)).
End Diag15.

Section Hypo15.
(** The state is (smooth coordinate, d rough coordinates). *)
Variables (lp : lapack) (g : prng) (d m : nat).
Variables (drift : 'cV[R]_(1 + d) -> 'cV[R]_(1 + d)) (sigma : 'cV[R]_(1 + d) -> 'M[R]_(1 + d, m)).
Variable h : R.

(** lines 15-16 *)
Definition hypo_a (x : 'cV[R]_(1 + d)) : R := drift x 0 0.
(** lines 18-22 *)
Definition Gamma (x : 'cV[R]_(1 + d)) : 'M[R]_(d, m) := dsubmx (sigma x).
Definition GammaGammaT (x : 'cV[R]_(1 + d)) : 'M[R]_d := Gamma x *m (Gamma x)^T.
(** lines 24-25 *)
Definition partialua (x : 'cV[R]_(1 + d)) : 'rV[R]_d := rsubmx (grad hypo_a x).
(** lines 27-28 *)
Definition partialuvdrift (x : 'cV[R]_(1 + d)) : 'M[R]_(1 + d) := jac drift x.
(** lines 30-34 *)
Definition laplaceweighted n (f : 'cV[R]_(1 + d) -> 'cV[R]_n) (x : 'cV[R]_(1 + d)) : 'cV[R]_n :=
  let sigmasq := sigma x *m (sigma x)^T in
  \col_k \sum_i \sum_j sigmasq i j * hess f x k i j.

(** The covariance of the draw, lines 46-64; the reshapes turn the 1-D array
    [partialua @ GammaGammaT] into a row and into a column. *)
Definition hypo_cov (x : 'cV[R]_(1 + d)) : 'M[R]_(1 + d) :=
  let pGG := partialua x *m GammaGammaT x in
  block_mx ((h ^+ 3 / 3%:R) *: (pGG *m (partialua x)^T)) ((h ^+ 2 / 2%:R) *: pGG)
           ((h ^+ 2 / 2%:R) *: pGG^T) (h *: GammaGammaT x).

(** lines 66-72 *)
Definition hypo_step (x epsilon_k : 'cV[R]_(1 + d)) : 'cV[R]_(1 + d) :=
  x + h *: drift x
  + ((h ^+ 2 / 2%:R) *: partialuvdrift x) *m drift x
  + (h ^+ 2 / 4%:R) *: laplaceweighted drift x
  + epsilon_k.

(** [body], lines 40-73. *)
Definition hypo_body (x : res 'cV[R]_(1 + d)) (key_k : key g)
  : res 'cV[R]_(1 + d) * res 'cV[R]_(1 + d) :=
  let bm_key := nth key_k (split key_k 1) 0 in
  let out := let! x' := x in
             let! e := mvn lp bm_key (0 : 'cV[R]_(1 + d)) (hypo_cov x') in
             Val (hypo_step x' e) in
  (out, out).

(** [solver], lines 75-80. *)
Definition hypo15 (k : key g) (init : 'cV[R]_(1 + d)) (N : nat)
  : seq R * seq (res 'cV[R]_(1 + d)) :=
  let keys := split k N in
  let ts := linspace 0 (N%:R * h) N.+1 in
  let samples := (scan hypo_body (Val init) keys).2 in
  (ts, jnp_insert samples 0 (Val init)).
End Hypo15.
