(** Model of bayesian_sde_solver/ito_stratonovich.py. *)
From Coq Require Import Reals.
From mathcomp Require Import all_ssreflect all_algebra mxtens.
From Verif Require Import Rstruct Base Calc.

Set Implicit Arguments.
Unset Strict Implicit.
Unset Printing Implicit Defensive.
Import Order.TTheory GRing.Theory Num.Theory.
Local Open Scope ring_scope.

Section ItoStrat.
Variables (d m : nat).
Definition drift_fn := 'cV[R]_d -> R -> 'cV[R]_d.
Definition diff_fn := 'cV[R]_d -> R -> 'M[R]_(d, m).

(** [jax.jacfwd(lambda z: diffusion(z, t))(x)], entry [i, k, j]. *)
Definition jac3 (diffusion : 'cV[R]_d -> 'M[R]_(d, m)) (x : 'cV[R]_d) (i : 'I_d) (k : 'I_m) (j : 'I_d) : R :=
  pderiv (fun z => diffusion z i k) j x.

(** [drift_correction], lines 8-15: einsum "jk,ikj->i". *)
Definition drift_correction (diffusion : diff_fn) (t : R) (x : 'cV[R]_d) : 'cV[R]_d :=
  let diff_val := diffusion x t in
  let jac_val := jac3 (fun z => diffusion z t) x in
  \col_i \sum_j \sum_k diff_val j k * jac_val i k j.

(** [to_stratonovich], lines 18-22. *)
Definition to_stratonovich (drift : drift_fn) (diffusion : diff_fn) : drift_fn * diff_fn :=
  ((fun x t => drift x t - 2%:R^-1 *: drift_correction diffusion t x), diffusion).

(** [to_ito], lines 25-29. *)
Definition to_ito (drift : drift_fn) (diffusion : diff_fn) : drift_fn * diff_fn :=
  ((fun x t => drift x t + 2%:R^-1 *: drift_correction diffusion t x), diffusion).
End ItoStrat.
