(** Model of what the test functions of /repo/tests measure (the sampling of many keys and the
    comparison of empirical moments are left out: theorems speak of the law of one sample). *)
From Coq Require Import Reals.
From mathcomp Require Import all_ssreflect all_algebra mxtens.
From Verif Require Import Rstruct Base Linalg Calc Prob M_Foster.

Set Implicit Arguments.
Unset Strict Implicit.
Unset Printing Implicit Defensive.
Import Order.TTheory GRing.Theory Num.Theory.
Local Open Scope ring_scope.

Section Tests.
Variables (g : prng) (dim : nat) (bm : path_approx g dim).

(** tests/test_foster.py, [integrand_mean], lines 52-55: [t * jacfwd(eval_fn(., h, coeffs))(t)]. *)
Definition integrand_mean (h t : R) (c : coeffs bm) : 'cV[R]_dim :=
  t *: jacR (fun z => eval_fn z h c) t.

(** tests/test_foster.py, [test_path_integral], lines 48-58, at one key:
    [trapz(integrand_mean(linspace), linspace)] with [linspace = linspace(0, h, N + 1)]. *)
Definition path_integral (h : R) (N : nat) (k : key g) : 'cV[R]_dim :=
  let c := get_coeffs bm k h in
  let grid := linspace 0 h N.+1 in
  trapz_x [seq integrand_mean h t c | t <- grid] grid.
End Tests.
