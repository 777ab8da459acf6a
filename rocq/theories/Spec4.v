(** Notions used in the statements about multiplicative noise. *)
From Coq Require Import Reals.
From Coquelicot Require Import Coquelicot.
From mathcomp Require Import all_ssreflect all_algebra mxtens.
From Verif Require Import Rstruct Base Calc Prob Spec Spec3.

Set Implicit Arguments.
Unset Strict Implicit.
Unset Printing Implicit Defensive.
Import Order.TTheory GRing.Theory Num.Theory.
Local Open Scope ring_scope.

(** An ODE integrator that returns the exact solution at time [T] of every system of uncoupled linear
    equations y_i' = u_i(t) y_i with continuous u. *)
Definition solves_diagonal (K : Type) d (int : K -> 'cV[R]_d -> ('cV[R]_d -> R -> 'cV[R]_d) -> R -> 'cV[R]_d) (T : R) : Prop :=
  forall k x (u : R -> 'cV[R]_d) (y : R -> 'cV[R]_d),
  mx_cont u -> y 0 = x -> (forall t, mx_deriv y t (\col_i (u t i 0 * y t i 0))) ->
  int k x (fun z t => \col_i (u t i 0 * z i 0)) T = y T.

(** The expectation of three outcomes with weights 1 - p, p/2, p/2. *)
Definition three (Om : Type) (w0 w1 w2 : Om) (p : R) (X : Om -> R) : R :=
  (1 - p) * X w0 + p / 2%:R * X w1 + p / 2%:R * X w2.
