(** Notions used in the statements about equations with an explicit solution. *)
From Coq Require Import Reals.
From Coquelicot Require Import Coquelicot.
From mathcomp Require Import all_ssreflect all_algebra mxtens.
From Verif Require Import Rstruct Base Calc Prob Spec.

Set Implicit Arguments.
Unset Strict Implicit.
Unset Printing Implicit Defensive.
Import Order.TTheory GRing.Theory Num.Theory.
Local Open Scope ring_scope.

(** [X t w] solves the Stratonovich equation dX = f(X, t) dt + s(X, t) o dW up to time [T]: along every path [W]
    that is differentiable at [t], the derivative of [X t (W t)] is f + s W'. *)
Definition resolves d m (f : 'cV[R]_d -> R -> 'cV[R]_d) (s : 'cV[R]_d -> R -> 'M[R]_(d, m)) (T : R)
  (X : R -> 'cV[R]_m -> 'cV[R]_d) : Prop :=
  forall (W : R -> 'cV[R]_m) (t : R) (W' : 'cV[R]_m), 0 <= t -> t <= T -> mx_deriv W t W' ->
  mx_deriv (fun r => X r (W r)) t (f (X t (W t)) t + s (X t (W t)) t *m W').

(** Every entry of [s] is [K]-Lipschitz in the state, in the maximum norm, uniformly in time. *)
Definition lipschitz_mx d m (s : 'cV[R]_d -> R -> 'M[R]_(d, m)) (K : R) : Prop :=
  forall x y t e i j, sup_le (x - y) e -> `|s x t i j - s y t i j| <= K * e.

(** A bound of the total variation, summed over the coordinates, of the parabola with coefficients [a], [b]. *)
Definition tv m (a b : 'cV[R]_m) : R := \sum_l (`|a l 0| + sqrt 6%:R * `|b l 0|).
