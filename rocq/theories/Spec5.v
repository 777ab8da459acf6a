(** Notions used in the statements about strong errors. *)
From Coq Require Import Reals.
From Coquelicot Require Import Coquelicot.
From mathcomp Require Import all_ssreflect all_algebra mxtens.
From Verif Require Import Rstruct Base Calc Prob Spec.

Set Implicit Arguments.
Unset Strict Implicit.
Unset Printing Implicit Defensive.
Import Order.TTheory GRing.Theory Num.Theory.
Local Open Scope ring_scope.

(** [y q] is, for every q <= Q, the state at time q h of a solution of dX = A X dt + S dW, where the path W runs
    through the given smooth pieces, each of length h: on piece q there is a function z of the local time with
    z' = A z + S W', starting in y q and ending in y (q+1). *)
Definition follows d m (A : 'M[R]_d) (S : 'M[R]_(d, m)) (h : R) (Q : nat) (piece : nat -> R -> 'cV[R]_m)
  (y : nat -> 'cV[R]_d) : Prop :=
  forall q, (q < Q)%N -> exists (z : R -> 'cV[R]_d) (slope : R -> 'cV[R]_m),
  [/\ forall t, mx_deriv (piece q) t (slope t), z 0 = y q, z h = y q.+1 &
      forall t, mx_deriv z t (A *m z t + S *m slope t)].
