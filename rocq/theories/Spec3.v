(** Notions used in the statements about exactly solved random ODEs. *)
From Coq Require Import Reals.
From Coquelicot Require Import Coquelicot.
From mathcomp Require Import all_ssreflect all_algebra mxtens.
From Verif Require Import Rstruct Base Calc Prob Spec.

Set Implicit Arguments.
Unset Strict Implicit.
Unset Printing Implicit Defensive.
Import Order.TTheory GRing.Theory Num.Theory.
Local Open Scope ring_scope.

(** Entrywise Riemann integral from 0 to [h]. *)
Definition mx_int m n (f : R -> 'M[R]_(m, n)) (h : R) : 'M[R]_(m, n) :=
  \matrix_(i, j) RInt (fun s => f s i j) 0 h.

Definition mx_cont m n (f : R -> 'M[R]_(m, n)) : Prop := forall t i j, continuous (fun s => f s i j) t.

(** An ODE integrator that returns the exact solution at time [T] of every affine
    equation y' = A y + u(t) with continuous u. *)
Definition solves_affine (K : Type) d (int : K -> 'cV[R]_d -> ('cV[R]_d -> R -> 'cV[R]_d) -> R -> 'cV[R]_d) (T : R) : Prop :=
  forall k x (A : 'M[R]_d) (u : R -> 'cV[R]_d) (y : R -> 'cV[R]_d),
  mx_cont u -> y 0 = x -> (forall t, mx_deriv y t (A *m y t + u t)) ->
  int k x (fun z t => A *m z + u t) T = y T.

(** An expectation that respects the order of random variables. *)
Definition monotone (Om : Type) (E : expectation Om) : Prop :=
  forall X Y, (forall w, X w <= Y w) -> E X <= E Y.

(** The scheme of [Spec.pec] (predict with the slope, evaluate, trapezoidal correction) for the matrix
    equation X' = A X + u: state and slope after k steps of length h; u k is u at time k h. *)
Fixpoint mpec d p (A : 'M[R]_d) (u : nat -> 'M[R]_(d, p)) (h : R) (X0 : 'M[R]_(d, p)) (k : nat) : 'M[R]_(d, p) * 'M[R]_(d, p) :=
  if k is k'.+1 then
    let: (X, Y) := mpec A u h X0 k' in
    let Y' := A *m (X + h *: Y) + u k in
    (X + (h / 2%:R) *: (Y + Y'), Y')
  else (X0, A *m X0 + u 0%N).

(** X solves dX = f(X, t) dt + S dW along the path W on [0, T]: X - S W has derivative f(X, t), that is
    X(t) = X(0) + int_0^t f(X(s), s) ds + S (W(t) - W(0)). *)
Definition solves_additive d m (f : 'cV[R]_d -> R -> 'cV[R]_d) (S : 'M[R]_(d, m)) (T : R)
  (W : R -> 'cV[R]_m) (X : R -> 'cV[R]_d) : Prop :=
  deriv_on T (fun t => X t - S *m W t) (fun t => f (X t) t).
