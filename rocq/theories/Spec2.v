(** Further specifications, written without the model's helpers. *)
From Coq Require Import Reals.
From Coquelicot Require Import Coquelicot.
From mathcomp Require Import all_ssreflect all_algebra mxtens.
From Verif Require Import Rstruct Base Linalg Prob Spec.

Set Implicit Arguments.
Unset Strict Implicit.
Unset Printing Implicit Defensive.
Import Order.TTheory GRing.Theory Num.Theory.
Local Open Scope ring_scope.

(** The second moments of the value [X] of a Brownian motion at time [s], its value [A] at time
    [h], and its integral [I] over [0, h], from the kernel E[W_s W_t] = min(s,t). *)
Definition brownian_triple (Om : Type) (E : expectation Om) (s h : R) (X A I : Om -> R) : Prop :=
  [/\ E (fun w => X w * X w) = Rmin s s, E (fun w => X w * A w) = Rmin s h & E (fun w => A w * A w) = Rmin h h] /\
  [/\ E (fun w => X w * I w) = RInt (fun t => Rmin s t) 0 h, E (fun w => A w * I w) = RInt (fun t => Rmin h t) 0 h &
      E (fun w => I w * I w) = RInt (fun r => RInt (fun t => Rmin r t) 0 h) 0 h].
