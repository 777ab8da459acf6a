(** The parabola as the best linear prediction of Brownian motion from its increment and area. *)
From Coq Require Import Reals Lra FunctionalExtensionality.
From Coquelicot Require Import Coquelicot.
From mathcomp Require Import all_ssreflect all_algebra mxtens.
From Verif Require Import Rstruct Base Linalg Calc Prob Spec Spec2 M_Foster M_Scheme15 L_Scheme15.

Set Implicit Arguments.
Unset Strict Implicit.
Unset Printing Implicit Defensive.
Import Order.TTheory GRing.Theory Num.Theory.
Local Open Scope ring_scope.

Section Best.
Variables (Om : Type) (E : expectation Om) (X A I : Om -> R).

Lemma E_quad (x1 x2 x3 y1 y2 y3 : R) (F : Om -> R) :
  (forall w, F w = (x1 * X w + x2 * A w + x3 * I w) * (y1 * X w + y2 * A w + y3 * I w)) ->
  E F = x1 * y1 * E (fun w => X w * X w) + x2 * y2 * E (fun w => A w * A w) + x3 * y3 * E (fun w => I w * I w)
    + (x1 * y2 + x2 * y1) * E (fun w => X w * A w) + (x1 * y3 + x3 * y1) * E (fun w => X w * I w)
    + (x2 * y3 + x3 * y2) * E (fun w => A w * I w).
Proof.
move=> H; rewrite -!E_scale -!E_add; apply: E_ext => w; rewrite H; rring.
Qed.

Lemma best_parabola (s h : R) : 0 < h -> 0 <= s -> s <= h -> brownian_triple E s h X A I ->
  let b w := sqrt 6%:R * (I w / h - A w / 2%:R) in
  let P w := eval_parabola1 s h (A w) (b w) in
  let u := s / h in
  [/\ E (fun w => A w * A w) = h, E (fun w => A w * b w) = 0 & E (fun w => b w * b w) = h / 2%:R] /\
  [/\ E (fun w => (X w - P w) * A w) = 0, E (fun w => (X w - P w) * I w) = 0,
      E (fun w => (X w - P w) ^+ 2) = h * (u * (1 - u) - 3%:R * (u * (1 - u)) ^+ 2) &
      forall alpha beta, let Y w := alpha * A w + beta * I w in
      E (fun w => (X w - Y w) ^+ 2) = E (fun w => (X w - P w) ^+ 2) +
        h * (alpha + beta * h / 2%:R - u) ^+ 2 + h / 12%:R * (beta * h - 6%:R * u * (1 - u)) ^+ 2].
Proof.
move=> h0 s0 sh [[E1 E2 E3] [E4 E5 E6]] b P u.
have s6 : sqrt 6%:R * sqrt 6%:R = 6%:R :> R by apply: sqrt_sqrt; apply/RleP; exact: ler0n.
have hn : h != 0 by rewrite gt_eqF.
have {}E1 : E (fun w => X w * X w) = s by rewrite E1 Rmin_left //; apply/RleP.
have {}E2 : E (fun w => X w * A w) = s by rewrite E2 Rmin_left //; apply/RleP.
have {}E3 : E (fun w => A w * A w) = h by rewrite E3 Rmin_left //; apply/RleP.
have {}E4 : E (fun w => X w * I w) = s * h - s ^+ 2 / 2%:R.
  by rewrite E4 RInt_min //; [toR; field | apply/RleP | apply/RleP].
have {}E5 : E (fun w => A w * I w) = h ^+ 2 / 2%:R.
  by rewrite E5 RInt_min //; [toR; field | apply/RleP; exact: ltW | apply/RleP].
have {}E6 : E (fun w => I w * I w) = h ^+ 3 / 3%:R by rewrite E6; exact: cov_I_IE (ltW h0).
have EP w : P w = (u - 3%:R * u * (1 - u)) * A w + (6%:R * u * (1 - u) / h) * I w.
  rewrite /P /eval_parabola1 /b -/u.
  have -> : A w * u + sqrt 6%:R * (I w / h - A w / 2%:R) * sqrt 6%:R * u * (1 - u) =
            A w * u + (sqrt 6%:R * sqrt 6%:R) * (I w / h - A w / 2%:R) * u * (1 - u) by rring.
  rewrite s6; move: u => v; by toR; field; exact/eqP.
have Q (F : Om -> R) x1 x2 x3 y1 y2 y3 H := @E_quad x1 x2 x3 y1 y2 y3 F H.
rewrite {}E1 {}E2 {}E3 {}E4 {}E5 {}E6 in Q *.
have ub : s = u * h by rewrite /u divfK.
have Eb : E (fun w => b w * b w) = 6%:R * E (fun w => (I w / h - A w / 2%:R) * (I w / h - A w / 2%:R)).
  by rewrite -E_scale; apply: E_ext => w; rewrite /b mulrACA s6.
have Eab : E (fun w => A w * b w) = sqrt 6%:R * E (fun w => A w * (I w / h - A w / 2%:R)).
  by rewrite -E_scale; apply: E_ext => w; rewrite /b; rring.
have EXP : E (fun w => (X w - P w) ^+ 2) = h * (u * (1 - u) - 3%:R * (u * (1 - u)) ^+ 2).
  rewrite (Q _ 1 (- (u - 3%:R * u * (1 - u))) (- (6%:R * u * (1 - u) / h)) 1 (- (u - 3%:R * u * (1 - u))) (- (6%:R * u * (1 - u) / h))); last first.
    by move=> w; rewrite EP; rring.
  by rewrite ub; move: (u) => v; toR; field; exact/eqP.
split; split=> //.
- rewrite Eab (Q _ 0 1 0 0 (- 2%:R^-1) h^-1); last by move=> w; toR; field; exact/eqP.
  by toR; field; exact/eqP.
- rewrite Eb (Q _ 0 (- 2%:R^-1) h^-1 0 (- 2%:R^-1) h^-1); last by move=> w; toR; field; exact/eqP.
  by toR; field; exact/eqP.
- rewrite (Q _ 1 (- (u - 3%:R * u * (1 - u))) (- (6%:R * u * (1 - u) / h)) 0 1 0); last by move=> w; rewrite EP; rring.
  by rewrite ub; move: (u) => v; toR; field; exact/eqP.
- rewrite (Q _ 1 (- (u - 3%:R * u * (1 - u))) (- (6%:R * u * (1 - u) / h)) 0 0 1); last by move=> w; rewrite EP; rring.
  by rewrite ub; move: (u) => v; toR; field; exact/eqP.
- move=> alpha beta Y; rewrite EXP (Q _ 1 (- alpha) (- beta) 1 (- alpha) (- beta)); last by move=> w; rewrite /Y; rring.
  by rewrite ub; move: (u) => v; toR; field; exact/eqP.
Qed.
End Best.
