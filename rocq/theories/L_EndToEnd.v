(** Weak error of the driver with EKF0 sub-steps on dX = a X dt + s dW (tests/test_end_to_end.py). *)
From Coq Require Import Reals Lra FunctionalExtensionality.
From Coquelicot Require Import Coquelicot.
From mathcomp Require Import all_ssreflect all_algebra mxtens.
From Verif Require Import Rstruct Base Linalg Expm Calc Prob Spec Spec3 M_Foster M_ItoStrat L_ItoStrat M_SdeSolver L_SdeSolver
  M_Euler L_Euler M_Prior M_OdeSolvers Lapack L_Linear L_LinStep L_Gbm L_Init.

Set Implicit Arguments.
Unset Strict Implicit.
Unset Printing Implicit Defensive.
Import Order.TTheory GRing.Theory Num.Theory.
Local Open Scope ring_scope.

(** ** Exponential inequalities *)
Lemma exp_ge_deriv (u u' : R -> R) : (forall t : R, is_derive u t (u' t)) -> (forall t : R, (0 <= t)%Re -> (0 <= u' t)%Re) ->
  (0 <= u 0%Re)%Re -> forall t : R, (0 <= t)%Re -> (0 <= u t)%Re.
Proof.
move=> D P u0 t t0.
have := @le_by_deriv (fun=> 0%Re) u (fun=> 0%Re) u' 0 t _ (fun t _ _ => D t) _ _ t _ (lexx _).
move=> H; apply/RleP; apply: H.
- by move=> r _ _; auto_derive.
- by move=> r /RleP r0 _; apply/RleP; exact: P.
- exact/RleP.
exact/RleP.
Qed.

Lemma exp_quad_ge (x : R) : 0 <= x -> 1 + x + x ^+ 2 / 2%:R <= exp x.
Proof.
move=> /RleP x0; apply/RleP; rewrite expr2; toR.
suff : (0 <= exp x - (1 + x + x * x / 2))%Re by lra.
apply: (@exp_ge_deriv (fun x => exp x - (1 + x + x * x / 2))%Re (fun x => exp x - (1 + x))%Re _ _ _ x) => //.
- by move=> t; auto_derive => //; field.
- by move=> t _; have := exp_ineq1_le t; lra.
by rewrite exp_0; lra.
Qed.

Lemma exp_quad_ratio (x : R) : 0 <= x -> exp x * (1 - x ^+ 3 / 6%:R) <= 1 + x + x ^+ 2 / 2%:R.
Proof.
move=> /RleP x0; apply/RleP; rewrite !exprS expr0; toR.
have H : (0 <= (1 + x + x * x / 2) * exp (- x)%Re - 1 + x * x * x / 6)%Re.
  apply: (@exp_ge_deriv (fun x => (1 + x + x * x / 2) * exp (- x)%Re - 1 + x * x * x / 6)%Re
     (fun x => (x * x / 2) * (1 - exp (- x)%Re))%Re _ _ _ x) => //.
  - by move=> t; auto_derive => //; field.
  - move=> t t0; apply: Rmult_le_pos; first by nra.
    suff : (exp (- t)%Re <= 1)%Re by lra.
    by rewrite -exp_0; case: (Req_dec t 0%Re) => [->|tn]; [rewrite Ropp_0; right | left; apply: exp_increasing; lra].
  by rewrite Ropp_0 exp_0; lra.
have e0 := exp_pos x.
have E : (exp x * exp (- x)%Re = 1)%Re by rewrite -exp_plus Rplus_opp_r exp_0.
have := Rmult_le_pos _ _ (Rlt_le _ _ e0) H.
have -> : (exp x * ((1 + x + x * x / 2) * exp (- x)%Re - 1 + x * x * x / 6) = (1 + x + x * x / 2) * (exp x * exp (- x)%Re) - exp x * (1 - x * x * x / 6))%Re by field.
by rewrite E; lra.
Qed.

Lemma exp_tanh (x : R) : 0 <= x -> 2%:R * (exp x - 1) <= x * (exp x + 1).
Proof.
move=> /RleP x0; apply/RleP; toR.
suff : (0 <= x * (exp x + 1) - 2 * (exp x - 1))%Re by lra.
apply: (@exp_ge_deriv (fun x => x * (exp x + 1) - 2 * (exp x - 1))%Re (fun x => 1 + (x - 1) * exp x)%Re _ _ _ x) => //.
- by move=> t; auto_derive => //; ring.
- move=> t t0; have e0 := exp_pos t.
  have E : (exp t * exp (- t)%Re = 1)%Re by rewrite -exp_plus Rplus_opp_r exp_0.
  by have := exp_ineq1_le (- t)%Re; nra.
by rewrite exp_0; lra.
Qed.

(** ** The scalar scheme *)
Section Scalar.
Variables (a h s : R) (M : nat).
Hypotheses (a0 : 0 < a) (h0 : 0 < h) (M0 : (0 < M)%N).
Let ht := h / M%:R.
Let w j : R := 1 - 2%:R * (j%:R / M%:R).
Let A : 'M[R]_1 := a%:M.
Let S : 'M[R]_1 := const_mx s.
Let x k := (mpec A (fun _ => 0) ht 1%:M k).1 0 0.
Let y k := a^-1 * (mpec A (fun _ => 0) ht 1%:M k).2 0 0.
Let z := a * h.
Let ka := a * ht.
Let Mn : (M%:R : R) != 0. Proof. by rewrite pnatr_eq0 -lt0n. Qed.
Let an : a != 0. Proof. by rewrite gt_eqF. Qed.
Let hn : h != 0. Proof. by rewrite gt_eqF. Qed.
Let ht0 : 0 < ht. Proof. by rewrite divr_gt0 // ltr0n. Qed.
Let ka0 : 0 < ka. Proof. exact: mulr_gt0. Qed.
Let zE : M%:R * ka = z.
Proof. by rewrite /ka /ht /z mulrCA; congr (_ * _); rewrite mulrC divfK. Qed.

Lemma sx0 : x 0%N = 1. Proof. by rewrite /x /= mxE eqxx. Qed.
Lemma sy0 : y 0%N = 1.
Proof. by rewrite /y /= mulmx1 addr0 /A mxE eqxx mulr1n mulVf. Qed.
Lemma syS k : y k.+1 = x k + ka * y k.
Proof.
rewrite /y mpecS; cbn [snd]; rewrite addr0 /A mul_scalar_mx scalemxE addmxE scalemxE.
rewrite mulrA mulVf // mul1r -/(x k) /ka -/ht; congr (_ + _).
by rewrite [in RHS]mulrA [X in _ = X * _]mulrAC divff // mul1r.
Qed.
Lemma sxS k : x k.+1 = x k + ka / 2%:R * (y k + y k.+1).
Proof.
rewrite /x mpecS; cbn [fst]; rewrite addmxE scalemxE; congr (_ + _).
set Y' := A *m _ + 0; rewrite -/ht.
have -> : y k.+1 = a^-1 * Y' 0 0 by rewrite /y mpecS.
rewrite addmxE /y -mulrDr [in RHS]mulrA; congr (_ * _).
by rewrite /ka -/ht [in RHS]mulrAC [a * ht]mulrC mulfK.
Qed.

Lemma x_low k : 1 + k%:R * ka <= y k /\ 1 + k%:R * ka + (k%:R * ka) ^+ 2 / 2%:R <= x k.
Proof.
elim: k => [|k [IHy IHx]]; first by rewrite sx0 sy0 mul0r expr0n /= mul0r !addr0.
have e : k.+1%:R * ka = k%:R * ka + ka by rewrite -(natr1' k) mulrDl mul1r.
have Hy : 1 + k.+1%:R * ka <= y k.+1.
  rewrite syS e; move: IHy IHx; set q := k%:R * ka.
  have q0 : 0 <= q by rewrite mulr_ge0 ?ler0n // ltW.
  move: q0 (ka0) => /RleP q0 /RltP p0 /RleP IHy /RleP IHx; apply/RleP; move: q0 p0 IHy IHx; rewrite expr2; toR => q0 p0 IHy IHx.
  nra.
split=> //; rewrite sxS; move: Hy IHy IHx; rewrite e; set q := k%:R * ka.
have q0 : 0 <= q by rewrite mulr_ge0 ?ler0n // ltW.
move: q0 (ka0) => /RleP q0 /RltP p0 /RleP Hy /RleP IHy /RleP IHx; apply/RleP; move: q0 p0 Hy IHy IHx; rewrite !expr2; toR => q0 p0 Hy IHy IHx.
have : (ka * (1 + q + (1 + (q + ka))) <= ka * (y k + y k.+1))%Re by apply: Rmult_le_compat_l; lra.
nra.
Qed.

Lemma x_up k : 1 <= y k <= x k /\ x k <= exp (k%:R * ka).
Proof.
elim: k => [|k [/andP[y1 yx] IH]]; first by rewrite sx0 sy0 mul0r expR0 lexx.
have x1 : 1 <= x k by exact: le_trans yx.
have e : k.+1%:R * ka = k%:R * ka + ka by rewrite -(natr1' k) mulrDl mul1r.
move: (ka0) y1 yx x1 => /RltP p0 /RleP y1 /RleP yx /RleP x1.
split; first (rewrite sxS syS; apply/andP; split; apply/RleP; move: p0 y1 yx x1; toR => p0 y1 yx x1; nra).
apply: le_trans (_ : x k * (1 + ka + ka ^+ 2 / 2%:R) <= _).
  by rewrite sxS syS; apply/RleP; move: p0 y1 yx x1; rewrite expr2; toR => p0 y1 yx x1; nra.
rewrite e expRD; apply: ler_pmul => //.
- by apply/RleP; move: x1; toR; lra.
- by apply/RleP; move: p0; rewrite expr2; toR => p0; nra.
apply: exp_quad_ge; exact: ltW.
Qed.

(** constant forcing *)
Lemma u_eq k : (mpec A (fun _ => h^-1 *: S) ht 0 k).1 0 0 = s / z * (x k - 1) /\
  (mpec A (fun _ => h^-1 *: S) ht 0 k).2 0 0 = s / h * y k.
Proof.
elim: k => [|k [IHx IHy]].
  by rewrite /= mulmx0 add0r sx0 sy0 subrr mulr0 mulr1 zeromxE scalemxE mxE mulrC.
have E2 : (mpec A (fun _ => h^-1 *: S) ht 0 k.+1).2 0 0 = s / h * y k.+1.
  rewrite mpecS; cbn [snd]; rewrite !addmxE /A mul_scalar_mx !scalemxE addmxE scalemxE IHx IHy mxE syS /z /ka -/ht.
  by move/eqP: an; move/eqP: hn; move: (x k) (y k) ht => p q r; toR => h1 a1; field.
split=> //; rewrite mpecS; cbn [fst]; rewrite addmxE scalemxE addmxE IHx IHy.
have -> : (A *m ((mpec A (fun _ => h^-1 *: S) ht 0 k).1 + ht *: (mpec A (fun _ => h^-1 *: S) ht 0 k).2) + h^-1 *: S) 0 0 = s / h * y k.+1.
  by rewrite -E2 mpecS.
rewrite sxS /z /ka -/ht.
by move/eqP: an; move/eqP: hn; move: (x k) (y k) (y k.+1) ht => p q q' r; toR => h1 a1; field.
Qed.

(** forcing by the slope of the second mode *)
Let v k := (mpec A (fun j => (sqrt 6%:R / h * w j) *: S) ht 0 k).1 0 0.
Let yv k := (mpec A (fun j => (sqrt 6%:R / h * w j) *: S) ht 0 k).2 0 0.
Let c := sqrt 6%:R / h * s.

Lemma v0 : v 0%N = 0 /\ yv 0%N = c.
Proof. by rewrite /v /yv /= mulmx0 add0r zeromxE scalemxE mxE /w mul0r mulr0 subr0 mulr1. Qed.
Lemma yvS k : yv k.+1 = a * (v k + ht * yv k) + c * w k.+1.
Proof. by rewrite /yv mpecS; cbn [snd]; rewrite addmxE /A mul_scalar_mx !scalemxE addmxE scalemxE mxE; congr (_ + _); rewrite /c mulrAC. Qed.
Lemma vS k : v k.+1 = v k + ht / 2%:R * (yv k + yv k.+1).
Proof. by rewrite /v /yv mpecS; cbn [fst snd]; rewrite addmxE scalemxE addmxE. Qed.

Lemma w_le j : (j <= M)%N -> `|w j| <= 1.
Proof.
move=> jM; have u0 : 0 <= j%:R / M%:R :> R by rewrite divr_ge0 ?ler0n.
have u1 : j%:R / M%:R <= 1 :> R by rewrite ler_pdivr_mulr ?ltr0n // mul1r ler_nat.
rewrite ler_norml /w; move: u0 u1; move: (j%:R / M%:R) => u /RleP u0 /RleP u1.
by apply/andP; split; apply/RleP; move: u0 u1; toR; lra.
Qed.

Lemma v_crude k : (k <= M)%N -> `|v k| <= `|c| * ((x k - 1) / a) /\ `|yv k - c * w k| <= `|c| * (y k - 1) /\ `|yv k| <= `|c| * y k.
Proof.
elim: k => [_|k IH kM].
  have [-> ->] := v0; rewrite sx0 sy0 /w mul0r mulr0 subr0 mulr1 !subrr mul0r mulr0 normr0.
  by split=> //; split=> //; rewrite mulr1.
have [IH1 [_ IH3]] := IH (ltnW kM).
have H2 : `|yv k.+1 - c * w k.+1| <= `|c| * (y k.+1 - 1).
  rewrite yvS addrK normrM gtr0_norm // syS.
  apply: le_trans (ler_wpmul2l (ltW a0) (ler_norm_add _ _)) _.
  rewrite normrM (gtr0_norm ht0).
  apply: le_trans (_ : a * (`|c| * ((x k - 1) / a) + ht * (`|c| * y k)) <= _).
    by apply: ler_wpmul2l; [exact: ltW | apply: ler_add => //; apply: ler_wpmul2l => //; exact: ltW].
  apply: eq_ler; rewrite /ka -/ht; move/eqP: an; move: `|c| (x k) (y k) ht => q p r t; toR => a1; apply: (_ : @eq R _ _); toR; field.
  done.
have H3 : `|yv k.+1| <= `|c| * y k.+1.
  have -> : yv k.+1 = (yv k.+1 - c * w k.+1) + c * w k.+1 by rewrite subrK.
  apply: le_trans (ler_norm_add _ _) _; rewrite [`|c * _|]normrM.
  apply: le_trans (ler_add H2 (ler_wpmul2l (normr_ge0 c) (w_le kM))) _.
  by rewrite mulr1 mulrBr mulr1 subrK.
split=> //; rewrite vS sxS.
apply: le_trans (ler_norm_add _ _) _; rewrite normrM gtr0_norm; last by rewrite divr_gt0 ?ltr0n.
apply: le_trans (_ : `|c| * ((x k - 1) / a) + ht / 2%:R * (`|c| * y k + `|c| * y k.+1) <= _).
  apply: ler_add => //; apply: ler_wpmul2l; first by rewrite divr_ge0 ?ler0n // ltW.
  by apply: le_trans (ler_norm_add _ _) _; apply: ler_add.
apply: eq_ler; rewrite /ka -/ht; move/eqP: an; move: `|c| (x k) (y k) (y k.+1) ht => q p r r' t; toR => a1; apply: (_ : @eq R _ _); toR; field.
done.
Qed.

Lemma y_le k : (k <= M)%N -> y k - 1 <= exp z - 1.
Proof.
move=> kM; rewrite ler_add2r; have [/andP[_ yx] xe] := x_up k.
apply: le_trans yx (le_trans xe _); rewrite -zE.
apply/RleP; have /RleP : k%:R * ka <= M%:R * ka by rewrite ler_wpmul2r ?ler_nat // ltW.
by case=> [H|->]; [left; exact: exp_increasing | right].
Qed.

Lemma v_fine k : (k <= M)%N -> `|v k - c * (ht * (k%:R - k%:R ^+ 2 / M%:R))| <= `|c| * (k%:R * ht * (exp z - 1)).
Proof.
elim: k => [_|k IH kM].
  by have [-> _] := v0; rewrite expr0n /= !mul0r subr0 !mulr0 subr0 normr0.
have [_ [H1 _]] := v_crude (ltnW kM); have [_ [H2 _]] := v_crude kM.
have -> : v k.+1 - c * (ht * (k.+1%:R - k.+1%:R ^+ 2 / M%:R)) =
  (v k - c * (ht * (k%:R - k%:R ^+ 2 / M%:R))) + ht / 2%:R * ((yv k - c * w k) + (yv k.+1 - c * w k.+1)).
  rewrite vS /w -(natr1' k) !expr2; move/eqP: Mn; move: (v k) (yv k) (yv k.+1) ht (k%:R : R) (M%:R : R) => p1 p2 p3 p4 p5 p6; toR => m1; apply: (_ : @eq R _ _); toR; field.
  done.
apply: le_trans (ler_norm_add _ _) _.
have -> : `|c| * (k.+1%:R * ht * (exp z - 1)) = `|c| * (k%:R * ht * (exp z - 1)) + ht / 2%:R * (`|c| * (exp z - 1) + `|c| * (exp z - 1)).
  by rewrite -(natr1' k); move: `|c| (k%:R : R) ht (exp z - 1) => p1 p2 p3 p4; toR; field.
apply: ler_add; first exact: IH (ltnW kM).
rewrite normrM gtr0_norm; last by rewrite divr_gt0 ?ltr0n.
apply: ler_wpmul2l; first by rewrite divr_ge0 ?ler0n // ltW.
apply: le_trans (ler_norm_add _ _) _; apply: ler_add.
  by apply: le_trans H1 _; apply: ler_wpmul2l => //; exact: y_le (ltnW kM).
by apply: le_trans H2 _; apply: ler_wpmul2l => //; exact: y_le kM.
Qed.

Lemma v_end : v M ^+ 2 <= 6%:R * s ^+ 2 * (exp z - 1) ^+ 2.
Proof.
have := v_fine (leqnn M).
rewrite expr2 -mulrA divff // mulr1 subrr !mulr0 subr0 [M%:R * ht]mulrC divfK // => H.
have -> : 6%:R * s ^+ 2 * (exp z - 1) ^+ 2 = (`|c| * (h * (exp z - 1))) ^+ 2.
  rewrite !exprMn real_normK ?num_real // /c exprMn [(sqrt _ / h) ^+ 2]exprMn exprVn.
  have -> : sqrt 6%:R ^+ 2 = 6%:R :> R by rewrite expr2; apply: sqrt_sqrt; toR; lra.
  by move/eqP: hn; move: (exp z - 1) => e; rewrite !expr2; toR => h1; apply: (_ : @eq R _ _); toR; field.
by rewrite -[v M ^+ 2]real_normK ?num_real // ler_expn2r ?nnegrE //; apply: le_trans H.
Qed.
End Scalar.

(** ** Repeating the interval *)
Lemma bernoulli (r t : R) n : 0 <= r -> r <= 1 -> 1 - t <= r -> 1 - n%:R * t <= r ^+ n <= 1.
Proof.
move=> r0 r1 rt; elim: n => [|n /andP[IH1 IH2]]; first by rewrite mul0r subr0 expr0 lexx.
have p0 : 0 <= r ^+ n by exact: exprn_ge0.
rewrite exprS -(natr1' n); move: r0 r1 rt IH1 IH2 p0; move: (r ^+ n) (n%:R : R) => q k /RleP r0 /RleP r1 /RleP rt /RleP IH1 /RleP IH2 /RleP p0.
by apply/andP; split; apply/RleP; move: r0 r1 rt IH1 IH2 p0; toR => r0 r1 rt IH1 IH2 p0; nra.
Qed.

Section Law.
Variables (z p : R).
Hypotheses (z0 : 0 < z) (lo : 1 + z + z ^+ 2 / 2%:R <= p) (up : p <= exp z).

Let e0 : 0 < exp z. Proof. exact: expR_gt0. Qed.
Let p1 : 1 < p.
Proof.
apply: lt_le_trans lo; rewrite -addrA ltr_addl; apply: addr_gt0 => //.
by rewrite divr_gt0 ?ltr0n // exprn_gt0.
Qed.

Lemma exp_nat n : exp (n%:R * z) = exp z ^+ n.
Proof.
elim: n => [|n IH]; first by rewrite mul0r expR0 expr0.
by rewrite -(natr1' n) mulrDl mul1r expRD IH exprSr.
Qed.

Lemma p_pow n : (1 - n%:R * (z ^+ 3 / 6%:R)) * exp (n%:R * z) <= p ^+ n /\ p ^+ n <= exp (n%:R * z).
Proof.
have q0 : 0 <= p / exp z by rewrite divr_ge0 ?(ltW e0) // ltW // (lt_trans ltr01).
have q1 : p / exp z <= 1 by rewrite ler_pdivr_mulr // mul1r.
have qt : 1 - z ^+ 3 / 6%:R <= p / exp z.
  by rewrite ler_pdivl_mulr // mulrC; apply: le_trans (exp_quad_ratio (ltW z0)) lo.
have /andP[H1 H2] := @bernoulli (p / exp z) (z ^+ 3 / 6%:R) n q0 q1 qt.
have E : p ^+ n = (p / exp z) ^+ n * exp (n%:R * z).
  by rewrite exp_nat -exprMn divfK // gt_eqF.
rewrite E exp_nat; split; first by rewrite ler_wpmul2r // exprn_ge0 // ltW.
by rewrite -[X in _ <= X]mul1r ler_wpmul2r // exprn_ge0 // ltW.
Qed.

(** c_(n+1) = p^2 c_n + (p - 1)^2 / z + r *)
Lemma var_bounds (c : nat -> R) (r : R) N : 0 <= r -> r <= 3%:R * z * (exp z - 1) ^+ 2 ->
  c 0%N = 0 -> (forall n, (n < N)%N -> c n.+1 = p * c n * p + ((p - 1) ^+ 2 / z + r)) ->
  forall n, (n <= N)%N -> let v := (exp (2%:R * (n%:R * z)) - 1) / 2%:R in
  v * (1 - 5%:R / 12%:R * z ^+ 2 - n%:R * z ^+ 3 / 3%:R) <= c n /\ c n <= v * (1 + 3%:R * (exp z - 1) ^+ 2).
Proof.
move=> r0 r1 c0 cS n nN v.
have cE : forall n, (n <= N)%N -> c n * (p ^+ 2 - 1) = ((p - 1) ^+ 2 / z + r) * (p ^+ (n * 2) - 1).
  elim=> [|k IH] kN; first by rewrite c0 mul0r mul0n expr0 subrr mulr0.
  rewrite cS // mulrDl mulSn exprD.
  have -> : p * c k * p * (p ^+ 2 - 1) = p ^+ 2 * (c k * (p ^+ 2 - 1)) by rewrite expr2; move: (c k) => q; rring.
  by rewrite IH ?(ltnW kN) //; move: (_ / z + r) (p ^+ (k * 2)) (p ^+ 2) => q1 q2 q3; rring.
have := cE n nN; set D := p ^+ (n * 2) - 1 => E.
have [L U] := p_pow (n * 2).
have e2 : (n * 2)%:R * z = 2%:R * (n%:R * z) by rewrite natrM [_ * 2%:R]mulrC mulrA.
rewrite e2 in L U.
have y0 : 0 <= n%:R * z by rewrite mulr_ge0 ?ler0n // ltW.
have X1 := exp_ineq1_le (2%:R * (n%:R * z)).
have D0 : 0 <= D by rewrite subr_ge0 exprn_ege1 // ltW.
have T1 := exp_tanh (ltW z0).
have n2 : (n * 2)%:R = 2%:R * n%:R :> R by rewrite natrM mulrC.
rewrite n2 in L.
move: (e0) X1 L U D0 y0 E T1 r0 r1 lo up p1 z0.
rewrite /v /D; set ee := exp (2%:R * (n%:R * z)); set P2 := p ^+ (n * 2).
move: (exp z) (ee) (P2) (c n) => ez EE PP cn.
move=> /RltP e0' X1 /RleP L /RleP U /RleP D0 /RleP y0 E /RleP T1 /RleP r0 /RleP r1 /RleP lo' /RleP up' /RltP p1' /RltP z0'.
move: e0' X1 L U D0 y0 E T1 r0 r1 lo' up' p1' z0'; rewrite !exprS !expr0; move: (n%:R : R) => m; toR.
move=> e0' X1 L U D0 y0 E T1 r0 r1 lo' up' p1' z0'.
(* q = (p-1)/(z (p+1)), cn = (q + r/(p^2-1)) (PP - 1) *)
have pp : (0 < p * p - 1)%Re by nra.
have cnE : cn = ((p - 1) / (z * (p + 1)) * (PP - 1) + r / (p * p - 1) * (PP - 1))%Re.
  apply: (Rmult_eq_reg_r (p * (p * 1) - 1)%Re); last by lra.
  by rewrite E; field; split; [lra | split; [nra | lra]].
have q0 : (0 < z * (p + 1))%Re by nra.
have qu : ((p - 1) / (z * (p + 1)) <= / 2)%Re.
  apply: (Rmult_le_reg_r (z * (p + 1))%Re) => //.
  have -> : ((p - 1) / (z * (p + 1)) * (z * (p + 1)) = p - 1)%Re by field; lra.
  case: (Rle_lt_dec 2%Re z) => H; first by nra.
  have : (0 <= (ez - p) * (2 - z))%Re by apply: Rmult_le_pos; lra.
  by lra.
have ql : (/ 2 * (1 - z * z / 4) <= (p - 1) / (z * (p + 1)))%Re.
  apply: (Rmult_le_reg_r (z * (p + 1))%Re) => //.
  have -> : ((p - 1) / (z * (p + 1)) * (z * (p + 1)) = p - 1)%Re by field; lra.
  have d0 : (0 <= p - (1 + z + z * z / 2))%Re by lra.
  have z2 := Rmult_lt_0_compat _ _ z0' z0'.
  have z3 := Rmult_lt_0_compat _ _ z2 z0'.
  have z4 := Rmult_lt_0_compat _ _ z3 z0'.
  have z5 := Rmult_lt_0_compat _ _ z4 z0'.
  have g0 : (0 <= 2 - z + z * z * z / 4)%Re.
    case: (Rle_lt_dec 2%Re z) => H; last lra.
    have : (2 * z <= z * z)%Re by apply: Rmult_le_compat_r; lra.
    have : (2 * (z * z) <= z * z * z)%Re by rewrite [(2 * _)%Re]Rmult_comm; apply: Rmult_le_compat_l; lra.
    by lra.
  have := Rmult_le_pos _ _ d0 g0.
  by lra.
have rl : (0 <= r / (p * p - 1))%Re by apply: Rdiv_le_0_compat.
have ru : (r / (p * p - 1) <= / 2 * (3 * ((ez - 1) * (ez - 1))))%Re.
  apply: (Rmult_le_reg_r (p * p - 1)%Re) => //.
  have -> : (r / (p * p - 1) * (p * p - 1) = r)%Re by field; lra.
  have : (2 * z <= p * p - 1)%Re by nra.
  have : (0 <= (ez - 1) * (ez - 1))%Re by nra.
  nra.
have D1 : (0 <= EE - 1)%Re by lra.
split; apply/RleP; toR; rewrite cnE; last first.
  have : ((p - 1) / (z * (p + 1)) * (PP - 1) <= / 2 * (EE - 1))%Re by apply: Rmult_le_compat => //; [apply: Rdiv_le_0_compat; lra | lra].
  have : (r / (p * p - 1) * (PP - 1) <= / 2 * (3 * ((ez - 1) * (ez - 1))) * (EE - 1))%Re by apply: Rmult_le_compat => //; lra.
  by lra.
have m0 : (0 <= m * z * z * z)%Re by have := Rmult_le_pos _ _ y0 (Rle_0_sqr z); rewrite /Rsqr; lra.
have PL : ((EE - 1) * (1 - m * z * z * z / 3 - z * z / 6) <= PP - 1)%Re.
  have : (m * z * (z * z / 3) <= (EE - 1) * (z * z / 6))%Re by nra.
  by lra.
have : (0 <= r / (p * p - 1) * (PP - 1))%Re by exact: Rmult_le_pos.
have : ((EE - 1) / 2 * (1 - 5 / 12 * (z * z) - m * z * z * z / 3) <= (p - 1) / (z * (p + 1)) * (PP - 1))%Re.
  set B := ((p - 1) / _)%Re in ql qu *.
  have B0 : (0 <= B)%Re by apply: Rdiv_le_0_compat; lra.
  case: (Rle_lt_dec (1 - 5 / 12 * (z * z) - m * z * z * z / 3)%Re 0%Re) => H.
    apply: Rle_trans (_ : 0 <= _)%Re; last exact: Rmult_le_pos.
    have X : (0 <= (EE - 1) / 2)%Re by lra.
    by have := Rmult_le_compat_l _ _ _ X H; rewrite Rmult_0_r.
  have z2' : (0 <= z * z)%Re by apply: Rmult_le_pos; lra.
  have H1 : (0 < 1 - z * z / 4)%Re by lra.
  have H2 : (0 < 1 - m * z * z * z / 3 - z * z / 6)%Re by lra.
  apply: Rle_trans (_ : / 2 * (1 - z * z / 4) * ((EE - 1) * (1 - m * z * z * z / 3 - z * z / 6)) <= _)%Re.
    have z2 : (0 <= z * z)%Re by apply: Rmult_le_pos; lra.
    have X : (0 <= z * z / 4 * (m * z * z * z / 3 + z * z / 6))%Re by apply: Rmult_le_pos; lra.
    by have := Rmult_le_pos _ _ D1 X; lra.
  by apply: Rmult_le_compat => //; [lra | apply: Rmult_le_pos; lra].
by lra.
Qed.
End Law.

(** ** Through the driver *)
Lemma ekf0_weak (lp : lapack) (g : prng) (a s h sp : R) (sq : bool) (M N : nat) (x0 : R) :
  0 < a -> 0 < h -> (0 < M)%N -> sp != 0 ->
  let fs := to_stratonovich (fun (y : 'cV[R]_1) _ => a *: y) (fun _ _ => const_mx s : 'M[R]_(1, 1)) in
  let int (_ : key g) (y : res 'cV[R]_1) f T := let h := T / M%:R in
    let! y := y in ekf0 lp (None : option (key g)) y f h M sq (a_prior (ioup 0 sp 1 h 1)) None in
  let traj (k : key g) := (sde_solver fs.1 fs.2 (get_approx g 1) h int k (Val (const_mx x0)) N).1.2 in
  exists x : nat -> key g -> R,
  (forall n k, (n <= N)%N -> nth (Val (const_mx x0)) (traj k) n = Val (const_mx (x n k))) /\
  forall E F : expectation (key g), (forall G, F (fun k => G (split k N)) = iid E N G) ->
  standard2 E (fun k => normal2 (child k 2 0) 2 1) ->
  forall n, (n <= N)%N ->
  let z := a * h in let t := n%:R * h in
  let mean := F (x n) in let var := F (fun k => (x n k - mean) ^+ 2) in
  let v := s ^+ 2 / (2%:R * a) * (exp (2%:R * a * t) - 1) in
  [/\ exists2 r, 1 - n%:R * z ^+ 3 / 6%:R <= r <= 1 & mean = r * (exp (a * t) * x0),
      v * (1 - 5%:R / 12%:R * z ^+ 2 - n%:R * z ^+ 3 / 3%:R) <= var &
      var <= v * (1 + 3%:R * (exp z - 1) ^+ 2)].
Proof.
move=> a0 h0 M0 sp0.
have -> : (fun (y : 'cV[R]_1) (_ : R) => a *: y) = (fun y _ => a%:M *m y).
  by apply: functional_extensionality => y; apply: functional_extensionality => t; rewrite mul_scalar_mx.
move=> fs int traj.
have [X [X1 _ X3]] := @ekf_law g 1 1 a%:M (const_mx s) h M N (const_mx x0) lp sp sq isT h0 M0 sp0.
exists (fun n k => X n k 0 0); split.
  by move=> n k nN; rewrite /traj X1 //; congr Val; apply/colP => i; rewrite ord1 mxE.
move=> E F si std n nN z t mean var v.
have [m1 c0 cS] := X3 E F si std.
set P := (mpec _ _ _ 1%:M M).1 in m1 c0 cS; set U := (mpec _ (fun=> h^-1 *: _) _ 0 M).1 in cS; set V := (mpec _ (fun j => _) _ 0 M).1 in cS.
set p := P 0 0.
have zE : M%:R * (a * (h / M%:R)) = z by rewrite /z mulrCA; congr (_ * _); rewrite mulrC divfK // pnatr_eq0 -lt0n.
have z0 : 0 < z by exact: mulr_gt0.
have lo : 1 + z + z ^+ 2 / 2%:R <= p by have [_] := @x_low a h M a0 h0 M0 M; rewrite zE.
have up : p <= exp z by have [_] := @x_up a h M a0 h0 M0 M; rewrite zE.
have pE j : mxpow P j 0 0 = p ^+ j.
  by elim: j => [|j IH]; [rewrite mxE eqxx expr0 | rewrite /= mulmxE big_ord1 -/p IH exprS].
have meanE j : (j <= N)%N -> F (fun k => X j k 0 0) = p ^+ j * x0.
  move=> jN; have := m1 j jN; move/colP/(_ 0); rewrite /Emx mxE => ->.
  by rewrite mulmxE big_ord1 pE mxE.
pose c j := F (fun k => (X j k 0 0 - p ^+ j * x0) ^+ 2).
have cE j : Emx F (fun k => (X j k - mxpow P j *m const_mx x0) *m (X j k - mxpow P j *m const_mx x0)^T) 0 0 = c j.
  rewrite /Emx mxE /c; congr (_ _); apply: functional_extensionality => k.
  by rewrite mulmxE big_ord1 [(_^T) _ _]mxE submxE mulmxE big_ord1 pE mxE expr2.
have c0' : c 0%N = 0 by rewrite -cE c0 mxE.
have [uE _] := @u_eq a h s M a0 h0 M.
have vL := @v_end a h s M a0 h0 M0.
have cS' j : (j < N)%N -> c j.+1 = p * c j * p + (s ^+ 2 / a * ((p - 1) ^+ 2 / z) + h / 2%:R * V 0 0 ^+ 2).
  move=> jN; rewrite -cE cS // !addmxE !scalemxE !mulmxE !big_ord1 mulmxE big_ord1 ![(_^T) _ _]mxE cE -/p -!expr2; congr (_ + (_ + _)).
  rewrite -/U in uE; rewrite uE -/p /z !exprMn exprVn exprMn.
  have an : a != 0 by rewrite gt_eqF.
  have hn : h != 0 by rewrite gt_eqF.
  by move/eqP: an; move/eqP: hn; move: (p - 1) => q; rewrite !expr2; toR => h1 a1; apply: (_ : @eq R _ _); toR; field.
have [r1 r2] := p_pow z0 lo up n.
have var' : var = c n by rewrite /var /mean meanE.
split.
- exists (p ^+ n / exp (n%:R * z)).
    have e0 : 0 < exp (n%:R * z) by exact: expR_gt0.
    by rewrite ler_pdivl_mulr // ler_pdivr_mulr // mul1r r2 -mulrA r1.
  have -> : a * t = n%:R * z by rewrite /t /z mulrCA.
  by rewrite /mean meanE // mulrA divfK // gt_eqF // expR_gt0.
all: have t2 : 2%:R * a * t = 2%:R * (n%:R * z) by rewrite /t /z -mulrA; congr (_ * _); rewrite mulrCA.
all: rewrite var' /v t2.
all: have [s0|sn] := eqVneq s 0.
1,3: have V0 : V 0 0 ^+ 2 = 0 by apply/eqP; rewrite eq_le sqr_ge0 andbT; apply: le_trans vL _; rewrite s0 expr0n /= mulr0 mul0r.
1,2: have cn0 : c n = 0 by elim: n nN {t mean var v r1 r2 var' t2} => [|j IH] jN //; rewrite cS' // IH ?(ltnW jN) // mulr0 mul0r s0 V0 expr0n /= !mul0r mulr0 !addr0.
1,2: by rewrite cn0 s0 expr0n /= !mul0r.
all: pose q := s ^+ 2 / a; have q0 : 0 < q by rewrite divr_gt0 // exprn_even_gt0.
all: have qn : q != 0 by rewrite gt_eqF.
all: pose r := q^-1 * (h / 2%:R * V 0 0 ^+ 2).
all: have r0 : 0 <= r by rewrite mulr_ge0 ?invr_ge0 ?(ltW q0) // mulr_ge0 ?sqr_ge0 // divr_ge0 ?ler0n // ltW.
all: have rU : r <= 3%:R * z * (exp z - 1) ^+ 2.
1,3: rewrite /r mulrC ler_pdivr_mulr //.
1,2: have hh : 0 <= h / 2%:R by rewrite divr_ge0 ?ler0n // ltW.
1,2: apply: le_trans (ler_wpmul2l hh vL) _; apply: eq_ler; rewrite /q /z.
1,2: have an : a != 0 by rewrite gt_eqF.
1,2: by move/eqP: an; move: ((exp (a * h) - 1) ^+ 2) (s ^+ 2) => e1 e2; toR => a1; apply: (_ : @eq R _ _); toR; field.
all: have dS j : (j < N)%N -> c j.+1 / q = p * (c j / q) * p + ((p - 1) ^+ 2 / z + r).
1,3: move=> jN; rewrite cS' // mulrDl mulrDl; congr (_ + (_ + _)).
1,4: by rewrite mulrA mulrAC.
1,3: by rewrite -/q mulrAC divff // mul1r.
1,2: by rewrite /r mulrC.
all: have d0 : c 0%N / q = 0 by rewrite c0' mul0r.
all: have [B1 B2] := @var_bounds z p z0 lo up (fun j => c j / q) r N r0 rU d0 dS n nN.
all: have e : s ^+ 2 / (2%:R * a) = q / 2%:R by rewrite /q invfM mulrA mulrAC.
- rewrite e -[c n](divfK qn) [c n / q * q]mulrC -2!mulrA ler_pmul2l //; apply: le_trans B1.
  by apply: eq_ler; rewrite !mulrA [2%:R^-1 * _]mulrC.
- rewrite e -[c n](divfK qn) [c n / q * q]mulrC -2!mulrA ler_pmul2l //; apply: le_trans B2 _.
  by apply: eq_ler; rewrite !mulrA [2%:R^-1 * _]mulrC.
Qed.

(** The test leaves the prior out. *)
Lemma default_raises (lp : lapack) (g : prng) d m (f : 'cV[R]_d -> R -> 'cV[R]_d) (s : 'cV[R]_d -> R -> 'M[R]_(d, m))
  (bm : path_approx g m) (h : R) (M N : nat) (x0 : 'cV[R]_d) (one sq : bool) k n :
  (n < N)%N ->
  let int (_ : key g) (y : res 'cV[R]_d) f T := let! y := y in
    if one then ekf1 lp (None : option (key g)) y f (T / M%:R) M sq None None
    else ekf0 lp (None : option (key g)) y f (T / M%:R) M sq None None in
  nth (Val x0) (sde_solver f s bm h int k (Val x0) N).1.2 n.+1 = Raise TypeError.
Proof.
move=> nN int.
have st j : (j < N)%N -> exists G, nth (Val x0) (sde_solver f s bm h int k (Val x0) N).1.2 j.+1 =
   int (child (child k N j) 2 1) (nth (Val x0) (sde_solver f s bm h int k (Val x0) N).1.2 j) G h.
  move=> jN; have c0 := get_coeffs bm k h.
  have [_ E] : nth c0 (sde_solver f s bm h int k (Val x0) N).2 j = get_coeffs bm (child (child k N j) 2 0) h /\ _ := @interval_ode g d m _ f s bm h int k (Val x0) N j c0 jN.
  by eexists; exact: E.
elim: n nN => [|n IH] nN; have [G ->] := st _ nN.
  have -> : nth (Val x0) (sde_solver f s bm h int k (Val x0) N).1.2 0 = Val x0 by rewrite sde_solverE.
  have [e0 e1] := @ekf_noprior lp g d None x0 G (h / M%:R) M sq None.
  by rewrite /int -[LHS]/(if one then _ else _) e0 e1 if_same.
by rewrite IH ?(ltnW nN).
Qed.

(** The numbers of the test: a = s = 1, h = 1 / 1000, M = 5. *)
Lemma exp_thousandth : exp (1 / 1000%:R) <= 1 + 2%:R / 1000%:R.
Proof.
have e : (1 / 1000%:R : R) = (/ 1000)%Re by rewrite RnatE INR_IZR_INZ; toR; lra.
have -> : (2%:R / 1000%:R : R) = (2 / 1000)%Re by rewrite [1000%:R]RnatE INR_IZR_INZ; toR; lra.
rewrite e; apply/RleP; toR.
have := exp_ineq1_le (- / 1000)%Re.
have E : (exp (/ 1000) * exp (- / 1000)%Re = 1)%Re by rewrite -exp_plus Rplus_opp_r exp_0.
have := exp_pos (/ 1000)%Re; nra.
Qed.

Lemma ekf0_test (lp : lapack) (g : prng) (sq : bool) :
  let h : R := 1 / 1000%:R in
  let fs := to_stratonovich (fun (y : 'cV[R]_1) _ => 1 *: y) (fun _ _ => const_mx 1 : 'M[R]_(1, 1)) in
  let int (_ : key g) (y : res 'cV[R]_1) f T := let h := T / 5%:R in
    let! y := y in ekf0 lp (None : option (key g)) y f h 5 sq (a_prior (ioup 0 1 1 h 1)) None in
  let traj (k : key g) := (sde_solver fs.1 fs.2 (get_approx g 1) h int k (Val (const_mx 1)) 1000).1.2 in
  exists x : key g -> R,
  (forall k, nth (Val (const_mx 1)) (traj k) 1000 = Val (const_mx (x k))) /\
  forall E F : expectation (key g), (forall G, F (fun k => G (split k 1000)) = iid E 1000 G) ->
  standard2 E (fun k => normal2 (child k 2 0) 2 1) ->
  let mean := F x in let std := sqrt (F (fun k => (x k - mean) ^+ 2)) in
  let goal := sqrt (2%:R^-1 * (exp 2%:R - 1)) in
  `|mean - exp 1| <= exp 1 / 1000%:R /\ `|std - goal| <= goal / 1000%:R.
Proof.
move=> h fs int traj.
have h0 : 0 < h by rewrite divr_gt0 ?ltr01 ?ltr0n.
have [x [X1 X2]] := @ekf0_weak lp g 1 1 h 1 sq 5 1000 1 ltr01 h0 isT (oner_neq0 _).
exists (x 1000%N); split; first by move=> k; exact: X1.
move=> E F si std mean st goal.
have := X2 E F si std 1000%N (leqnn _).
rewrite !mul1r !mulr1 -/mean.
have -> : 1000%:R * h = 1 by rewrite /h mul1r divff // pnatr_eq0.
rewrite ?mulr1 expr1n div1r.
cbv zeta; rewrite !mul1r !mulr1; set var := F _ => -[[r /andP[r1 r2] ->] v1 v2].
have k1 : (1000%:R : R) = 1000%Re by rewrite RnatE INR_IZR_INZ.
have hE : h = (/ 1000)%Re by rewrite /h k1; toR; lra.
have e1 := exp_pos 1%Re.
split.
  have -> : r * exp 1 - exp 1 = - ((1 - r) * exp 1) by rewrite mulrBl mul1r opprB.
  rewrite normrN ger0_norm; last by apply: mulr_ge0; [rewrite subr_ge0 | exact/RleP/Rlt_le].
  rewrite mulrC; apply: ler_wpmul2l; first exact/RleP/Rlt_le.
  by move: r1 => /RleP r1; apply/RleP; move: r1; rewrite k1 hE !exprS expr0; toR; lra.
pose v := 2%:R^-1 * (exp 2%:R - 1) : R.
have v0 : 0 <= v.
  apply: mulr_ge0; first by rewrite invr_ge0 ler0n.
  by apply/RleP; have := exp_ineq1_le 2%Re; toR; lra.
have ee : exp h - 1 <= 2%:R / 1000%:R by rewrite ler_subl_addl; exact: exp_thousandth.
have ee0 : 0 <= exp h - 1 by apply/RleP; have := exp_ineq1_le h; move/RltP: h0; toR; lra.
have V1 : (1 - 1 / 1000%:R) ^+ 2 * v <= var.
  apply: le_trans v1; rewrite -/v mulrC; apply: ler_wpmul2l => //.
  by apply/RleP; rewrite k1 hE !exprS expr0; toR; lra.
have V2 : var <= (1 + 1 / 1000%:R) ^+ 2 * v.
  apply: le_trans v2 _; rewrite -/v mulrC; apply: ler_wpmul2r => //.
  have : (exp h - 1) ^+ 2 <= (2%:R / 1000%:R) ^+ 2 by rewrite ler_expn2r ?nnegrE // divr_ge0 ?ler0n.
  by move=> /RleP H; apply/RleP; move: H; rewrite k1 !exprS !expr0; toR; lra.
have var0 : 0 <= var by apply: le_trans V1; apply: mulr_ge0 => //; exact: sqr_ge0.
have sq1 q : 0 <= q -> sqrt (q ^+ 2 * v) = q * goal.
  move=> /RleP q0; rewrite /goal -/v sqrt_mult; [|exact/RleP/sqr_ge0 | exact/RleP].
  by congr (_ * _); rewrite expr2; apply: sqrt_square.
have S1 : (1 - 1 / 1000%:R) * goal <= st.
  by rewrite -sq1; [apply/RleP/sqrt_le_1_alt/RleP | apply/RleP; rewrite k1; toR; lra].
have S2 : st <= (1 + 1 / 1000%:R) * goal.
  by rewrite -sq1; [apply/RleP/sqrt_le_1_alt/RleP | apply/RleP; rewrite k1; toR; lra].
rewrite ler_norml; apply/andP; split.
  by rewrite ler_subr_addl; apply: le_trans S1; rewrite mulrBl !mul1r [1000%:R^-1 * _]mulrC.
by rewrite ler_subl_addl; apply: le_trans S2 _; rewrite mulrDl !mul1r [1000%:R^-1 * _]mulrC.
Qed.
