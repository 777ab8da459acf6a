(** Lemmas about the Lipschitz experiment. *)
From Coq Require Import Reals Lra FunctionalExtensionality.
From Coquelicot Require Import Coquelicot.
From mathcomp Require Import all_ssreflect all_algebra mxtens.
From Verif Require Import Rstruct Base Linalg Calc Prob Spec Spec3 M_Foster M_Lipschitz L_Foster L_Prior L_Euler.

Set Implicit Arguments.
Unset Strict Implicit.
Unset Printing Implicit Defensive.
Import Order.TTheory GRing.Theory Num.Theory.
Local Open Scope ring_scope.

Lemma natS k : k.+1%:R = k%:R + 1 :> R.
Proof. by rewrite -addn1 natrD. Qed.

(** ** The trapezoidal weights *)
Section Weights.
Variable n : nat.
Hypothesis n0 : (0 < n)%N.
Let nn : (n%:R : R) != 0. Proof. by rewrite pnatr_eq0 -lt0n. Qed.
Let np : 0 < (n%:R : R). Proof. by rewrite ltr0n. Qed.

Definition W (u : nat -> R) : R := \sum_(0 <= i < n) (2%:R * n%:R)^-1 * (u i + u i.+1).
Definition node (i : nat) : R := 1 - 2%:R * (i%:R / n%:R).

Let c0 : 0 <= (2%:R * n%:R : R)^-1. Proof. by rewrite invr_ge0 mulr_ge0 ?ler0n. Qed.

Lemma W_mono u v : (forall i, u i <= v i) -> W u <= W v.
Proof. by move=> H; apply: ler_sum => i _; apply: ler_wpmul2l => //; apply: ler_add. Qed.

Lemma W_lin a u v : W (fun i => a * u i + v i) = a * W u + W v.
Proof.
rewrite /W mulr_sumr -big_split; apply: eq_bigr => i _ /=.
by move: (_^-1) => cc; toR; ring.
Qed.

Lemma W_ext u v : (forall i, u i = v i) -> W u = W v.
Proof. by move=> H; apply: eq_bigr => i _; rewrite !H. Qed.

Lemma W_const c : W (fun _ => c) = c.
Proof.
rewrite /W sumr_const_nat subn0 -mulr_natl mulrA.
have -> : n%:R / (2%:R * n%:R) = 2%:R^-1 :> R by rewrite invfM mulrCA divff // mulr1.
by toR; field.
Qed.

Lemma W_norm u : `|W u| <= W (fun i => `|u i|).
Proof.
apply: le_trans (ler_norm_sum _ _ _) _; apply: ler_sum => i _.
by rewrite normrM (ger0_norm c0); apply: ler_wpmul2l => //; exact: ler_norm_add.
Qed.

Lemma node_partial k : \sum_(0 <= i < k) (node i + node i.+1) = 2%:R * k%:R - 2%:R * k%:R ^+ 2 / n%:R.
Proof.
elim: k => [|k IH]; first by rewrite big_geq // mulr0 expr2 !mulr0 mul0r subr0.
rewrite big_nat_recr //= IH /node !(natS k) !expr2.
by move: nn; move: (k%:R : R) (n%:R : R) => z y y0; toR; field; exact/eqP.
Qed.

Lemma W_node : W node = 0.
Proof.
rewrite /W -mulr_sumr node_partial expr2 mulrA mulfK // subrr mulr0 //.
Qed.

Lemma node2_partial k : \sum_(0 <= i < k) (node i ^+ 2 + node i.+1 ^+ 2) =
  2%:R * k%:R - 4%:R * k%:R ^+ 2 / n%:R + 4%:R / n%:R ^+ 2 * ((2%:R * k%:R ^+ 3 + k%:R) / 3%:R).
Proof.
elim: k => [|k IH]; first by rewrite big_geq // !exprS expr0 !(mulr0, mul0r, addr0, subr0).
rewrite big_nat_recr //= IH /node !(natS k) !exprS !expr0.
by move: nn; move: (k%:R : R) (n%:R : R) => z y y0; toR; field; exact/eqP.
Qed.

Lemma W_node2 : W (fun i => node i ^+ 2) = 3%:R^-1 + 2%:R / (3%:R * n%:R ^+ 2).
Proof.
rewrite /W -mulr_sumr node2_partial !exprS !expr0; move: nn; move: (n%:R : R) => z z0.
by toR; field; exact/eqP.
Qed.

Lemma node_ge0 i : (i.*2 <= n)%N -> 0 <= node i.
Proof.
move=> H; rewrite /node subr_ge0 mulrA -natrM mul2n ler_pdivr_mulr // mul1r ler_nat //.
Qed.
Lemma node_le0 i : (n <= i.*2)%N -> node i <= 0.
Proof.
move=> H; rewrite /node subr_le0 mulrA -natrM mul2n ler_pdivl_mulr // mul1r ler_nat //.
Qed.

Lemma W_abs : ~~ odd n -> W (fun i => `|node i|) = 2%:R^-1.
Proof.
move=> ev; have nE : n = n./2.*2 by rewrite -[LHS]odd_double_half (negbTE ev).
set p := n./2 in nE.
rewrite /W -mulr_sumr (@big_cat_nat _ _ _ p) //=; last by rewrite nE -addnn leq_addr.
rewrite (@eq_big_nat _ _ _ 0 p _ (fun i => node i + node i.+1)); last first.
  move=> i /andP [_ ip]; rewrite !ger0_norm // node_ge0 // nE leq_double //; exact: ltnW.
rewrite (@eq_big_nat _ _ _ p n _ (fun i => - (node i + node i.+1))); last first.
  move=> i /andP [pi _]; rewrite !ler0_norm ?opprD // node_le0 // nE leq_double //; exact: leqW.
rewrite sumrN.
have T : \sum_(0 <= i < n) (node i + node i.+1) = 0.
  by rewrite node_partial expr2 mulrA mulfK // subrr.
have S : \sum_(p <= i < n) (node i + node i.+1) = - \sum_(0 <= i < p) (node i + node i.+1).
  apply/eqP; rewrite -addr_eq0 addrC; apply/eqP; rewrite -[RHS]T [in RHS](@big_cat_nat _ _ _ p) //=.
  by rewrite nE -addnn leq_addr.
rewrite S opprK node_partial.
have : (p%:R : R) != 0 by apply: contra nn; rewrite nE !pnatr_eq0 => /eqP ->.
rewrite nE -muln2 natrM !expr2; move: (p%:R : R) => z z0.
by toR; field; exact/eqP.
Qed.
End Weights.

(** ** One parabola *)
Section Path.
Variables (n : nat) (delta : R) (a b : 'cV[R]_1).
Hypotheses (n0 : (0 < n)%N) (d0 : 0 < delta).
Let v i : R := a 0 0 + sqrt 6%:R * node n i * b 0 0.

Lemma speed_node i : lip_speed delta a b (i%:R * (delta / n%:R)) = delta^-1 * `|v i|.
Proof.
have dn : delta != 0 by rewrite gt_eqF.
rewrite /lip_speed jacR_eval // !mxE normrM ger0_norm ?invr_ge0 ?ltW //.
congr (_ * `|_ + _ * _ * _|); rewrite /node; congr (_ - _ * _).
by rewrite mulrA mulrAC mulfK.
Qed.

Lemma lip_trapzE : lip_trapz n delta a b = W n (fun i => `|v i|).
Proof.
rewrite /lip_trapz trapz_linspace /= /W; apply: eq_bigr => i _; rewrite !speed_node.
have dn : delta != 0 by rewrite gt_eqF.
have nn : (n%:R : R) != 0 by rewrite pnatr_eq0 -lt0n.
rewrite /GRing.scale /=; move: (`|_|) (`|_|) => x y; move: nn; move: (n%:R : R) => z z0.
by toR; field; split; exact/eqP.
Qed.

Lemma lip_lower : `|a 0 0| <= lip_trapz n delta a b.
Proof.
rewrite lip_trapzE; apply: le_trans (W_norm _ _).
rewrite (_ : W n v = a 0 0) // /v (@W_ext n _ (fun i => (sqrt 6%:R * b 0 0) * node n i + a 0 0)).
  by rewrite W_lin W_node // W_const // mulr0 add0r.
by move=> i; rewrite addrC mulrAC.
Qed.

Lemma lip_upper : ~~ odd n -> lip_trapz n delta a b <= `|a 0 0| + sqrt 6%:R / 2%:R * `|b 0 0|.
Proof.
move=> ev; rewrite lip_trapzE.
apply: (@le_trans _ _ (W n (fun i => (sqrt 6%:R * `|b 0 0|) * `|node n i| + `|a 0 0|))).
  apply: W_mono => i; apply: le_trans (ler_norm_add _ _) _; rewrite addrC ler_add2r.
  by rewrite !normrM (ger0_norm (ltW sqrt6_gt0)) mulrAC.
by rewrite W_lin W_abs // W_const // addrC mulrAC.
Qed.

Lemma lip_monotone : sqrt 6%:R * `|b 0 0| <= `|a 0 0| -> lip_trapz n delta a b = `|a 0 0|.
Proof.
move=> H; rewrite lip_trapzE.
have nd i : (i <= n)%N -> `|node n i| <= 1.
  move=> le; rewrite ler_norml /node.
  have i0 : 0 <= (i%:R / n%:R : R) by rewrite divr_ge0 ?ler0n.
  have i1 : (i%:R / n%:R : R) <= 1 by rewrite ler_pdivr_mulr ?ltr0n // mul1r ler_nat.
  by move: i0 i1; move: (_ / _) => z /RleP z0 /RleP z1; apply/andP; split; apply/RleP; move: z0 z1; toR; lra.
have sm i : (i <= n)%N -> `|sqrt 6%:R * node n i * b 0 0| <= `|a 0 0|.
  move=> le; apply: le_trans H; rewrite !normrM (ger0_norm (ltW sqrt6_gt0)) ler_wpmul2r //.
  by rewrite ler_pimulr ?nd // ltW // sqrt6_gt0.
have vE i : (i <= n)%N -> `|v i| = (if 0 <= a 0 0 then 1 else -1) * v i.
  move=> le; have := sm i le; rewrite /v ler_norml; case: (lerP 0 (a 0 0)) => a0 /andP [A B].
    by rewrite mul1r ger0_norm // -(subrr (a 0 0)) ler_add2l; move: A; rewrite (ger0_norm a0).
  rewrite mulN1r ler0_norm // -(subrr (a 0 0)) ler_add2l; by move: B; rewrite (ltr0_norm a0).
have -> : W n (fun i => `|v i|) = W n (fun i => (if 0 <= a 0 0 then 1 else -1) * v i + 0).
  by rewrite /W; apply: eq_big_nat => i /andP [_ lt]; rewrite !vE // ?addr0 // ltnW.
rewrite W_lin W_const // addr0.
rewrite (_ : W n v = a 0 0); last first.
  rewrite /v (@W_ext n _ (fun i => (sqrt 6%:R * b 0 0) * node n i + a 0 0)) => [|i]; last by rewrite addrC mulrAC.
  by rewrite W_lin W_node // W_const // mulr0 add0r.
by case: (lerP 0 (a 0 0)) => a0; rewrite ?mul1r ?mulN1r; [rewrite ger0_norm|rewrite ltr0_norm].
Qed.

Lemma lip_bridge : ~~ odd n -> a 0 0 = 0 -> lip_trapz n delta a b = sqrt 6%:R / 2%:R * `|b 0 0|.
Proof.
move=> ev a0; rewrite lip_trapzE (@W_ext n _ (fun i => (sqrt 6%:R * `|b 0 0|) * `|node n i| + 0)) => [|i].
  by rewrite W_lin W_const // W_abs // addr0 mulrAC.
by rewrite /v a0 add0r addr0 !normrM (ger0_norm (ltW sqrt6_gt0)) mulrAC.
Qed.

Lemma lip_square c : 2%:R * c * lip_trapz n delta a b <= c ^+ 2 + W n (fun i => v i ^+ 2).
Proof.
rewrite lip_trapzE -ler_subl_addl -[c ^+ 2 in X in X <= _](W_const n0).
have -> : 2%:R * c * W n (fun i => `|v i|) - W n (fun=> c ^+ 2) = W n (fun i => (2%:R * c) * `|v i| + (- c ^+ 2)).
  by rewrite W_lin !W_const.
apply: W_mono => i; rewrite -[X in _ <= X]real_normK ?num_real //.
rewrite -subr_ge0; have -> : `|v i| ^+ 2 - (2%:R * c * `|v i| + - c ^+ 2) = (`|v i| - c) ^+ 2.
  by move: (`|v i|) => z; rewrite !expr2; toR; ring.
exact: sqr_ge0.
Qed.

Lemma W_v2 : W n (fun i => v i ^+ 2) =
  a 0 0 ^+ 2 + (2%:R + 4%:R / n%:R ^+ 2) * b 0 0 ^+ 2.
Proof.
rewrite (@W_ext n _ (fun i => (6%:R * b 0 0 ^+ 2) * node n i ^+ 2 + ((2%:R * sqrt 6%:R * a 0 0 * b 0 0) * node n i + a 0 0 ^+ 2))).
  rewrite !W_lin W_node2 // W_node // W_const // mulr0 add0r addrC; congr (_ + _).
  have nn : (n%:R : R) != 0 by rewrite pnatr_eq0 -lt0n.
  by move: nn; move: (n%:R : R) (b 0 0) => z y z0; rewrite !expr2; toR; field; exact/eqP.
by move=> i; rewrite /v; have := sqrt6_sq; move: (sqrt _) (a 0 0) (b 0 0) (node n i) => s x y z S; rewrite -S !expr2; toR; ring.
Qed.
End Path.

(** ** Expectations *)

Lemma exp_ge2 (x : R) : 0 <= x -> 1 + x + x ^+ 2 / 2%:R <= exp x.
Proof.
move=> x0; apply: (@le_by_deriv (fun t => 1 + t + t ^+ 2 / 2%:R) exp (fun t => 1 + t) exp 0 x _ _ _ _ x x0 (lexx x)) => //.
- move=> t _ _; apply: (@is_derive_ext _ _ (fun t => 1 + t + t ^ 2 / 2)%Re) => [y|].
    by rewrite expr2; toR; field.
  by auto_derive => //; toR; field.
- by move=> t _ _; exact: is_derive_exp.
- by move=> t t0 _; apply/RleP; toR; exact: exp_ineq1_le.
- by rewrite exp_0 expr2 !mul0r !addr0.
Qed.

Lemma exp_le2 (x : R) : 0 <= x -> exp x <= 1 + x + x ^+ 2 / 2%:R * exp x.
Proof.
move=> x0; apply: (@le_by_deriv exp (fun t => 1 + t + t ^+ 2 / 2%:R * exp t) exp
  (fun t => 1 + t * exp t + t ^+ 2 / 2%:R * exp t) 0 x _ _ _ _ x x0 (lexx x)) => //.
- by move=> t _ _; exact: is_derive_exp.
- move=> t _ _; apply: (@is_derive_ext _ _ (fun t => 1 + t + t ^ 2 / 2 * exp t)%Re) => [y|].
    by rewrite expr2; toR; field.
  by rewrite expr2; toR; auto_derive => //; field.
- move=> t t0 _; apply: (@le_trans _ _ (1 + t * exp t)).
    have /RleP := t0; toR => t0'; have e1 := exp_ineq1_le (Ropp t); have ep := exp_pos t.
    have e2 : (exp t * exp (Ropp t) = 1)%Re by rewrite -exp_plus Rplus_opp_r exp_0.
    have e3 := Rmult_le_compat_l _ _ _ (Rlt_le _ _ ep) e1.
    rewrite e2 in e3; apply/RleP; toR; lra.
  rewrite ler_addl mulr_ge0 // ?divr_ge0 ?sqr_ge0 ?ler0n //; apply/RleP; left; exact: exp_pos.
- by rewrite exp_0 expr2 !mul0r !addr0.
Qed.

Lemma exp_le (x y : R) : x <= y -> exp x <= exp y.
Proof.
move/RleP => [H|->]; last exact: lexx.
by apply/RleP; left; exact: exp_increasing.
Qed.

Section Expect.
Variables (g : prng) (E : expectation (key g)).
Hypotheses (Em : monotone E) (std : standard2 E (fun k => normal2 k 2 1)).
Variables (n : nat) (delta : R).
Hypotheses (n0 : (0 < n)%N) (d0 : 0 < delta).
Let a (k : key g) := (parabolas 1 k delta).1.
Let b (k : key g) := (parabolas 1 k delta).2.
Let L k := lip_trapz n delta (a k) (b k).

Lemma lip_valueE k : lip_value n delta k = exp (L k).
Proof. by rewrite /lip_value /L /a /b; case: (parabolas 1 k delta). Qed.

Lemma a2_mean : E (fun k => a k 0 0 ^+ 2) = delta /\ E (fun k => b k 0 0 ^+ 2) = delta / 2%:R.
Proof.
have [_ _ A _ B] := parabola_law std 0 0 (ltW d0).
by rewrite eqxx !mul1r in A B; split; [rewrite -[RHS]A | rewrite -[RHS]B]; apply: E_ext => k; rewrite expr2.
Qed.

Lemma L_ge k : `|a k 0 0| <= L k. Proof. exact: lip_lower. Qed.
Lemma L_ge0 k : 0 <= L k. Proof. exact: le_trans (normr_ge0 _) (L_ge k). Qed.

Lemma lip_large : 1 + delta / 2%:R <= E (fun k => lip_value n delta k).
Proof.
have [A _] := a2_mean.
have -> : 1 + delta / 2%:R = E (fun k => 2%:R^-1 * (a k 0 0 ^+ 2) + 1) by rewrite E_lin E_one A addrC mulrC.
apply: Em => k; rewrite lip_valueE; apply: le_trans (exp_ge2 (L_ge0 k)).
rewrite addrC -addrA ler_add2l; apply: ler_paddl; first exact: L_ge0.
rewrite mulrC ler_wpmul2r ?invr_ge0 ?ler0n // -[X in X <= _]real_normK ?num_real //.
by rewrite ler_sqr ?nnegrE ?normr_ge0 ?L_ge0 // L_ge.
Qed.

Lemma lip_mean (c : R) : 2%:R * c * E L <= c ^+ 2 + (2%:R + 2%:R / n%:R ^+ 2) * delta.
Proof.
have [A B] := a2_mean.
have -> : c ^+ 2 + (2%:R + 2%:R / n%:R ^+ 2) * delta =
  E (fun k => c ^+ 2 + (a k 0 0 ^+ 2 + (2%:R + 4%:R / n%:R ^+ 2) * b k 0 0 ^+ 2)).
  rewrite !E_add E_const E_scale A B; congr (_ + _).
  have nn : (n%:R : R) != 0 by rewrite pnatr_eq0 -lt0n.
  by move: nn; move: (n%:R : R) => z z0; rewrite !expr2; toR; field; exact/eqP.
rewrite -E_scale; apply: Em => k; rewrite -W_v2 //; exact: lip_square.
Qed.

Let y (k : key g) : R := `|normal2 k 2 1 0 0| + sqrt 3%:R / 2%:R * `|normal2 k 2 1 1 0|.

Lemma L_le k : ~~ odd n -> L k <= sqrt delta * y k.
Proof.
move=> ev; apply: (le_trans (lip_upper (a k) (b k) n0 d0 ev)).
rewrite /a /b; have [-> ->] := @parabolasE g 1%N k delta 0.
have s0 (x : R) : 0 <= sqrt x by apply/RleP; exact: sqrt_pos.
rewrite !normrM !(ger0_norm (s0 _)) /y mulrDr ler_add2l.
have -> : sqrt 6%:R / 2%:R * (sqrt (2%:R^-1 * delta) * `|normal2 k 2 1 1 0|) =
   sqrt 6%:R * sqrt (2%:R^-1 * delta) * (2%:R^-1 * `|normal2 k 2 1 1 0|).
  by rewrite mulrACA [2%:R^-1 * _]mulrC !mulrA.
have -> : sqrt delta * (sqrt 3%:R / 2%:R * `|normal2 k 2 1 1 0|) =
   sqrt delta * sqrt 3%:R * (2%:R^-1 * `|normal2 k 2 1 1 0|) by rewrite !mulrA.
suff -> : sqrt 6%:R * sqrt (2%:R^-1 * delta) = sqrt delta * sqrt 3%:R by [].
have /RltP := d0; toR => d0'.
by rewrite -!sqrt_mult; try lra; congr sqrt; field.
Qed.
End Expect.


Lemma bound_ge (delta : R) : 1 + 1.4886%Re * sqrt delta <= theoretical_bound delta.
Proof.
rewrite /theoretical_bound; have s0 := sqrt_pos delta.
have A : (0.6909 <= sqrt (3 / (2 * 3.1415))%Re)%Re.
  by rewrite -[X in (X <= _)%Re](sqrt_Rsqr 0.6909%Re); [apply: sqrt_le_1_alt; rewrite /Rsqr; lra|lra].
have B : (0.7978 <= sqrt (2 / 3.1415)%Re)%Re.
  by rewrite -[X in (X <= _)%Re](sqrt_Rsqr 0.7978%Re); [apply: sqrt_le_1_alt; rewrite /Rsqr; lra|lra].
by apply/RleP; toR; nra.
Qed.

Lemma bound_le (delta : R) : theoretical_bound delta <= 1 + 1.4892%Re * sqrt delta.
Proof.
rewrite /theoretical_bound; have s0 := sqrt_pos delta.
have A : (sqrt (3 / (2 * 3.1415))%Re <= 0.6911)%Re.
  by rewrite -[X in (_ <= X)%Re](sqrt_Rsqr 0.6911%Re); [apply: sqrt_le_1_alt; rewrite /Rsqr; lra|lra].
have B : (sqrt (2 / 3.1415)%Re <= 0.7981)%Re.
  by rewrite -[X in (_ <= X)%Re](sqrt_Rsqr 0.7981%Re); [apply: sqrt_le_1_alt; rewrite /Rsqr; lra|lra].
by apply/RleP; toR; nra.
Qed.

Lemma iid_sum (A : Type) (E : expectation A) (f : A -> R) n :
  iid E n (fun ks => \sum_(k <- ks) f k) = n%:R * E f.
Proof.
elim: n => [|n IH] /=; first by rewrite big_nil mul0r.
rewrite (@E_ext _ E _ (fun w => f w + n%:R * E f)) => [|w].
  by rewrite E_add E_const -addn1 natrD mulrDl mul1r addrC.
rewrite (@iid_ext _ _ n _ (fun ks => f w * 1 + \sum_(k <- ks) f k)) => [|ks _]; last by rewrite big_cons mulr1.
by rewrite iid_lin iid_one IH mulr1.
Qed.

Lemma experiment_mean (g : prng) (E : expectation (key g)) N delta n : (0 < n)%N ->
  iid E n (fun ks => lip_experiment N ks delta) = E (fun k => lip_value N delta k).
Proof.
move=> n0; rewrite (@iid_ext _ _ n _ (fun ks => n%:R^-1 * (\sum_(k <- ks) lip_value N delta k) + 0)) => [|ks sz].
  rewrite (iid_lin E n _ _ (fun=> 0)) (_ : iid E n (fun=> 0) = 0).
    by rewrite addr0 iid_sum mulrA mulVf ?mul1r // pnatr_eq0 -lt0n.
  by elim: (n) => //= m ->; rewrite E_const.
by rewrite /lip_experiment sz addr0 mulrC.
Qed.

Section Bounds.
Variables (g : prng) (E : expectation (key g)) (delta : R).
Hypotheses (Em : monotone E) (std : standard2 E (fun k => normal2 k 2 1)).

Lemma bound_fails : 9%:R <= delta -> theoretical_bound delta < E (fun k => lip_value 100 delta k).
Proof.
move=> d9; have d0 : 0 < delta by apply: lt_le_trans d9; rewrite ltr0n.
apply: lt_le_trans (@lip_large g E Em std 100 delta _ d0) => //; apply: le_lt_trans (bound_le delta) _.
have /RleP := d9; toR => d9'; have s2 : (sqrt delta * sqrt delta = delta)%Re by apply: sqrt_sqrt; lra.
have s3 : (3 <= sqrt delta)%Re.
  by rewrite -[X in (X <= _)%Re](sqrt_Rsqr 3%Re); [apply: sqrt_le_1_alt; rewrite /Rsqr; lra|lra].
by apply/RltP; toR; nra.
Qed.

Lemma lip_mean100 : 0 < delta ->
  E (fun k => lip_trapz 100 delta (parabolas 1 k delta).1 (parabolas 1 k delta).2) <= 1.41429%Re * sqrt delta.
Proof.
move=> d0; have /RltP := d0; toR => d0'.
have s2 : (sqrt delta * sqrt delta = delta)%Re by apply: sqrt_sqrt; lra.
have sp := sqrt_lt_R0 _ d0'.
have := @lip_mean g E Em std 100 delta isT d0 (1.4143%Re * sqrt delta).
set e := E _; clearbody e; rewrite !expr2.
have -> : (100%:R : R) = 100%Re by toR; ring.
move/RleP; toR => H; apply/RleP.
apply: (@Rmult_le_reg_l (2 * (1.4143 * sqrt delta))%Re); first nra.
apply: Rle_trans H _; rewrite -{3}s2; nra.
Qed.

Lemma bound_holds (M : R) : 0 < delta -> sqrt delta <= 1 / 100%:R ->
  E (fun k => exp (`|normal2 k 2 1 0 0| + sqrt 3%:R / 2%:R * `|normal2 k 2 1 1 0|)) <= M ->
  M * sqrt delta <= 29%:R / 400%:R ->
  E (fun k => lip_value 100 delta k) <= theoretical_bound delta.
Proof.
move=> d0 ds HM Hs; apply: le_trans (bound_ge delta).
have /RltP := d0; toR => d0'.
have s2 : (sqrt delta * sqrt delta = delta)%Re by apply: sqrt_sqrt; lra.
have sp := sqrt_lt_R0 _ d0'.
pose y (k : key g) := `|normal2 k 2 1 0 0| + sqrt 3%:R / 2%:R * `|normal2 k 2 1 1 0|.
pose L (k : key g) := lip_trapz 100 delta (parabolas 1 k delta).1 (parabolas 1 k delta).2.
have mL := lip_mean100 d0; rewrite -/L in mL.
have pw k : lip_value 100 delta k <= (1 + L k) + (1.0204%Re * delta) * exp (y k).
  rewrite lip_valueE -/(L k).
  have L0 : 0 <= L k by exact: L_ge0.
  have Ly : L k <= sqrt delta * y k by exact: L_le.
  have y0 : 0 <= y k.
    rewrite addr_ge0 ?mulr_ge0 ?normr_ge0 ?invr_ge0 ?ler0n //; apply/RleP; exact: sqrt_pos.
  apply: le_trans (exp_le2 L0) _; rewrite ler_add2l.
  have e1 : exp (L k) <= exp (y k / 100%:R).
    apply: exp_le; apply: le_trans Ly _; rewrite mulrC ler_wpmul2l //.
    by rewrite -[X in _ <= X]mul1r.
  have e2 : 1 + (99 / 100 * y k)%Re + (99 / 100 * y k)%Re ^+ 2 / 2%:R <= exp (99 / 100 * y k)%Re.
    by apply: exp_ge2; rewrite mulr_ge0 //; apply/RleP; toR; lra.
  have e3 : (exp (y k / 100%:R) * exp (99 / 100 * y k)%Re = exp (y k))%Re.
    by rewrite -exp_plus; congr exp; toR; field.
  rewrite expr2 -e3; rewrite !expr2 in e2.
  have p1 := exp_pos (y k / 100%:R).
  move: e1 e2 p1 L0 Ly y0 => /RleP + /RleP + + /RleP + /RleP + /RleP.
  have := exp_pos (L k).
  set w := exp (L k); set u := exp (y k / 100%:R); set v := exp (99 / 100 * y k)%Re.
  clearbody u v w; move: (L k) (y k) => l z.
  toR => wp e1 e2 p1 L0 Ly y0; apply/RleP; toR.
  have q1 : (l * l <= delta * (z * z))%Re by rewrite -s2; nra.
  have q2 : (z * z / 2 <= 1.0204 * v)%Re by nra.
  have q3 : (l * l / 2 <= delta * (1.0204 * v))%Re by nra.
  have q4 : (0 <= l * l / 2)%Re by nra.
  have q5 : (l * l / 2 * w <= delta * (1.0204 * v) * u)%Re by apply: Rmult_le_compat => //; lra.
  lra.
apply: le_trans (Em pw) _.
rewrite !E_add E_one E_scale -addrA ler_add2l.
move: HM mL Hs => /RleP; rewrite -/(y _); set e := E _; set l := E _ => HM /RleP mL /RleP Hs.
clearbody e l; move: mL Hs; toR => mL Hs; apply/RleP; toR.
have q1 : (delta * e <= delta * M)%Re by apply: Rmult_le_compat_l => //; lra.
have q2 : (sqrt delta * (M * sqrt delta) <= sqrt delta * (29 / 400))%Re by apply: Rmult_le_compat_l => //; lra.
have q3 : (sqrt delta * (M * sqrt delta) = delta * M)%Re by rewrite -{3}s2; ring.
lra.
Qed.
End Bounds.

Lemma signkey_monotone m n : monotone (signkeyE m n).
Proof.
move=> X Y H; rewrite /signkeyE /pushE /= /uavg ler_wpmul2r ?invr_ge0 ?ler0n //.
by apply: ler_sum => w _; exact: H.
Qed.

Lemma signkey_moment :
  signkeyE 2 1 (fun k : key tree_prng => exp (`|normal2 k 2 1 0 0| + sqrt 3%:R / 2%:R * `|normal2 k 2 1 1 0|)) <= 9%:R.
Proof.
have sq3 : (sqrt 3%Re <= 2)%Re.
  by rewrite -[X in (_ <= X)%Re](sqrt_Rsqr 2%Re); [apply: sqrt_le_1_alt; rewrite /Rsqr; lra|lra].
have sg (b : bool) : `|sgn b| = 1 by case: b; rewrite /sgn ?normrN normr1.
have [w0 _] : exists w0 : signs 2, True by exists [ffun=> true].
rewrite /signkeyE /pushE /= /uavg ler_pdivr_mulr; last by rewrite ltr0n; apply/card_gt0P; exists w0.
rewrite mulr_natr -sumr_const; apply: ler_sum => w _.
rewrite !mxE /= !insubT //= !sg mulr1; apply/RleP.
apply: Rle_trans (_ : (exp (1 + 1) <= _)%Re).
  by apply/RleP; apply: exp_le; apply/RleP; toR; lra.
rewrite exp_plus; have := exp_le_3; have := exp_pos 1; toR; nra.
Qed.
