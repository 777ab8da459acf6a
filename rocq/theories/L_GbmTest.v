(** Euler-Maruyama on geometric Brownian motion: weak order one, and the quantities compared in
    tests/test_euler_maruyama.py. *)
From Coq Require Import Reals Lra.
From Coquelicot Require Import Coquelicot.
From mathcomp Require Import all_ssreflect all_algebra mxtens.
From Verif Require Import Rstruct Base Linalg Calc Prob Spec M_Utils M_Euler M_Ivp L_Euler L_Gbm L_EndToEnd L_Tests L_Problems.

Set Implicit Arguments.
Unset Strict Implicit.
Unset Printing Implicit Defensive.
Import Order.TTheory GRing.Theory Num.Theory.
Local Open Scope ring_scope.

Lemma exp_low1 (h : R) : (0 <= h)%Re -> (exp (h - h * h / 2)%Re <= 1 + h)%Re.
Proof.
move=> h0.
have := @exp_ge_deriv (fun t => (1 + t) * exp (- t + t * t / 2)%Re - 1)%Re (fun t => t * t * exp (- t + t * t / 2)%Re)%Re _ _ _ h h0.
move=> H; have {}H : (1 <= (1 + h) * exp (- h + h * h / 2)%Re)%Re.
  suff : (0 <= (1 + h) * exp (- h + h * h / 2)%Re - 1)%Re by lra.
  apply: H.
  - by move=> t; auto_derive; [repeat split | rewrite /Rdiv; move: (exp _) => e; field].
  - by move=> t t0; apply: Rmult_le_pos; [nra | apply: Rlt_le; exact: exp_pos].
  - by have -> : (- 0 + 0 * 0 / 2 = 0)%Re; [field | rewrite exp_0; lra].
have e0 := exp_pos (h - h * h / 2)%Re.
have : (exp (h - h * h / 2)%Re * exp (- h + h * h / 2)%Re = 1)%Re.
  by rewrite -exp_plus -exp_0; congr exp; field.
move: (exp (h - _)%Re) (exp (- h + _)%Re) e0 H => u v u0 H uv.
by have := Rmult_le_compat_l u _ _ (Rlt_le _ _ u0) H; nra.
Qed.

Lemma exp_low2 (h : R) : (0 <= h)%Re -> (exp (3 * h - 7 / 2 * (h * h))%Re <= 1 + 3 * h + h * h)%Re.
Proof.
move=> h0.
have := @exp_ge_deriv (fun t => (1 + 3 * t + t * t) * exp (- (3 * t) + 7 / 2 * (t * t))%Re - 1)%Re
  (fun t => (18 * (t * t) + 7 * (t * (t * t))) * exp (- (3 * t) + 7 / 2 * (t * t))%Re)%Re _ _ _ h h0.
move=> H; have {}H : (1 <= (1 + 3 * h + h * h) * exp (- (3 * h) + 7 / 2 * (h * h))%Re)%Re.
  suff : (0 <= (1 + 3 * h + h * h) * exp (- (3 * h) + 7 / 2 * (h * h))%Re - 1)%Re by lra.
  apply: H.
  - by move=> t; auto_derive; [repeat split | rewrite /Rdiv; move: (exp _) => e; field].
  - move=> t t0; apply: Rmult_le_pos; last by apply: Rlt_le; exact: exp_pos.
    have t2 : (0 <= t * t)%Re by nra.
    by have t3 := Rmult_le_pos _ _ t0 t2; lra.
  - by have -> : (- (3 * 0) + 7 / 2 * (0 * 0) = 0)%Re; [field | rewrite exp_0; lra].
have e0 := exp_pos (3 * h - 7 / 2 * (h * h))%Re.
have : (exp (3 * h - 7 / 2 * (h * h))%Re * exp (- (3 * h) + 7 / 2 * (h * h))%Re = 1)%Re.
  by rewrite -exp_plus -exp_0; congr exp; field.
move: (exp (3 * h - _)%Re) (exp (- (3 * h) + _)%Re) e0 H => u v u0 H uv.
by have := Rmult_le_compat_l u _ _ (Rlt_le _ _ u0) H; nra.
Qed.

Lemma p_bounds (h : R) n : 0 <= h -> let T := n%:R * h in
  exp (T - T * h / 2%:R) <= (1 + h) ^+ n <= exp T.
Proof.
move=> h0; cbv zeta; set T := n%:R * h; apply/andP; split.
  have -> : T - T * h / 2%:R = n%:R * (h - h * h / 2%:R) by rewrite /T mulrBr !mulrA.
  rewrite -powE; apply: ler_expn2r; rewrite ?nnegrE ?(ltW (expR_gt0 _)) ?addr_ge0 ?ler01 //.
  by apply/RleP; have := exp_low1 (elimT (RleP _ _) h0); toR.
rewrite /T -powE; apply: ler_expn2r; rewrite ?nnegrE ?(ltW (expR_gt0 _)) ?addr_ge0 ?ler01 //.
apply: le_trans (exp_quad_ge h0); rewrite ler_addl divr_ge0 ?ler0n // exprn_ge0 //.
Qed.

Lemma q_bounds (h : R) n : 0 <= h -> let T := n%:R * h in
  exp (3%:R * T - 7%:R / 2%:R * (T * h)) <= ((1 + h) ^+ 2 + h) ^+ n <= exp (3%:R * T).
Proof.
move=> h0; cbv zeta; set T := n%:R * h.
have qE : (1 + h) ^+ 2 + h = (1 + 3 * h + h * h)%Re by rewrite expr2; toR; ring.
have q0 : 0 <= (1 + h) ^+ 2 + h by rewrite addr_ge0 ?exprn_ge0 ?addr_ge0 ?ler01.
have h0' := elimT (RleP _ _) h0.
apply/andP; split.
  have -> : 3%:R * T - 7%:R / 2%:R * (T * h) = n%:R * (3%:R * h - 7%:R / 2%:R * (h * h)).
    by rewrite /T; move: (n%:R : R) => u; apply: (_ : @eq R _ _); toR; field.
  rewrite -powE; apply: ler_expn2r; rewrite ?nnegrE ?(ltW (expR_gt0 _)) // qE.
  by apply/RleP; have := exp_low2 h0'; toR.
have -> : 3%:R * T = n%:R * (3%:R * h) by rewrite mulrCA.
rewrite -powE; apply: ler_expn2r; rewrite ?nnegrE ?(ltW (expR_gt0 _)) // qE.
have := exp_quad_ge (mulr_ge0 (ler0n _ 3) h0) => /RleP H; apply/RleP; move: H; rewrite expr2; toR.
by nra.
Qed.

Section Law.
Variables (g : prng) (E F : expectation (key g)) (N : nat).
Hypothesis split_iid : forall G, F (fun k => G (split k N)) = iid E N G.
Hypothesis draws : standard E (fun k => normal (child k 2 0) 1).
Variable h : R.
Hypothesis h0 : 0 <= h.
Let x n (k : key g) := nth 0 (euler_maruyama gbm_drift gbm_sigma h k gbm_x0 N).2 n 0 0.

Lemma gbm_means n : (n <= N)%N -> F (x n) = (1 + h) ^+ n /\ F (fun k => x n k ^+ 2) = ((1 + h) ^+ 2 + h) ^+ n.
Proof.
move=> nN; have [H1 H2] := em_gbm_moments split_iid draws 1 1 gbm_x0 h0 nN.
split.
  by have /matrixP/(_ 0 0) := H1; rewrite !mxE mul1r mulr1.
by have := H2 0 0; rewrite eqxx expr1n !mul1r !mxE !mulr1 => <-; apply: E_ext => k; rewrite expr2.
Qed.

Lemma gbm_weak n : (n <= N)%N -> let T := n%:R * h in
  exp (T - T * h / 2%:R) <= F (x n) <= exp T /\
  exp (3%:R * T - 7%:R / 2%:R * (T * h)) <= F (fun k => x n k ^+ 2) <= exp (3%:R * T).
Proof.
move=> nN T; have [-> ->] := gbm_means nN.
by split; [exact: p_bounds | exact: q_bounds].
Qed.

Lemma gbm_var n : (n <= N)%N -> F (fun k => (x n k - F (x n)) ^+ 2) = ((1 + h) ^+ 2 + h) ^+ n - (1 + h) ^+ n ^+ 2.
Proof.
move=> nN; have [E1 E2] := gbm_means nN.
transitivity (F (fun k => x n k ^+ 2 + ((- 2%:R * F (x n)) * x n k + F (x n) ^+ 2))).
  apply: E_ext => k; move: (F _) (x n k) => a b; rewrite !expr2; toR; ring.
by rewrite !E_add E_scale E_const E2 E1; move: ((1 + h) ^+ n) (_ ^+ n) => a b; rewrite !expr2; toR; ring.
Qed.
End Law.

Lemma exp_neg (y : R) : (1 - y <= exp (- y)%Re)%Re.
Proof. by have := exp_ineq1_le (- y)%Re; lra. Qed.

(** The comparison of standard deviations. *)
Lemma std_close (e s1 s2 : R) : (5 / 2 <= e)%Re -> (e < 3)%Re -> (0 <= s1)%Re -> (0 <= s2)%Re ->
  (s2 * s2 = e * e * (e - 1))%Re -> (965 / 1000 * (e * e * e) - e * e <= s1 * s1)%Re ->
  (s1 * s1 <= e * e * e - 99 / 100 * (e * e))%Re -> (- (14 / 100) <= s1 - s2 <= 14 / 100)%Re.
Proof.
move=> e1 e2 p1 p2 E2 L1 U1.
have e0 : (0 <= e)%Re by lra.
have ee : (0 <= e * e)%Re by nra.
have g1 : (118 / 100 * e <= s1)%Re.
  apply: Rnot_lt_le => H.
  have : (s1 * s1 <= 118 / 100 * e * (118 / 100 * e))%Re by apply: Rmult_le_compat; lra.
  have : (5 / 2 * (e * e) <= e * (e * e))%Re by apply: Rmult_le_compat_r.
  have : (0 < e * e)%Re by nra.
  by lra.
have g2 : (3 <= s2)%Re.
  apply: Rnot_lt_le => H.
  have : (s2 * s2 <= 3 * 3)%Re by apply: Rmult_le_compat; lra.
  have : (5 / 2 * (5 / 2) <= e * e)%Re by apply: Rmult_le_compat; lra.
  have : (e * e * (3 / 2) <= e * e * (e - 1))%Re by apply: Rmult_le_compat_l; lra.
  by lra.
have e9 : (e * e <= 3 * 3)%Re by apply: Rmult_le_compat; lra.
split; apply: Rnot_lt_le => H.
  have : (s1 + 14 / 100 <= s2)%Re by lra.
  move=> H2; have : ((s1 + 14 / 100) * (s1 + 14 / 100) <= s2 * s2)%Re by apply: Rmult_le_compat; lra.
  have : (e * (e * e) <= e * (3 * 3))%Re by apply: Rmult_le_compat_l.
  by lra.
have H2 : (s2 + 14 / 100 <= s1)%Re by lra.
have : ((s2 + 14 / 100) * (s2 + 14 / 100) <= s1 * s1)%Re by apply: Rmult_le_compat; lra.
by lra.
Qed.

Lemma exp_hundredth : (1 + 1 / 100 <= exp (1 / 100)%Re <= 1 + 101 / 10000)%Re.
Proof.
split; first exact: exp_ineq1_le.
have H0 : (0 <= 1 / 100)%Re by lra.
have H := exp_low1 H0; have H1 := exp_neg (1 / 20000)%Re.
have E : exp (1 / 100 - 1 / 100 * (1 / 100) / 2)%Re = (exp (1 / 100)%Re * exp (- (1 / 20000))%Re)%Re.
  by rewrite -exp_plus; congr exp; field.
rewrite E in H; have p0 := exp_pos (1 / 100)%Re.
have := Rmult_le_compat_l _ _ _ (Rlt_le _ _ p0) H1; lra.
Qed.

Lemma gbm_test (g : prng) (E F : expectation (key g)) :
  (forall G, F (fun k => G (split k 100)) = iid E 100 G) -> standard E (fun k => normal (child k 2 0) 1) ->
  let h : R := 1 / 100%:R in
  let x n (k : key g) := nth 0 (euler_maruyama gbm_drift gbm_sigma h k gbm_x0 100).2 n 0 0 in
  let var n := F (fun k => (x n k - F (x n)) ^+ 2) in
  [/\ `|F (x 100%N) - gbm_mean 1 0 0| <= 2%:R / 100%:R,
      `|sqrt (var 100%N) - sqrt (gbm_variance 1 0 0)| <= 14%:R / 100%:R,
      `|F (x 1%N) - gbm_mean h 0 0| <= 1 / 1000%:R &
      `|var 1%N - gbm_variance h 0 0| <= 1 / 1000%:R].
Proof.
move=> sp dr h x var.
have e100 : (100%:R : R) = 100%Re by rewrite RnatE INR_IZR_INZ.
have e1000 : (1000%:R : R) = 1000%Re by rewrite RnatE INR_IZR_INZ.
have e14 : (14%:R : R) = 14%Re by rewrite RnatE INR_IZR_INZ.
have hE : h = (1 / 100)%Re by rewrite /h e100; toR.
have h0 : 0 <= h by rewrite hE; apply/RleP; toR; lra.
have [m1 _] := gbm_means sp dr h0 (isT : (1 <= 100)%N).
have [mN _] := gbm_means sp dr h0 (leqnn 100).
have v1 := gbm_var sp dr h0 (isT : (1 <= 100)%N).
have vN := gbm_var sp dr h0 (leqnn 100).
have T1 : 100%:R * h = 1 by rewrite /h mulrC divfK // pnatr_eq0.
have pb : exp (1 - h / 2%:R) <= (1 + h) ^+ 100 <= exp 1.
  by have := p_bounds 100 h0; cbv zeta; rewrite T1 mul1r.
have qb : exp (3%:R - 7%:R / 2%:R * h) <= ((1 + h) ^+ 2 + h) ^+ 100 <= exp 3%:R.
  by have := q_bounds 100 h0; cbv zeta; rewrite T1 mul1r mulr1.
have [G1 G2] := gbm_defaults 1; have [G3 G4] := gbm_defaults h.
have eL : (5 / 2 <= exp 1%Re)%Re by have := @exp_quad_ge 1 ler01 => /RleP; rewrite expr1n; toR; lra.
have eU := exp1_lt3.
have [dL dU] := exp_hundredth.
rewrite /var /x vN v1 mN m1 G1 G2 G3 G4 !mxE !expr1.
move: pb qb; move: ((1 + h) ^+ 100) (((1 + h) ^+ 2 + h) ^+ 100) => p q /andP[/RleP pL /RleP pU] /andP[/RleP qL /RleP qU].
have E3 : exp 3%:R = (exp 1%Re * exp 1%Re * exp 1%Re)%Re by rewrite -!exp_plus; congr exp; toR; ring.
have E2 : exp (2%:R * 1) = (exp 1%Re * exp 1%Re)%Re by rewrite -exp_plus; congr exp; toR; ring.
have Ep : exp (1 - h / 2%:R) = (exp 1%Re * exp (- (1 / 200))%Re)%Re by rewrite -exp_plus hE; congr exp; toR; field.
have Eq : exp (3%:R - 7%:R / 2%:R * h) = (exp 1%Re * exp 1%Re * exp 1%Re * exp (- (35 / 1000))%Re)%Re.
  by rewrite -!exp_plus hE; congr exp; toR; field.
have Eh : exp (2%:R * h) = (exp (1 / 100)%Re * exp (1 / 100)%Re)%Re by rewrite -exp_plus hE; congr exp; toR; field.
rewrite Ep in pL; rewrite Eq in qL; rewrite E3 in qU.
have n1 := exp_neg (1 / 200)%Re; have n2 := exp_neg (35 / 1000)%Re.
rewrite E2 Eh hE e100 e1000 e14.
move: (exp (- (1 / 200))%Re) (exp (- (35 / 1000))%Re) (exp (1 / 100)%Re) (exp 1%Re) n1 n2 pL pU qL qU eL eU dL dU.
move=> a b d e n1 n2 pL pU qL qU eL eU dL dU.
have e0 : (0 <= e)%Re by lra.
have e3 : (0 <= e * e * e)%Re by apply: Rmult_le_pos => //; apply: Rmult_le_pos.
have pL' : (995 / 1000 * e <= p)%Re by have := Rmult_le_compat_l _ _ _ e0 n1; lra.
have qL' : (965 / 1000 * (e * e * e) <= q)%Re by have := Rmult_le_compat_l _ _ _ e3 n2; lra.
have p2L : (99 / 100 * (e * e) <= p * p)%Re.
  have : (995 / 1000 * e * (995 / 1000 * e) <= p * p)%Re by apply: Rmult_le_compat; lra.
  have : (0 <= e * e)%Re by apply: Rmult_le_pos.
  by lra.
have p2U : (p * p <= e * e)%Re by apply: Rmult_le_compat; lra.
have ee : (5 / 2 * (e * e) <= e * e * e)%Re by have := Rmult_le_compat_l (e * e)%Re _ _ (Rmult_le_pos _ _ e0 e0) eL; lra.
have eep : (0 <= e * e)%Re by apply: Rmult_le_pos.
split; rewrite ler_norml; apply/andP.
- by split; apply/RleP; toR; lra.
- have V1 : (0 <= q - p * p)%Re by lra.
  have V2 : (0 <= e * e * (e - 1))%Re by apply: Rmult_le_pos; lra.
  have [||H1 H2] := @std_close e (sqrt (q - p * p)%Re) (sqrt (e * e * (e - 1))%Re) eL eU (sqrt_pos _) (sqrt_pos _) (sqrt_sqrt _ V2).
  - by rewrite sqrt_sqrt //; lra.
  - by rewrite sqrt_sqrt //; lra.
  have -> : q - p ^+ 2 = (q - p * p)%Re by rewrite expr2; toR.
  have -> : e * e * (e - 1) = (e * e * (e - 1))%Re by toR.
  by move: (sqrt _) (sqrt _) H1 H2 => u v H1 H2; split; apply/RleP; toR; lra.
- by split; apply/RleP; toR; lra.
have d1 : (1 <= d * d)%Re by nra.
have d2 : (d * d <= 103 / 100)%Re by nra.
have d3 : (1 * (1 / 100) <= d * d * (d - 1))%Re by apply: Rmult_le_compat; lra.
have d4 : (d * d * (d - 1) <= 103 / 100 * (101 / 10000))%Re by apply: Rmult_le_compat; lra.
by split; apply/RleP; rewrite !expr2; toR; lra.
Qed.

(** Mean-square stability. *)
Lemma bernoulli_ge (y : R) n : 0 <= y -> 1 + n%:R * y <= (1 + y) ^+ n.
Proof.
move=> y0; elim: n => [|n IH]; first by rewrite mul0r addr0 expr0.
rewrite exprS; apply: (le_trans _ (ler_wpmul2l _ IH)); last by rewrite addr_ge0 // ler01.
rewrite mulrSr; have : 0 <= n%:R * (y * y) by rewrite mulr_ge0 ?ler0n ?mulr_ge0.
by move: (n%:R : R) => u /RleP H; apply/RleP; move: H; toR; lra.
Qed.

Lemma gbm_stable (g : prng) (E F : expectation (key g)) (N d : nat) :
  (forall G, F (fun k => G (split k N)) = iid E N G) -> standard E (fun k => normal (child k 2 0) d) ->
  forall (a b h : R) (init : 'cV[R]_d), 0 <= h ->
  let x n (k : key g) := nth 0 (euler_maruyama (@gbm_drift_ a d) (@gbm_sigma_ b d) h k init N).2 n in
  let s := 2%:R * a + b ^+ 2 + a ^+ 2 * h in
  forall n i, (n <= N)%N -> let T := n%:R * h in
  F (fun k => x n k i 0 ^+ 2) <= exp (s * T) * init i 0 ^+ 2 /\
  (0 <= s -> (1 + s * T) * init i 0 ^+ 2 <= F (fun k => x n k i 0 ^+ 2)).
Proof.
move=> sp dr a b h init h0 x s n i nN T.
have [_ H] := em_gbm_moments sp dr a b init h0 nN.
have -> : F (fun k => x n k i 0 ^+ 2) = (1 + s * h) ^+ n * init i 0 ^+ 2.
  transitivity (F (fun k => x n k i 0 * x n k i 0)); first by apply: E_ext => k; rewrite expr2.
  rewrite H eqxx mul1r -expr2; congr (_ ^+ n * _); rewrite /s !expr2; toR; ring.
have q0 : 0 <= 1 + s * h.
  have -> : 1 + s * h = (1 + a * h) ^+ 2 + b ^+ 2 * h by rewrite /s !expr2; toR; ring.
  by rewrite addr_ge0 ?sqr_ge0 // mulr_ge0 ?sqr_ge0.
have TE : s * T = n%:R * (s * h) by rewrite /T mulrCA.
split.
  apply: ler_wpmul2r; first exact: sqr_ge0.
  rewrite TE -powE; apply: ler_expn2r; rewrite ?nnegrE ?(ltW (expR_gt0 _)) //.
  by apply/RleP; have := exp_ineq1_le (s * h); toR.
move=> s0; apply: ler_wpmul2r; first exact: sqr_ge0.
by rewrite TE; apply: bernoulli_ge; rewrite mulr_ge0.
Qed.
