(** What the shipped test problems describe: rest states, mean paths, energies. *)
From Coq Require Import Reals Lra FunctionalExtensionality.
From Coquelicot Require Import Coquelicot.
From mathcomp Require Import all_ssreflect all_algebra mxtens.
From Verif Require Import Rstruct Base Linalg Calc Prob Spec M_Utils M_Ivp L_Ivp L_More L_Quad L_Gbm L_EndToEnd.

Set Implicit Arguments.
Unset Strict Implicit.
Unset Printing Implicit Defensive.
Import Order.TTheory GRing.Theory Num.Theory.
Local Open Scope ring_scope.

(** ** FitzHugh-Nagumo *)
Definition cubic (x : R) : R := (x * x * x + x / 2 + 4 / 5)%Re.

Lemma cubic_lt x y : (x < y)%Re -> (cubic x < cubic y)%Re.
Proof.
move=> xy; rewrite /cubic.
have : (0 <= (y - x) * (x * x + x * y + y * y))%Re by apply: Rmult_le_pos; [lra | nra].
lra.
Qed.

Lemma fhn_comp (y : 'cV[R]_2) t :
  fhn_drift y t 0 0 = (10 * (y 0%R 0%R - y 1%R 0%R - y 0%R 0%R * y 0%R 0%R * y 0%R 0%R))%Re /\
  fhn_drift y t 1 0 = (3 / 2 * y 0%R 0%R - y 1%R 0%R + 4 / 5)%Re.
Proof.
have eps0 : fhn_eps <> 0 by rewrite /fhn_eps; toR; lra.
split.
  by rewrite [LHS](fhn_a0 fhn_gamma fhn_alpha fhn_s eps0) /fhn_eps /fhn_s; toR; field.
by rewrite [LHS](fhn_a1 fhn_gamma fhn_eps fhn_alpha fhn_s) /fhn_gamma /fhn_alpha; toR; field.
Qed.

Lemma fhn_rest : exists x : 'cV[R]_2,
  [/\ - (76%:R / 100%:R) <= x 0 0 <= - (75%:R / 100%:R),
      forall y t, fhn_drift y t = 0 <-> y = x &
      let J := jac (fun z => fhn_drift z 0) x in
      let tr := J 0 0 + J 1 1 in let det := J 0 0 * J 1 1 - J 0 1 * J 1 0 in
      [/\ - 9%:R < tr < - 7%:R, 21%:R < det & tr ^+ 2 < 4%:R * det]].
Proof.
have e1 : (100%:R : R) = 100%Re by rewrite RnatE INR_IZR_INZ.
have e2 : (76%:R : R) = 76%Re by rewrite RnatE INR_IZR_INZ.
have e3 : (75%:R : R) = 75%Re by rewrite RnatE INR_IZR_INZ.
have e4 : (21%:R : R) = 21%Re by rewrite RnatE INR_IZR_INZ.
have eps0 : fhn_eps <> 0 by rewrite /fhn_eps; toR; lra.
have [r [[r1 r2] r0]] : { z : R | (- (76 / 100) <= z <= - (75 / 100))%Re /\ cubic z = 0%Re }.
  by apply: IVT; [move=> z; rewrite /cubic; reg | lra | rewrite /cubic; lra | rewrite /cubic; lra].
pose x : 'cV[R]_2 := cv 2 [:: r; (3 / 2 * r + 4 / 5)%Re].
have x0E : x 0 0 = r by rewrite mxE.
have x1E : x 1 0 = (3 / 2 * r + 4 / 5)%Re by rewrite mxE.
exists x; split.
- by rewrite x0E e1 e2 e3; apply/andP; split; apply/RleP; toR; lra.
- move=> y t; split=> [H|->].
    have [] := fhn_comp y t; rewrite H !mxE; toR => H0 H1.
    have c0 : cubic (y 0 0) = 0%Re by rewrite /cubic; lra.
    have yr : y 0 0 = r.
      by case: (Rtotal_order (y 0 0) r) => [/cubic_lt|[//|/Rgt_lt/cubic_lt]]; rewrite c0 r0; lra.
    by apply/colP; apply: ord2P; rewrite ?x0E ?x1E // -yr; lra.
  have [H0 H1] := fhn_comp x t; move: r0; rewrite /cubic => r0.
  by apply/colP; apply: ord2P; rewrite ?H0 ?H1 x0E x1E mxE; toR; lra.
have J00 : jac (fun z => fhn_drift z 0) x 0 0 = (10 * (1 - 3 * (r * r)))%Re.
  by rewrite [LHS]mxE [LHS](fhn_d00 fhn_gamma fhn_alpha fhn_s eps0) x0E /fhn_eps expr2; toR; field.
have J01 : jac (fun z => fhn_drift z 0) x 0 1 = (-10)%Re.
  by rewrite [LHS]mxE [LHS](fhn_d01 fhn_gamma fhn_alpha fhn_s eps0) /fhn_eps; toR; field.
have J10 : jac (fun z => fhn_drift z 0) x 1 0 = (3 / 2)%Re.
  by rewrite [LHS]mxE [LHS]fhn_d10 /fhn_gamma; toR; field.
have J11 : jac (fun z => fhn_drift z 0) x 1 1 = (-1)%Re.
  by rewrite [LHS]mxE [LHS]fhn_d11.
have q1 : (5625 / 10000 <= r * r)%Re by nra.
have q2 : (r * r <= 5776 / 10000)%Re by nra.
cbv zeta; rewrite J00 J01 J10 J11 e4 expr2; split; [apply/andP; split | |]; apply/RltP; toR; [lra | lra | lra |].
by move: (r * r)%Re q1 q2 => u q1 q2; nra.
Qed.

(** ** The synaptic models *)
Lemma syn_rest y : syn_drift y = 0 <-> y = cv 3 [:: (- (21263 / 386))%Re; 178%:R / 10%:R; 94%:R / 10%:R].
Proof.
have e3 : (178%:R : R) = 178%Re by rewrite RnatE INR_IZR_INZ.
have e4 : (94%:R : R) = 94%Re by rewrite RnatE INR_IZR_INZ.
have e5 : (70%:R : R) = 70%Re by rewrite RnatE INR_IZR_INZ.
have e6 : (80%:R : R) = 80%Re by rewrite RnatE INR_IZR_INZ.
have e7 : (50%:R : R) = 50%Re by rewrite RnatE INR_IZR_INZ.
have D0 z : syn_drift z 0 0 = ((- 50 * (z 0%R 0%R + 70) - z 1%R 0%R * z 0%R 0%R - z (inord 2) 0%R * (z 0%R 0%R + 80) - 6 / 10) / 20)%Re.
  by rewrite mxE /= vget0 vget1 vget2 /syn_C /syn_G_L /syn_V_L /syn_V_E /syn_V_I /syn_I_inj /syn_G_E0 /syn_G_I0 e5 e6 e7; toR; field.
have D1 z : syn_drift z 1 0 = (- 2 * (z 1%R 0%R - 178 / 10))%Re.
  by rewrite mxE /= vget1 /syn_tau_E /syn_gbar_E e3; toR; field.
have D2 z : syn_drift z (inord 2) 0 = (- (z (inord 2) 0%R - 94 / 10))%Re.
  by rewrite mxE inordK //= vget2 /syn_tau_I /syn_gbar_I e4; toR; field.
split=> [H|->].
  move: (D0 y) (D1 y) (D2 y); rewrite H !mxE; toR => H0 H1 H2.
  have y1 : y 1 0 = (178 / 10)%Re by lra.
  have y2 : y (inord 2) 0 = (94 / 10)%Re by lra.
  move: H0; rewrite y1 y2 => H0.
  by apply/colP; apply: ord3P; rewrite mxE ?inordK //= ?e3 ?e4; toR; lra.
apply/colP; apply: ord3P; rewrite ?D0 ?D1 ?D2 !mxE ?inordK //= ?e3 ?e4; toR; lra.
Qed.

(** The reduced model has none. *)
Lemma synred_no_rest y : synred_drift y <> 0.
Proof.
have e3 : (178%:R : R) = 178%Re by rewrite RnatE INR_IZR_INZ.
have e4 : (94%:R : R) = 94%Re by rewrite RnatE INR_IZR_INZ.
move=> H; have : synred_drift y 0 0 = 0 by rewrite H mxE.
have : synred_drift y 1 0 = 0 by rewrite H mxE.
rewrite !mxE /= ?vget_clamp ?vget1 /syn_tau_E /syn_tau_I /syn_gbar_E /syn_gbar_I e3 e4; toR; lra.
Qed.

(** ** Linear problems: the mean paths *)
Lemma ibm_path : (fun t : R => cv 2 [:: 1 + t; 1]) 0 = ibm_x0 /\
  forall t, mx_deriv (fun t : R => cv 2 [:: 1 + t; 1]) t (ibm_drift (cv 2 [:: 1 + t; 1]) t).
Proof.
split; first by apply/colP; apply: ord2P; rewrite !mxE /= ?addr0.
move=> t i j; rewrite (ord1 j) mulmxE sum2; move: i; apply: ord2P; rewrite !mxE /=.
  apply: (is_derive_ext (fun s : R => (1 + s)%Re)); first by move=> s; rewrite mxE.
  by auto_derive => //; toR; ring.
apply: (is_derive_ext (fun s : R => 1%Re)); first by move=> s; rewrite mxE.
by auto_derive => //; toR; ring.
Qed.

Lemma dibm_path : (fun t : R => cv 3 [:: t ^+ 2 / 2%:R; t; 1]) 0 = dibm_x0 /\
  forall t, mx_deriv (fun t : R => cv 3 [:: t ^+ 2 / 2%:R; t; 1]) t (dibm_drift (cv 3 [:: t ^+ 2 / 2%:R; t; 1]) t).
Proof.
split; first by apply/colP; apply: ord3P; rewrite !mxE ?inordK //= expr0n /= mul0r.
move=> t i j; rewrite (ord1 j) mulmxE sum3; move: i; apply: ord3P; rewrite !mxE ?inordK //=.
- apply: (is_derive_ext (fun s : R => (s * s / 2)%Re)); first by move=> s; rewrite mxE /= expr2; toR.
  by auto_derive => //; toR; field.
- apply: (is_derive_ext (fun s : R => s)); first by move=> s; rewrite mxE.
  by auto_derive => //; toR; ring.
apply: (is_derive_ext (fun s : R => 1%Re)); first by move=> s; rewrite mxE inordK.
by auto_derive => //; toR; ring.
Qed.

(** The oscillators lose energy. *)
Lemma harm_energy (gamma D t : R) : 0 <= gamma -> 0 <= t ->
  let x := harm_mean gamma D in
  D * x t 0 0 ^+ 2 + x t 1 0 ^+ 2 <= D + 1.
Proof.
move=> /RleP g0 /RleP t0; cbv zeta; pose x := harm_mean gamma D; rewrite -/x.
have [x0 _] := harm_mean_ode gamma D 0.
have p s : is_derive (fun s => x s 0 0) s (x s 1 0).
  have [_ /(_ 0 0)] := harm_mean_ode gamma D s.
  by rewrite mulmxE sum2 !mxE /= mul0r add0r mul1r.
have q s : is_derive (fun s => x s 1 0) s (- D * x s 0%R 0%R - gamma * x s 1%R 0%R)%Re.
  have [_ /(_ 1 0)] := harm_mean_ode gamma D s.
  by rewrite mulmxE sum2 !mxE /=; congr (is_derive _ _ _); toR; ring.
suff H : (0 <= D + 1 - (D * (x t 0%R 0%R * x t 0%R 0%R) + x t 1%R 0%R * x t 1%R 0%R))%Re.
  by apply/RleP; rewrite !expr2; toR; lra.
move: t t0; apply: (@exp_ge_deriv (fun s => (D + 1 - (D * (x s 0%R 0%R * x s 0%R 0%R) + x s 1%R 0%R * x s 1%R 0%R))%Re)
  (fun s => (2 * (gamma * (x s 1%R 0%R * x s 1%R 0%R)))%Re)).
- move=> s; have h0 := p s; have h1 := q s.
  evar_last.
    apply: is_derive_minus; first exact: is_derive_const.
    apply: is_derive_plus; first by apply: is_derive_scal; apply: Derive.is_derive_mult; eassumption.
    by apply: Derive.is_derive_mult; eassumption.
  by rewrite /minus /plus /opp /scal /zero /mult /=; ring.
- by move=> s _; apply: Rmult_le_pos; [lra | apply: Rmult_le_pos => //; nra].
- have -> : x 0%Re = harm_x0 := x0.
  by rewrite !mxE; toR; lra.
Qed.

Lemma harm_defaults (t : R) : 0 <= t ->
  let x := harm_mean harm_gamma harm_D in let y := harm_mean harm_sq_gamma harm_sq_D in
  [/\ harm_drift harm_gamma harm_D (x t) = cv 2 [:: x t 1 0; - (x t 0 0 + x t 1 0) / 10%:R],
      harm_drift harm_sq_gamma harm_sq_D (y t) = cv 2 [:: y t 1 0; - (y t 0 0 + y t 1 0)],
      x t 0 0 ^+ 2 / 10%:R + x t 1 0 ^+ 2 <= 11%:R / 10%:R &
      y t 0 0 ^+ 2 + y t 1 0 ^+ 2 <= 2%:R].
Proof.
move=> t0 x y; split.
- apply/colP; apply: ord2P; rewrite mulmxE sum2 !mxE /= /harm_gamma /harm_D; move: (x t 0 0) (x t 1 0) => u v; toR; field.
- apply/colP; apply: ord2P; rewrite mulmxE sum2 !mxE /= /harm_sq_gamma /harm_sq_D; move: (y t 0 0) (y t 1 0) => u v; toR; ring.
- have g0 : 0 <= harm_gamma by rewrite divr_ge0 ?ler01 ?ler0n.
  have := harm_energy harm_D g0 t0; rewrite -/x /harm_D => /RleP H; apply/RleP; move: H; move: (x t 0 0 ^+ 2) (x t 1 0 ^+ 2) => u v; toR; lra.
have g0 : 0 <= harm_sq_gamma by exact: ler01.
have := harm_energy harm_sq_D g0 t0; rewrite -/y /harm_sq_D => /RleP H; apply/RleP; move: H; move: (y t 0 0 ^+ 2) (y t 1 0 ^+ 2) => u v; toR; lra.
Qed.

Lemma gbm_defaults (t : R) : gbm_mean t = const_mx (exp t) /\ gbm_variance t = const_mx (exp (2%:R * t) * (exp t - 1)).
Proof.
split; apply/colP=> i; rewrite ord1 !mxE ?mulr1 ?mul1r //.
by rewrite expr1n !mul1r mulrC.
Qed.

(** ** The rates of the noise *)
Lemma noise_rates :
  [/\ forall x t, fhn_sigma x t *m (fhn_sigma x t)^T = mx 2 2 [:: [:: 0; 0]; [:: 0; 9%:R / 100%:R]],
      forall x t, ibm_sigma x t *m (ibm_sigma x t)^T = mx 2 2 [:: [:: 0; 0]; [:: 0; 1]],
      forall x t, dibm_sigma x t *m (dibm_sigma x t)^T = mx 3 3 [:: [:: 0; 0; 0]; [:: 0; 0; 0]; [:: 0; 0; 1]],
      harm_C *m harm_C^T = mx 2 2 [:: [:: 0; 0]; [:: 0; 1]] /\
      harm_sq_C *m harm_sq_C^T = mx 2 2 [:: [:: 0; 0]; [:: 0; 4%:R]] &
      forall x : 'cV[R]_3, 0 <= x 1 0 -> 0 <= x (inord 2) 0 ->
      syn_sigma x *m (syn_sigma x)^T =
      mx 3 3 [:: [:: 0; 0; 0]; [:: 0; x 1 0 / 100%:R; 0]; [:: 0; 0; x (inord 2) 0 / 100%:R]]].
Proof.
have e1 : (100%:R : R) = 100%Re by rewrite RnatE INR_IZR_INZ.
split.
- move=> x t; apply/matrixP; apply: ord2P; apply: ord2P; rewrite mulmxE big_ord1 !mxE /= /fhn_sig ?e1; toR; field.
- move=> x t; apply/matrixP; apply: ord2P; apply: ord2P; rewrite mulmxE big_ord1 !mxE /= /ibm_sig; toR; field.
- move=> x t; apply/matrixP; apply: ord3P; apply: ord3P; rewrite mulmxE big_ord1 !mxE ?inordK //= /dibm_sig; toR; field.
- split; apply/matrixP; apply: ord2P; apply: ord2P; rewrite mulmxE ?sum2 ?big_ord1 !mxE /= /harm_sig /harm_sq_sig; toR; field.
move=> x /RleP x1 /RleP x2; have s1 := sqrt_sqrt _ x1; have s2 := sqrt_sqrt _ x2.
apply/matrixP; apply: ord3P; apply: ord3P; rewrite mulmxE sum3 !mxE ?inordK //= ?vget1 ?vget2 /syn_sig_E /syn_sig_I ?e1 ?mul0r ?mulr0 ?addr0 ?add0r //.
  by move: s1; move: (sqrt _) => u <-; toR; field.
by move: s2; move: (sqrt _) => u <-; toR; field.
Qed.

(** ** The initial velocities *)
Lemma starts :
  [/\ fhn_drift fhn_x0 0 = cv 2 [:: 0; 4%:R / 5%:R],
      harm_drift harm_gamma harm_D harm_x0 = cv 2 [:: 1; - (1 / 5%:R)] &
      syn_drift syn_x0 = cv 3 [:: (- (503 / 100))%Re; 156%:R / 10%:R; - (6%:R / 10%:R)]].
Proof.
have e1 : (156%:R : R) = 156%Re by rewrite RnatE INR_IZR_INZ.
have e3 : (178%:R : R) = 178%Re by rewrite RnatE INR_IZR_INZ.
have e4 : (94%:R : R) = 94%Re by rewrite RnatE INR_IZR_INZ.
have e5 : (70%:R : R) = 70%Re by rewrite RnatE INR_IZR_INZ.
have e6 : (80%:R : R) = 80%Re by rewrite RnatE INR_IZR_INZ.
have e7 : (50%:R : R) = 50%Re by rewrite RnatE INR_IZR_INZ.
have e8 : (60%:R : R) = 60%Re by rewrite RnatE INR_IZR_INZ.
split.
- have [H0 H1] := fhn_comp fhn_x0 0.
  by apply/colP; apply: ord2P; rewrite ?H0 ?H1 !mxE /=; toR; lra.
- by apply/colP; apply: ord2P; rewrite mulmxE sum2 !mxE /= /harm_gamma /harm_D; toR; field.
apply/colP; apply: ord3P; rewrite mxE ?inordK //= ?vget0 ?vget1 ?vget2 !mxE ?inordK //=
  /syn_C /syn_G_L /syn_V_L /syn_V_E /syn_V_I /syn_I_inj /syn_V0 /syn_G_E0 /syn_G_I0 /syn_tau_E /syn_tau_I /syn_gbar_E /syn_gbar_I
  ?e1 ?e3 ?e4 ?e5 ?e6 ?e7 ?e8; toR; field.
Qed.
