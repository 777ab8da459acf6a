(** Gronwall's inequality and the pathwise error of the driver with an accurate integrator. *)
From Coq Require Import Reals Lra FunctionalExtensionality.
From Coquelicot Require Import Coquelicot.
From mathcomp Require Import all_ssreflect all_algebra mxtens.
From Verif Require Import Rstruct Base Linalg Calc Prob Lapack Spec Spec3 M_Foster L_Foster M_ItoStrat L_ItoStrat
  M_SdeSolver L_SdeSolver M_Euler L_Euler M_Prior M_OdeSolvers M_Ivp L_OdeSolvers L_LinStep L_Lipschitz L_Pathwise.

Set Implicit Arguments.
Unset Strict Implicit.
Unset Printing Implicit Defensive.
Import Order.TTheory GRing.Theory Num.Theory.
Local Open Scope ring_scope.

(** ** Gronwall's inequality in the sup norm *)
Lemma bounded_on (u : R -> R) (T : R) : 0 <= T -> (forall t : R, 0 <= t -> t <= T -> exists l, is_derive u t l) ->
  exists B, forall t : R, 0 <= t -> t <= T -> `|u t| <= B.
Proof.
move=> T0 D.
have C (c : R) : (0 <= c <= T)%Re -> continuity_pt (fun t => Rabs (u t)) c.
  move=> [c1 c2]; have [l Hl] := D c (introT (RleP _ _) c1) (introT (RleP _ _) c2).
  apply: (continuity_pt_comp u Rabs); last exact: Rcontinuity_abs.
  by apply: derivable_continuous_pt; exists l; apply/is_derive_Reals.
have [x [H _]] := continuity_ab_maj (fun t => Rabs (u t)) 0%Re T (elimT (RleP _ _) T0) C.
by exists (Rabs (u x)) => t /RleP t0 /RleP tT; apply/RleP; apply: H; split.
Qed.

Lemma bounded_vec d (w : R -> 'cV[R]_d) (T : R) : 0 <= T ->
  (forall (t : R) (i : 'I_d), 0 <= t -> t <= T -> exists l, is_derive (fun s => w s i 0) t l) ->
  exists B, 0 <= B /\ forall t : R, 0 <= t -> t <= T -> sup_le (w t) B.
Proof.
move=> T0 D.
have H i : exists B, forall t : R, 0 <= t -> t <= T -> `|w t i 0| <= B.
  by apply: (@bounded_on (fun t => w t i 0)) => // t t0 tT; exact: D.
have [B [B0 HB]] : exists B, 0 <= B /\ forall (t : R) (i : 'I_d), i \in enum 'I_d -> 0 <= t -> t <= T -> `|w t i 0| <= B.
  elim: (enum 'I_d) => [|j s [B [B0 IH]]]; first by exists 0.
  have [b Hb] := H j; exists (`|b| + B); split; first by rewrite addr_ge0 ?normr_ge0.
  move=> t i; rewrite inE => /orP[/eqP -> | ins] t0 tT.
    by apply: le_trans (Hb t t0 tT) _; apply: le_trans (ler_norm _) _; rewrite ler_addl.
  by apply: le_trans (IH t i ins t0 tT) _; rewrite ler_addr normr_ge0.
by exists B; split=> // t t0 tT i; apply: HB; rewrite ?mem_enum.
Qed.

Lemma small_pow (x B a b : R) : 0 <= B -> (forall n : nat, (a <= b + B * (x ^ n / INR (fact n)))%Re) -> a <= b.
Proof.
move=> /RleP B0 H; apply/RleP; apply: Rnot_lt_le => ab.
have [n Hn] := cv_speed_pow_fact x ((a - b) / (B + 1))%Re (Rdiv_lt_0_compat _ _ (Rlt_Rminus _ _ ab) (Rle_lt_0_plus_1 _ B0)).
have := Hn n (le_n n); rewrite /R_dist Rminus_0_r => /Rabs_def2 [h1 _].
have h2 := H n; have : ((a - b) / (B + 1) * (B + 1) = a - b)%Re by field; move: B0; toR; lra.
move: (x ^ n / INR (fact n))%Re h1 h2 => u h1 h2 h3; move: B0; toR => B0.
have : (B * u <= B * ((a - b) / (B + 1)))%Re by apply: Rmult_le_compat_l; lra.
have : (0 < (a - b) / (B + 1))%Re by apply: Rdiv_lt_0_compat; lra.
move: ((a - b) / (B + 1))%Re h3 => v h3; nra.
Qed.

Lemma gronwall d (w w' : R -> 'cV[R]_d) (T L e0 eta : R) : 0 <= T -> 0 <= L -> 0 <= e0 -> 0 <= eta ->
  (forall (t : R) (i : 'I_d), 0 <= t -> t <= T -> is_derive (fun s => w s i 0) t (w' t i 0)) ->
  (forall (t : R) e, 0 <= t -> t <= T -> sup_le (w t) e -> sup_le (w' t) (L * (e + eta))) ->
  sup_le (w 0) e0 -> forall t : R, 0 <= t -> t <= T -> sup_le (w t) ((e0 + eta) * exp (L * t) - eta).
Proof.
move=> T0 L0 e00 eta0 D H w0.
have [B [B0 HB]] := bounded_vec T0 (fun t i t0 tT => ex_intro _ _ (D t i t0 tT)).
pose v n (t : R) := ((e0 + eta) * exp (L * t) - eta + B * ((L * t) ^ n / INR (fact n)))%Re.
have Dv n t : is_derive (v n.+1) t (L * ((e0 + eta) * exp (L * t) + B * ((L * t) ^ n / INR (fact n))))%Re.
  have F0 : INR (fact n) <> 0%Re by exact: INR_fact_neq_0.
  have N0 : INR n.+1 <> 0%Re by exact: not_0_INR.
  have FE : INR (fact n.+1) = (INR n.+1 * INR (fact n))%Re by rewrite fact_simpl mult_INR.
  have FN : INR (fact n.+1) <> 0%Re by exact: INR_fact_neq_0.
  rewrite /v; move: (INR (fact n.+1)) FE FN => K1 FE FN; move: (INR (fact n)) F0 FE => K2 F0 FE.
  apply: (@is_derive_ext _ _ (fun t : R => (e0 + eta) * exp (Rmult L t) - eta + B * (pow (Rmult L t) n.+1 * / K1))%Re); first by move=> s; toR.
  auto_derive => //; move: N0 FE; rewrite S_INR => N0 ->.
  have -> : (match n with 0%N => 1 | _.+1 => INR n + 1 end)%Re = (INR n + 1)%Re by exact: (S_INR n).
  have -> : exp (L * t) = exp (Rmult L t) by [].
  by move: (pow _ n) (exp _) (INR n) N0 => p q r N0; toR; field.
have I n : forall t : R, 0 <= t -> t <= T -> sup_le (w t) (v n t).
  elim: n => [|n IH] t t0 tT.
    apply: sup_le_trans (HB t t0 tT) _; apply/RleP; rewrite /v /=.
    have : (1 <= exp (L * t))%Re.
      by have := exp_ineq1_le (L * t); have := mulr_ge0 L0 t0 => /RleP; toR; lra.
    move/RleP: e00 => e1; move/RleP: eta0 => e2; move: e1 e2; toR => e1 e2; move: (exp _) => q q1.
    have : (0 <= (e0 + eta) * (q - 1))%Re by apply: Rmult_le_pos; lra.
    lra.
  have B1 (s : R) i : 0 <= s -> s <= t -> `|w' s i 0| <= L * ((e0 + eta) * exp (L * s) + B * ((L * s) ^ n / INR (fact n)))%Re.
    move=> s0 st; have sT := le_trans st tT; have := H s _ s0 sT (IH s s0 sT) i.
    by congr (_ <= _); rewrite /v; toR; ring.
  have v00 : v n.+1 0 = e0 by rewrite /v; move: (INR _) (INR_fact_neq_0 n.+1) => K K0; toR; rewrite Rmult_0_r exp_0 /=; field.
  move=> i; rewrite ler_norml; apply/andP; split.
    rewrite ler_oppl.
    pose v' s := (L * ((e0 + eta) * exp (L * s) + B * ((L * s) ^ n / INR (fact n))))%Re.
    apply: (@le_by_deriv (fun s => Ropp (w s i 0)) (v n.+1) (fun s => Ropp (w' s i 0)) v' 0 t _ _ _ _ t) => //.
    - by move=> s s0 st; apply: is_derive_opp; apply: D => //; exact: le_trans tT.
    - by move=> s s0 st; exact: Dv.
    - by move=> s s0 st; have := B1 s i s0 st; rewrite ler_norml => /andP[+ _]; rewrite ler_oppl.
    - by rewrite v00; have := w0 i; rewrite ler_norml => /andP[+ _]; rewrite ler_oppl.
  apply: (@le_by_deriv (fun s => w s i 0) (v n.+1) (fun s => w' s i 0) _ 0 t) => //.
  - by move=> s s0 st; apply: D => //; exact: le_trans tT.
  - by move=> s s0 st; exact: Dv.
  - by move=> s s0 st; have := B1 s i s0 st; rewrite ler_norml => /andP[_].
  - by rewrite v00; have := w0 i; rewrite ler_norml => /andP[_].
move=> t t0 tT i; apply: (@small_pow (L * t) B) => // n.
by have := I n t t0 tT i => /RleP; rewrite /v.
Qed.

(** The noise term of the random ODE is the derivative of the parabola times S. *)
Lemma deriv_parab d m (S : 'M[R]_(d, m)) (T : R) (a b : 'cV[R]_m) (t : R) l : T != 0 ->
  is_derive (fun s => (S *m eval_parabola s T a b) l 0) t ((S *m jacR (fun s => eval_parabola s T a b) t) l 0).
Proof.
move=> T0.
have -> : (fun s => (S *m eval_parabola s T a b) l 0) = (fun s => \sum_j Rmult (S l j) (eval_parabola s T a b j 0)).
  by apply: functional_extensionality => s; rewrite mxE.
rewrite mxE; apply: is_derive_sum => j; apply: is_derive_scal; rewrite mxE.
have -> : (fun s => eval_parabola s T a b j 0) = parab T (a j 0) (b j 0).
  by apply: functional_extensionality => s; rewrite eval_path.
by apply: Derive_correct; eexists; exact: is_derive_parab.
Qed.

Section Any.
Variables (g : prng) (d m : nat) (f : 'cV[R]_d -> R -> 'cV[R]_d) (S : 'M[R]_(d, m)) (L delta : R) (N : nat).
Variables (W : R -> 'cV[R]_m) (X : R -> 'cV[R]_d) (eta eps : R) (k : key g).
Variable (int : key g -> 'cV[R]_d -> ('cV[R]_d -> R -> 'cV[R]_d) -> R -> 'cV[R]_d).
Let fs := to_stratonovich f (fun _ _ => S).
Let x n := nth (X 0) (sde_solver fs.1 fs.2 (get_approx g m) delta int k (X 0) N).1.2 n.
Hypotheses (dl0 : 0 < delta) (L0 : 0 < L) (Lf : lipschitz f L) (eta0 : 0 <= eta) (eps0 : 0 <= eps).
Hypothesis HX : solves_additive f S (N%:R * delta) W X.
Hypothesis HW : forall i a b, (i < N)%N -> parabolas m (child (child k N i) 2 0) delta = (a, b) ->
  a = W (i.+1%:R * delta) - W (i%:R * delta) /\
  (forall s, 0 <= s -> s <= delta ->
     sup_le (S *m (W (i%:R * delta + s) - W (i%:R * delta) - eval_parabola s delta a b)) eta).
Hypothesis Hint : forall i a b, (i < N)%N -> parabolas m (child (child k N i) 2 0) delta = (a, b) ->
  exists y, [/\ y 0 = x i,
    deriv_on delta y (fun t => f (y t) (t + i%:R * delta) + S *m jacR (fun s => eval_parabola s delta a b) t) &
    sup_le (x i.+1 - y delta) eps].

Lemma any_interval i e : (i < N)%N -> 0 <= e -> sup_le (x i - X (i%:R * delta)) e ->
  sup_le (x i.+1 - X (i.+1%:R * delta)) ((e + eta) * exp (L * delta) - eta + eps).
Proof.
move=> iN e0 He; case Eab: (parabolas m (child (child k N i) 2 0) delta) => [a b].
have [Ha HP] := HW iN Eab; have [y [y0 Dy Hy]] := Hint iN Eab.
have dn : delta != 0 by rewrite gt_eqF.
pose Ti := i%:R * delta.
have TN : Ti + delta = i.+1%:R * delta by rewrite /Ti -addn1 natrD mulrDl mul1r.
have Ti0 : 0 <= Ti by rewrite mulr_ge0 ?ler0n // ltW.
have TiN : Ti + delta <= N%:R * delta by rewrite TN ler_wpmul2r ?ler_nat // ltW.
pose Q t := S *m (W (Ti + t) - W Ti - eval_parabola t delta a b).
pose w t := y t - X (Ti + t) + Q t.
pose w' t := f (y t) (t + Ti) - f (X (Ti + t)) (Ti + t).
have G := @gronwall d w w' delta L e eta (ltW dl0) (ltW L0) e0 eta0.
have Dw (t : R) (l : 'I_d) : 0 <= t -> t <= delta -> is_derive (fun s => w s l 0) t (w' t l 0).
  move=> t0 td.
  have tN : Ti + t <= N%:R * delta by apply: le_trans TiN; rewrite ler_add2l.
  have D1 := Dy t l t0 td.
  have D2 := @deriv_parab d m S delta a b t l dn.
  have D3 := HX l (addr_ge0 Ti0 t0) tN.
  have D3' : is_derive (fun s => (X (Ti + s) - S *m W (Ti + s)) l 0) t (f (X (Ti + t)) (Ti + t) l 0).
    have D4 : is_derive (fun s => Ti + s)%Re t 1%Re by auto_derive.
    have := @is_derive_comp _ R_NormedModule (fun s => (X s - S *m W s) l 0) (fun s => Ti + s)%Re t _ 1%Re D3 D4.
    by rewrite /scal /= /mult /= Rmult_1_l.
  have D5 := is_derive_minus _ _ _ _ _ D1 D2.
  have D6 := is_derive_minus _ _ _ _ _ D5 D3'.
  have D7 := is_derive_minus _ _ _ _ _ D6 (is_derive_const ((S *m W Ti) l 0) t).
  have -> : (fun s => w s l 0) = (fun s : R => Rminus (Rminus (Rminus (y s l 0) ((S *m eval_parabola s delta a b) l 0)) ((X (Ti + s) - S *m W (Ti + s)) l 0)) ((S *m W Ti) l 0)).
    apply: functional_extensionality => s; rewrite /w /Q !mulmxBr !(addmxE, oppmxE).
    by move: (y s l 0) ((S *m W _) l 0) ((S *m W _) l 0) (X _ l 0) ((S *m _) l 0) => p1 p2 p3 p4 p5; toR; ring.
  move: D7; congr is_derive; rewrite /minus /plus /opp /zero /= /w' !(addmxE, oppmxE) -/Ti.
  by move: ((S *m _) l 0) (f _ _ l 0) (f _ _ l 0) => p1 p2 p3; toR; ring.
have Bw (t e' : R) : 0 <= t -> t <= delta -> sup_le (w t) e' -> sup_le (w' t) (L * (e' + eta)).
  move=> t0 td H; rewrite /w' [t + Ti]addrC; apply: Lf.
  have -> : y t - X (Ti + t) = w t - Q t by rewrite /w addrK.
  by apply: sup_leB => //; exact: HP.
have Q0 : Q 0 = 0 by rewrite /Q addr0 subrr sub0r parab_start oppr0 mulmx0.
have Qd : Q delta = 0 by rewrite /Q parab_end // TN Ha subrr mulmx0.
have w0 : sup_le (w 0) e by rewrite /w Q0 addr0 y0 addr0.
have := G Dw Bw w0 delta (ltW dl0) (lexx _); rewrite /w Qd addr0 TN => H.
have -> : x i.+1 - X (i.+1%:R * delta) = (y delta - X (i.+1%:R * delta)) + (x i.+1 - y delta).
  by rewrite [RHS]addrC addrA subrK.
exact: sup_leD.
Qed.

Lemma any_run n : (n <= N)%N ->
  sup_le (x n - X (n%:R * delta)) ((eta + eps / (exp (L * delta) - 1)) * (exp (L * (n%:R * delta)) - 1)).
Proof.
pose q := exp (L * delta).
have q1 : 1 < q.
  have /RltP Ld : 0 < L * delta by rewrite mulr_gt0.
  by apply/RltP; have := exp_increasing _ _ Ld; rewrite exp_0.
have qn i : exp (L * (i%:R * delta)) = q ^+ i.
  elim: i => [|i IH]; first by rewrite mul0r mulr0 exp_0 expr0.
  have -> : L * (i.+1%:R * delta) = Rplus (L * delta) (L * (i%:R * delta)).
    by rewrite -addn1 natrD; move: (i%:R : R) => u; toR; ring.
  by rewrite exp_plus IH exprS.
have cp : 0 <= eta + eps / (q - 1) by apply: addr_ge0 => //; apply: divr_ge0 => //; rewrite subr_ge0 ltW.
rewrite -/q qn; elim: n => [_|n IH nN].
  by rewrite /x start_state mul0r subrr expr0 subrr mulr0; exact: sup_le0.
have e0 : 0 <= (eta + eps / (q - 1)) * (q ^+ n - 1).
  by apply: mulr_ge0 => //; rewrite subr_ge0; apply: exprn_ege1; exact: ltW.
have := any_interval nN e0 (IH (ltnW nN)); congr sup_le; rewrite -/q exprS.
have qq : Rminus q 1 <> 0 by move/RltP: q1; toR; lra.
by move: (q ^+ n) (q) qq => u v vv; toR; field.
Qed.
End Any.

(** ** Example: N = 1, delta = 1, f(z, t) = W(t) - z, X = W + exp(-t) with W = parabola + t(1 - t). *)
Section Ex.
Variables (a b : 'cV[R]_1).
Definition exW (t : R) : 'cV[R]_1 := eval_parabola t 1 a b + const_mx (t * (1 - t)).
Definition exX (t : R) : 'cV[R]_1 := exW t + const_mx (exp (- t)).
Definition exf (z : 'cV[R]_1) (t : R) : 'cV[R]_1 := exW t - z.
Definition exy (t : R) : 'cV[R]_1 := eval_parabola t 1 a b + const_mx (4%:R * exp (- t) - t ^+ 2 + 3%:R * t - 3%:R).

Lemma exf_lip : lipschitz exf 1.
Proof.
move=> x y t e H; rewrite mul1r /exf.
have -> : exW t - x - (exW t - y) = - (x - y) by apply/colP=> i; rewrite !(addmxE, oppmxE); rring.
exact: sup_leN.
Qed.

Lemma exX_solves (T : R) : solves_additive exf 1%:M T exW exX.
Proof.
move=> t i _ _.
have -> : (fun s => (exX s - 1%:M *m exW s) i 0) = (fun s : R => exp (Ropp s)).
  apply: functional_extensionality => s; rewrite mul1mx /exX !(addmxE, oppmxE) [X in _ + X - _]mxE; rring.
have -> : exf (exX t) t i 0 = Ropp (exp (Ropp t)).
  by rewrite /exf /exX !(addmxE, oppmxE) [X in _ - (_ + X)]mxE; rring.
by auto_derive => //; ring.
Qed.

Lemma exW0 : exW 0 = 0.
Proof. by apply/colP=> i; rewrite /exW parab_start add0r mxE mul0r !mxE. Qed.

Lemma exW_near s : 0 <= s -> s <= 1 -> sup_le (1%:M *m (exW s - exW 0 - eval_parabola s 1 a b)) (1 / 4%:R).
Proof.
move=> s0 s1; rewrite exW0 mul1mx subr0 /exW addrAC subrr add0r => i; rewrite mxE ger0_norm; last by rewrite mulr_ge0 // subr_ge0.
apply/RleP; toR; have : (0 <= (s - 1 / 2) ^ 2)%Re by apply: pow2_ge_0.
lra.
Qed.

Lemma exW_mod h s t : 0 <= s -> s <= t -> t - s <= h -> sup_le (exf (exX t) t - exf (exX s) s) h.
Proof.
move=> s0 st th i.
have E u : exf (exX u) u i 0 = - exp (- u).
  by rewrite /exf /exX !(addmxE, oppmxE) [X in _ - (_ + X)]mxE; rring.
rewrite addmxE oppmxE !E opprK.
have H1 : exp (- t) <= exp (- s) by apply: L_Lipschitz.exp_le; rewrite ler_opp2.
have H2 : exp (- s) - exp (- t) <= t - s.
  have e1 : exp (- t) = exp (- s) * exp (s - t).
    transitivity (exp (Rplus (- s) (s - t))); last exact: exp_plus.
    by congr exp; toR; ring.
  have e2 := exp_ineq1_le (s - t).
  have e3 : exp (- s) <= 1 by have -> : 1 = exp 0 :> R by [rewrite exp_0]; apply: L_Lipschitz.exp_le; rewrite oppr_le0.
  have e4 := exp_pos (- s).
  move/RleP: e3; move/RleP: st; move/RleP: s0; rewrite e1 => a1 a2 a3; apply/RleP; move: a1 a2 a3 e2 e4; toR.
  move: (exp (- s)) (exp (s - t)%Re) => p q a1 a2 a3 e2 e4; nra.
by rewrite addrC ger0_norm ?subr_ge0 //; exact: le_trans H2 th.
Qed.

Lemma exy_deriv : deriv_on 1 exy (fun t => exf (exy t) (t + 0%:R * 1) + 1%:M *m jacR (fun s => eval_parabola s 1 a b) t).
Proof.
move=> t i _ _; rewrite mul0r addr0.
have D1 := @deriv_parab 1 1 1%:M 1 a b t i (oner_neq0 _).
pose v (s : R) := (4 * exp (Ropp s) - s * s + 3 * s - 3)%Re.
have D2 : is_derive v t (- 4 * exp (Ropp t) - 2 * t + 3)%Re by rewrite /v; auto_derive => //; ring.
have := is_derive_plus _ _ _ _ _ D1 D2.
have -> : (fun s => exy s i 0) = (fun s : R => plus ((1%:M *m eval_parabola s 1 a b) i 0) (v s)).
  apply: functional_extensionality => s; rewrite mul1mx /exy addmxE [X in _ + X]mxE /v /plus /=.
  by move: (eval_parabola _ _ _ _ _ _) (exp _) => p q; toR; ring.
congr is_derive; rewrite /plus /= !mul1mx /exf /exy /exW !(addmxE, oppmxE) [X in (_ + X - _) + _]mxE [X in (_ + _ - (_ + X)) + _]mxE.
by move: (eval_parabola _ _ _ _ _ _) (jacR _ _ _ _) (exp _) => p q r; toR; ring.
Qed.
End Ex.
