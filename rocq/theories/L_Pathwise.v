(** Pathwise error of the driver for additive noise. *)
From Coq Require Import Reals Lra FunctionalExtensionality.
From Coquelicot Require Import Coquelicot.
From mathcomp Require Import all_ssreflect all_algebra mxtens.
From Verif Require Import Rstruct Base Linalg Calc Prob Lapack Spec Spec3 M_Foster L_Foster M_ItoStrat L_ItoStrat
  M_SdeSolver L_SdeSolver M_Euler L_Euler M_Prior M_OdeSolvers M_Ivp L_OdeSolvers L_LinStep.

Set Implicit Arguments.
Unset Strict Implicit.
Unset Printing Implicit Defensive.
Import Order.TTheory GRing.Theory Num.Theory.
Local Open Scope ring_scope.

(** A function whose derivative stays within w of c. *)
Lemma near_slope (g g' : R -> R) (a b c w : R) :
  (forall t : R, a <= t -> t <= b -> is_derive g t (g' t)) ->
  (forall t : R, a <= t -> t <= b -> `|g' t - c| <= w) -> a <= b -> `|g b - g a - (b - a) * c| <= (b - a) * w.
Proof.
move=> D H ab; rewrite ler_norml; apply/andP; split.
- have := @le_by_deriv (fun t => g a + (c - w) * (t - a))%Re g (fun _ => c - w) g' a b.
  have X1 : forall t : R, a <= t -> t <= b -> is_derive (fun t => g a + (c - w) * (t - a))%Re t (c - w).
    by move=> t _ _; auto_derive => //; toR; ring.
  move/(_ X1 D) => /(_ _ _ b ab (lexx b)) X2.
  have : g a + (c - w) * (b - a) <= g b.
    apply: X2; last by apply/RleP; lra.
    by move=> t t1 t2; have := H t t1 t2; rewrite ler_norml => /andP[+ _]; move/RleP => h1; apply/RleP; move: h1; toR; lra.
  by move/RleP => h1; apply/RleP; move: h1; toR; lra.
- have := @le_by_deriv g (fun t => g a + (c + w) * (t - a))%Re g' (fun _ => c + w) a b D.
  have X1 : forall t : R, a <= t -> t <= b -> is_derive (fun t => g a + (c + w) * (t - a))%Re t (c + w).
    by move=> t _ _; auto_derive => //; toR; ring.
  move/(_ X1) => /(_ _ _ b ab (lexx b)) X2.
  have : g b <= g a + (c + w) * (b - a).
    apply: X2; last by apply/RleP; lra.
    by move=> t t1 t2; have := H t t1 t2; rewrite ler_norml => /andP[_]; move/RleP => h1; apply/RleP; move: h1; toR; lra.
  by move/RleP => h1; apply/RleP; move: h1; toR; lra.
Qed.

(** Increments of the parabola. *)
Section Parabola.
Variables (m : nat) (T : R) (a b : 'cV[R]_m).
Hypothesis T0 : T != 0.
Notation P t := (eval_parabola t T a b).
Notation P' t := (jacR (fun s => eval_parabola s T a b) t).

Lemma parab_start : P 0 = 0.
Proof. by apply/colP=> i; rewrite eval_path parab0 mxE. Qed.
Lemma parab_end : P T = a.
Proof. by apply/colP=> i; rewrite eval_path parabT. Qed.
Lemma parab_euler t h : P (t + h) - P t = h *: P' t - (sqrt 6%:R * (h / T) ^+ 2) *: b.
Proof.
apply/colP=> i; rewrite jacR_eval // !(addmxE, oppmxE, scalemxE) !eval_path /parab.
by move: (a i 0) (b i 0) (sqrt _) => u v w; move/eqP: T0 => T1; toR; field.
Qed.
Lemma parab_trap t h : P (t + h) - P t = (h / 2%:R) *: (P' t + P' (t + h)).
Proof.
apply/colP=> i; rewrite !jacR_eval // !(addmxE, oppmxE, scalemxE) !eval_path /parab.
by move: (a i 0) (b i 0) (sqrt _) => u v w; move/eqP: T0 => T1; toR; field.
Qed.
End Parabola.

Section Path.
Variables (g : prng) (d m : nat) (f : 'cV[R]_d -> R -> 'cV[R]_d) (S : 'M[R]_(d, m)) (L delta : R) (M N : nat).
Variables (W : R -> 'cV[R]_m) (X : R -> 'cV[R]_d) (eta omega beta : R).
Hypotheses (dl0 : 0 < delta) (M0 : (0 < M)%N) (L0 : 0 < L) (Lf : lipschitz f L).
Hypothesis HX : solves_additive f S (N%:R * delta) W X.
Let h := delta / M%:R.
Hypothesis Hw : forall s t, 0 <= s -> s <= t -> t <= N%:R * delta -> t - s <= h -> sup_le (f (X t) t - f (X s) s) omega.
Let U t := X t - S *m W t.
Let T_ (i j : nat) := i%:R * delta + j%:R * h.

Lemma h_gt0 : 0 < h. Proof. by rewrite /h divr_gt0 // ltr0n. Qed.
Lemma hM : M%:R * h = delta.
Proof. by rewrite /h mulrC divfK // pnatr_eq0 -lt0n. Qed.
Lemma T_M i : T_ i M = i.+1%:R * delta.
Proof. by rewrite /T_ hM -addn1 natrD mulrDl mul1r. Qed.
Lemma T_0 i : T_ i 0 = i%:R * delta.
Proof. by rewrite /T_ mul0r addr0. Qed.
Lemma T_S i j : T_ i j.+1 - T_ i j = h.
Proof. by rewrite /T_ -[j.+1]addn1 natrD; move: (i%:R : R) (j%:R : R) => u v; rring. Qed.
Lemma T_ge0 i j : 0 <= T_ i j.
Proof. by have hh := ltW h_gt0; have dd := ltW dl0; rewrite /T_; nonneg. Qed.
Lemma T_le i j : (i < N)%N -> (j <= M)%N -> T_ i j <= N%:R * delta.
Proof.
move=> iN jM; apply: le_trans (_ : T_ i M <= _).
  by rewrite /T_ ler_add2l ler_wpmul2r ?ler_nat // ltW // h_gt0.
by rewrite T_M ler_wpmul2r ?ler_nat // ltW.
Qed.

(** The drift part of the solution over one sub-step, for a slope within omega of the drift. *)
Lemma drift_step i j (c : 'cV[R]_d) w : (i < N)%N -> (j < M)%N ->
  (forall t, T_ i j <= t -> t <= T_ i j.+1 -> sup_le (f (X t) t - c) w) ->
  sup_le (U (T_ i j.+1) - U (T_ i j) - h *: c) (h * w).
Proof.
move=> iN jM H l; move: (T_ i j) (T_ i j.+1) (T_S i j) h_gt0 (T_ge0 i j) (T_le iN jM) H => s s' <- hp s0 sN H.
rewrite addmxE addmxE oppmxE oppmxE scalemxE.
apply: (@near_slope (fun t => U t l 0) (fun t => f (X t) t l 0)).
- by move=> t t1 t2; apply: HX; [exact: le_trans t1 | exact: le_trans t2 _].
- by move=> t t1 t2; have := H t t1 t2 l; rewrite !(addmxE, oppmxE).
- by rewrite -subr_ge0 ltW.
Qed.

Lemma drift_left i j : (i < N)%N -> (j < M)%N ->
  sup_le (U (T_ i j.+1) - U (T_ i j) - h *: f (X (T_ i j)) (T_ i j)) (h * omega).
Proof.
move=> iN jM; apply: drift_step => // t t1 t2; apply: Hw => //; first exact: T_ge0.
  by apply: le_trans t2 _; apply: T_le.
by rewrite -(T_S i j) ler_add2r.
Qed.

Lemma drift_mid i j : (i < N)%N -> (j < M)%N ->
  sup_le (U (T_ i j.+1) - U (T_ i j) - (h / 2%:R) *: (f (X (T_ i j)) (T_ i j) + f (X (T_ i j.+1)) (T_ i j.+1))) (h * omega).
Proof.
move=> iN jM; rewrite -scalerA; apply: drift_step => // t t1 t2.
set u := f _ (T_ i j); set v := f _ (T_ i j.+1).
have tN : t <= N%:R * delta by apply: le_trans t2 _; apply: T_le.
have H1 : sup_le (f (X t) t - u) omega.
  by apply: Hw => //; [exact: T_ge0 | rewrite -(T_S i j) ler_add2r].
have H2 : sup_le (f (X t) t - v) omega.
  have -> : f (X t) t - v = - (v - f (X t) t) by rewrite opprB.
  apply: sup_leN; apply: Hw => //; first exact: le_trans (T_ge0 i j) t1.
    exact: T_le.
  by rewrite -(T_S i j) ler_add2l ler_opp2.
have -> : f (X t) t - 2%:R^-1 *: (u + v) = 2%:R^-1 *: ((f (X t) t - u) + (f (X t) t - v)).
  by apply/colP=> l; rewrite !(addmxE, oppmxE, scalemxE); move: (f _ _ _ _) (u _ _) (v _ _) => p q r; rfield.
have -> : omega = 2%:R^-1 * (omega + omega) by rfield.
by apply: sup_leZ; [rewrite invr_ge0 ler0n | exact: sup_leD].
Qed.

(** One interval *)
Section Interval.
Variables (i : nat) (a b : 'cV[R]_m).
Hypothesis iN : (i < N)%N.
Hypothesis Ha : a = W (i.+1%:R * delta) - W (i%:R * delta).
Hypothesis Hb : sup_le (S *m b) beta.
Hypothesis He : forall s, 0 <= s -> s <= delta ->
  sup_le (S *m (W (i%:R * delta + s) - W (i%:R * delta) - eval_parabola s delta a b)) eta.
Let P t := eval_parabola t delta a b.
Let P' t := jacR (fun s => eval_parabola s delta a b) t.
Let F z t := f z (t + i%:R * delta) + S *m P' t.
Let D j := S *m (W (T_ i j) - W (i%:R * delta) - P (j%:R * h)).

Let dn : delta != 0. Proof. by rewrite gt_eqF. Qed.
Lemma D0 : D 0 = 0.
Proof. by rewrite /D T_0 subrr sub0r mul0r /P parab_start oppr0 mulmx0. Qed.
Lemma DM : D M = 0.
Proof. by rewrite /D T_M hM /P parab_end // Ha subrr mulmx0. Qed.
Lemma D_le j : (j <= M)%N -> sup_le (D j) eta.
Proof.
move=> jM; apply: He; first by rewrite mulr_ge0 ?ler0n // ltW // h_gt0.
by rewrite -hM ler_wpmul2r ?ler_nat // ltW // h_gt0.
Qed.
Lemma D_S j : D j.+1 - D j = S *m W (T_ i j.+1) - S *m W (T_ i j) - S *m (P (j%:R * h + h) - P (j%:R * h)).
Proof.
rewrite /D -!mulmxBr; congr (S *m _).
have -> : j.+1%:R * h = j%:R * h + h by rewrite -addn1 natrD mulrDl mul1r.
by apply/colP=> l; rewrite !(addmxE, oppmxE); rring.
Qed.

(** the error, corrected for the distance between the path and the parabola *)
Lemma shifted z j e : (j <= M)%N -> sup_le (z - X (T_ i j) + D j) e -> sup_le (f z (T_ i j) - f (X (T_ i j)) (T_ i j)) (L * (e + eta)).
Proof.
move=> jM H; apply: Lf.
have -> : z - X (T_ i j) = (z - X (T_ i j) + D j) - D j by rewrite addrK.
by apply: sup_leB => //; exact: D_le.
Qed.

Let rem := (sqrt 6%:R * (h / delta) ^+ 2) *: (S *m b).
Lemma rem_le : sup_le rem (sqrt 6%:R * beta / M%:R ^+ 2).
Proof.
have -> : sqrt 6%:R * beta / M%:R ^+ 2 = (sqrt 6%:R * (h / delta) ^+ 2) * beta.
  have mn : M%:R != 0 :> R by rewrite pnatr_eq0 -lt0n.
  have -> : h / delta = M%:R^-1 by rewrite /h mulrAC mulfV // mul1r.
  by rewrite exprVn mulrAC.
apply: sup_leZ => //; apply: mulr_ge0; last exact: exprn_even_ge0.
by apply/RleP; exact: sqrt_pos.
Qed.

Section EulerSub.
Variable z : nat -> 'cV[R]_d.
Hypothesis zS : forall j, (j < M)%N -> z j.+1 = z j + h *: F (z j) (j%:R * h).
Let E j := z j - X (T_ i j) + D j.

Lemma euler_sub j e : (j < M)%N -> sup_le (E j) e -> sup_le (E j.+1) ((1 + h * L) * e + h * (L * eta + omega) + sqrt 6%:R * beta / M%:R ^+ 2).
Proof.
move=> jM H.
have -> : E j.+1 = E j + h *: (f (z j) (T_ i j) - f (X (T_ i j)) (T_ i j)) -
    (U (T_ i j.+1) - U (T_ i j) - h *: f (X (T_ i j)) (T_ i j)) + rem.
  have ED : D j.+1 = D j + (S *m W (T_ i j.+1) - S *m W (T_ i j) - S *m (P (j%:R * h + h) - P (j%:R * h))) by rewrite -D_S addrC subrK.
  rewrite /E ED (zS jM) /F /P parab_euler // mulmxBr -!scalemxAr -/(P' _) /rem /U.
  have -> : j%:R * h + i%:R * delta = T_ i j by rewrite addrC.
  apply/colP=> l; rewrite !(addmxE, oppmxE, scalemxE).
  by move: (z j l 0) (f (z j) _ l 0) (f (X _) _ l 0) ((S *m P' _) l 0) (X _ l 0) (X _ l 0) (D j l 0) ((S *m W _) l 0) ((S *m W _) l 0) ((S *m b) l 0) (sqrt _ * _) => *; rring.
have hh := ltW h_gt0.
apply: sup_leD; last exact: rem_le.
apply: sup_le_trans (sup_leB (sup_leD H (sup_leZ hh (shifted (ltnW jM) H))) (drift_left iN jM)) _.
rewrite le_eqVlt; apply/orP; left; apply/eqP; rring.
Qed.
End EulerSub.

Section PecSub.
Variable x0 : 'cV[R]_d.
Let q := pec F h x0.
(** the point at which the slope of step j was evaluated *)
Let p j := if j is j'.+1 then (q j').1 + h *: (q j').2 else x0.
Let E j := (q j).1 - X (T_ i j) + D j.
Let Rj j := p j - X (T_ i j) + D j.

Lemma slopeE j : (q j).2 = f (p j) (T_ i j) + S *m P' (j%:R * h).
Proof.
have -> : T_ i j = j%:R * h + i%:R * delta by rewrite addrC.
case: j => [|j]; first by rewrite /q /p /= /F mul0r.
by rewrite /q pecS.
Qed.

Lemma pec_pred j e r : (j < M)%N -> sup_le (E j) e -> sup_le (Rj j) r ->
  sup_le (Rj j.+1) (e + h * (L * (r + eta)) + h * omega + sqrt 6%:R * beta / M%:R ^+ 2).
Proof.
move=> jM H HR.
have -> : Rj j.+1 = E j + h *: (f (p j) (T_ i j) - f (X (T_ i j)) (T_ i j)) -
    (U (T_ i j.+1) - U (T_ i j) - h *: f (X (T_ i j)) (T_ i j)) + rem.
  have ED : D j.+1 = D j + (S *m W (T_ i j.+1) - S *m W (T_ i j) - S *m (P (j%:R * h + h) - P (j%:R * h))) by rewrite -D_S addrC subrK.
  rewrite /E /Rj ED [p j.+1]/p slopeE /P parab_euler // mulmxBr -!scalemxAr -/(P' _) /rem /U.
  apply/colP=> l; rewrite !(addmxE, oppmxE, scalemxE).
  by move: ((q j).1 l 0) (f (p j) _ l 0) (f (X _) _ l 0) ((S *m P' _) l 0) (X _ l 0) (X _ l 0) (D j l 0) ((S *m W _) l 0) ((S *m W _) l 0) ((S *m b) l 0) (sqrt _ * _) => *; rring.
have hh := ltW h_gt0.
apply: sup_leD; last exact: rem_le.
exact: (sup_leB (sup_leD H (sup_leZ hh (shifted (ltnW jM) HR))) (drift_left iN jM)).
Qed.

Lemma pec_corr j e r r' : (j < M)%N -> sup_le (E j) e -> sup_le (Rj j) r -> sup_le (Rj j.+1) r' ->
  sup_le (E j.+1) (e + h / 2%:R * (L * (r + eta) + L * (r' + eta)) + h * omega).
Proof.
move=> jM H HR HR'.
have -> : E j.+1 = E j + (h / 2%:R) *: ((f (p j) (T_ i j) - f (X (T_ i j)) (T_ i j)) + (f (p j.+1) (T_ i j.+1) - f (X (T_ i j.+1)) (T_ i j.+1))) -
    (U (T_ i j.+1) - U (T_ i j) - (h / 2%:R) *: (f (X (T_ i j)) (T_ i j) + f (X (T_ i j.+1)) (T_ i j.+1))).
  have ED : D j.+1 = D j + (S *m W (T_ i j.+1) - S *m W (T_ i j) - S *m (P (j%:R * h + h) - P (j%:R * h))) by rewrite -D_S addrC subrK.
  have Eq : (q j.+1).1 = (q j).1 + (h / 2%:R) *: ((q j).2 + (q j.+1).2) by rewrite /q pecS.
  rewrite /E ED Eq !slopeE /P parab_trap // -scalemxAr mulmxDr -!/(P' _) /U.
  have -> : j.+1%:R * h = j%:R * h + h by rewrite -addn1 natrD mulrDl mul1r.
  apply/colP=> l; rewrite !(addmxE, oppmxE, scalemxE).
  by move: ((q j).1 l 0) (f (p j) _ l 0) (f (p j.+1) _ l 0) (f (X _) _ l 0) (f (X _) _ l 0) ((S *m P' _) l 0) ((S *m P' _) l 0) (X _ l 0) (X _ l 0) (D j l 0) ((S *m W _) l 0) ((S *m W _) l 0) (h / _) => *; rring.
have hh := ltW h_gt0.
have h2 : 0 <= h / 2%:R by rewrite divr_ge0 // ler0n.
exact: (sup_leB (sup_leD H (sup_leZ h2 (sup_leD (shifted (ltnW jM) HR) (shifted jM HR')))) (drift_mid iN jM)).
Qed.
End PecSub.
End Interval.

Variables (k : key g) (x0 : 'cV[R]_d).
Hypothesis X0 : X 0 = x0.
Hypothesis HW : forall i a b, (i < N)%N -> parabolas m (child (child k N i) 2 0) delta = (a, b) ->
  [/\ a = W (i.+1%:R * delta) - W (i%:R * delta), sup_le (S *m b) beta &
      forall s, 0 <= s -> s <= delta ->
        sup_le (S *m (W (i%:R * delta + s) - W (i%:R * delta) - eval_parabola s delta a b)) eta].
Let fs := to_stratonovich f (fun _ _ => S).

Lemma interval_field (int : key g -> 'cV[R]_d -> ('cV[R]_d -> R -> 'cV[R]_d) -> R -> 'cV[R]_d) i : (i < N)%N ->
  let x n := nth x0 (sde_solver fs.1 fs.2 (get_approx g m) delta int k x0 N).1.2 n in
  let: (a, b) := parabolas m (child (child k N i) 2 0) delta in
  x i.+1 = int (child (child k N i) 2 1) (x i)
    (fun z t => f z (t + i%:R * delta) + S *m jacR (fun s => eval_parabola s delta a b) t) delta.
Proof.
move=> iN x; pose r := sde_solver fs.1 fs.2 (get_approx g m) delta int k x0 N.
have [E1 E2] : nth (0, 0) r.2 i = parabolas m (child (child k N i) 2 0) delta /\
    x i.+1 = int (child (child k N i) 2 1) (x i) (fun z t => fs.1 z (t + i%:R * delta) +
      fs.2 z (t + i%:R * delta) *m jacR (fun s => eval_parabola s delta (nth (0, 0) r.2 i).1 (nth (0, 0) r.2 i).2) t) delta.
  exact: (@interval_ode g d m _ fs.1 fs.2 (get_approx g m) delta int k x0 N i (0, 0) iN).
rewrite E2 E1; case: (parabolas m _ delta) => a b; congr (int _ _ _ _).
apply: functional_extensionality => z; apply: functional_extensionality => t.
by rewrite (correction_additive f (fun _ => S) z (t + i%:R * delta)).2.
Qed.

Lemma start_state int : nth x0 (sde_solver fs.1 fs.2 (get_approx g m) delta int k x0 N).1.2 0 = x0.
Proof. by rewrite sde_solverE. Qed.

Let gam := sqrt 6%:R * beta / M%:R ^+ 2.

Section EulerRun.
Let x n := nth x0 (sde_solver fs.1 fs.2 (get_approx g m) delta (fun _ z F T => euler z F (T / M%:R) M) k x0 N).1.2 n.
Let c := eta + (omega + sqrt 6%:R * beta / (M%:R * delta)) / L.

Lemma euler_run n : (n <= N)%N -> sup_le (x n - X (n%:R * delta)) (c * ((1 + h * L) ^+ (n * M) - 1)).
Proof.
elim: n => [|n IH] nN.
  by rewrite /x start_state mul0r X0 subrr mul0n expr0 subrr mulr0; exact: sup_le0.
have P2 := interval_field (fun _ z F T => euler z F (T / M%:R) M) nN; cbv zeta in P2.
move: P2; case Eab: (parabolas m _ delta) => [a b]; have [Ha Hb He] := HW nN Eab; rewrite -/(x n.+1) -/(x n) -/h => Ex.
have [z [z0 zS zN]] := euler_recursion (fun z t => f z (t + n%:R * delta) + S *m jacR (fun s => eval_parabola s delta a b) t) h (x n).
pose D j := S *m (W (T_ n j) - W (n%:R * delta) - eval_parabola (j%:R * h) delta a b).
have I j : (j <= M)%N -> sup_le (z j - X (T_ n j) + D j) (c * ((1 + h * L) ^+ (n * M + j) - 1)).
  elim: j => [_|j IHj jM].
    by rewrite /D (@D0 n a b) addr0 z0 T_0 addn0; apply: IH; exact: ltnW.
  have := @euler_sub n a b nN Hb He z (fun j _ => zS j) j _ jM (IHj (ltnW jM)); congr sup_le.
  have nz : M%:R <> 0 :> R by apply/eqP; rewrite pnatr_eq0 -lt0n.
  have Ln : L <> 0 by apply/eqP; rewrite gt_eqF. have dn : delta <> 0 by apply/eqP; rewrite gt_eqF.
  rewrite addnS [(1 + h * L) ^+ _.+1]exprS; move: ((1 + h * L) ^+ (n * M + j)) => q; rewrite /c /h.
  move: (sqrt _) (M%:R : R) nz => s6 Mr nz; toR; field.
  by [].
have := I M (leqnn M); rewrite /D (@DM n a b Ha) addr0 T_M.
by rewrite mulSn addnC Ex zN.
Qed.
End EulerRun.

Section PecRun.
Let x n := nth x0 (sde_solver fs.1 fs.2 (get_approx g m) delta (fun _ z F T => (pec F (T / M%:R) z M).1) k x0 N).1.2 n.
Let c := eta + omega / L + gam.
Let rho := 1 + h * L + (h * L) ^+ 2 / 2%:R.
Hypothesis beta0 : 0 <= beta.
Hypothesis c0 : 0 <= c.

Lemma pec_run n : (n <= N)%N -> sup_le (x n - X (n%:R * delta)) (c * (rho ^+ (n * M) - 1)).
Proof.
have hh := ltW h_gt0; have LL := ltW L0.
have g0 : 0 <= gam.
  by rewrite /gam; apply: divr_ge0; [apply: mulr_ge0 => //; apply/RleP; exact: sqrt_pos | apply: exprn_ge0; exact: ler0n].
have r1 : 1 <= rho by rewrite /rho -addrA ler_addl; nonneg.
elim: n => [|n IH] nN.
  by rewrite /x start_state mul0r X0 subrr mul0n expr0 subrr mulr0; exact: sup_le0.
have P2 := interval_field (fun _ z F T => (pec F (T / M%:R) z M).1) nN; cbv zeta in P2.
move: P2; case Eab: (parabolas m _ delta) => [a b]; have [Ha Hb He] := HW nN Eab; rewrite -/(x n.+1) -/(x n) -/h => Ex.
pose F z t := f z (t + n%:R * delta) + S *m jacR (fun s => eval_parabola s delta a b) t.
pose D j := S *m (W (T_ n j) - W (n%:R * delta) - eval_parabola (j%:R * h) delta a b).
pose q := pec F h (x n).
pose p j := if j is j'.+1 then (q j').1 + h *: (q j').2 else x n.
pose e j := c * (rho ^+ (n * M + j) - 1).
have eS j : e j.+1 = rho * e j + (rho - 1) * c by rewrite /e addnS exprS; move: (rho ^+ _) => u; rring.
have e0 j : 0 <= e j by rewrite /e mulr_ge0 // subr_ge0 exprn_ege1.
have I j : (j <= M)%N -> sup_le ((q j).1 - X (T_ n j) + D j) (e j) /\ sup_le (p j - X (T_ n j) + D j) (e j + gam).
  elim: j => [_|j IHj jM].
    have X1 : sup_le (x n - X (T_ n 0) + D 0%N) (e 0%N).
      by rewrite /D (@D0 n a b) addr0 T_0 /e addn0; apply: IH; exact: ltnW.
    by split=> //; apply: sup_le_trans X1 _; rewrite ler_addl.
  have [I1 I2] := IHj (ltnW jM).
  have H1 := @pec_pred n a b nN Hb He (x n) j _ _ jM I1 I2.
  have H2 := @pec_corr n a b nN He (x n) j _ _ _ jM I1 I2 H1.
  have Ln : L <> 0 by apply/eqP; rewrite gt_eqF.
  have Ec : c * L = eta * L + omega + gam * L by rewrite /c; move: gam => ga; toR; field.
  split.
    apply: sup_le_trans H2 _; rewrite -/gam le_eqVlt; apply/orP; left; apply/eqP.
    rewrite eS; have -> : (rho - 1) * c = h * (c * L) + (h * L) * h * (c * L) / 2%:R by rewrite /rho; rfield.
    by rewrite Ec /rho; move: gam (e j) => ga ej; rfield.
  apply: sup_le_trans H1 _; rewrite -/gam eS -subr_ge0.
  have -> : rho * e j + (rho - 1) * c + gam - (e j + h * (L * (e j + gam + eta)) + h * omega + gam) =
     (h * L) ^+ 2 / 2%:R * (e j + c) + h * (c * L - (eta * L + omega + gam * L)).
    by rewrite /rho; move: gam (e j) => ga ej; rfield.
  by rewrite Ec subrr mulr0 addr0; have := e0 j; move=> ej; nonneg.
have [I1 _] := I M (leqnn M).
by move: I1; rewrite /D (@DM n a b Ha) addr0 T_M /e mulSn addnC /q -Ex.
Qed.
End PecRun.
End Path.

(** ** Final forms *)
Lemma exp_ge2 (x : R) : 0 <= x -> 1 + x + x ^+ 2 / 2%:R <= exp x.
Proof.
move=> x0.
have D1 : forall t : R, 0 <= t -> t <= x -> (1 + t)%Re <= exp t.
  apply: (@le_by_deriv (fun t => 1 + t)%Re exp (fun _ => 1%Re) exp 0 x).
  - by move=> t _ _; auto_derive => //; ring.
  - by move=> t _ _; auto_derive => //; ring.
  - by move=> t /RleP t0 _; apply/RleP; move: t0; toR => t0; have := exp_ineq1_le t; have := exp_pos t; lra.
  - by rewrite exp_0; apply/RleP; toR; lra.
have := @le_by_deriv (fun t => 1 + t + t * t / 2)%Re exp (fun t => 1 + t)%Re exp 0 x.
have A1 : forall t : R, 0 <= t -> t <= x -> is_derive (fun t => 1 + t + t * t / 2)%Re t (1 + t)%Re.
  by move=> t _ _; auto_derive => //; field.
have A2 : forall t : R, 0 <= t -> t <= x -> is_derive exp t (exp t).
  by move=> t _ _; auto_derive => //; ring.
have A3 : (1 + 0 + 0 * 0 / 2)%Re <= exp 0 by rewrite exp_0; apply/RleP; lra.
move=> /(_ A1 A2 D1 A3 x x0 (lexx x)) /RleP H; apply/RleP; move: H; toR; lra.
Qed.

Lemma expr_exp (x y : R) (N : nat) : 0 <= x -> x <= exp y -> x ^+ N <= exp (N%:R * y).
Proof.
move=> x0 xy; elim: N => [|n IH]; first by rewrite expr0 mul0r exp_0.
have -> : exp (n.+1%:R * y) = exp y * exp (n%:R * y).
  by rewrite -[n.+1]addn1 natrD mulrDl mul1r addrC; exact: exp_plus.
by rewrite exprS; apply: ler_pmul => //; exact: exprn_ge0.
Qed.

Section Final.
Variables (g : prng) (d m : nat) (f : 'cV[R]_d -> R -> 'cV[R]_d) (S : 'M[R]_(d, m)) (L delta : R) (M N : nat).
Variables (W : R -> 'cV[R]_m) (X : R -> 'cV[R]_d) (eta omega beta : R) (k : key g) (lp : lapack) (sp : R) (sq : bool).
Let fs := to_stratonovich f (fun _ _ => S).
Hypotheses (dl0 : 0 < delta) (M0 : (0 < M)%N) (L0 : 0 < L) (Lf : lipschitz f L).
Hypotheses (eta0 : 0 <= eta) (om0 : 0 <= omega) (be0 : 0 <= beta).
Hypothesis HX : solves_additive f S (N%:R * delta) W X.
Hypothesis HW : forall i a b, (i < N)%N -> parabolas m (child (child k N i) 2 0) delta = (a, b) ->
  [/\ a = W (i.+1%:R * delta) - W (i%:R * delta), sup_le (S *m b) beta &
      forall s, 0 <= s -> s <= delta ->
        sup_le (S *m (W (i%:R * delta + s) - W (i%:R * delta) - eval_parabola s delta a b)) eta].
Hypothesis Hw : forall s t, 0 <= s -> s <= t -> t <= N%:R * delta -> t - s <= delta / M%:R ->
  sup_le (f (X t) t - f (X s) s) omega.

Lemma path_euler n : (n <= N)%N ->
  sup_le (nth (X 0) (sde_solver fs.1 fs.2 (get_approx g m) delta (fun _ z F T => euler z F (T / M%:R) M) k (X 0) N).1.2 n - X (n%:R * delta))
    ((eta + (omega + sqrt 6%:R * beta / (M%:R * delta)) / L) * (exp (L * (n%:R * delta)) - 1)).
Proof.
move=> nN; apply: sup_le_trans (euler_run dl0 M0 L0 Lf HX Hw erefl HW nN) _.
have mp : 0 < M%:R :> R by rewrite ltr0n.
have s6 : 0 <= sqrt 6%:R by apply/RleP; exact: sqrt_pos.
have dd := ltW dl0; have LL := ltW L0; have h0 := ltW (divr_gt0 dl0 mp).
apply: ler_wpmul2l; first by nonneg.
rewrite ler_add2r; apply: le_trans (pow_le_exp (n * M) h0 LL) _.
by rewrite natrM -mulrA [M%:R * _]mulrC divfK ?gt_eqF.
Qed.

Hypotheses (d0 : (0 < d)%N) (sp0 : sp != 0).

Lemma ekf_run_pec' (drift : 'cV[R]_d -> R -> 'cV[R]_d) (sigma : 'cV[R]_d -> R -> 'M[R]_(d, m)) x0 n : (n <= N)%N ->
  nth (Val x0) (sde_solver drift sigma (get_approx g m) delta (fun _ (x : res 'cV[R]_d) F T => let h := T / M%:R in
    let! x := x in ekf0 lp (None : option (key g)) x F h M sq (a_prior (ioup 0 sp 1 h d)) None) k (Val x0) N).1.2 n =
  Val (nth x0 (sde_solver drift sigma (get_approx g m) delta (fun _ z F T => (pec F (T / M%:R) z M).1) k x0 N).1.2 n).
Proof.
set ekf_int := fun _ (x : res 'cV[R]_d) F T => let h := _ in _; set pec_int := fun _ z F T => (pec F _ z M).1.
elim: n => [|n IH] nN; first by rewrite !sde_solverE.
set r1 := sde_solver _ _ _ _ ekf_int _ _ _; set r2 := sde_solver _ _ _ _ pec_int _ _ _.
have [E1 E2] : nth (0, 0) r1.2 n = parabolas m (child (child k N n) 2 0) delta /\
    nth (Val x0) r1.1.2 n.+1 = ekf_int (child (child k N n) 2 1) (nth (Val x0) r1.1.2 n) (fun z t => drift z (t + n%:R * delta) +
      sigma z (t + n%:R * delta) *m jacR (fun s => eval_parabola s delta (nth (0, 0) r1.2 n).1 (nth (0, 0) r1.2 n).2) t) delta.
  exact: (@interval_ode g d m _ drift sigma (get_approx g m) delta ekf_int k (Val x0) N n (0, 0) nN).
have [E3 E4] : nth (0, 0) r2.2 n = parabolas m (child (child k N n) 2 0) delta /\
    nth x0 r2.1.2 n.+1 = pec_int (child (child k N n) 2 1) (nth x0 r2.1.2 n) (fun z t => drift z (t + n%:R * delta) +
      sigma z (t + n%:R * delta) *m jacR (fun s => eval_parabola s delta (nth (0, 0) r2.2 n).1 (nth (0, 0) r2.2 n).2) t) delta.
  exact: (@interval_ode g d m _ drift sigma (get_approx g m) delta pec_int k x0 N n (0, 0) nN).
rewrite E2 E4 E1 E3 /r1 IH ?(ltnW nN) // -/r2 /ekf_int rbind_val /pec_int.
have hm : 0 < delta / M%:R by rewrite divr_gt0 // ltr0n.
by rewrite (@ekf0_pec lp d _ _ _ d0 hm sp0 g).
Qed.

Lemma path_ekf0 n : (n <= N)%N ->
  exists x, nth (Val (X 0)) (sde_solver fs.1 fs.2 (get_approx g m) delta (fun _ (x : res 'cV[R]_d) F T => let h := T / M%:R in
    let! x := x in ekf0 lp (None : option (key g)) x F h M sq (a_prior (ioup 0 sp 1 h d)) None) k (Val (X 0)) N).1.2 n = Val x /\
  sup_le (x - X (n%:R * delta))
    ((eta + omega / L + sqrt 6%:R * beta / M%:R ^+ 2) * (exp (L * (n%:R * delta)) - 1)).
Proof.
move=> nN; rewrite ekf_run_pec' //; eexists; split; first by reflexivity.
have mp : 0 < M%:R :> R by rewrite ltr0n.
have s6 : 0 <= sqrt 6%:R by apply/RleP; exact: sqrt_pos.
have dd := ltW dl0; have LL := ltW L0; have h0 := ltW (divr_gt0 dl0 mp).
have c0 : 0 <= eta + omega / L + sqrt 6%:R * beta / M%:R ^+ 2 by nonneg.
apply: sup_le_trans (pec_run dl0 M0 L0 Lf HX Hw erefl HW be0 c0 nN) _.
apply: ler_wpmul2l => //; rewrite ler_add2r.
have hL : 0 <= delta / M%:R * L by nonneg.
have r0 : 0 <= 1 + delta / M%:R * L + (delta / M%:R * L) ^+ 2 / 2%:R by nonneg.
apply: le_trans (expr_exp (n * M) r0 (exp_ge2 hL)) _.
have -> // : (n * M)%:R * (delta / M%:R * L) = L * (n%:R * delta).
rewrite natrM.
have mn : M%:R <> 0 :> R by apply/eqP; rewrite gt_eqF.
by move: (n%:R : R) (M%:R : R) mn => u v mn; toR; field.
Qed.
End Final.
