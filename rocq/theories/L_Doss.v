(** The driver on equations with an explicit solution. *)
From Coq Require Import Reals Lra FunctionalExtensionality Epsilon.
From Coquelicot Require Import Coquelicot.
From mathcomp Require Import all_ssreflect all_algebra mxtens.
From Verif Require Import Rstruct Base Linalg Calc Prob Spec Spec3 Spec6 M_Foster L_Foster M_SdeSolver L_SdeSolver
  M_Euler L_Euler M_ItoStrat L_ItoStrat L_Pathwise L_Gronwall L_Linear L_Gbm L_Strong.

Set Implicit Arguments.
Unset Strict Implicit.
Unset Printing Implicit Defensive.
Import Order.TTheory GRing.Theory Num.Theory.
Local Open Scope ring_scope.

(** ** Slopes of the parabola *)
Lemma tv_ge0 m (a b : 'cV[R]_m) : 0 <= tv a b.
Proof. by apply: sumr_ge0 => l _; rewrite addr_ge0 // mulr_ge0 // ltW // sqrt6_gt0. Qed.

Lemma slope_le m (T t : R) (a b : 'cV[R]_m) l : 0 < T -> 0 <= t -> t <= T ->
  `|jacR (fun s => eval_parabola s T a b) t l 0| <= T^-1 * (`|a l 0| + sqrt 6%:R * `|b l 0|).
Proof.
move=> T0 t0 tT; have Tn : T != 0 by rewrite gt_eqF.
have [_ _ -> _ _] := parab_path t a b l Tn.
rewrite scalemxE addmxE scalemxE normrM gtr0_norm ?invr_gt0 //.
apply: ler_wpmul2l; first by rewrite invr_ge0 ltW.
apply: le_trans (ler_norm_add _ _) _; rewrite ler_add2l -mulrA normrM gtr0_norm ?sqrt6_gt0 //.
apply: ler_wpmul2l; first exact: ltW sqrt6_gt0.
rewrite normrM -[X in _ <= X]mul1r; apply: ler_wpmul2r => //.
have u0 : 0 <= t / T by rewrite divr_ge0 // ltW.
have u1 : t / T <= 1 by rewrite ler_pdivr_mulr // mul1r.
rewrite ler_norml; move: u0 u1; move: (t / T) => u /RleP u0 /RleP u1.
by apply/andP; split; apply/RleP; move: u0 u1; toR; lra.
Qed.

Lemma deriv_shiftl (q : R -> R) (c t l : R) : is_derive q (c + t) l -> is_derive (fun r : R => q (c + r)) t l.
Proof.
move=> D; have D4 : is_derive (fun s => c + s)%Re t 1%Re by auto_derive.
have := @is_derive_comp _ R_NormedModule q (fun s => c + s)%Re t _ 1%Re D D4.
by rewrite /scal /= /mult /= Rmult_1_l.
Qed.

Lemma deriv_shiftr (q : R -> R) (c t l : R) : is_derive q t l -> is_derive (fun r : R => q (r - c)) (c + t) l.
Proof.
move=> D; have E : (c + t - c)%Re = t by ring.
have D4 : is_derive (fun s => s - c)%Re (c + t) 1%Re by auto_derive => //; ring.
have D' : is_derive q ((c + t) - c)%Re l by rewrite E.
have := @is_derive_comp _ R_NormedModule q (fun s => s - c)%Re (c + t) _ 1%Re D' D4.
by rewrite /scal /= /mult /= Rmult_1_l.
Qed.

Section Run.
Variables (g : prng) (d m : nat) (bm : path_approx g m) (ca cb : coeffs bm -> 'cV[R]_m).
Variables (f : 'cV[R]_d -> R -> 'cV[R]_d) (s : 'cV[R]_d -> R -> 'M[R]_(d, m)) (L K delta : R) (N : nat).
Variables (X : R -> 'cV[R]_m -> 'cV[R]_d) (k : key g) (c0 : coeffs bm).
Variable (int : key g -> 'cV[R]_d -> ('cV[R]_d -> R -> 'cV[R]_d) -> R -> 'cV[R]_d).
Hypotheses (dl0 : 0 < delta) (L0 : 0 <= L) (K0 : 0 <= K) (Lf : lipschitz f L) (Ls : lipschitz_mx s K).
Hypothesis Hbm : forall t c, eval_fn t delta c = eval_parabola t delta (ca c) (cb c).
Hypothesis HX : resolves f s (N%:R * delta) X.
Let run := sde_solver f s bm delta int k (X 0 0) N.
Let x n := nth (X 0 0) run.1.2 n.
Let c n := nth c0 run.2 n.
Let W n := \sum_(0 <= j < n) ca (c j).
Let lam n := L * delta + K * tv (ca (c n)) (cb (c n)).
Let F n (z : 'cV[R]_d) t := f z (t + n%:R * delta) + s z (t + n%:R * delta) *m jacR (fun r => eval_fn r delta (c n)) t.
(* the exact path on interval n *)
Let Y n t := X (n%:R * delta + t) (W n + eval_parabola t delta (ca (c n)) (cb (c n))).

Let dn : delta != 0. Proof. by rewrite gt_eqF. Qed.

Lemma F_lip n e z z' t : 0 <= e -> 0 <= t -> t <= delta -> sup_le (z - z') e ->
  sup_le (F n z t - F n z' t) (lam n / delta * e).
Proof.
move=> e0 t0 td He i.
have -> : F n z t - F n z' t = (f z (t + n%:R * delta) - f z' (t + n%:R * delta))
   + (s z (t + n%:R * delta) - s z' (t + n%:R * delta)) *m jacR (fun r => eval_fn r delta (c n)) t.
  by rewrite /F mulmxBl opprD addrACA.
have -> : lam n / delta * e = L * e + (K * e) * (delta^-1 * tv (ca (c n)) (cb (c n))).
  by rewrite /lam mulrDl mulfK // [LHS]mulrDl; congr (_ + _); rewrite -!mulrA; congr (_ * _); rewrite mulrA mulrC [X in _ * X]mulrC.
rewrite addmxE; apply: le_trans (ler_norm_add _ _) _; apply: ler_add; first exact: Lf.
rewrite mulmxE; apply: le_trans (ler_norm_sum _ _ _) _.
rewrite /tv !mulr_sumr; apply: ler_sum => l _; rewrite normrM.
apply: ler_pmul => //; first by rewrite submxE; exact: Ls.
have -> : jacR (fun r => eval_fn r delta (c n)) t = jacR (fun r => eval_parabola r delta (ca (c n)) (cb (c n))) t.
  by congr jacR; apply: functional_extensionality => r; exact: Hbm.
exact: slope_le.
Qed.

Lemma Y_start n : Y n 0 = X (n%:R * delta) (W n).
Proof. by rewrite /Y addr0 parab_start addr0. Qed.
Lemma Y_end n : Y n delta = X (n.+1%:R * delta) (W n.+1).
Proof.
rewrite /Y parab_end // /W big_nat_recr //=; congr (X _ _).
by rewrite -(natr1' n) mulrDl mul1r.
Qed.

Lemma Y_deriv n : (n < N)%N -> deriv_on delta (Y n) (fun t => F n (Y n t) t).
Proof.
move=> nN t i t0 td.
pose V r := W n + eval_parabola (r - n%:R * delta) delta (ca (c n)) (cb (c n)).
pose V' := jacR (fun r => eval_fn r delta (c n)) t.
have T0 : 0 <= n%:R * delta + t by rewrite addr_ge0 // mulr_ge0 ?ler0n // ltW.
have TT : n%:R * delta + t <= N%:R * delta.
  by apply: le_trans (_ : n.+1%:R * delta <= _); [rewrite -(natr1' n) mulrDl mul1r ler_add2l | rewrite ler_wpmul2r ?ler_nat // ltW].
have DV : mx_deriv V (n%:R * delta + t) V'.
  move=> l j; rewrite ord1 /V' (_ : (fun r => eval_fn r delta (c n)) = (fun r => eval_parabola r delta (ca (c n)) (cb (c n)))); last first.
    by apply: functional_extensionality => r; exact: Hbm.
  have D1 := @eval_parabola_deriv m delta t (ca (c n)) (cb (c n)) dn l 0.
  have D3 := @deriv_shiftr _ (n%:R * delta) t _ D1.
  have := is_derive_plus _ _ _ _ _ (is_derive_const (W n l 0) (n%:R * delta + t)) D3.
  rewrite /plus /= /zero /= Rplus_0_l; apply: is_derive_ext => r.
  by rewrite /V addmxE.
have := @deriv_shiftl _ (n%:R * delta) t _ (HX T0 TT DV i 0).
have E r : X (n%:R * delta + r) (V (n%:R * delta + r)) = Y n r.
  by rewrite /V /Y; congr (X _ (_ + eval_parabola _ _ _ _)); rewrite addrC addKr.
rewrite E /F /V' [t + _]addrC; apply: is_derive_ext => r; by rewrite E.
Qed.

(** Any integrator: its error accumulates, amplified by the Lipschitz constants. *)
Section Any.
Variable eps : nat -> R.
Hypothesis eps0 : forall n, 0 <= eps n.
Hypothesis Hint : forall n, (n < N)%N -> exists y : R -> 'cV[R]_d,
  [/\ y 0 = x n, deriv_on delta y (fun t => F n (y t) t) & sup_le (x n.+1 - y delta) (eps n)].

Lemma run_interval n e : (n < N)%N -> 0 <= e -> sup_le (x n - X (n%:R * delta) (W n)) e ->
  sup_le (x n.+1 - X (n.+1%:R * delta) (W n.+1)) (e * exp (lam n) + eps n).
Proof.
move=> nN e0 He; have [y [y0 Dy Hy]] := Hint nN.
have l0 : 0 <= lam n / delta by rewrite divr_ge0 ?addr_ge0 ?mulr_ge0 ?tv_ge0 // ltW.
have G := @gronwall d (fun t => y t - Y n t) (fun t => F n (y t) t - F n (Y n t) t) delta (lam n / delta) e 0
  (ltW dl0) l0 e0 (lexx _).
have := G _ _ _ delta (ltW dl0) (lexx _); rewrite addr0 subr0 divfK // Y_end => H.
have -> : x n.+1 - X (n.+1%:R * delta) (W n.+1) = (y delta - X (n.+1%:R * delta) (W n.+1)) + (x n.+1 - y delta).
  by rewrite [RHS]addrC addrA subrK.
apply: sup_leD => //; apply: H.
- move=> t i t0 td; have := is_derive_minus _ _ _ _ _ (Dy t i t0 td) (Y_deriv nN i t0 td).
  rewrite /minus /plus /opp /= submxE; apply: is_derive_ext => r; by rewrite submxE.
- move=> t e' t0 td; rewrite addr0 => H i.
  have e'0 : 0 <= e' by apply: le_trans (H i).
  exact: F_lip.
by rewrite y0 Y_start.
Qed.

Lemma run_start : x 0%N = X 0 0.
Proof.
by rewrite /x /run sde_solverE.
Qed.

Lemma run_any n : (n <= N)%N -> sup_le (x n - X (n%:R * delta) (W n))
  (\sum_(0 <= j < n) eps j * exp (\sum_(j.+1 <= l < n) lam l)).
Proof.
elim: n => [|n IH] nN.
  by rewrite run_start /W mul0r !big_geq // subrr; exact: sup_le0.
have e0 : 0 <= \sum_(0 <= j < n) eps j * exp (\sum_(j.+1 <= l < n) lam l).
  by apply: sumr_ge0 => j _; apply: mulr_ge0 => //; apply/RleP; left; exact: exp_pos.
apply: sup_le_trans (run_interval nN e0 (IH (ltnW nN))) _.
rewrite [in X in _ <= X]big_nat_recr //= [\sum_(n.+1 <= l < n.+1) _]big_geq // expR0 mulr1 ler_add2r mulr_suml.
apply: eq_ler; rewrite big_nat [in RHS]big_nat; apply: eq_bigr => j /andP[_ jn].
by rewrite -mulrA -expRD big_nat_recr.
Qed.
End Any.

Lemma run_next n : (n < N)%N -> exists key, x n.+1 = int key (x n) (F n) delta.
Proof.
move=> nN.
have [_ E] : c n = get_coeffs bm (child (child k N n) 2 0) delta /\ x n.+1 = int (child (child k N n) 2 1) (x n) (F n) delta.
  exact: (@interval_ode g d m _ f s bm delta int k (X 0 0) N n c0 nN).
by exists (child (child k N n) 2 1).
Qed.

(** M Euler steps per interval. *)
Section Euler.
Variables (M : nat) (B : nat -> R).
Hypothesis M0 : (0 < M)%N.
Hypothesis Hint : forall key z G, int key z G delta = euler z G (delta / M%:R) M.
Hypothesis HB : forall n, (n < N)%N -> exists y1 y2 : R -> 'cV[R]_d,
  [/\ deriv_on delta (Y n) y1, deriv_on delta y1 y2 &
      forall t : R, 0 <= t -> t <= delta -> sup_le (y2 t) (B n)].
Let h := delta / M%:R.
Let h0 : 0 < h. Proof. by rewrite divr_gt0 // ltr0n. Qed.
Let MN : (M%:R : R) != 0. Proof. by rewrite pnatr_eq0 -lt0n. Qed.
Let hM : M%:R * h = delta. Proof. by rewrite /h mulrC divfK. Qed.

Let grid j : (j <= M)%N -> 0 <= j%:R * h /\ j%:R * h <= delta.
Proof.
move=> jM; split; first by apply: mulr_ge0; [exact: ler0n | exact: ltW].
by rewrite -[X in _ <= X]hM; apply: ler_wpmul2r; [exact: ltW | rewrite ler_nat].
Qed.

Lemma Y_local n j : (n < N)%N -> (j < M)%N ->
  sup_le (Y n (j.+1%:R * h) - Y n (j%:R * h) - h *: F n (Y n (j%:R * h)) (j%:R * h)) (h ^+ 2 * B n / 2%:R).
Proof.
move=> nN jM i; have [a0 aN] := grid (ltnW jM); have [b0 bN] := grid jM.
have E : j.+1%:R * h - j%:R * h = h by rewrite -(natr1' j) mulrDl mul1r addrC addKr.
have ab : j%:R * h <= j.+1%:R * h by rewrite -subr_ge0 E ltW.
have [y1 [y2 [D1 D2 HB2]]] := HB nN.
have E1 : F n (Y n (j%:R * h)) (j%:R * h) i 0 = y1 (j%:R * h) i 0.
  by rewrite -(is_derive_unique _ _ _ (D1 _ i a0 aN)) -(is_derive_unique _ _ _ (Y_deriv nN i a0 aN)).
have := @taylor1 (fun t => Y n t i 0) (fun t => y1 t i 0) (fun t => y2 t i 0)
   (j%:R * h) (j.+1%:R * h) (B n) _ _ _ (j.+1%:R * h) ab (lexx _).
rewrite !submxE scalemxE E1 E (mulrC (h ^+ 2)); apply=> t t1 t2.
- by apply: D1; [apply: le_trans t1 | apply: le_trans bN].
- by apply: D2; [apply: le_trans t1 | apply: le_trans bN].
by apply: HB2; [apply: le_trans t1 | apply: le_trans bN].
Qed.

Lemma euler_sub n e j : (n < N)%N -> 0 <= e -> 0 <= B n -> sup_le (x n - X (n%:R * delta) (W n)) e -> (j <= M)%N ->
  sup_le (eseq (F n) h (x n) j - Y n (j%:R * h))
    ((e + j%:R * (h ^+ 2 * B n / 2%:R)) * (1 + h * (lam n / delta)) ^+ j).
Proof.
move=> nN e0 B0 He; pose q := 1 + h * (lam n / delta).
have l0 : 0 <= lam n / delta by rewrite divr_ge0 ?addr_ge0 ?mulr_ge0 ?tv_ge0 // ltW.
have q1 : 1 <= q by rewrite /q ler_addl mulr_ge0 // ltW.
pose r := h ^+ 2 * B n / 2%:R; have r0 : 0 <= r by rewrite /r !mulr_ge0 ?invr_ge0 ?ler0n // ltW.
elim: j => [|j IH] jM; first by rewrite mul0r mul0r addr0 expr0 mulr1 Y_start.
have {}IH := IH (ltnW jM); rewrite -/q -/r in IH *.
have [a0 aN] := grid (ltnW jM).
set u := (e + j%:R * r) * q ^+ j in IH.
have u0 : 0 <= u by apply: mulr_ge0; [rewrite addr_ge0 // mulr_ge0 ?ler0n | apply: exprn_ge0; exact: le_trans ler01 q1].
set z := eseq (F n) h (x n) j in IH *; set t := j%:R * h in IH a0 aN *.
have -> : eseq (F n) h (x n) j.+1 - Y n (j.+1%:R * h) =
   (z - Y n t) + h *: (F n z t - F n (Y n t) t) - (Y n (j.+1%:R * h) - Y n t - h *: F n (Y n t) t).
  rewrite [eseq _ _ _ _]/= -/z -/t /estep scalerBr.
  apply/colP=> i; rewrite !(addmxE, oppmxE, scalemxE).
  by move: (F n z t i 0) (F n (Y n t) t i 0) (Y n _ i 0) (Y n t i 0) (z i 0) => p1 p2 p3 p4 p5; rring.
apply: sup_le_trans (_ : u + h * (lam n / delta * u) + r <= _); last first.
  have -> : u + h * (lam n / delta * u) = (e + j%:R * r) * q ^+ j.+1 by rewrite mulrA -[X in X + _]mul1r -mulrDl -/q exprS mulrCA.
  rewrite -(natr1' j) mulrDl mul1r addrA [X in _ <= X]mulrDl ler_add2l -[X in X <= _]mulr1.
  by apply: ler_wpmul2l => //; exact: exprn_ege1.
apply: sup_leB; last exact: Y_local.
by apply: sup_leD => //; apply: sup_leZ; [exact: ltW | exact: F_lip].
Qed.

Lemma euler_int n e : (n < N)%N -> 0 <= e -> 0 <= B n -> sup_le (x n - X (n%:R * delta) (W n)) e ->
  sup_le (x n.+1 - X (n.+1%:R * delta) (W n.+1)) ((e + delta ^+ 2 * B n / (2%:R * M%:R)) * exp (lam n)).
Proof.
move=> nN e0 B0 He; have [key ->] := run_next nN; rewrite Hint eulerE -/h -Y_end -hM.
apply: sup_le_trans (euler_sub nN e0 B0 He (leqnn M)) _.
have l0 : 0 <= lam n / delta by rewrite divr_ge0 ?addr_ge0 ?mulr_ge0 ?tv_ge0 // ltW.
have E : M%:R * (h ^+ 2 * B n / 2%:R) = (M%:R * h) ^+ 2 * B n / (2%:R * M%:R).
  by move/eqP: MN; move: (M%:R : R) (B n) h => u v w; toR => u0; apply: (_ : @eq R _ _); toR; field.
rewrite E; apply: ler_wpmul2l.
  by apply: addr_ge0 => //; rewrite hM; apply: divr_ge0; [rewrite mulr_ge0 // exprn_ge0 // ltW | rewrite mulr_ge0 // ler0n].
have E2 : lam n = M%:R * (h * (lam n / delta)) by rewrite mulrA hM mulrCA divff // mulr1.
rewrite [X in _ <= exp X]E2.
by apply: expr_exp; [apply: addr_ge0; [exact: ler01 | apply: mulr_ge0 => //; exact: ltW] | exact/RleP/exp_ineq1_le].
Qed.

Lemma run_euler n : (forall j, 0 <= B j) -> (n <= N)%N -> sup_le (x n - X (n%:R * delta) (W n))
  (delta ^+ 2 / (2%:R * M%:R) * \sum_(0 <= j < n) B j * exp (\sum_(j <= l < n) lam l)).
Proof.
move=> B0; elim: n => [|n IH] nN.
  by rewrite /x /run sde_solverE /W mul0r !big_geq // subrr mulr0; exact: sup_le0.
have e0 : 0 <= delta ^+ 2 / (2%:R * M%:R) * \sum_(0 <= j < n) B j * exp (\sum_(j <= l < n) lam l).
  apply: mulr_ge0; first by rewrite divr_ge0 ?mulr_ge0 ?exprn_ge0 ?ler0n // ltW.
  by apply: sumr_ge0 => j _; apply: mulr_ge0 => //; apply/RleP; left; exact: exp_pos.
apply: sup_le_trans (euler_int nN e0 (B0 n) (IH (ltnW nN))) _.
apply: eq_ler; rewrite big_nat_recr //= big_nat1 [RHS]mulrDr [LHS]mulrDl; congr (_ + _); last first.
  by rewrite [in RHS]mulrA; congr (_ * _); rewrite mulrAC.
rewrite -[LHS]mulrA; congr (_ * _); rewrite mulr_suml big_nat [in RHS]big_nat; apply: eq_bigr => j /andP[_ jn].
by rewrite -mulrA -expRD [in RHS]big_nat_recr //= ltnW.
Qed.
End Euler.
End Run.

(** An integrator that returns the exact value at time T when a solution exists and is unique. *)
Lemma run_exact (g : prng) d m (bm : path_approx g m) (ca cb : coeffs bm -> 'cV[R]_m)
  (f : 'cV[R]_d -> R -> 'cV[R]_d) (s : 'cV[R]_d -> R -> 'M[R]_(d, m)) (L K delta : R) (N : nat)
  (X : R -> 'cV[R]_m -> 'cV[R]_d) (k : key g) (c0 : coeffs bm)
  (int : key g -> 'cV[R]_d -> ('cV[R]_d -> R -> 'cV[R]_d) -> R -> 'cV[R]_d) :
  0 < delta -> 0 <= L -> 0 <= K -> lipschitz f L -> lipschitz_mx s K ->
  (forall t c, eval_fn t delta c = eval_parabola t delta (ca c) (cb c)) ->
  resolves f s (N%:R * delta) X ->
  let run := sde_solver f s bm delta int k (X 0 0) N in
  let x n := nth (X 0 0) run.1.2 n in let c n := nth c0 run.2 n in
  (forall n, (n < N)%N -> exists y : R -> 'cV[R]_d,
   [/\ y 0 = x n, y delta = x n.+1 & deriv_on delta y (fun t => f (y t) (t + n%:R * delta)
      + s (y t) (t + n%:R * delta) *m jacR (fun r => eval_fn r delta (c n)) t)]) ->
  forall n, (n <= N)%N -> x n = X (n%:R * delta) (\sum_(0 <= j < n) ca (c j)).
Proof.
move=> d0 L0 K0 Lf Ls Hbm HX run x c H n nN.
have := @run_any g d m bm ca cb f s L K delta N X k c0 int d0 L0 K0 Lf Ls Hbm HX (fun=> 0) (fun _ => lexx _) _ n nN.
rewrite [X in sup_le _ X]big1 => [A|j _]; last by rewrite mul0r.
apply/eqP; rewrite -subr_eq0; apply/eqP/colP => i; rewrite zeromxE.
apply/eqP; rewrite -normr_le0; apply: A => q qN.
have [y [y0 yd Dy]] := H q qN; exists y; split=> //.
by rewrite yd subrr; exact: sup_le0.
Qed.

Lemma doss_any (g : prng) d m (bm : path_approx g m) (ca cb : coeffs bm -> 'cV[R]_m)
  (f : 'cV[R]_d -> R -> 'cV[R]_d) (s : 'cV[R]_d -> R -> 'M[R]_(d, m)) (L K delta : R) (N : nat)
  (X : R -> 'cV[R]_m -> 'cV[R]_d) (k : key g) (c0 : coeffs bm)
  (int : key g -> 'cV[R]_d -> ('cV[R]_d -> R -> 'cV[R]_d) -> R -> 'cV[R]_d) (eps : nat -> R) :
  0 < delta -> 0 <= L -> 0 <= K -> lipschitz f L -> lipschitz_mx s K ->
  (forall t c, eval_fn t delta c = eval_parabola t delta (ca c) (cb c)) ->
  resolves f s (N%:R * delta) X ->
  let run := sde_solver f s bm delta int k (X 0 0) N in
  let x n := nth (X 0 0) run.1.2 n in let c n := nth c0 run.2 n in
  let W n := \sum_(0 <= j < n) ca (c j) in
  let lam n := L * delta + K * tv (ca (c n)) (cb (c n)) in
  (forall n, 0 <= eps n) ->
  (forall n, (n < N)%N -> exists y : R -> 'cV[R]_d,
   [/\ y 0 = x n, deriv_on delta y (fun t => f (y t) (t + n%:R * delta)
      + s (y t) (t + n%:R * delta) *m jacR (fun r => eval_fn r delta (c n)) t) &
      sup_le (x n.+1 - y delta) (eps n)]) ->
  forall n, (n <= N)%N -> sup_le (x n - X (n%:R * delta) (W n))
    (\sum_(0 <= j < n) eps j * exp (\sum_(j.+1 <= l < n) lam l)).
Proof.
move=> d0 L0 K0 Lf Ls Hbm HX run x c W lam e0 Hi n nN.
exact: (@run_any g d m bm ca cb f s L K delta N X k c0 int d0 L0 K0 Lf Ls Hbm HX eps e0 Hi n nN).
Qed.

Lemma doss_euler (g : prng) d m (bm : path_approx g m) (ca cb : coeffs bm -> 'cV[R]_m)
  (f : 'cV[R]_d -> R -> 'cV[R]_d) (s : 'cV[R]_d -> R -> 'M[R]_(d, m)) (L K delta : R) (N : nat)
  (X : R -> 'cV[R]_m -> 'cV[R]_d) (k : key g) (c0 : coeffs bm)
  (int : key g -> 'cV[R]_d -> ('cV[R]_d -> R -> 'cV[R]_d) -> R -> 'cV[R]_d) (M : nat) (B : nat -> R) :
  0 < delta -> 0 <= L -> 0 <= K -> lipschitz f L -> lipschitz_mx s K ->
  (forall t c, eval_fn t delta c = eval_parabola t delta (ca c) (cb c)) ->
  resolves f s (N%:R * delta) X ->
  let run := sde_solver f s bm delta int k (X 0 0) N in
  let x n := nth (X 0 0) run.1.2 n in let c n := nth c0 run.2 n in
  let W n := \sum_(0 <= j < n) ca (c j) in
  let lam n := L * delta + K * tv (ca (c n)) (cb (c n)) in
  (0 < M)%N -> (forall key z G, int key z G delta = euler z G (delta / M%:R) M) -> (forall n, 0 <= B n) ->
  (forall n, (n < N)%N -> exists y1 y2 : R -> 'cV[R]_d,
   [/\ deriv_on delta (fun t => X (n%:R * delta + t) (W n + eval_parabola t delta (ca (c n)) (cb (c n)))) y1,
      deriv_on delta y1 y2 & forall t : R, 0 <= t -> t <= delta -> sup_le (y2 t) (B n)]) ->
  forall n, (n <= N)%N -> sup_le (x n - X (n%:R * delta) (W n))
    (delta ^+ 2 / (2%:R * M%:R) * \sum_(0 <= j < n) B j * exp (\sum_(j <= l < n) lam l)).
Proof.
move=> d0 L0 K0 Lf Ls Hbm HX run x c W lam M0 Hi B0 HB n nN.
exact: (@run_euler g d m bm ca cb f s L K delta N X k c0 int d0 L0 K0 Lf Ls Hbm HX M B M0 Hi HB n B0 nN).
Qed.

(** ** dX = (sqrt(1 + X^2) + X/2) dt + sqrt(1 + X^2) dW (Ito), X = sinh(t + W) *)
Definition hyp (x : R) : R := sqrt (1 + x * x)%Re.
Definition hyp_drift (z : 'cV[R]_1) (_ : R) : 'cV[R]_1 := const_mx (hyp (z 0 0) + z 0 0 / 2%:R).
Definition hyp_sigma (z : 'cV[R]_1) (_ : R) : 'M[R]_(1, 1) := const_mx (hyp (z 0 0)).
Definition hyp_X (t : R) (w : 'cV[R]_1) : 'cV[R]_1 := const_mx (sinh (t + w 0 0)).
(** the value at T of a solution *)
Definition ode_sol (K : Type) d (_ : K) (z : 'cV[R]_d) (G : 'cV[R]_d -> R -> 'cV[R]_d) (T : R) : 'cV[R]_d :=
  epsilon (inhabits 0) (fun v => exists y, [/\ y 0 = z, y T = v & deriv_on T y (fun t => G (y t) t)]).

Lemma sqrt1_lip (x y : R) : (Rabs (sqrt (1 + x * x)%Re - sqrt (1 + y * y)%Re)%Re <= Rabs (x - y)%Re)%Re.
Proof.
have H u v : (sqrt (1 + u * u)%Re <= sqrt (1 + v * v)%Re + Rabs (u - v)%Re)%Re.
  have sv : (0 <= sqrt (1 + v * v)%Re)%Re := sqrt_pos _.
  have av := Rabs_pos (u - v)%Re.
  have vs : (Rabs v <= sqrt (1 + v * v)%Re)%Re.
    by rewrite -sqrt_Rsqr_abs; apply: sqrt_le_1_alt; rewrite /Rsqr; lra.
  rewrite -[X in (_ <= X)%Re]sqrt_square; last by lra.
  apply: sqrt_le_1_alt.
  have E1 : (sqrt (1 + v * v)%Re * sqrt (1 + v * v)%Re = 1 + v * v)%Re by apply: sqrt_sqrt; nra.
  have E2 : (Rabs (u - v)%Re * Rabs (u - v)%Re = (u - v) * (u - v))%Re by have := Rsqr_abs (u - v)%Re; rewrite /Rsqr => <-.
  have E3 : (v * (u - v) <= Rabs v * Rabs (u - v)%Re)%Re by rewrite -Rabs_mult; exact: Rle_abs.
  have E4 : (Rabs v * Rabs (u - v)%Re <= sqrt (1 + v * v)%Re * Rabs (u - v)%Re)%Re by exact: Rmult_le_compat_r.
  nra.
apply: Rabs_le; have := H x y; have := H y x; rewrite (Rabs_minus_sym y x); lra.
Qed.

Lemma sqrt_sinh u : hyp (sinh u) = cosh u.
Proof.
have c0 : (0 <= cosh u)%Re by rewrite /cosh; have := exp_pos u; have := exp_pos (- u)%Re; toR; lra.
rewrite /hyp -[RHS]sqrt_square //; congr sqrt.
have E : (exp u * exp (- u)%Re = 1)%Re by rewrite -exp_plus Rplus_opp_r exp_0.
rewrite /cosh /sinh; move: E; toR; move: (exp u) (exp (- u)%Re) => p q E.
have -> : (1 + (p - q) / 2 * ((p - q) / 2) = (p * p + q * q - 2 * (p * q) + 4) / 4)%Re by field.
have -> : ((p + q) / 2 * ((p + q) / 2) = (p * p + q * q + 2 * (p * q)) / 4)%Re by field.
by rewrite E; field.
Qed.

Lemma hyp_deriv x : is_derive hyp x (x / hyp x)%Re.
Proof.
rewrite /hyp; have p : (0 < 1 + x * x)%Re by nra.
by have q := sqrt_lt_R0 _ p; auto_derive => //; field; lra.
Qed.

Lemma hyp_pos x : (0 < hyp x)%Re.
Proof. by apply: sqrt_lt_R0; nra. Qed.

Lemma hyp_strat z t : (to_stratonovich hyp_drift hyp_sigma).1 z t = const_mx (hyp (z 0 0)).
Proof.
apply/colP=> i; rewrite ord1.
have [_ ->] := @correction_formula 1 1 hyp_drift hyp_sigma z t 0.
rewrite !big_ord1.
have -> : pderiv (fun y => hyp_sigma y t 0 0) 0 z = z 0 0 / hyp (z 0 0).
  apply: is_pderiv_unique.
  apply: (is_derive_ext (fun r : R => hyp (z 0 0 + r))).
    by move=> r; rewrite /hyp_sigma mxE vshift_same.
  by apply: deriv_shiftl; rewrite addr0; have := hyp_deriv (z 0 0); toR.
rewrite /hyp_drift /hyp_sigma !mxE; have := hyp_pos (z 0 0); move: (hyp (z 0 0)) (z 0 0) => p q p0.
by toR; field; lra.
Qed.

Lemma hyp_lip : lipschitz (to_stratonovich hyp_drift hyp_sigma).1 1 /\ lipschitz_mx (to_stratonovich hyp_drift hyp_sigma).2 1.
Proof.
split=> x y t e; last first.
  move=> i j H; rewrite mul1r !mxE; apply: le_trans (H 0); rewrite submxE; apply/RleP; toR; exact: sqrt1_lip.
move=> H i; rewrite mul1r submxE !hyp_strat !mxE; apply: le_trans (H 0); rewrite submxE; apply/RleP; toR; exact: sqrt1_lip.
Qed.

Lemma sinh_deriv u : is_derive sinh u (cosh u).
Proof. by rewrite is_derive_Reals; exact: derivable_pt_lim_sinh. Qed.

Lemma sinh_path (q : R -> R) (t q' : R) : is_derive q t q' -> is_derive (fun r => sinh (r + q r)%Re) t (hyp (sinh (t + q t)%Re) * (1 + q'))%Re.
Proof.
move=> D; rewrite [hyp _]sqrt_sinh Rmult_comm.
apply: (@is_derive_comp _ R_NormedModule sinh (fun r => r + q r)%Re t _ (1 + q')%Re (sinh_deriv _)).
by apply: is_derive_plus => //; exact: is_derive_id.
Qed.

Lemma hyp_resolves T : resolves (to_stratonovich hyp_drift hyp_sigma).1 (to_stratonovich hyp_drift hyp_sigma).2 T hyp_X.
Proof.
move=> W t W' _ _ D i j; rewrite !ord1 hyp_strat.
have := @sinh_path (fun r => W r 0 0) t (W' 0 0) (D 0 0).
rewrite addmxE mulmxE big_ord1 !mxE Rmult_plus_distr_l Rmult_1_r; apply: is_derive_ext => r; by rewrite mxE.
Qed.

Lemma hyp_sol (a b z : 'cV[R]_1) (h T : R) : h != 0 -> exists y : R -> 'cV[R]_1, y 0 = z /\
  deriv_on h y (fun t => (to_stratonovich hyp_drift hyp_sigma).1 (y t) (t + T)
   + (to_stratonovich hyp_drift hyp_sigma).2 (y t) (t + T) *m jacR (fun r => eval_parabola r h a b) t).
Proof.
move=> h0; pose q t := (arcsinh (z 0%R 0%R) + eval_parabola t h a b 0%R 0%R)%Re.
exists (fun t => const_mx (sinh (t + q t)%Re)); split.
  apply/colP=> i; rewrite ord1 mxE /q parab_start zeromxE.
  by rewrite Rplus_0_l Rplus_0_r; exact: sinh_arcsinh.
move=> t i _ _; rewrite ord1 hyp_strat.
have Dq : is_derive q t (jacR (fun r => eval_parabola r h a b) t 0 0).
  have := is_derive_plus _ _ _ _ _ (is_derive_const (arcsinh (z 0 0)) t) (@eval_parabola_deriv 1 h t a b h0 0 0).
  by rewrite /plus /= /zero /= Rplus_0_l.
have := sinh_path Dq.
rewrite addmxE mulmxE big_ord1 !mxE Rmult_plus_distr_l Rmult_1_r; apply: is_derive_ext => r; by rewrite mxE.
Qed.

Lemma hyp_smooth (a b : 'cV[R]_1) (w : 'cV[R]_1) (h T : R) : 0 < h ->
  exists (y1 y2 : R -> 'cV[R]_1) (B : R),
  [/\ 0 <= B, deriv_on h (fun t => hyp_X (T + t) (w + eval_parabola t h a b)) y1, deriv_on h y1 y2 &
      forall t : R, 0 <= t -> t <= h -> sup_le (y2 t) B].
Proof.
move=> h0; have hn : h <> 0%Re by apply/eqP; rewrite gt_eqF.
pose th t := (T + w 0%R 0%R + t + (a 0%R 0%R * (t / h) + b 0%R 0%R * sqrt 6%:R * (t / h) * (1 - t / h)))%Re.
pose th1 t := (1 + (a 0%R 0%R / h + b 0%R 0%R * sqrt 6%:R * (1 / h - 2 * t / (h * h))))%Re.
pose th2 := (- (b 0%R 0%R * sqrt 6%:R * 2 / (h * h)))%Re.
have C1 u : is_derive cosh u (sinh u) by rewrite is_derive_Reals; exact: derivable_pt_lim_cosh.
have D1 t : is_derive th t (th1 t).
  by rewrite /th /th1; move: (a 0 0) (b 0 0) (w 0 0) (sqrt 6%:R) => p q r z; auto_derive => //; field.
have D2 t : is_derive th1 t th2.
  by rewrite /th1 /th2; move: (a 0 0) (b 0 0) (w 0 0) (sqrt 6%:R) => p q r z; auto_derive => //; field.
have Ds t : is_derive (fun t => sinh (th t)) t (th1 t * cosh (th t))%Re := @is_derive_comp _ R_NormedModule sinh th t _ _ (sinh_deriv _) (D1 t).
have Dc t : is_derive (fun t => cosh (th t)) t (th1 t * sinh (th t))%Re := @is_derive_comp _ R_NormedModule cosh th t _ _ (C1 _) (D1 t).
pose z1 t := (th1 t * cosh (th t))%Re.
pose z2 t := (th2 * cosh (th t) + th1 t * (th1 t * sinh (th t)))%Re.
have Dz1 t : is_derive z1 t (z2 t).
  have := @is_derive_mult R_AbsRing _ _ t _ _ (D2 t) (Dc t) Rmult_comm.
  by rewrite /plus /mult /= /z2.
have Dz2 t : ex_derive z2 t.
  apply: (@ex_derive_plus R_AbsRing R_NormedModule).
    by apply: (ex_derive_mult (fun=> th2) (fun t => cosh (th t))); [exact: ex_derive_const | exists (th1 t * sinh (th t))%Re; exact: Dc].
  apply: (ex_derive_mult (fun t => th1 t) (fun t => th1 t * sinh (th t))%Re); first by exists th2; exact: D2.
  by apply: (ex_derive_mult (fun t => th1 t) (fun t => sinh (th t))); [exists th2; exact: D2 | exists (th1 t * cosh (th t))%Re; exact: Ds].
have Ez (t : R) (i : 'I_1) : 0 <= t -> t <= h -> exists l, is_derive (fun s => (const_mx (z2 s) : 'cV[R]_1) i 0) t l.
  by move=> _ _; apply: ex_derive_ext (Dz2 t) => r; rewrite mxE.
have [B [B0 HB]] := @bounded_vec 1 (fun t => const_mx (z2 t)) h (ltW h0) Ez.
exists (fun t => const_mx (z1 t)), (fun t => const_mx (z2 t)), B; split=> //.
- move=> t i _ _; have := Ds t; rewrite mxE; apply: is_derive_ext => r.
  by rewrite mxE addmxE /eval_parabola mxE /eval_parabola1 /th; congr sinh; toR; ring.
- by move=> t i _ _; have := Dz1 t; rewrite mxE; apply: is_derive_ext => r; rewrite mxE.
Qed.

(** The example through the driver, for the three path approximations at once. *)
Lemma hyp_run (g : prng) (bm : path_approx g 1) (ca cb : coeffs bm -> 'cV[R]_1) (delta : R) N k c0 :
  0 < delta -> (forall t c, eval_fn t delta c = eval_parabola t delta (ca c) (cb c)) ->
  let run := sde_solver (to_stratonovich hyp_drift hyp_sigma).1 (to_stratonovich hyp_drift hyp_sigma).2 bm delta
     (@ode_sol _ _) k 0 N in
  forall n, (n <= N)%N -> nth 0 run.1.2 n 0 0 = sinh (n%:R * delta + \sum_(0 <= j < n) ca (nth c0 run.2 j) 0 0).
Proof.
move=> d0 Hbm run n nN.
have X0 : hyp_X 0 0 = 0 by apply/colP=> i; rewrite ord1 !mxE addr0 sinh_0.
have [Lf Ls] := hyp_lip.
have := @run_exact g 1 1 bm ca cb _ _ 1 1 delta N hyp_X k c0 (@ode_sol _ _) d0 ler01 ler01 Lf Ls Hbm (@hyp_resolves _).
rewrite X0 => /(_ _ n nN); rewrite -/run => -> => [|q qN].
  by rewrite /hyp_X mxE summxE.
have [_ E] : nth c0 run.2 q = get_coeffs bm (child (child k N q) 2 0) delta /\ nth 0 run.1.2 q.+1 = ode_sol (child (child k N q) 2 1) (nth 0 run.1.2 q)
   (fun z t => (to_stratonovich hyp_drift hyp_sigma).1 z (t + q%:R * delta) + (to_stratonovich hyp_drift hyp_sigma).2 z (t + q%:R * delta) *m jacR (fun r => eval_fn r delta (nth c0 run.2 q)) t) delta.
  exact: (@interval_ode g 1 1 _ _ _ bm delta (@ode_sol _ _) k 0 N q c0 qN).
have dn : delta != 0 by rewrite gt_eqF.
have [y [y0 Dy]] := @hyp_sol (ca (nth c0 run.2 q)) (cb (nth c0 run.2 q)) (nth 0 run.1.2 q) delta (q%:R * delta) dn.
have Ef : (fun r => eval_fn r delta (nth c0 run.2 q)) = (fun r => eval_parabola r delta (ca (nth c0 run.2 q)) (cb (nth c0 run.2 q))).
  by apply: functional_extensionality => r.
rewrite E /ode_sol; apply: (@epsilon_spec _ (inhabits 0) (fun v => exists y : R -> 'cV[R]_1, [/\ y 0 = nth 0 run.1.2 q, y delta = v &
   deriv_on delta y (fun t => (to_stratonovich hyp_drift hyp_sigma).1 (y t) (t + q%:R * delta) + (to_stratonovich hyp_drift hyp_sigma).2 (y t) (t + q%:R * delta) *m jacR (fun r => eval_fn r delta (nth c0 run.2 q)) t)])).
by exists (y delta), y; split=> //; rewrite Ef.
Qed.
