(** Proofs about the numerical quadratures of transition_function.py, matern.py and the harmonic
    oscillator: distance to the integrals they stand for. *)
From Coq Require Import Reals Lra FunctionalExtensionality.
From Coquelicot Require Import Coquelicot.
From mathcomp Require Import all_ssreflect all_algebra mxtens.
From Verif Require Import Rstruct Base Linalg Calc Prob Spec Expm M_Utils M_Prior M_Ivp L_Euler L_Ivp L_Prior.

Set Implicit Arguments.
Unset Strict Implicit.
Unset Printing Implicit Defensive.
Import Order.TTheory GRing.Theory Num.Theory.
Local Open Scope ring_scope.

(** ** The trapezoidal rule *)
Section Trap.
Variables (G g g1 g2 : R -> R) (K : R).

Lemma trap_one (a b : R) : a <= b ->
  (forall t : R, a <= t -> t <= b -> is_derive G t (g t)) ->
  (forall t : R, a <= t -> t <= b -> is_derive g t (g1 t)) ->
  (forall t : R, a <= t -> t <= b -> is_derive g1 t (g2 t)) ->
  (forall t : R, a <= t -> t <= b -> `|g2 t| <= K) ->
  `|(b - a) / 2%:R * (g a + g b) - (G b - G a)| <= K * (b - a) ^+ 3 / 12%:R.
Proof.
move=> ab D0 D1 D2 HK.
pose e1 (t : R) : R := ((t - a) / 2 * g1 t - (g t - g a) / 2)%Re.
pose e0 (t : R) : R := ((t - a) / 2 * (g a + g t) - (G t - G a))%Re.
have De1 t : a <= t -> t <= b -> is_derive e1 t ((t - a) / 2 * g2 t)%Re.
  move=> ta tb; rewrite /e1; have H1 := D1 t ta tb; have H2 := D2 t ta tb.
  auto_derive; first by do !split=> //; [exists (g2 t) | exists (g1 t)].
  by rewrite (is_derive_unique _ _ _ H1) (is_derive_unique _ _ _ H2); field.
have De0 t : a <= t -> t <= b -> is_derive e0 t (e1 t).
  move=> ta tb; rewrite /e0 /e1; have H0 := D0 t ta tb; have H1 := D1 t ta tb.
  auto_derive; first by do !split=> //; [exists (g1 t) | exists (g t)].
  by rewrite (is_derive_unique _ _ _ H1) (is_derive_unique _ _ _ H0); field.
have bd t : a <= t -> t <= b -> (- K * ((t - a) / 2) <= (t - a) / 2 * g2 t <= K * ((t - a) / 2))%Re.
  move=> ta tb; have := HK t ta tb; rewrite ler_norml => /andP [/RleP h1 /RleP h2].
  by move/RleP: ta; move: h1 h2; toR; nra.
have U1 t : a <= t -> t <= b -> e1 t <= (K * (t - a) ^ 2 / 4)%Re.
  apply: (@le_by_deriv e1 (fun t => K * (t - a) ^ 2 / 4)%Re _ (fun t => K * ((t - a) / 2))%Re a b De1).
  - by move=> s _ _; auto_derive => //; field.
  - by move=> s s1 s2; apply/RleP; have [] := bd s s1 s2.
  - by apply/RleP; rewrite /e1; right; field.
have L1 t : a <= t -> t <= b -> (- K * (t - a) ^ 2 / 4)%Re <= e1 t.
  apply: (@le_by_deriv (fun t => - K * (t - a) ^ 2 / 4)%Re e1 (fun t => - K * ((t - a) / 2))%Re _ a b _ De1).
  - by move=> s _ _; auto_derive => //; field.
  - by move=> s s1 s2; apply/RleP; have [] := bd s s1 s2.
  - by apply/RleP; rewrite /e1; right; field.
have U0 t : a <= t -> t <= b -> e0 t <= (K * (t - a) ^ 3 / 12)%Re.
  apply: (@le_by_deriv e0 (fun t => K * (t - a) ^ 3 / 12)%Re _ (fun t => K * (t - a) ^ 2 / 4)%Re a b De0 _ U1).
  - by move=> s _ _; auto_derive => //; field.
  - by apply/RleP; rewrite /e0; right; field.
have L0 t : a <= t -> t <= b -> (- K * (t - a) ^ 3 / 12)%Re <= e0 t.
  apply: (@le_by_deriv (fun t => - K * (t - a) ^ 3 / 12)%Re e0 (fun t => - K * (t - a) ^ 2 / 4)%Re _ a b _ De0 L1).
  - by move=> s _ _; auto_derive => //; field.
  - by apply/RleP; rewrite /e0; right; field.
rewrite ler_norml; move/RleP: (L0 b ab (lexx b)); move/RleP: (U0 b ab (lexx b)); rewrite /e0 => u l.
by apply/andP; split; apply/RleP; move: u l; toR; lra.
Qed.

Lemma trap_sum (h : R) (N : nat) (s := h / N%:R) : 0 <= h -> (0 < N)%N ->
  (forall t : R, 0 <= t -> t <= h -> is_derive G t (g t)) ->
  (forall t : R, 0 <= t -> t <= h -> is_derive g t (g1 t)) ->
  (forall t : R, 0 <= t -> t <= h -> is_derive g1 t (g2 t)) ->
  (forall t : R, 0 <= t -> t <= h -> `|g2 t| <= K) ->
  `|\sum_(0 <= i < N) (s / 2%:R) * (g (i%:R * s) + g (i.+1%:R * s)) - (G h - G 0)| <= K * h ^+ 3 / (12%:R * N%:R ^+ 2).
Proof.
move=> h0 N0 D0 D1 D2 HK; have NN : N%:R != 0 :> R by rewrite pnatr_eq0 -lt0n.
have s0 : 0 <= s by rewrite divr_ge0 ?ler0n.
have Ns : N%:R * s = h by rewrite mulrC divfK.
suff H M : (M <= N)%N -> `|\sum_(0 <= i < M) (s / 2%:R) * (g (i%:R * s) + g (i.+1%:R * s)) - (G (M%:R * s) - G 0)|
    <= M%:R * (K * s ^+ 3 / 12%:R).
  have := H N (leqnn N); rewrite Ns => H'; apply: le_trans H' _; rewrite le_eqVlt; apply/orP; left; apply/eqP.
  by rewrite /s; move: (N%:R : R) NN => x x0; toR; field; exact/eqP.
elim: M => [|M IH] MN; first by rewrite big_nil !mul0r !subrr normr0.
have Es : M.+1%:R * s - M%:R * s = s by rewrite -addn1 natrD mulrDl mul1r addrC addKr.
have ab : M%:R * s <= M.+1%:R * s by rewrite -subr_ge0 Es.
have a0 : 0 <= M%:R * s by rewrite mulr_ge0 ?ler0n.
have bh : M.+1%:R * s <= h by rewrite -Ns ler_wpmul2r // ler_nat.
have in1 t : M%:R * s <= t -> 0 <= t by exact: le_trans.
have in2 t : t <= M.+1%:R * s -> t <= h by move=> H; exact: le_trans bh.
have := trap_one ab (fun t H1 H2 => D0 t (in1 t H1) (in2 t H2)) (fun t H1 H2 => D1 t (in1 t H1) (in2 t H2))
   (fun t H1 H2 => D2 t (in1 t H1) (in2 t H2)) (fun t H1 H2 => HK t (in1 t H1) (in2 t H2)).
rewrite Es => H; rewrite big_nat_recr //=.
have -> : M.+1%:R * (K * s ^+ 3 / 12%:R) = M%:R * (K * s ^+ 3 / 12%:R) + K * s ^+ 3 / 12%:R.
  by rewrite -addn1 natrD mulrDl mul1r.
apply: le_trans (ler_add (IH (ltnW MN)) H); apply: le_trans (ler_norm_add _ _); rewrite le_eqVlt; apply/orP; left; apply/eqP.
by congr `|_|; move: (\sum_(_ <= _ < _) _) (G _) (G _) (G _) (g _) (g _) => *; rring.
Qed.
End Trap.

(** ** Bounds on matrix exponentials *)
Lemma exp_mono (x y : R) : x <= y -> exp x <= exp y.
Proof.
rewrite le_eqVlt => /orP [/eqP ->|/RltP xy]; first exact: lexx.
by apply/RleP/Rlt_le; exact: exp_increasing.
Qed.

Section Bounds.
Variables (n m : nat) (F : 'M[R]_n) (L : 'M[R]_(n, m)).
Let a := l1norm F.
Let a0 : 0 <= a := l1norm_ge0 F.

Lemma expm_bound (s h : R) i j : 0 <= s -> s <= h -> `|expm (s *: F) i j| <= exp (h * a).
Proof.
move=> s0 sh; have sa : 0 <= s * a by rewrite mulr_ge0.
apply: (@le_trans _ _ (exp (s * a))); last first.
  by apply: exp_mono; rewrite ler_wpmul2r.
rewrite mxE; apply/RleP; rewrite RnormE.
have B k : `|mxpow (s *: F) k i j / k`!%:R| <= (s * a) ^+ k / k`!%:R.
  rewrite normrM normfV normr_nat ler_wpmul2r ?invr_ge0 ?ler0n //.
  by rewrite mxpowZ scalemxE normrM normrX (ger0_norm s0) exprMn ler_wpmul2l ?exprn_ge0 // mxpow_bound.
have S : ex_series (fun k => (s * a) ^+ k / k`!%:R) by exists (exp (s * a)); exact: exp_series.
rewrite -(is_series_unique _ _ (@exp_series (s * a))).
apply: Rle_trans (Series_Rabs _ _) _.
  by apply: (ex_series_le _ (fun k => (s * a) ^+ k / k`!%:R)) => // k; rewrite /norm /= /abs /= Rabs_Rabsolu; apply/RleP; exact: B.
by apply: Series_le => // k; split; [exact: Rabs_pos | apply/RleP; exact: B].
Qed.

Lemma lmul_bound p (M : 'M[R]_(n, p)) (b : R) i j : 0 <= b -> (forall i j, `|M i j| <= b) -> `|(F *m M) i j| <= a * b.
Proof.
move=> b0 H; rewrite mulmxE; apply: le_trans (ler_norm_sum _ _ _) _.
apply: (@le_trans _ _ (\sum_l `|F i l| * b)).
  by apply: ler_sum => l _; rewrite normrM ler_wpmul2l.
by rewrite -mulr_suml ler_wpmul2r // row_le.
Qed.

Lemma rmul_bound p (M : 'M[R]_(p, n)) (b : R) i j : 0 <= b -> (forall i j, `|M i j| <= b) -> `|(M *m F^T) i j| <= a * b.
Proof.
move=> b0 H; rewrite mulmxE; apply: le_trans (ler_norm_sum _ _ _) _.
apply: (@le_trans _ _ (\sum_l `|F j l| * b)).
  by apply: ler_sum => l _; rewrite trmxE normrM mulrC ler_wpmul2l.
by rewrite -mulr_suml ler_wpmul2r // row_le.
Qed.

(** The integrand of the covariance. *)
Let g (s : R) : 'M[R]_n := expm (s *: F) *m L *m (expm (s *: F) *m L)^T.
Let g1 (s : R) := F *m g s + g s *m F^T.
Let g2 (s : R) := F *m g1 s + g1 s *m F^T.
Definition gram_size : R := \sum_k (\sum_l `|L l k|) ^+ 2.

Lemma gram_size_ge0 : 0 <= gram_size.
Proof. by apply: sumr_ge0 => k _; exact: sqr_ge0. Qed.

Lemma g_deriv (t : R) : mx_deriv g t (g1 t).
Proof.
have := mx_derivM (covB_deriv F L t) (mx_derivT (covB_deriv F L t)).
by rewrite /g1 /g !trmx_mul !mulmxA.
Qed.

Lemma g1_deriv (t : R) : mx_deriv g1 t (g2 t).
Proof.
have := mx_derivD (mx_derivM (mx_deriv_const F t) (g_deriv t)) (mx_derivM (g_deriv t) (mx_deriv_const F^T t)).
by rewrite mul0mx mulmx0 add0r addr0.
Qed.

Lemma g_bound (s h : R) i j : 0 <= s -> s <= h -> `|g s i j| <= exp (2%:R * h * a) * gram_size.
Proof.
move=> s0 sh; have e0 : 0 <= exp (h * a) by apply/RleP/Rlt_le/exp_pos.
have B l k : `|(expm (s *: F) *m L) l k| <= exp (h * a) * \sum_l `|L l k|.
  rewrite mulmxE; apply: le_trans (ler_norm_sum _ _ _) _; rewrite mulr_sumr; apply: ler_sum => l' _.
  by rewrite normrM ler_wpmul2r // expm_bound.
have -> : exp (2%:R * h * a) = exp (h * a) ^+ 2.
  by rewrite expr2 -[RHS]exp_plus; congr exp; rring.
rewrite /g mulmxE; apply: le_trans (ler_norm_sum _ _ _) _; rewrite mulr_sumr; apply: ler_sum => k _.
by rewrite trmxE normrM -exprMn expr2; apply: ler_pmul.
Qed.

Lemma g2_bound (s h : R) i j : 0 <= s -> s <= h -> `|g2 s i j| <= 4%:R * a ^+ 2 * exp (2%:R * h * a) * gram_size.
Proof.
move=> s0 sh; set b := exp (2%:R * h * a) * gram_size.
have b0 : 0 <= b by rewrite mulr_ge0 ?gram_size_ge0 //; apply/RleP/Rlt_le/exp_pos.
have H0 i' j' : `|g s i' j'| <= b by exact: g_bound.
have H1 i' j' : `|g1 s i' j'| <= 2%:R * (a * b).
  rewrite addmxE mulr_natl mulr2n; apply: le_trans (ler_norm_add _ _) _.
  by apply: ler_add; [exact: lmul_bound | exact: rmul_bound].
have ab : 0 <= 2%:R * (a * b) by rewrite mulr_ge0 ?ler0n // mulr_ge0.
have -> : 4%:R * a ^+ 2 * exp (2%:R * h * a) * gram_size = a * (2%:R * (a * b)) + a * (2%:R * (a * b)).
  by rewrite /b; move: (exp _) => e; rring.
rewrite addmxE; apply: le_trans (ler_norm_add _ _) _.
by apply: ler_add; [exact: lmul_bound | exact: rmul_bound].
Qed.

Lemma trapz_entry p q (f : R -> 'M[R]_(p, q)) (h : R) N i j :
  trapz_x [seq f s | s <- linspace 0 h N] (linspace 0 h N) i j =
  \sum_(0 <= k < N.-1) (h / N.-1%:R / 2%:R) * (f (k%:R * (h / N.-1%:R)) i j + f (k.+1%:R * (h / N.-1%:R)) i j).
Proof. by rewrite trapz_linspace summxE; apply: eq_bigr => k _; rewrite scalemxE addmxE. Qed.

Lemma quad_cov (h : R) N i j : 0 <= h -> (1 < N)%N ->
  `|trapz_x [seq g s | s <- linspace 0 h N] (linspace 0 h N) i j - lin_sde_cov F L h i j| <=
  4%:R * a ^+ 2 * exp (2%:R * h * a) * gram_size * h ^+ 3 / (12%:R * N.-1%:R ^+ 2).
Proof.
move=> h0 N1; rewrite trapz_entry.
have := @trap_sum (fun t => lin_sde_cov F L t i j) (fun t => g t i j) (fun t => g1 t i j) (fun t => g2 t i j)
  (4%:R * a ^+ 2 * exp (2%:R * h * a) * gram_size) h N.-1 h0.
rewrite cov0 zeromxE subr0; apply.
- by case: N N1 => [|[]].
- by move=> t _ _; exact: cov_mx_deriv.
- by move=> t _ _; exact: g_deriv.
- by move=> t _ _; exact: g1_deriv.
- by move=> t t0 th; exact: g2_bound.
Qed.

Lemma cov_lyapunov (t : R) : g t = F *m lin_sde_cov F L t + lin_sde_cov F L t *m F^T + L *m L^T.
Proof.
pose V (s : R) := g s - (F *m lin_sde_cov F L s + lin_sde_cov F L s *m F^T).
have H (s : R) : mx_deriv V s 0.
  have := mx_derivD (mx_derivM (mx_deriv_const F s) (@cov_mx_deriv _ _ F L s))
    (mx_derivM (@cov_mx_deriv _ _ F L s) (mx_deriv_const F^T s)).
  rewrite mul0mx mulmx0 add0r addr0 => D i j; rewrite /V zeromxE.
  have -> : (0 : R) = minus (g1 s i j) ((F *m g s + g s *m F^T) i j) by rewrite /g1 /minus plus_opp_r.
  apply: (@is_derive_ext _ _ (fun s => minus (g s i j) ((F *m lin_sde_cov F L s + lin_sde_cov F L s *m F^T) i j))).
    by move=> x; rewrite [in RHS]submxE.
  by apply: is_derive_minus; [exact: g_deriv | exact: D].
have /(congr1 (fun M => M + (F *m lin_sde_cov F L t + lin_sde_cov F L t *m F^T))) := mx_deriv0_const H t 0.
by rewrite {1}/V subrK /V cov0 mulmx0 mul0mx addr0 subr0 /g scale0r expm0 mul1mx addrC => ->.
Qed.
End Bounds.

(** The drift integral. *)
Section Xi.
Variables (n : nat) (F : 'M[R]_n) (u : 'cV[R]_n).
Let a := l1norm F.

Lemma quad_xi (h : R) N i (x : R) : 0 <= h -> (1 < N)%N ->
  is_RInt (fun s => (expm (s *: F) *m u) i 0) 0 h x ->
  `|trapz_x [seq expm (s *: F) *m u | s <- linspace 0 h N] (linspace 0 h N) i 0 - x| <=
  a ^+ 2 * exp (h * a) * (\sum_l `|u l 0|) * h ^+ 3 / (12%:R * N.-1%:R ^+ 2).
Proof.
move=> h0 N1 Hx; rewrite trapz_entry.
pose w (s : R) := expm (s *: F) *m u.
have Dw (t : R) : mx_deriv w t (F *m w t).
  have := mx_derivM (expm_mx_deriv F t) (mx_deriv_const u t).
  by rewrite mulmx0 addr0 /w mulmxA.
have DFw (t : R) : mx_deriv (fun s => F *m w s) t (F *m (F *m w t)).
  have := mx_derivM (mx_deriv_const F t) (Dw t).
  by rewrite mul0mx add0r.
have Cw (t : R) k : continuous (fun s => w s k 0) t.
  by apply: ex_derive_continuous; eexists; exact: (Dw t k 0).
have Iw (b : R) : is_derive (fun t => RInt (fun s => w s i 0) 0 t) b (w b i 0).
  apply: (@is_derive_RInt _ (fun s => w s i 0) _ 0); last exact: Cw.
  apply: filter_forall => y; apply: (@RInt_correct R_CompleteNormedModule).
  by apply: ex_RInt_continuous => z _; exact: Cw.
have Bw (s : R) k l : 0 <= s -> s <= h -> `|w s k l| <= exp (h * a) * \sum_l `|u l 0|.
  move=> s0 sh; rewrite /w mulmxE; apply: le_trans (ler_norm_sum _ _ _) _; rewrite mulr_sumr; apply: ler_sum => l' _.
  by rewrite normrM ord1 ler_wpmul2r // expm_bound.
have e0 : 0 <= exp (h * a) * \sum_l `|u l 0|.
  by rewrite mulr_ge0 ?sumr_ge0 //; apply/RleP/Rlt_le/exp_pos.
have := @trap_sum (fun t => RInt (fun s => w s i 0) 0 t) (fun t => w t i 0) (fun t => (F *m w t) i 0)
  (fun t => (F *m (F *m w t)) i 0) (a ^+ 2 * exp (h * a) * \sum_l `|u l 0|) h N.-1 h0.
rewrite RInt_point subr0 (is_RInt_unique _ _ _ _ Hx); apply.
- by case: N N1 => [|[]].
- by move=> t _ _; exact: Iw.
- by move=> t _ _; exact: Dw.
- by move=> t _ _; exact: DFw.
- move=> t t0 th; rewrite expr2 -!mulrA; apply: lmul_bound.
    by rewrite mulr_ge0 // l1norm_ge0.
  by move=> k l; apply: lmul_bound => // k' l'; exact: Bw.
Qed.
End Xi.

(** ** The three users *)
Lemma tf_cov n m (F : 'M[R]_n) u (L : 'M[R]_(n, m)) (h : R) nodes i j (a := \sum_i \sum_j `|F i j|) :
  0 <= h -> (1 < nodes)%N ->
  `|(transition_function F u L h nodes).1.2 i j - lin_sde_cov F L h i j| <=
  a ^+ 2 * exp (2%:R * h * a) * (\sum_k (\sum_l `|L l k|) ^+ 2) * h ^+ 3 / (3%:R * nodes.-1%:R ^+ 2).
Proof.
move=> h0 n1; have := quad_cov F L i j h0 n1; rewrite -/a.
suff -> : a ^+ 2 * exp (2%:R * h * a) * (\sum_k (\sum_l `|L l k|) ^+ 2) * h ^+ 3 / (3%:R * nodes.-1%:R ^+ 2) =
  4%:R * a ^+ 2 * exp (2%:R * h * a) * gram_size L * h ^+ 3 / (12%:R * nodes.-1%:R ^+ 2) by [].
have NN : nodes.-1%:R != 0 :> R by rewrite pnatr_eq0 -lt0n; case: nodes n1 => [|[]].
rewrite -/(gram_size L); move: (exp _) (gram_size L) => e c; move: (a) => b.
by move: (nodes.-1%:R : R) NN => x x0; toR; field; exact/eqP.
Qed.

Lemma tf_xi n m (F : 'M[R]_n) u (L : 'M[R]_(n, m)) (h : R) nodes i (x : R) (a := \sum_i \sum_j `|F i j|) :
  0 <= h -> (1 < nodes)%N ->
  is_RInt (fun s => (expm (s *: F) *m u) i 0) 0 h x ->
  `|(transition_function F u L h nodes).1.1 i 0 - x| <=
  a ^+ 2 * exp (h * a) * (\sum_l `|u l 0|) * h ^+ 3 / (12%:R * nodes.-1%:R ^+ 2).
Proof. by move=> h0 n1 Hx; exact: quad_xi. Qed.

Lemma matern_size k lam : 0 < lam -> \sum_i \sum_j `|matern_F k lam i j| = k%:R + (1 + lam^-1) ^+ k.+1 - 1.
Proof.
move=> l0; have i0 : 0 <= lam^-1 by rewrite invr_ge0 ltW.
rewrite big_ord_recr /=; have -> : \sum_(i < k) \sum_j `|matern_F k lam (widen_ord (leqnSn k) i) j| = k%:R.
  rewrite -[in RHS](card_ord k) -sum1_card natr_sum; apply: eq_bigr => i _.
  have H : (i.+1 < k.+1)%N by rewrite ltnS.
  rewrite (bigD1 (Ordinal H)) //= mxE /= ltn_ord eqxx normr1 big1 ?addr0 // => j /eqP ji.
  rewrite mxE /= ltn_ord; case: eqP => [E|]; last by rewrite normr0.
  by case: ji; apply: val_inj; exact: E.
rewrite -addrA; congr (_ + _); rewrite [1 + _]addrC exprDn [in RHS]big_ord_recr /= subnn expr0 expr1n binn mulr1n mulr1 addrK.
apply: eq_bigr => j _; rewrite mxE /= ltnn normrN ger0_norm; first by rewrite expr1n mulr1 mulr_natl exprVn.
by rewrite mulr_ge0 ?ler0n // -exprVn exprn_ge0.
Qed.

Lemma matern_quad K (magn len dt : R) d (mc : bool) (k l : 'I_d) (i j : 'I_K.+1) (lam := sqrt (2%:R * K%:R + 1) / len)
  (a := K%:R + (1 + lam^-1) ^+ K.+1 - 1)
  (F := companion K (fun j => - ('C(K.+1, j)%:R * lam^-1 ^+ (K.+1 - j)))) :
  0 < len -> 0 <= dt -> K != 1%N \/ mc ->
  let tr := matern K magn len dt d mc in
  [/\ tr.1.1 = 0,
      tr.2 (mxtens_index (k, i)) (mxtens_index (l, j)) = (k == l)%:R * expm (dt *: F) i j,
      k != l -> tr.1.2 (mxtens_index (k, i)) (mxtens_index (l, j)) = 0 &
      `|tr.1.2 (mxtens_index (k, i)) (mxtens_index (k, j)) - lin_sde_cov F (last_noise K magn) dt i j| <=
        a ^+ 2 * exp (2%:R * dt * a) * magn ^+ 2 * dt ^+ 3 / (3%:R * (10 ^ 4 - 1)%:R ^+ 2)].
Proof.
move=> len0 dt0 HK tr.
have E : matern_one K magn len dt mc = transition_function (matern_F K lam) 0 (matern_L K magn) dt default_nodes.
  by rewrite /matern_one; case: K HK @lam @a @F i j tr => [|[|K]] // [|->].
have lam0 : 0 < lam.
  rewrite divr_gt0 //; apply/RltP; apply: sqrt_lt_R0; apply/RltP.
  by apply: ltr_paddl; rewrite ?ltr01 // mulr_ge0 ?ler0n.
have D1 : (1 < default_nodes)%N by rewrite /default_nodes (@ltn_exp2l 10 0 4).
have -> : (10 ^ 4 - 1)%N = default_nodes.-1 by rewrite subn1.
rewrite /tr /matern E (_ : matern_F K lam = F); last by rewrite matern_F_comp.
move: (default_nodes) D1 => nodes D1.
have Ea : \sum_i \sum_j `|F i j| = a by rewrite /F -matern_F_comp matern_size.
case T: (transition_function F 0 (matern_L K magn) dt nodes) => [[xi Q] A]; cbn [fst snd].
have Exi : xi = 0 by have := tf_xi0 F (matern_L K magn) dt nodes; rewrite T.
split.
- by rewrite Exi; apply/colP=> p; rewrite !mxE.
- rewrite kronE; congr (_ * _); by move: T; rewrite /transition_function => -[_ _ <-].
- by move=> /negPf kl; rewrite kronE kl mul0r.
rewrite kronE eqxx mul1r.
have := @tf_cov K.+1 1 F 0 (matern_L K magn) dt nodes i j dt0 D1; rewrite T; cbn [fst snd]; rewrite Ea.
have -> : \sum_k (\sum_l `|matern_L K magn l k|) ^+ 2 = magn ^+ 2; last by [].
rewrite big_ord1 (bigD1 ord_max) //= [matern_L _ _ ord_max _]mxE eqxx big1 ?addr0; last first.
  by move=> p /eqP pm; rewrite mxE; case: eqP => [E'|]; [case: pm; apply: val_inj; exact: E' | rewrite normr0].
by rewrite real_normK ?num_real.
Qed.

(** ** The harmonic oscillator *)
Section Harm.
Variables (gamma D : R) (m : nat) (C : 'M[R]_(2, m)).
Let M := harm_M gamma D.

Lemma harm_mean_ode (t : R) : harm_mean gamma D 0 = harm_x0 /\
  mx_deriv (harm_mean gamma D) t (harm_drift gamma D (harm_mean gamma D t)).
Proof.
split; first by rewrite /harm_mean scale0r expm0 mul1mx.
have := mx_derivM (expm_mx_deriv M t) (mx_deriv_const harm_x0 t).
by rewrite mulmx0 addr0 /harm_drift /harm_mean mulmxA.
Qed.

Lemma harm_cov_ode (t : R) : lin_sde_cov M C 0 = 0 /\
  mx_deriv (lin_sde_cov M C) t (M *m lin_sde_cov M C t + lin_sde_cov M C t *m M^T + C *m C^T).
Proof.
split; first exact: cov0.
by rewrite -cov_lyapunov; exact: cov_mx_deriv.
Qed.

Lemma harm_var_quad (t : R) nodes i j (a := 1 + `|D| + `|gamma|) : 0 <= t -> (1 < nodes)%N ->
  `|harm_variance gamma D C nodes t i j - lin_sde_cov M C t i j| <=
  a ^+ 2 * exp (2%:R * t * a) * (\sum_k (\sum_l `|C l k|) ^+ 2) * t ^+ 3 / (3%:R * nodes.-1%:R ^+ 2).
Proof.
have -> : a = \sum_i \sum_j `|M i j|.
  by rewrite !sum2 !mxE /= normr0 normr1 add0r !normrN addrA.
exact: (@tf_cov 2 m M 0).
Qed.
End Harm.
