(** Geometric Brownian motion through the driver: multiplicative noise. *)
From Coq Require Import Reals Lra FunctionalExtensionality.
From Coquelicot Require Import Coquelicot.
From mathcomp Require Import all_ssreflect all_algebra mxtens.
From Verif Require Import Rstruct Base Linalg Calc Prob Spec Spec3 Spec4 M_Foster M_ItoStrat M_Euler M_SdeSolver M_Ivp
  L_Foster L_ItoStrat L_SdeSolver L_Euler L_Quad L_Chain Expm.

Set Implicit Arguments.
Unset Strict Implicit.
Unset Printing Implicit Defensive.
Import Order.TTheory GRing.Theory Num.Theory.
Local Open Scope ring_scope.

Lemma expRD (x y : R) : exp (x + y) = exp x * exp y.
Proof. exact: exp_plus. Qed.
Lemma expR0 : exp 0 = 1 :> R. Proof. exact: exp_0. Qed.
Lemma expR_gt0 (x : R) : 0 < exp x.
Proof. by apply/RltP; exact: exp_pos. Qed.

(** ** Conversion and field *)
Lemma pderiv_scale_coord d (b : R) (i j : 'I_d) (x : 'cV[R]_d) : pderiv (fun z => b * z i 0) j x = b * (i == j)%:R.
Proof.
by rewrite -(pderiv_coord j i x) /pderiv; exact: (Derive_scal (fun s => (vshift x j s) i 0) b 0).
Qed.

Lemma gbm_strat d (a b : R) :
  to_stratonovich (@gbm_drift_ a d) (@gbm_sigma_ b d) = (@gbm_drift_ (a - b ^+ 2 / 2%:R) d, @gbm_sigma_ b d).
Proof.
congr pair; apply: functional_extensionality => x; apply: functional_extensionality => t.
apply/colP=> i.
have [_ ->] := correction_formula (@gbm_drift_ a d) (@gbm_sigma_ b d) x t i.
rewrite (bigD1 i) //= [X in _ * (_ + X)]big1 ?addr0; last first.
  move=> j ji; rewrite (bigD1 j) //= big1 ?addr0; last first.
    by move=> k kj; rewrite !mxE eq_sym (negPf kj) mulr0n mulr0 mul0r.
  rewrite (@pderiv_ext _ _ (fun _ => 0)) ?pderiv_const ?mulr0 //.
  by move=> z; rewrite !mxE eq_sym (negPf ji) mulr0n mulr0.
rewrite (bigD1 i) //= [X in _ * (_ + X)]big1 ?addr0; last first.
  by move=> k ki; rewrite !mxE eq_sym (negPf ki) mulr0n mulr0 mul0r.
rewrite (@pderiv_ext _ _ (fun z => b * z i 0)); last by move=> z; rewrite !mxE eqxx mulr1n.
rewrite pderiv_scale_coord !mxE eqxx mulr1 mulr1n; move: (x i 0) => y; rewrite exprS expr1; toR; field.
Qed.

Section Field.
Variables (d : nat) (c b h : R).
Hypothesis h0 : 0 < h.
Definition slope_vec (al be : 'cV[R]_d) (t : R) : 'cV[R]_d :=
  \col_i (c + b * (h^-1 * (al i 0 + sqrt 6%:R * (1 - 2%:R * (t / h)) * be i 0))).

Lemma gbm_field (al be : 'cV[R]_d) (s : R) :
  (fun z t => @gbm_drift_ c d z (t + s) + @gbm_sigma_ b d z (t + s) *m jacR (fun r => eval_parabola r h al be) t) =
  (fun z t => \col_i (slope_vec al be t i 0 * z i 0)).
Proof.
apply: functional_extensionality => z; apply: functional_extensionality => t; apply/colP=> i.
rewrite jacR_eval ?gt_eqF // /gbm_drift_ /gbm_sigma_ mxE [LHS]addrC -scalemxAl mul_diag_mx !mxE.
by move: (z i 0) (al i 0) (be i 0) (h^-1) (sqrt _) (2%:R * _) => x y w u r v; rring.
Qed.

Lemma slope_vec_cont al be : mx_cont (slope_vec al be).
Proof.
move=> t i j.
have -> : (fun s => slope_vec al be s i j) =
  (fun s : R => (c + b * (/ h * (al i 0%R + sqrt 6%Re * (1 - 2 * (s / h)) * be i 0%R)))%Re).
  by apply: functional_extensionality => s; rewrite mxE; move: (al i 0) (be i 0) => u v; toR.
move: (al i 0) (be i 0) => u v; apply: (@ex_derive_continuous _ R_NormedModule).
by auto_derive.
Qed.

Definition gbm_flow (x al be : 'cV[R]_d) (t : R) : 'cV[R]_d :=
  \col_i (x i 0 * exp (c * t + b * parab h (al i 0) (be i 0) t)).

Lemma gbm_flow_deriv x al be t : mx_deriv (gbm_flow x al be) t (\col_i (slope_vec al be t i 0 * gbm_flow x al be t i 0)).
Proof.
move=> i j; rewrite !mxE.
apply: (@is_derive_ext _ _ (fun s : R => (x i 0%R * exp (c * s + b * parab h (al i 0%R) (be i 0%R) s))%Re)).
  by move=> s; rewrite mxE; toR.
have D := is_derive_parab (al i 0) (be i 0) t (lt0r_neq0 h0).
have D1 : is_derive (fun s : R => (c * s + b * parab h (al i 0%R) (be i 0%R) s)%Re) t
   (c + b * ((al i 0%R + sqrt 6%:R * be i 0%R * (1 - 2%:R * (t / h))) / h)).
  apply: (@is_derive_plus _ R_NormedModule).
    have := @is_derive_scal (fun s => s) t c 1 (@is_derive_id _ t).
    by congr is_derive; rewrite /one /=; toR; ring.
  exact: (@is_derive_scal _ t b _ D).
have D2 := is_derive_comp exp _ t _ _ (is_derive_exp _) D1.
have := @is_derive_scal _ t (x i 0) _ D2.
congr is_derive; rewrite /scal /= /mult /=; toR.
set e := (exp _); set r := (sqrt _); move: (x i 0) (al i 0) (be i 0) => y u v; field; move/RltP: h0; toR; lra.
Qed.

Lemma gbm_flow0 x al be : gbm_flow x al be 0 = x.
Proof. by apply/colP=> i; rewrite mxE mulr0 add0r parab0 mulr0 expR0 mulr1. Qed.
Lemma gbm_flowh x al be i : gbm_flow x al be h i 0 = x i 0 * exp (c * h + b * al i 0).
Proof. by rewrite mxE parabT // gt_eqF. Qed.
End Field.

(** ** Runs *)
Section Run.
Variables (g : prng) (d : nat) (c b h : R).
Variable int : key g -> 'cV[R]_d -> ('cV[R]_d -> R -> 'cV[R]_d) -> R -> 'cV[R]_d.
Variables (N : nat) (x0 : 'cV[R]_d).
Hypothesis h0 : 0 < h.
Let run k := sde_solver (@gbm_drift_ c d) (@gbm_sigma_ b d) (get_approx g d) h int k x0 N.
Let x n (k : key g) := nth x0 (run k).1.2 n.

Lemma gbm_step n k al be : (n < N)%N -> parabolas d (child (child k N n) 2 0) h = (al, be) ->
  x n.+1 k = int (child (child k N n) 2 1) (x n k) (fun z t => \col_i (slope_vec c b h al be t i 0 * z i 0)) h.
Proof.
move=> nN Eab.
have [E1 E2] : nth (0, 0) (run k).2 n = parabolas d (child (child k N n) 2 0) h /\
    x n.+1 k = int (child (child k N n) 2 1) (x n k) (fun z t => @gbm_drift_ c d z (t + n%:R * h) +
      @gbm_sigma_ b d z (t + n%:R * h) *m jacR (fun s => eval_parabola s h (nth (0, 0) (run k).2 n).1 (nth (0, 0) (run k).2 n).2) t) h.
  exact: (@interval_ode g d d _ (@gbm_drift_ c d) (@gbm_sigma_ b d) (get_approx g d) h int k x0 N n (0, 0) nN).
rewrite E2 E1 Eab; cbn [fst snd].
by rewrite (gbm_field c b h0).
Qed.

Lemma gbm_start k : x 0 k = x0.
Proof. by rewrite /x /run sde_solverE. Qed.

Hypothesis exact_int : solves_diagonal int h.
Let al (k : key g) j := (parabolas d (child (child k N j) 2 0) h).1.

Lemma gbm_stepE n k i : (n < N)%N -> x n.+1 k i 0 = x n k i 0 * exp (c * h + b * al k n i 0).
Proof.
move=> nN; rewrite /al; case Eab: (parabolas d (child (child k N n) 2 0) h) => [u v].
rewrite (gbm_step nN Eab); cbn [fst snd].
rewrite (exact_int _ (@slope_vec_cont d c b h u v) (@gbm_flow0 d c b h (x n k) u v) (gbm_flow_deriv c b h0 (x n k) u v)).
exact: gbm_flowh.
Qed.

Lemma gbm_run n k i : (n <= N)%N ->
  x n k i 0 = x0 i 0 * exp (c * (n%:R * h) + b * \sum_(0 <= j < n) al k j i 0).
Proof.
elim: n => [|n IH] nN; first by rewrite gbm_start big_geq // mul0r !mulr0 addr0 expR0 mulr1.
rewrite gbm_stepE // IH ?(ltnW nN) // -mulrA -expRD big_nat_recr //=; congr (_ * exp _).
rewrite -[n.+1]addn1 natrD; move: (\sum_(_ <= _ < _) _) (al k n i 0) (n%:R) => s y u; rring.
Qed.

(** Law of the run. *)
Variables (E F : expectation (key g)).
Hypothesis split_iid : forall G, F (fun k => G (split k N)) = iid E N G.
Let xi (k : key g) i := normal2 (child k 2 0) 2 d 0 i.

Lemma iid_prod (Om : Type) (E' : expectation Om) (f : Om -> R) n :
  iid E' n (fun ws => \prod_(w <- ws) f w) = (E' f) ^+ n.
Proof.
elim: n => [|n IH]; first by rewrite /= big_nil expr0.
rewrite /= exprS -E_scaler; apply: E_ext => w.
have := iid_lin E' n (f w) (fun ws => \prod_(w <- ws) f w) (fun _ => 0).
rewrite IH => H.
have -> : iid E' n (fun ws => \prod_(w0 <- (w :: ws)) f w0) =
   iid E' n (fun ws => f w * \prod_(w <- ws) f w + 0).
  by apply: iid_ext => ws _; rewrite big_cons addr0.
rewrite H; have -> : iid E' n (fun _ => 0) = 0 by exact: (E_0 (iidE E' n)).
by rewrite addr0.
Qed.

Lemma gbm_moment n i j p q : (n <= N)%N ->
  F (fun k => x n k i 0 ^+ p * x n k j 0 ^+ q) =
  x0 i 0 ^+ p * x0 j 0 ^+ q *
  (exp ((p + q)%:R * c * h) * E (fun k => exp (b * sqrt h * (p%:R * xi k i + q%:R * xi k j)))) ^+ n.
Proof.
move=> nN.
pose f k := exp ((p + q)%:R * c * h) * exp (b * sqrt h * (p%:R * xi k i + q%:R * xi k j)).
have powE (s : R) m : exp s ^+ m = exp (m%:R * s).
  elim: m => [|m IH]; first by rewrite expr0 mul0r expR0.
  by rewrite exprS IH -expRD -[m.+1]add1n natrD mulrDl mul1r.
have alE k u : al k u i 0 = sqrt h * xi (child k N u) i /\ al k u j 0 = sqrt h * xi (child k N u) j.
  by rewrite /al /parabolas /= !mxE.
transitivity (F (fun k => x0 i 0 ^+ p * x0 j 0 ^+ q * \prod_(w <- take n (split k N)) f w)).
  apply: E_ext => k; rewrite !gbm_run // !exprMn mulrACA.
  congr (_ * _); rewrite !powE -expRD.
  rewrite (big_nth k) size_take size_split.
  have -> : (if (n < N)%N then n else N) = n.
    by case: ltnP => // Nn; apply/eqP; rewrite eqn_leq Nn nN.
  elim: n nN => [|n IH] nN.
    by rewrite !big_geq // !mul0r !mulr0 !addr0 !mulr0 addr0 expR0.
  rewrite !big_nat_recr //= nth_take // -/(child k N n) /f -expRD.
  have -> : \prod_(0 <= u < n) (exp ((p + q)%:R * c * h) * exp (b * sqrt h * (p%:R * xi (nth k (take n.+1 (split k N)) u) i + q%:R * xi (nth k (take n.+1 (split k N)) u) j)))
     = \prod_(0 <= u < n) f (nth k (take n (split k N)) u).
    apply: eq_big_nat => u /andP [_ un]; rewrite /f !nth_take //.
    exact: leq_trans un (leqnSn _).
  rewrite -IH ?(ltnW nN) // -expRD; congr exp.
  have [-> ->] := alE k n; rewrite -[n.+1]addn1 !natrD.
  move: (\sum_(_ <= _ < _) _) (\sum_(_ <= _ < _) _) (xi _ i) (xi _ j) (sqrt h) (n%:R) (p%:R) (q%:R) => s1 s2 y1 y2 r u v w.
  by rring.
rewrite E_scale; congr (_ * _).
rewrite (split_iid (fun ws => \prod_(w <- take n ws) f w)) -{1}(subnKC nN).
by rewrite (iid_take E n (N - n) (fun ws => \prod_(w <- ws) f w)) iid_prod -E_scale.
Qed.
End Run.

(** ** Euler sub-steps *)
Lemma euler_diag d (u : R -> 'cV[R]_d) (s : R) (x : 'cV[R]_d) M i :
  euler x (fun z t => \col_i (u t i 0 * z i 0)) s M i 0 = x i 0 * \prod_(0 <= j < M) (1 + s * u (j%:R * s) i 0).
Proof.
rewrite eulerE; elim: M => [|M IH]; first by rewrite big_geq // mulr1.
rewrite big_nat_recr //= !mxE IH; move: (\prod_(_ <= _ < _) _) (x i 0) (u _ i 0) => p y w; rring.
Qed.

Lemma eq_ler (u v : R) : u = v -> u <= v. Proof. by move=> ->. Qed.

Lemma exp_lin_err (u : R) : `|1 + u - exp u| <= u ^+ 2 / 2%:R * exp `|u|.
Proof.
have pos (t s : R) : 0 <= t -> (s = 1 \/ s = -1) -> `|exp (s * t) - 1 - t * s| <= exp t * t ^+ 2 / 2%:R.
  move=> t0 Hs.
  have H := @taylor1 (fun r => exp (Rmult s r)) (fun r => Rmult s (exp (Rmult s r))) (fun r => exp (Rmult s r)) 0 t (exp t) _ _ _ t t0 (lexx t).
  have E0 : exp (Rmult s 0) = 1 by rewrite -[RHS]expR0; congr exp; toR; ring.
  have E1 : Rmult s 1 = s by toR; ring.
  move: H; rewrite E0 subr0 E1; apply.
  - by move=> r _ _; auto_derive => //; ring.
  - move=> r _ _; auto_derive => //; case: Hs => ->; toR; ring.
  - move=> r r0 rt; rewrite ger0_norm ?(ltW (expR_gt0 _)) //; apply: exp_mono.
    by case: Hs => ->; move/RleP: r0; move/RleP: rt; move=> A B; apply/RleP; move: A B; toR; lra.
case: (lerP 0 u) => u0.
  have := pos u 1 u0 (or_introl erefl); rewrite mul1r mulr1 => H.
  rewrite [`|u|]ger0_norm // -normrN; have -> : - (1 + u - exp u) = exp u - 1 - u by rewrite opprB opprD addrA.
  by apply: le_trans H _; rewrite -mulrA [_ * (_ / _)]mulrC.
have u0' : 0 <= - u by rewrite oppr_ge0 ltW.
have := pos (- u) (-1) u0' (or_intror erefl); rewrite mulrN1 mulN1r !opprK sqrrN => H.
rewrite [`|u|]ltr0_norm // -normrN; have -> : - (1 + u - exp u) = exp u - 1 - u by rewrite opprB opprD addrA.
by apply: le_trans H _; rewrite -mulrA [_ * (_ / _)]mulrC.
Qed.

Lemma norm_1D (u : R) : `|1 + u| <= exp `|u|.
Proof.
apply: le_trans (ler_norm_add _ _) _; rewrite normr1.
by apply/RleP; have := exp_ineq1_le `|u|; toR.
Qed.

Lemma prod_err (s : seq R) :
  `|\prod_(u <- s) (1 + u) - exp (\sum_(u <- s) u)| <= (\sum_(u <- s) u ^+ 2) / 2%:R * exp (\sum_(u <- s) `|u|).
Proof.
elim: s => [|u s IH]; first by rewrite !big_nil expR0 subrr normr0 !mul0r.
rewrite !big_cons !expRD; move: IH.
set P := \prod_(_ <- _) _; set S := \sum_(_ <- _) _; set Q := \sum_(_ <- _) _; set V := \sum_(_ <- _) _ => IH.
have -> : (1 + u) * P - exp u * exp S = (1 + u) * (P - exp S) + (1 + u - exp u) * exp S by rring.
have SV : exp S <= exp V.
  apply: exp_mono; apply: le_trans (ler_norm _) _; exact: ler_norm_sum.
have eu := expR_gt0 `|u|.
apply: le_trans (ler_norm_add _ _) _; rewrite !normrM [`|exp S|]ger0_norm ?(ltW (expR_gt0 _)) //.
have H1 : `|1 + u| * `|P - exp S| <= exp `|u| * (Q / 2%:R * exp V).
  by apply: ler_pmul => //; exact: norm_1D.
have H2 : `|1 + u - exp u| * exp S <= u ^+ 2 / 2%:R * exp `|u| * exp V.
  by apply: ler_pmul => //; [exact: ltW (expR_gt0 _) | exact: exp_lin_err].
apply: le_trans (ler_add H1 H2) _.
move: (exp V) (exp `|u|) (u ^+ 2) => a b c; apply: eq_ler; toR; field.
Qed.

Section EulerRun.
Variables (g : prng) (d : nat) (c b h : R) (M N : nat) (x0 : 'cV[R]_d).
Hypotheses (h0 : 0 < h) (M0 : (0 < M)%N).
Let int (_ : key g) (z : 'cV[R]_d) f (T : R) := euler z f (T / M%:R) M.
Let x n (k : key g) := nth x0 (sde_solver (@gbm_drift_ c d) (@gbm_sigma_ b d) (get_approx g d) h int k x0 N).1.2 n.
Variables (k : key g) (i : 'I_d).
Let al j := (parabolas d (child (child k N j) 2 0) h).1 i 0.
Let be j := (parabolas d (child (child k N j) 2 0) h).2 i 0.
Let w n j : R := (c * h + b * (al n + sqrt 6%:R * (1 - 2%:R * (j%:R / M%:R)) * be n)) / M%:R.

Lemma gbm_euler_run n : (n <= N)%N ->
  x n k i 0 = x0 i 0 * \prod_(0 <= j < n) \prod_(0 <= l < M) (1 + w j l).
Proof.
elim: n => [|n IH] nN; first by rewrite big_geq // mulr1 /x sde_solverE.
rewrite big_nat_recr //= mulrA -IH ?(ltnW nN) //.
case Eab: (parabolas d (child (child k N n) 2 0) h) => [u v].
rewrite /x (@gbm_step g d c b h int N x0 h0 n k u v nN Eab) /int euler_diag; congr (_ * _).
apply: eq_big_nat => l _; congr (1 + _); rewrite mxE /w /al /be Eab /=.
have MN : (M%:R : R) != 0 by rewrite pnatr_eq0 -lt0n.
move/eqP: MN; move: (u i 0) (v i 0) (sqrt _) (l%:R : R) (M%:R : R) => y z r q m; toR => m0.
by apply: (_ : @eq R _ _); field; split=> //; move/RltP: h0; toR; lra.
Qed.

Let v j := `|c * h| + `|b| * (`|al j| + sqrt 6%:R * `|be j|).

Lemma sum_iota (f : nat -> R) n : \sum_(j <- iota 0 n) f j = \sum_(0 <= j < n) f j.
Proof. by rewrite /index_iota subn0. Qed.

Lemma w_le j l : (l < M)%N -> `|w j l| <= v j / M%:R.
Proof.
move=> lM; have MN : 0 < (M%:R : R) by rewrite ltr0n.
rewrite /w normrM normrV ?unitfE ?gt_eqF // [`|M%:R|]gtr0_norm // ler_pmul2r ?invr_gt0 //.
apply: le_trans (ler_norm_add _ _) _; apply: ler_add => //; rewrite normrM.
apply: ler_wpmul2l => //; apply: le_trans (ler_norm_add _ _) _; apply: ler_add => //.
rewrite !normrM gtr0_norm ?sqrt6_gt0 //; apply: ler_wpmul2r => //.
rewrite -[leRHS]mulr1; apply: ler_wpmul2l; first exact: ltW sqrt6_gt0.
have q0 : 0 <= l%:R / M%:R :> R by apply: divr_ge0; exact: ler0n.
have q1 : l%:R / M%:R <= 1 :> R by rewrite ler_pdivr_mulr // mul1r ler_nat ltnW.
move: (l%:R / M%:R) q0 q1 => q /RleP q0 /RleP q1.
by rewrite ler_norml; apply/andP; split; apply/RleP; move: q0 q1; toR; lra.
Qed.

Lemma w_sum j : \sum_(0 <= l < M) w j l = c * h + b * al j + sqrt 6%:R * b * be j / M%:R.
Proof.
have MN : (M%:R : R) != 0 by rewrite pnatr_eq0 -lt0n.
transitivity (\sum_(0 <= l < M) (c * h / M%:R + b * al j / M%:R + (b * sqrt 6%:R * be j / M%:R ^+ 2) * (M%:R - 2%:R * l%:R))).
  apply: eq_big_nat => l _; rewrite /w exprS expr1; move/eqP: MN.
  move: (al j) (be j) (sqrt _) (l%:R : R) (M%:R : R) => y z r q m; toR => m0.
  by apply: (_ : @eq R _ _); field.
have S1 : \sum_(0 <= l < M) (M%:R - 2%:R * l%:R) = M%:R :> R.
  have H n : \sum_(0 <= l < n) (M%:R - 2%:R * l%:R) = n%:R * M%:R - n%:R * (n%:R - 1) :> R.
    elim: n => [|n IH]; first by rewrite big_geq // !mul0r subrr.
    rewrite big_nat_recr //= IH -[n.+1]addn1 natrD; move: (n%:R : R) (M%:R : R) => y z; rring.
  by rewrite H; move: (M%:R : R) => m; rring.
rewrite big_split /= -mulr_sumr S1 sumr_const_nat subn0 -[_ *+ M]mulr_natr exprS expr1.
move/eqP: MN; move: (al j) (be j) (sqrt _) (M%:R : R) => y z r m; toR => m0.
by apply: (_ : @eq R _ _); field.
Qed.

Lemma expm1_le (r : R) : `|exp r - 1| <= `|r| * exp `|r|.
Proof.
case: (lerP 0 r) => r0.
  rewrite ger0_norm; last by rewrite subr_ge0 -expR0; exact: exp_mono.
  have := exp_ineq1_le (Ropp r); have := exp_pos r.
  move=> A B; apply/RleP; move: A B r0 => A B /RleP; rewrite exp_Ropp in B; toR => r0.
  have C : (exp r * (1 + - r) <= exp r * / exp r)%Re by apply: Rmult_le_compat_l => //; lra.
  have D : (exp r * / exp r = 1)%Re by field; lra.
  by rewrite Rabs_right; lra.
rewrite ler0_norm; last by rewrite subr_le0 -expR0; apply: exp_mono; exact: ltW r0.
rewrite opprB ltr0_norm //.
have A : 1 + r <= exp r by apply/RleP; have := exp_ineq1_le r; toR.
have B : 1 <= exp (- r) by rewrite -expR0; apply: exp_mono; rewrite oppr_ge0 (ltW r0).
apply: (@le_trans _ _ (- r)); first by rewrite ler_subl_addr addrC -ler_subl_addr opprK.
by rewrite ler_pemulr // oppr_ge0 (ltW r0).
Qed.

Lemma gbm_euler_error n : (n <= N)%N ->
  `|x n k i 0 - x0 i 0 * exp (c * (n%:R * h) + b * \sum_(0 <= j < n) al j)| <=
  `|x0 i 0| * exp (\sum_(0 <= j < n) v j) *
   ((\sum_(0 <= j < n) v j ^+ 2) / 2%:R + sqrt 6%:R * `|b| * \sum_(0 <= j < n) `|be j|) / M%:R.
Proof.
move=> nN; rewrite gbm_euler_run // -mulrBr normrM -!mulrA; apply: ler_wpmul2l => //.
have M1 : 0 < (M%:R : R) by rewrite ltr0n.
pose us := [seq w j l | j <- iota 0 n, l <- iota 0 M].
have EP : \prod_(0 <= j < n) \prod_(0 <= l < M) (1 + w j l) = \prod_(u <- us) (1 + u).
  by rewrite /us big_allpairs_dep /index_iota !subn0.
set s := c * _ + _; pose r := sqrt 6%:R * b * (\sum_(0 <= j < n) be j) / M%:R.
have ES : \sum_(u <- us) u = s + r.
  rewrite /us big_allpairs_dep /= -[n in LHS]subn0 -/(index_iota 0 n).
  transitivity (\sum_(0 <= j < n) (c * h + b * al j + sqrt 6%:R * b * be j / M%:R)).
    by apply: eq_bigr => j _; rewrite sum_iota w_sum.
  rewrite !big_split /= sumr_const_nat subn0 -mulr_sumr /s -[_ *+ n]mulr_natr /r; congr (_ + _ + _).
    by rewrite -mulrA [h * _]mulrC.
  by rewrite mulr_sumr mulr_suml.
have EQ : \sum_(u <- us) u ^+ 2 <= (\sum_(0 <= j < n) v j ^+ 2) / M%:R.
  rewrite /us big_allpairs_dep /= -[n in leLHS]subn0 -/(index_iota 0 n) mulr_suml; apply: ler_sum => j _.
  rewrite sum_iota; apply: (@le_trans _ _ (\sum_(0 <= l < M) (v j / M%:R) ^+ 2)).
    rewrite !big_nat; apply: ler_sum => l /andP [_ lM]; rewrite -(real_normK (num_real (w j l))).
    by apply: ler_expn2r; rewrite ?nnegrE //; [exact: le_trans (w_le j lM) | exact: w_le].
  rewrite sumr_const_nat subn0 -[_ *+ M]mulr_natr; apply: eq_ler.
  move: (gt_eqF M1) => /negbT/eqP; rewrite !exprS !expr0; move: (v j) (M%:R : R) => y m; toR => m0.
  by apply: (_ : @eq R _ _); field.
have EV : \sum_(u <- us) `|u| <= \sum_(0 <= j < n) v j.
  rewrite /us big_allpairs_dep /= -[n in leLHS]subn0 -/(index_iota 0 n); apply: ler_sum => j _.
  rewrite sum_iota; apply: (@le_trans _ _ (\sum_(0 <= l < M) (v j / M%:R))).
    by rewrite !big_nat; apply: ler_sum => l /andP [_ lM]; exact: w_le.
  by rewrite sumr_const_nat subn0 -[_ *+ M]mulr_natr mulfVK // gt_eqF.
have e6 := sqrt6_gt0.
have Hr : `|r| <= sqrt 6%:R * `|b| * (\sum_(0 <= j < n) `|be j|) / M%:R.
  rewrite /r !normrM [`|sqrt _|]gtr0_norm // normrV ?unitfE ?gt_eqF // [`|M%:R|]gtr0_norm //.
  apply: ler_wpmul2r; first by rewrite invr_ge0 ltW.
  apply: ler_wpmul2l; first by apply: mulr_ge0 => //; exact: ltW.
  exact: ler_norm_sum.
have Hsr : s + `|r| <= \sum_(0 <= j < n) v j.
  apply: (@le_trans _ _ (s + sqrt 6%:R * `|b| * \sum_(0 <= j < n) `|be j|)).
    apply: ler_add => //; apply: le_trans Hr _; rewrite ler_pdivr_mulr // ler_pemulr //.
      apply: mulr_ge0; first by apply: mulr_ge0 => //; exact: ltW.
      by apply: sumr_ge0.
    by rewrite ler1n.
  have -> : s = \sum_(0 <= j < n) (c * h + b * al j).
    rewrite big_split /= sumr_const_nat subn0 -mulr_sumr /s; congr (_ + _).
    by rewrite -[(c * h) *+ n]mulr_natr -mulrA [h * _]mulrC.
  rewrite mulr_sumr -big_split /=; apply: ler_sum => j _; rewrite /v.
  have H1 := ler_norm (c * h); have H2 := ler_norm (b * al j); rewrite normrM in H2.
  move: H1 H2; move: (c * h) (b * al j) (`|c * h|) => p q p' H1 H2.
  apply: (@le_trans _ _ (p' + `|b| * `|al j| + sqrt 6%:R * `|b| * `|be j|)).
    by rewrite ler_add2r; exact: ler_add.
  by apply: eq_ler; move: (`|b|) (`|al j|) (`|be j|) (sqrt _) => y1 y2 y3 y4; rring.
rewrite EP.
have -> : \prod_(u <- us) (1 + u) - exp s = (\prod_(u <- us) (1 + u) - exp (s + r)) + exp s * (exp r - 1).
  by rewrite (expRD s r); move: (\prod_(_ <- _) _) (exp s) (exp r) => y1 y2 y3; rring.
apply: le_trans (ler_norm_add _ _) _.
set V := \sum_(0 <= j < n) v j; set Q := \sum_(0 <= j < n) v j ^+ 2; set Z := sqrt 6%:R * (`|b| * \sum_(0 <= j < n) `|be j|).
have {}Hr : `|r| <= Z / M%:R by apply: le_trans Hr _; rewrite /Z !mulrA.
have H1 : `|\prod_(u <- us) (1 + u) - exp (s + r)| <= Q / M%:R / 2%:R * exp V.
  rewrite -ES; apply: le_trans (prod_err us) _; apply: ler_pmul.
  - by apply: divr_ge0; [apply: sumr_ge0 => u _; exact: sqr_ge0 | exact: ler0n].
  - exact: ltW (expR_gt0 _).
  - by apply: ler_wpmul2r => //; rewrite invr_ge0 ler0n.
  - exact: exp_mono.
have H2 : `|exp s * (exp r - 1)| <= Z / M%:R * exp V.
  rewrite normrM [`|exp s|]gtr0_norm ?expR_gt0 //.
  apply: le_trans (ler_wpmul2l (ltW (expR_gt0 s)) (expm1_le r)) _.
  rewrite mulrCA -(expRD s `|r|); apply: ler_pmul; [by []| exact: ltW (expR_gt0 _) | exact: Hr | exact: exp_mono].
apply: le_trans (ler_add H1 H2) _; apply: eq_ler; move: (gt_eqF M1) => /negbT/eqP.
clear H1 H2 Hr; move: (exp V) (M%:R : R) Q Z => y1 m y2 y3; toR => m0; by apply: (_ : @eq R _ _); field.
Qed.
End EulerRun.

(** ** Theorem forms *)
Section Forms.
Variables (g : prng) (d : nat) (a b h : R).
Variable int : key g -> 'cV[R]_d -> ('cV[R]_d -> R -> 'cV[R]_d) -> R -> 'cV[R]_d.
Variables (N : nat) (x0 : 'cV[R]_d).
Let fs := to_stratonovich (@gbm_drift_ a d) (@gbm_sigma_ b d).
Let run k := sde_solver fs.1 fs.2 (get_approx g d) h int k x0 N.
Let raw k := sde_solver (@gbm_drift_ a d) (@gbm_sigma_ b d) (get_approx g d) h int k x0 N.

Lemma ret_coeffs f s j k : (j < N)%N ->
  nth (0, 0) (sde_solver f s (get_approx g d) h int k x0 N).2 j = parabolas d (child (child k N j) 2 0) h.
Proof.
move=> jN.
by have [-> _] := @interval_ode g d d _ f s (get_approx g d) h int k x0 N j (0, 0) jN.
Qed.

Lemma gbm_exact : 0 < h -> solves_diagonal int h -> forall n k i, (n <= N)%N ->
  nth x0 (run k).1.2 n i 0 =
  x0 i 0 * exp ((a - b ^+ 2 / 2%:R) * (n%:R * h) + b * \sum_(0 <= j < n) (nth (0, 0) (run k).2 j).1 i 0).
Proof.
move=> h0 ex n k i nN; rewrite /run /fs gbm_strat /= gbm_run //; congr (_ * exp (_ + _ * _)).
apply: eq_big_nat => j /andP [_ jn]; rewrite ret_coeffs //; exact: leq_trans jn nN.
Qed.

Lemma gbm_unconverted : 0 < h -> solves_diagonal int h -> forall n k i, (n <= N)%N ->
  nth x0 (raw k).1.2 n i 0 = exp (b ^+ 2 / 2%:R * (n%:R * h)) * nth x0 (run k).1.2 n i 0.
Proof.
move=> h0 ex n k i nN; rewrite /raw /run /fs gbm_strat /= !gbm_run // [RHS]mulrCA -expRD; congr (_ * exp _).
rewrite addrA; congr (_ + _); rewrite -mulrDl addrC; congr (_ * _); rewrite subrK //.
Qed.

Lemma gbm_law (E F : expectation (key g)) : 0 < h -> solves_diagonal int h ->
  (forall G, F (fun k => G (split k N)) = iid E N G) ->
  let x n k := nth x0 (run k).1.2 n in
  let xi k i := normal2 (child k 2 0) 2 d 0 i in
  forall n i j p q, (n <= N)%N ->
  F (fun k => x n k i 0 ^+ p * x n k j 0 ^+ q) =
  x0 i 0 ^+ p * x0 j 0 ^+ q *
  (exp ((p + q)%:R * (a - b ^+ 2 / 2%:R) * h) * E (fun k => exp (b * sqrt h * (p%:R * xi k i + q%:R * xi k j)))) ^+ n.
Proof.
move=> h0 ex sp x xi n i j p q nN; rewrite /x /run /fs gbm_strat /=.
exact: gbm_moment.
Qed.
End Forms.

Lemma powE (s : R) m : exp s ^+ m = exp (m%:R * s).
Proof.
elim: m => [|m IH]; first by rewrite expr0 mul0r expR0.
by rewrite exprS IH -expRD -[m.+1]add1n natrD mulrDl mul1r.
Qed.


Lemma gbm_gaussian (g : prng) (a b h : R) int N (E F : expectation (key g)) : 0 < h -> solves_diagonal int h ->
  (forall G, F (fun k => G (split k N)) = iid E N G) ->
  let xi k := normal2 (child k 2 0) 2 1 0 0 in
  E (fun k => exp (b * sqrt h * xi k)) = exp ((b * sqrt h) ^+ 2 / 2%:R) ->
  E (fun k => exp (2%:R * (b * sqrt h) * xi k)) = exp ((2%:R * (b * sqrt h)) ^+ 2 / 2%:R) ->
  let fs := to_stratonovich (@gbm_drift_ a 1) (@gbm_sigma_ b 1) in
  let x n k := nth gbm_x0 (sde_solver fs.1 fs.2 (get_approx g 1) h int k gbm_x0 N).1.2 n 0 0 in
  let y n k := nth gbm_x0 (sde_solver (@gbm_drift_ a 1) (@gbm_sigma_ b 1) (get_approx g 1) h int k gbm_x0 N).1.2 n 0 0 in
  forall n, (n <= N)%N ->
  [/\ F (x n) = gbm_mean_ a (n%:R * h) 0 0,
      F (fun k => x n k ^+ 2) - F (x n) ^+ 2 = gbm_variance_ a b (n%:R * h) 0 0 &
      F (y n) = exp (b ^+ 2 / 2%:R * (n%:R * h)) * gbm_mean_ a (n%:R * h) 0 0].
Proof.
move=> h0 ex sp xi G1 G2 fs x y n nN.
have hh : sqrt h * sqrt h = h by apply: sqrt_def; apply/RleP; exact: ltW.
have L p := @gbm_law g 1 a b h int N gbm_x0 E F h0 ex sp n 0 0 p 0%N nN.
have M1 : F (x n) = gbm_mean_ a (n%:R * h) 0 0.
  transitivity (F (fun k => x n k ^+ 1 * x n k ^+ 0)); first by apply: E_ext => k; rewrite mulr1 expr1.
  rewrite (L 1%N) !mxE expr1 !mul1r.
  rewrite (@E_ext _ E _ (fun k => exp (b * sqrt h * xi k))); last by move=> k; rewrite mul0r addr0 mul1r.
  rewrite G1 -expRD powE mulr1; congr exp.
  have -> : (b * sqrt h) ^+ 2 = b * b * h by rewrite expr2 mulrACA hh.
  rewrite expr2.
  by move: (n%:R : R) => r; toR; field.
have M2 : F (fun k => x n k ^+ 2) = exp (2%:R * a * (n%:R * h) + b ^+ 2 * (n%:R * h)).
  transitivity (F (fun k => x n k ^+ 2 * x n k ^+ 0)); first by apply: E_ext => k; rewrite mulr1.
  rewrite (L 2%N) !mxE expr1n !mul1r -[(2 + 0)%N]/2%N.
  rewrite (@E_ext _ E _ (fun k => exp (2%:R * (b * sqrt h) * xi k))); last first.
    by move=> k; rewrite mul0r addr0 mulrA [_ * 2%:R]mulrC.
  rewrite G2 -expRD powE; congr exp.
  have -> : (2%:R * (b * sqrt h)) ^+ 2 = 2%:R * 2%:R * (b * b * h) by rewrite expr2 mulrACA [b * sqrt h * _]mulrACA hh.
  by rewrite expr2; move: (n%:R : R) => r; toR; field.
split=> //.
  rewrite M1 M2 !mxE !mulr1 expr1n mul1r powE expRD mulrBl mul1r mulrC; congr (_ - _).
  by congr exp; rewrite !mulrA.
rewrite -M1 -E_scale; apply: E_ext => k.
exact: (@gbm_unconverted g 1 a b h int N gbm_x0 h0 ex n k 0 nN).
Qed.

(** ** An integrator and draws satisfying the hypotheses *)
Definition diag_solver (K : Type) d (k : K) (x : 'cV[R]_d) (f : 'cV[R]_d -> R -> 'cV[R]_d) (T : R) : 'cV[R]_d :=
  \col_i (x i 0 * exp (RInt (fun s => f (const_mx 1) s i 0) 0 T)).

Lemma diag_solver_exact (K : Type) d T : solves_diagonal (@diag_solver K d) T.
Proof.
move=> k x u y uc y0 Dy; apply/colP=> i; rewrite mxE.
have -> : (fun s : R => (\col_j (u s j 0 * (const_mx 1 : 'cV[R]_d) j 0)) i 0) = fun s => u s i 0.
  by apply: functional_extensionality => s; rewrite !mxE mulr1.
have D t : is_derive (fun s => RInt (fun r => u r i 0) 0 s) t (u t i 0).
  apply: (@is_derive_RInt _ (fun s => u s i 0) _ 0); last exact: uc.
  exists posreal_one => s _; apply: (@RInt_correct R_CompleteNormedModule); apply: ex_RInt_continuous => z _; exact: uc.
have Z t : is_derive (fun s => Rmult (y s i 0) (exp (Ropp (RInt (fun r => u r i 0) 0 s)))) t 0.
  have D1 := @is_derive_opp R_AbsRing R_NormedModule _ t _ (D t).
  have D2 := is_derive_comp exp _ t _ _ (is_derive_exp _) D1.
  have D3 := Dy t i 0.
  have := @is_derive_mult R_AbsRing (fun s => y s i 0) (fun s => exp (Ropp (RInt (fun r => u r i 0) 0 s))) t _ _ D3 D2 Rmult_comm.
  congr is_derive; rewrite mxE /plus /mult /scal /opp /= /mult /=; toR; ring.
have := deriv0_const Z T 0; rewrite RInt_point /zero /= Ropp_0 exp_0 Rmult_1_r y0 => <-.
have := exp_pos (RInt (fun r => u r i 0) 0 T); rewrite exp_Ropp; toR => e0; field; lra.
Qed.

Lemma three_lin (Om : Type) (w0 w1 w2 : Om) p a X Y :
  three w0 w1 w2 p (fun w => a * X w + Y w) = a * three w0 w1 w2 p X + three w0 w1 w2 p Y.
Proof. rewrite /three; move: (X w0) (X w1) (X w2) (Y w0) (Y w1) (Y w2) => u1 u2 u3 v1 v2 v3; toR; field. Qed.
Lemma three_one (Om : Type) (w0 w1 w2 : Om) p : three w0 w1 w2 p (fun _ => 1) = 1.
Proof. by rewrite /three; toR; field. Qed.
Definition threeE (Om : Type) (w0 w1 w2 : Om) p : expectation Om := Expectation (three_lin w0 w1 w2 p) (three_one w0 w1 w2 p).
Lemma threeEE (Om : Type) (w0 w1 w2 : Om) p X :
  threeE w0 w1 w2 p X = (1 - p) * X w0 + p / 2%:R * X w1 + p / 2%:R * X w2.
Proof. by []. Qed.
Definition val_key (z : R) : ktree := Node [:: Leaf (fun _ _ => z); kzero].

Lemma val_key_normal z : normal2 (child (val_key z : key tree_prng) 2 0) 2 1 0 0 = z.
Proof. by rewrite /child /= mxE. Qed.

(** Three values whose exponential moments at [s] and [2 s] are those of the standard normal. *)
Lemma three_normal (s : R) : s != 0 -> exists z p : R,
  let E := threeE (val_key 0) (val_key z) (val_key (- z)) p in
  let xi (k : key tree_prng) := normal2 (child k 2 0) 2 1 0 0 in
  [/\ 0 < p < 1, E (fun k => exp (s * xi k)) = exp (s ^+ 2 / 2%:R) &
      E (fun k => exp (2%:R * s * xi k)) = exp ((2%:R * s) ^+ 2 / 2%:R)].
Proof.
move=> s0.
have [mu Emu] : exists mu, mu = exp (s ^+ 2 / 2%:R) by eexists.
have mu1 : 1 < mu.
  rewrite Emu -[ltLHS]expR0; apply/RltP/exp_increasing/RltP; apply: divr_gt0; last by rewrite ltr0n.
  by rewrite exprn_even_gt0.
pose c : R := (mu ^+ 3 + mu ^+ 2 + mu - 1) / 2%:R.
pose p : R := 2%:R / (mu ^+ 2 + 2%:R * mu + 3%:R).
have c1 : 1 < c.
  rewrite /c ltr_pdivl_mulr ?ltr0n // mul1r; move/RltP: mu1; rewrite !exprS !expr0 => m1; apply/RltP; move: m1; toR.
  by move=> m1; nra.
pose e : R := c + sqrt (c ^+ 2 - 1).
have q0 : 0 <= c ^+ 2 - 1 by rewrite subr_ge0 exprn_ege1 // ltW.
have rr : sqrt (c ^+ 2 - 1) * sqrt (c ^+ 2 - 1) = c ^+ 2 - 1 by apply: sqrt_def; apply/RleP.
have r0 : 0 <= sqrt (c ^+ 2 - 1) by apply/RleP; exact: sqrt_pos.
have e0 : 0 < e by apply: ltr_paddr => //; exact: lt_trans c1.
have eV : e^-1 = c - sqrt (c ^+ 2 - 1).
  apply: (mulfI (lt0r_neq0 e0)); rewrite mulfV ?lt0r_neq0 // /e; move: rr; rewrite expr2.
  move: (sqrt _) => r; toR => rr; nra.
have el : exp (ln e) = e by apply: exp_ln; apply/RltP.
have E1 : exp (s * (ln e / s)) = e by rewrite mulrCA mulfV // mulr1.
have E1' : exp (s * - (ln e / s)) = e^-1.
  by rewrite mulrN; have := exp_Ropp (s * (ln e / s)); rewrite E1; toR.
have D2 (y : R) : exp (2%:R * s * y) = exp (s * y) * exp (s * y).
  by rewrite -expRD; congr exp; toR; ring.
have mu4 : exp ((2%:R * s) ^+ 2 / 2%:R) = mu ^+ 4.
  by rewrite Emu powE; congr exp; rewrite !expr2; toR; field.
have den : 0 < mu ^+ 2 + 2%:R * mu + 3%:R.
  have m0 : 0 < mu by exact: lt_trans mu1.
  by apply: addr_gt0; [apply: addr_gt0; [exact: exprn_gt0 | apply: mulr_gt0 => //; exact: ltr0n] | exact: ltr0n].
exists (ln e / s), p; split.
- apply/andP; split; first by apply: divr_gt0 => //; exact: ltr0n.
  rewrite /p ltr_pdivr_mulr // mul1r; apply/RltP; move/RltP: mu1; rewrite expr2; toR => m1; nra.
- rewrite threeEE !val_key_normal E1 E1' eV mulr0 expR0 /e /p -Emu.
  have -> : c = (mu ^+ 3 + mu ^+ 2 + mu - 1) / 2%:R by [].
  move/RltP: den; rewrite !exprS !expr0; move: (sqrt _) => r; toR => den; field; nra.
rewrite threeEE !D2 !val_key_normal E1 E1' eV mu4 mulr0 expR0 !mulr1 /e.
have -> : (c + sqrt (c ^+ 2 - 1)) * (c + sqrt (c ^+ 2 - 1)) = 2%:R * c ^+ 2 - 1 + 2%:R * c * sqrt (c ^+ 2 - 1).
  move: rr; rewrite expr2; move: (sqrt _) => r; toR => rr; nra.
have -> : (c - sqrt (c ^+ 2 - 1)) * (c - sqrt (c ^+ 2 - 1)) = 2%:R * c ^+ 2 - 1 - 2%:R * c * sqrt (c ^+ 2 - 1).
  move: rr; rewrite expr2; move: (sqrt _) => r; toR => rr; nra.
move: (sqrt _) => r; have -> : c = (mu ^+ 3 + mu ^+ 2 + mu - 1) / 2%:R by [].
rewrite /p; move/RltP: den; rewrite !exprS !expr0; toR => den; field; nra.
Qed.

Lemma gbm_unconverted_refuted (a b h : R) N : b != 0 -> 0 < h -> (0 < N)%N ->
  exists (g : prng) (int : key g -> 'cV[R]_1 -> ('cV[R]_1 -> R -> 'cV[R]_1) -> R -> 'cV[R]_1) (E F : expectation (key g)),
  let xi k := normal2 (child k 2 0) 2 1 0 0 in
  let y n k := nth gbm_x0 (sde_solver (@gbm_drift_ a 1) (@gbm_sigma_ b 1) (get_approx g 1) h int k gbm_x0 N).1.2 n 0 0 in
  [/\ solves_diagonal int h, forall G, F (fun k => G (split k N)) = iid E N G,
      E (fun k => exp (b * sqrt h * xi k)) = exp ((b * sqrt h) ^+ 2 / 2%:R),
      E (fun k => exp (2%:R * (b * sqrt h) * xi k)) = exp ((2%:R * (b * sqrt h)) ^+ 2 / 2%:R) &
      F (y N) <> gbm_mean_ a (N%:R * h) 0 0].
Proof.
move=> b0 h0 N0.
have sh : 0 < sqrt h by apply/RltP/sqrt_lt_R0/RltP.
have s0 : b * sqrt h != 0 by rewrite mulf_neq0 // gt_eqF.
have [z [p [_ G1 G2]]] := three_normal s0.
set E := threeE _ _ _ _ in G1 G2.
exists tree_prng, (@diag_solver _ 1), E, (nodeE E N) => xi y.
have sp G : nodeE E N (fun k => G (split (k : key tree_prng) N)) = iid E N G by exact: nodeE_split.
split=> //; first exact: diag_solver_exact.
have [_ _ ->] := @gbm_gaussian tree_prng a b h (@diag_solver _ 1) N E (nodeE E N) h0 (@diag_solver_exact _ 1 h) sp G1 G2 N (leqnn _).
have G : 1 < exp (b ^+ 2 / 2%:R * (N%:R * h)).
  rewrite -[ltLHS]expR0; apply/RltP/exp_increasing/RltP.
  apply: mulr_gt0; last by apply: mulr_gt0 => //; rewrite ltr0n.
  by apply: divr_gt0; [rewrite exprn_even_gt0 | rewrite ltr0n].
rewrite !mxE mulr1 => /eqP; rewrite -{2}[exp (a * _)]mul1r (inj_eq (mulIf _)) ?gt_eqF ?expR_gt0 //.
Qed.

Lemma gbm_euler (g : prng) d (a b h : R) (M N : nat) (x0 : 'cV[R]_d) : 0 < h -> (0 < M)%N ->
  let fs := to_stratonovich (@gbm_drift_ a d) (@gbm_sigma_ b d) in
  let run (k : key g) := sde_solver fs.1 fs.2 (get_approx g d) h (fun _ z f T => euler z f (T / M%:R) M) k x0 N in
  let c := a - b ^+ 2 / 2%:R in
  forall n k i, (n <= N)%N ->
  let al j := (nth (0, 0) (run k).2 j).1 i 0 in
  let be j := (nth (0, 0) (run k).2 j).2 i 0 in
  let v j := `|c * h| + `|b| * (`|al j| + sqrt 6%:R * `|be j|) in
  let x := nth x0 (run k).1.2 n i 0 in
  x = x0 i 0 * \prod_(0 <= j < n) \prod_(0 <= l < M)
        (1 + (c * h + b * (al j + sqrt 6%:R * (1 - 2%:R * (l%:R / M%:R)) * be j)) / M%:R) /\
  `|x - x0 i 0 * exp (c * (n%:R * h) + b * \sum_(0 <= j < n) al j)| <=
  `|x0 i 0| * exp (\sum_(0 <= j < n) v j) *
   ((\sum_(0 <= j < n) v j ^+ 2) / 2%:R + sqrt 6%:R * `|b| * \sum_(0 <= j < n) `|be j|) / M%:R.
Proof.
move=> h0 M0 fs run c n k i nN al be v x.
have r j : (j < n)%N -> nth (0, 0) (run k).2 j = parabolas d (child (child k N j) 2 0) h.
  by move=> jn; rewrite /run ret_coeffs //; exact: leq_trans jn nN.
have big (f : R -> R -> R) : \sum_(0 <= j < n) f (al j) (be j) =
    \sum_(0 <= j < n) f ((parabolas d (child (child k N j) 2 0) h).1 i 0) ((parabolas d (child (child k N j) 2 0) h).2 i 0).
  by apply: eq_big_nat => j /andP [_ jn]; rewrite /al /be r.
rewrite /x /run /fs gbm_strat; cbn [fst snd]; split.
  rewrite gbm_euler_run //; congr (_ * _); apply: eq_big_nat => j /andP [_ jn].
  by apply: eq_big_nat => l _; rewrite /al /be r.
rewrite (big (fun u _ => u)) (big (fun _ w => `|w|)) /v.
rewrite (big (fun u w => `|c * h| + `|b| * (`|u| + sqrt 6%:R * `|w|))).
rewrite (big (fun u w => (`|c * h| + `|b| * (`|u| + sqrt 6%:R * `|w|)) ^+ 2)).
exact: gbm_euler_error.
Qed.
