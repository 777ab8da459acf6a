(** Algorithm 4 with its call repaired and one step per interval: the law of the trajectory. *)
From Coq Require Import Reals Lra FunctionalExtensionality.
From Coquelicot Require Import Coquelicot.
From mathcomp Require Import all_ssreflect all_algebra mxtens.
From Verif Require Import Rstruct Base Linalg Lapack Calc Prob Spec M_Utils L_Utils M_Foster L_Foster
  M_Filter L_Filter M_Prior L_Prior M_OdeSolvers L_OdeSolvers L_Alg3 M_Ssm L_Ssm L_Total L_Alg4 Expm L_Linear L_Gbm L_EndToEnd M_Ivp L_Ivp.

Set Implicit Arguments.
Unset Strict Implicit.
Unset Printing Implicit Defensive.
Import Order.TTheory GRing.Theory Num.Theory.
Local Open Scope ring_scope.

(** ** The mean after one step *)
Section OneStep.
Variables (lp : lapack) (d : nat) (drift : 'cV[R]_d -> R -> 'cV[R]_d) (D : 'M[R]_d) (delta sg : R).
Hypotheses (d0 : (0 < d)%N) (dl : 0 < delta) (s0 : sg != 0).
Let obs := ssm_observation true drift (fun _ _ => D) delta.
Let tr : transition 2 := ioup 0 sg 1 delta 1.
Let A := ssm_A d tr.2.
Let Q := kron_eye d (ssm_pad tr.1.2 0).

Lemma mean_plain x0 m P :
  ekf lp obs A Q 0 0 false (ssm_mean x0 drift, ssm_var delta D) (mkseq (fun k => k.+1%:R * delta) 1) = Val (m, P) ->
  emat D delta delta *m m = heun drift delta x0.
Proof.
have -> : mkseq (fun k : nat => k.+1%:R * delta) 1 = rcons [::] delta by rewrite /mkseq /= mul1r.
rewrite ekf_rcons ekf_nil; cbn [rbind].
have [pP HP [P22 P23 P33 [Pee Pe2 Pe3]]] := @inv4_0 d D delta delta sg dl.
rewrite !mul0r in HP Pee Pe2 Pe3.
have tE : delta = 0 + delta by rewrite add0r.
have [QH QeH Qee] := @Q_facts d D delta delta sg delta.
have k0 : 0 < sg ^+ 2 * delta by rewrite mulr_gt0 // exprn_even_gt0.
have AH := @H_A d D delta delta sg dl 0; rewrite -tE in AH.
have Ae := @e_A d D delta delta sg dl _ _ HP; rewrite -tE in Ae.
set P0 := ssm_var delta D in pP HP P22 P23 P33 Pee Pe2 Pe3 Ae *.
have E33 := erefl (selector d (inord 3 : 'I_4) *m P0 *m (selector d (inord 3 : 'I_4))^T).
have pS := S_pd pP k0 HP E33 AH QH.
have iE := ine pP HP E33 Pe3 AH Ae QH QeH.
have pPp : psd (A *m P0 *m A^T + Q) by apply: psdD; [exact: psd_congr | exact: Q_psd].
rewrite /ekf_body /predict; cbn [fst snd]; rewrite (@obs_jac d drift D delta true (or_introl isT)).
have S0 X : X + 0 = X :> 'M[R]_d by rewrite addr0.
set S := Hmat D delta delta *m _ *m _ in pS iE.
have pS0 : pd (S + 0) by rewrite S0.
rewrite (updateE lp _ _ pPp pS0) S0; cbn [rbind fst]; case=> <- _.
rewrite mulmxBr addr0 !mulmxA.
have dn : delta != 0 by exact: lt0r_neq0.
have -> : emat D delta delta *m (A *m P0 *m A^T + Q) *m (Hmat D delta delta)^T *m invmx S = (delta / 2%:R)%:M.
  by rewrite iE -scalemxAl mulmxV ?scalemx1 // pd_unit.
have mE : A *m ssm_mean x0 drift = joint4 (x0 + delta *: drift x0 0) (drift x0 0) 0 0.
  rewrite -(A_joint delta sg); congr (_ *m _); apply: slice_ext => i; rewrite !slice_interl.
  by case: i => [[|[|[|[|i]]]] Hi].
rewrite -mulmxA mE mul_scalar_mx.
have -> : dprimal (obs^~ delta) (joint4 (x0 + delta *: drift x0 0) (drift x0 0) 0 0) =
    drift x0 0 - drift (x0 + delta *: drift x0 0) delta.
  by rewrite /obs ssm_residual // jacR_eval // scaler0 addr0 scaler0 mulmx0 addr0.
have -> : emat D delta delta *m joint4 (x0 + delta *: drift x0 0) (drift x0 0) 0 0 = x0 + delta *: drift x0 0.
  rewrite /emat mulmxBl sel_slice -mulmxA /vals mulmxDl -!scalemxAl !sel_slice !slice_interl v2 v3.
  by rewrite !scaler0 addr0 mulmx0 subr0.
rewrite /heun; move: (drift x0 0) (drift _ delta) => u v.
by apply/colP=> i; rewrite !(addmxE, oppmxE, scalemxE); rfield.
Qed.

Lemma mean_step sq prior x0 m P : (prior = None /\ sg = 1) \/ prior = a_prior tr ->
  ssm_solver_xi lp x0 drift (fun _ _ => D) delta delta 1 sq true prior None (Some 0) = Val (m, P) ->
  emat D delta delta *m m = heun drift delta x0.
Proof.
move=> Hp; have Ep : ssm_prior delta prior = Val tr.
  by case: Hp => [[-> e]|->]; [rewrite /tr e | rewrite /ssm_prior /a_prior eqxx as_transition_id].
have pT : pd tr.1.2 by exact: tr_pd.
have [Q' EQ GQ] := chol_or lp sq pT.
have E0 : ssm_prior delta prior = Val (tr.1.1, tr.1.2, tr.2) by rewrite Ep; case: (tr) => [[? ?] ?].
rewrite (@ssm_run lp d drift (fun _ _ => D) delta delta 1 sq true x0 prior None tr.1.1 tr.1.2 tr.2 0 Q' d0 E0 erefl EQ).
case: (sq) GQ {EQ} => [GQ|-> ] E; last exact: mean_plain E.
have := ekf_sqrt_state lp obs A 0 (kron_eye d (ssm_pad Q' 0)) 0 (ssm_mean x0 drift) (sqrtm lp (ssm_var delta D)) (mkseq (fun k => k.+1%:R * delta) 1).
rewrite [ekf _ _ _ _ _ _ true _ _]E /= mul0mx pad_gram GQ sqrtm_gram; last exact: var_psd.
exact: mean_plain.
Qed.
End OneStep.

(** ** The law of one interval *)
Lemma heun_step (lp : lapack) (g : prng) (E : expectation (key g)) d (drift : 'cV[R]_d -> R -> 'cV[R]_d) (D : 'M[R]_d)
  (delta sg : R) (sq : bool) (x0 : 'cV[R]_d) (prior : prior_arg) :
  (0 < d)%N -> 0 < delta -> sg != 0 ->
  (prior = None /\ sg = 1) \/ prior = a_prior (ioup 0 sg 1 delta 1 : transition 2) ->
  standard E (fun k => normal k (d * 4)) ->
  exists X : key g -> 'cV[R]_d,
  [/\ forall k, exists r, marginal_xi (fun _ => Some 0) true lp (Some k) x0 delta drift (fun _ _ => D) delta 1 sq prior None = Val (X k, r),
      Emx E X = heun drift delta x0 &
      Emx E (fun k => (X k - heun drift delta x0) *m (X k - heun drift delta x0)^T) =
      delta *: (D *m D^T) + (sg ^+ 2 * delta ^+ 3 / 12%:R)%:M].
Proof.
move=> d0 dl s0 Hp st.
have Hp' : (prior = None /\ 0 < delta) \/ (exists2 tr : transition 2, prior = a_prior tr & pd tr.1.2).
  case: Hp => [[-> _]|->]; [by left | right].
  by eexists; [reflexivity | exact: (@ioup_pd sg 1 delta 1)].
have [m [P [Er [pC _ [Y [HY Ym YC]]]]]] :=
  @marginal_law lp g E d drift (fun _ _ => D) delta delta sq true 1 x0 prior None d0 dl Hp' (or_introl erefl) st.
have [[_ _ [C22 C23 C33 [Cee Ce2 Ce3]]] m2 _] := @run4 lp d drift D delta delta sg true d0 dl dl s0 (or_introl isT) sq prior x0 1 m P Hp Er.
have mE := mean_step d0 dl s0 Hp Er.
set C := if sq then _ else _ in pC YC C22 C23 C33 Cee Ce2 Ce3.
rewrite !mul1r in Cee Ce2.
have dn : delta != 0 by exact: lt0r_neq0.
pose L := selector d (0 : 'I_4); pose a_ := selector d (inord 2 : 'I_4).
have LE : L = emat D delta delta + D *m a_.
  by rewrite /emat /vals divff // subrr mulr0 scale0r addr0 scale1r subrK.
have me : L *m m = heun drift delta x0 by rewrite LE mulmxDl mE -mulmxA sel_slice m2 mulmx0 addr0.
exists (fun k => slice 0 (Y k)); split.
- by move=> k; eexists; exact: HY.
- rewrite -me -Ym -Emx_mull; apply: Emx_ext => k; by rewrite sel_slice.
rewrite -me.
have -> : Emx E (fun k => (slice 0 (Y k) - L *m m) *m (slice 0 (Y k) - L *m m)^T) = L *m C *m L^T.
  by rewrite -YC -cov_lin; apply: Emx_ext => k; rewrite !sel_slice.
have Ca : a_ *m C *m (emat D delta delta)^T = 0.
  by apply: trmx_inj; rewrite !trmx_mul trmxK pC.1 mulmxA Ce2 trmx0.
rewrite LE; set e_ := emat D delta delta in Cee Ce2 Ca *.
have -> : (e_ + D *m a_) *m C *m (e_ + D *m a_)^T =
    e_ *m C *m e_^T + D *m (a_ *m C *m e_^T) + (e_ *m C *m a_^T *m D^T + D *m (a_ *m C *m a_^T) *m D^T).
  by rewrite trD trmx_mul mulmxDr !mulmxDl !mulmxA.
rewrite Cee Ca Ce2 C22 mulmx0 mul0mx addr0 add0r addrC; congr (_ + _).
by rewrite mul_mx_scalar -scalemxAl.
Qed.

(** ** A chain driven by independent keys *)
Section Markov.
Variables (g : prng) (d N : nat) (E F : expectation (key g)).
Hypothesis si : forall G, F (fun k => G (split k N)) = iid E N G.
Variables (step : key g -> 'cV[R]_d -> 'cV[R]_d) (P S : 'M[R]_d) (x0 : 'cV[R]_d).
Hypothesis H1 : forall x, Emx E (fun k => step k x) = P *m x.
Hypothesis H2 : forall x, Emx E (fun k => (step k x - P *m x) *m (step k x - P *m x)^T) = S.
Definition chain (ws : seq (key g)) := foldl (fun y k => step k y) x0 ws.
Definition state n (k : key g) := chain (take n (split k N)).

Lemma state_S n k : (n < N)%N -> state n.+1 k = step (child k N n) (state n k).
Proof.
move=> nN; rewrite /state /chain (take_nth k) ?size_split //.
by rewrite -cats1 foldl_cat.
Qed.

Lemma over_take p q (G : 'cV[R]_d -> 'M[R]_(p, q)) n : (n <= N)%N ->
  Emx F (fun k => G (state n k)) = Emx (iidE E n) (fun ws => G (chain ws)).
Proof.
move=> nN; apply/matrixP=> i j; rewrite !mxE /state.
by rewrite (si (fun ks => G (chain (take n ks)) i j)) -(subnKC nN) (iid_take E n (N - n) (fun ws => G (chain ws) i j)).
Qed.

Lemma over_last p q (G : seq (key g) -> 'M[R]_(p, q)) n :
  Emx (iidE E n.+1) G = Emx (iidE E n) (fun ws => Emx E (fun k => G (rcons ws k))).
Proof.
apply/matrixP=> i j; rewrite !mxE.
have := iid_rcons E n (fun ws => G ws i j); rewrite /= => ->.
by apply: iid_ext => ws _; rewrite mxE.
Qed.

Lemma chain_rcons ws k : chain (rcons ws k) = step k (chain ws).
Proof. by rewrite /chain -cats1 foldl_cat. Qed.

Lemma chain_mean n : Emx (iidE E n) chain = mxpow P n *m x0.
Proof.
elim: n => [|n IH]; first by apply/matrixP=> i j; rewrite mxE mul1mx.
rewrite over_last mxpowS -mulmxA -IH -Emx_mull; apply: Emx_ext => ws.
by rewrite -H1; apply: Emx_ext => k; rewrite chain_rcons.
Qed.

Lemma markov_law : let m n := mxpow P n *m x0 in
  let C n := Emx F (fun k => (state n k - m n) *m (state n k - m n)^T) in
  [/\ forall n, (n <= N)%N -> Emx F (state n) = m n, C 0%N = 0 &
      forall n, (n < N)%N -> C n.+1 = P *m C n *m P^T + S].
Proof.
move=> m C; split.
- by move=> n nN; rewrite (over_take (fun y => y)) // chain_mean.
- rewrite /C; transitivity (Emx F (fun _ : key g => 0 : 'M[R]_d)); last exact: Emx_const.
  by apply: Emx_ext => k; rewrite /state take0 /m mul1mx subrr mul0mx.
move=> n nN; rewrite /C (over_take (fun y => (y - m n.+1) *m (y - m n.+1)^T)) // over_last.
rewrite (over_take (fun y => (y - m n) *m (y - m n)^T)) ?(ltnW nN) // -Emx_mull -Emx_mulr.
rewrite -[S in RHS](Emx_const (iidE E n)) -EmxD; apply: Emx_ext => ws.
set x := chain ws; set y := P *m (x - m n).
have e k : chain (rcons ws k) - m n.+1 = (step k x - P *m x) + y.
  by rewrite chain_rcons -/x /y /m mxpowS -mulmxA mulmxBr addrA subrK.
have -> : P *m ((x - m n) *m (x - m n)^T) *m P^T = y *m y^T by rewrite /y trmx_mul !mulmxA.
have z : Emx E (fun k => step k x - P *m x) = 0 by rewrite EmxD H1 EmxN Emx_const subrr.
transitivity (Emx E (fun k => (step k x - P *m x) *m (step k x - P *m x)^T + (step k x - P *m x) *m y^T +
    (y *m (step k x - P *m x)^T + y *m y^T))).
  by apply: Emx_ext => k; rewrite e; move: (step k x - P *m x) => u; rewrite trD mulmxDr !mulmxDl -!addrA; congr (_ + _); rewrite addrCA.
by rewrite !EmxD H2 Emx_mulr z mul0mx addr0 Emx_mull EmxT z trmx0 mulmx0 add0r Emx_const addrC.
Qed.
End Markov.

(** ** Through the driver *)
Lemma heun_linear d (A : 'M[R]_d) delta x :
  heun (fun y _ => A *m y) delta x = (1%:M + delta *: A + (delta ^+ 2 / 2%:R) *: (A *m A)) *m x.
Proof.
rewrite /heun mulmxDr -scalemxAr !mulmxDl mul1mx -!scalemxAl -mulmxA.
move: (A *m x) (A *m (A *m x)) => u v.
by apply/colP=> i; rewrite !(addmxE, scalemxE); rfield.
Qed.

Lemma alg4_linear (lp : lapack) (g : prng) d (A D : 'M[R]_d) (delta sg : R) (sq : bool) (prior : prior_arg) (N : nat) (x0 : 'cV[R]_d) :
  (0 < d)%N -> 0 < delta -> sg != 0 ->
  (prior = None /\ sg = 1) \/ prior = a_prior (ioup 0 sg 1 delta 1 : transition 2) ->
  let solver (k : key g) (x : 'cV[R]_d) f s T := marginal_xi (fun _ => Some 0) true lp (Some k) x T f s T 1 sq prior None in
  exists x : nat -> key g -> 'cV[R]_d,
  (forall k, exists2 traj, ssm_parabola_ode_solver (fun y _ => A *m y) (fun _ _ => D) delta solver k x0 N =
                 Val (mkseq (fun i => i%:R * delta) N.+1, traj) &
     size traj = N.+1 /\ forall n, (n <= N)%N -> nth (Val x0) traj n = Val (x n k)) /\
  forall E F : expectation (key g), (forall G, F (fun k => G (split k N)) = iid E N G) ->
  standard E (fun k => normal (child k 2 1) (d * 4)) ->
  let P := 1%:M + delta *: A + (delta ^+ 2 / 2%:R) *: (A *m A) in
  let cov n := Emx F (fun k => (x n k - Emx F (x n)) *m (x n k - Emx F (x n))^T) in
  [/\ forall n, (n <= N)%N -> Emx F (x n) = mxpow P n *m x0, cov 0%N = 0 &
      forall n, (n < N)%N -> cov n.+1 = P *m cov n *m P^T + (delta *: (D *m D^T) + (sg ^+ 2 * delta ^+ 3 / 12%:R)%:M)].
Proof.
move=> d0 dl s0 Hp solver.
pose f (y : 'cV[R]_d) (_ : R) := A *m y.
pose s (_ : 'cV[R]_d) (_ : R) := D.
pose step (k : key g) (x : 'cV[R]_d) := if solver (child k 2 1) x f s delta is Val r then r.1 else 0.
have tot k y : exists r, solver k y f s delta = Val r.
  have Hp' : (prior = None /\ 0 < delta) \/ (exists2 tr : transition 2, prior = a_prior tr & pd tr.1.2).
    case: Hp => [[-> _]|->]; [by left | right].
    by eexists; [reflexivity | exact: (@ioup_pd sg 1 delta 1)].
  have [tr Ep pQ] : exists2 tr : transition 2, ssm_prior delta prior = Val tr & pd tr.1.2.
    case: Hp => [[-> _]|->]; [exists (ioup 0 1 1 delta 1 : transition 2) => //; by apply: (@ioup_pd 1 1 delta 1); rewrite ?oner_neq0 |].
    exists (ioup 0 sg 1 delta 1 : transition 2); first by rewrite /ssm_prior /a_prior eqxx as_transition_id.
    exact: (@ioup_pd sg 1 delta 1).
  have [[m P] Er] := @ssm_total lp d f s delta delta 1 sq true y prior None tr d0 dl Ep pQ (or_introl erefl).
  by rewrite /solver /marginal_xi Er; cbn [rbind]; eexists.
exists (state N step x0); split.
  move=> k.
  have nr e : trace f s delta solver k x0 <> Raise e by have [r E] := tot (split2 k).2 x0; rewrite /trace [solver _ _ _ _ _]E.
  have [traj [-> st t0 tS]] := driver_recursion N nr.
  exists traj => //; split=> //; elim=> [|n IH] nN; first by rewrite t0 /state take0.
  rewrite tS // IH ?(ltnW nN) //; cbn [rbind]; rewrite state_S // /step.
  by have [r E] := tot (child (child k N n) 2 1) (state N step x0 n k); rewrite E.
move=> E F si std P cov.
pose E' := pushE (fun k => child k 2 1) E.
have H1 x : Emx E (fun k => step k x) = P *m x.
  have [X [X1 X2 _]] := @heun_step lp g E' d f D delta sg sq x prior d0 dl s0 Hp std.
  rewrite -heun_linear -X2; apply: (@Emx_ext _ E) => k.
  by have [r] := X1 (child k 2 1); rewrite /step => E1; rewrite [solver _ _ _ _ _]E1.
have H2 x : Emx E (fun k => (step k x - P *m x) *m (step k x - P *m x)^T) = delta *: (D *m D^T) + (sg ^+ 2 * delta ^+ 3 / 12%:R)%:M.
  have [X [X1 _ X2]] := @heun_step lp g E' d f D delta sg sq x prior d0 dl s0 Hp std.
  rewrite -X2 heun_linear; apply: (@Emx_ext _ E) => k.
  by have [r] := X1 (child k 2 1); rewrite /step => E1; rewrite [solver _ _ _ _ _]E1.
have [M1 M2 M3] := markov_law si x0 H1 H2.
have cE n : (n <= N)%N -> cov n = Emx F (fun k => (state N step x0 n k - mxpow P n *m x0) *m (state N step x0 n k - mxpow P n *m x0)^T).
  by move=> nN; rewrite /cov M1.
split=> //; first by rewrite cE.
by move=> n nN; rewrite !cE ?(ltnW nN) // M3.
Qed.

(** ** The scalar linear equation *)
Lemma var_heun (z k : R) (C : nat -> R) N : 0 < z -> 0 <= k -> C 0%N = 0 ->
  let p := 1 + z + z ^+ 2 / 2%:R in
  (forall n, (n < N)%N -> C n.+1 = p * C n * p + z * (1 + k)) ->
  forall n, (n <= N)%N -> let v := (exp (2%:R * (n%:R * z)) - 1) / 2%:R in
  v * (1 - z - n%:R * z ^+ 3 / 3%:R) <= C n /\ C n <= v * ((1 + k) / (1 + z)).
Proof.
move=> z0 k0 c0 p cS n nN v.
have lo : 1 + z + z ^+ 2 / 2%:R <= p by [].
have up : p <= exp z by exact: exp_quad_ge (ltW z0).
have cE : forall n, (n <= N)%N -> C n * (p ^+ 2 - 1) = z * (1 + k) * (p ^+ (n * 2) - 1).
  elim=> [|j IH] jN; first by rewrite c0 mul0r mul0n expr0 subrr mulr0.
  rewrite cS // mulrDl mulSn exprD.
  have -> : p * C j * p * (p ^+ 2 - 1) = p ^+ 2 * (C j * (p ^+ 2 - 1)) by rewrite expr2; move: (C j) (p) => q r; rring.
  by rewrite IH ?(ltnW jN) //; move: (z * (1 + k)) (p ^+ (j * 2)) (p ^+ 2) => q1 q2 q3; rring.
have := cE n nN => E.
have [L U] := p_pow z0 lo up (n * 2).
have e2 : (n * 2)%:R * z = 2%:R * (n%:R * z) by rewrite natrM [_ * 2%:R]mulrC mulrA.
rewrite e2 in L U.
have y0 : 0 <= n%:R * z by rewrite mulr_ge0 ?ler0n // ltW.
have X1 := exp_ineq1_le (2%:R * (n%:R * z)).
have D0 : 0 <= p ^+ (n * 2) - 1.
  by rewrite subr_ge0 exprn_ege1 // /p -addrA ler_addl addr_ge0 ?(ltW z0) // divr_ge0 ?ler0n // sqr_ge0.
have n2 : (n * 2)%:R = 2%:R * n%:R :> R by rewrite natrM mulrC.
rewrite n2 in L.
move: X1 L U D0 y0 E k0 z0; rewrite /v; set ee := exp (2%:R * (n%:R * z)); set P2 := p ^+ (n * 2); rewrite /p.
move: (ee) (P2) (C n) => EE PP cn.
move=> X1 /RleP L /RleP U /RleP D0 /RleP y0 E /RleP k0 /RltP z0'.
move: X1 L U D0 y0 E k0 z0'; rewrite !exprS !expr0; move: (n%:R : R) => m; toR.
move=> X1 L U D0 y0 E k0 z0'.
have z2 := Rmult_lt_0_compat _ _ z0' z0'.
have z3 := Rmult_lt_0_compat _ _ z2 z0'.
have z4 := Rmult_lt_0_compat _ _ z3 z0'.
pose w := (1 + z + z * z / 2 + z * z * z / 8)%Re.
have w1 : (1 + z <= w)%Re by rewrite /w; lra.
have cnE : cn = ((1 + k) / (2 * w) * (PP - 1))%Re.
  apply: (Rmult_eq_reg_r (2 * z * w)%Re); last by apply/not_eq_sym/Rlt_not_eq/Rmult_lt_0_compat; lra.
  have -> : ((1 + k) / (2 * w) * (PP - 1) * (2 * z * w) = z * (1 + k) * (PP - 1))%Re by field; lra.
  by rewrite -E /w; field.
have D1 : (0 <= EE - 1)%Re by lra.
have m0 : (0 <= m * z * z * z)%Re by have := Rmult_le_pos _ _ y0 (Rlt_le _ _ z2); lra.
split; apply/RleP; toR; rewrite cnE; last first.
  have -> : ((EE - 1) / 2 * ((1 + k) / (1 + z)) = (1 + k) / (2 * (1 + z)) * (EE - 1))%Re by field; lra.
  apply: Rmult_le_compat; [by apply: Rdiv_le_0_compat; lra | by [] | | lra].
  apply: Rmult_le_compat_l; first lra.
  by apply: Rinv_le_contravar; lra.
case: (Rle_lt_dec (1 - z - m * z * z * z / 3)%Re 0%Re) => H.
  apply: Rle_trans (_ : 0 <= _)%Re; last by apply: Rmult_le_pos => //; apply: Rdiv_le_0_compat; lra.
  have X : (0 <= (EE - 1) / 2)%Re by lra.
  by have := Rmult_le_compat_l _ _ _ X H; rewrite Rmult_0_r; lra.
have zl : (z < 1)%Re by lra.
have zz : (z * z < z)%Re by have := Rmult_lt_compat_l _ _ _ z0' zl; lra.
have PL : ((EE - 1) * (1 - m * z * z * z / 3 - z * z / 6) <= PP - 1)%Re.
  have : (0 <= (EE - 1 - 2 * (m * z)) * (z * z / 6))%Re by apply: Rmult_le_pos; lra.
  by lra.
have a1 : (0 < 1 - z + z * z / 6)%Re by lra.
have a2 : (0 < 1 - m * z * z * z / 3 - z * z / 6)%Re by lra.
have ql : ((1 - z + z * z / 6) / 2 <= (1 + k) / (2 * w))%Re.
  apply: (Rmult_le_reg_r (2 * w)%Re); first lra.
  have -> : ((1 + k) / (2 * w) * (2 * w) = 1 + k)%Re by field; lra.
  have : ((1 - z + z * z / 6) * w <= 1)%Re.
    have z5 : (z * z * z * z * z < z * z * z * z)%Re by have := Rmult_lt_compat_l _ _ _ z4 zl; lra.
    by rewrite /w; lra.
  by lra.
apply: Rle_trans (_ : (1 - z + z * z / 6) / 2 * ((EE - 1) * (1 - m * z * z * z / 3 - z * z / 6)) <= _)%Re; last first.
  by apply: Rmult_le_compat => //; [lra | apply: Rmult_le_pos; lra].
have X : (0 <= (z - z * z / 6) * (m * z * z * z / 3 + z * z / 6))%Re by apply: Rmult_le_pos; lra.
by have := Rmult_le_pos _ _ D1 X; lra.
Qed.

Lemma alg4_weak (lp : lapack) (g : prng) (a s delta sg : R) (sq : bool) (prior : prior_arg) (N : nat) (x0 : R) :
  0 < a -> s != 0 -> 0 < delta -> sg != 0 ->
  (prior = None /\ sg = 1) \/ prior = a_prior (ioup 0 sg 1 delta 1 : transition 2) ->
  let solver (k : key g) (x : 'cV[R]_1) f s T := marginal_xi (fun _ => Some 0) true lp (Some k) x T f s T 1 sq prior None in
  exists x : nat -> key g -> R,
  (forall k, exists2 traj, ssm_parabola_ode_solver (fun (y : 'cV[R]_1) _ => a *: y) (fun _ _ => const_mx s : 'M[R]_1) delta solver k (const_mx x0) N =
                 Val (mkseq (fun i => i%:R * delta) N.+1, traj) &
     forall n, (n <= N)%N -> nth (Val (const_mx x0)) traj n = Val (const_mx (x n k))) /\
  forall E F : expectation (key g), (forall G, F (fun k => G (split k N)) = iid E N G) ->
  standard E (fun k => normal (child k 2 1) (1 * 4)) ->
  forall n, (n <= N)%N ->
  let z := a * delta in let t := n%:R * delta in
  let mean := F (x n) in let var := F (fun k => (x n k - mean) ^+ 2) in
  let v := s ^+ 2 / (2%:R * a) * (exp (2%:R * a * t) - 1) in
  [/\ exists2 r, 1 - n%:R * z ^+ 3 / 6%:R <= r <= 1 & mean = r * (exp (a * t) * x0),
      v * (1 - z - n%:R * z ^+ 3 / 3%:R) <= var &
      var <= v * ((1 + sg ^+ 2 * delta ^+ 2 / (12%:R * s ^+ 2)) / (1 + z))].
Proof.
move=> a0 sn dl s0 Hp solver.
have fE : (fun (y : 'cV[R]_1) (_ : R) => a *: y) = (fun y _ => a%:M *m y).
  by apply: functional_extensionality => y; apply: functional_extensionality => t; rewrite mul_scalar_mx.
have [X [X1 X2]] := @alg4_linear lp g 1 a%:M (const_mx s) delta sg sq prior N (const_mx x0) isT dl s0 Hp.
exists (fun n k => X n k 0 0); split.
  move=> k; have [traj T1 [_ T2]] := X1 k; exists traj; first by rewrite fE; exact: T1.
  by move=> n nN; rewrite T2 //; congr Val; apply/colP => i; rewrite ord1 mxE.
move=> E F si std n nN z t mean var v.
have [m1 c0 cS] := X2 E F si std.
set P := _ + _ + _ in m1 c0 cS.
have p0 : P 0 0 = 1 + z + z ^+ 2 / 2%:R.
  rewrite /P !addmxE !scalemxE mulmxE big_ord1 !mxE !mulr1n /z.
  by move: (a) (delta) => u w; rfield.
set p := 1 + _ + _ in p0.
have pE j : mxpow P j 0 0 = p ^+ j.
  by elim: j => [|j IH]; [rewrite mxE eqxx expr0 | rewrite /= mulmxE big_ord1 p0 IH exprS].
have meanE j : (j <= N)%N -> F (fun k => X j k 0 0) = p ^+ j * x0.
  move=> jN; have := m1 j jN; move/colP/(_ 0); rewrite /Emx mxE => ->.
  by rewrite mulmxE big_ord1 pE mxE.
pose c j := F (fun k => (X j k 0 0 - F (fun k => X j k 0 0)) ^+ 2).
have cE j : Emx F (fun k => (X j k - Emx F (X j)) *m (X j k - Emx F (X j))^T) 0 0 = c j.
  rewrite /Emx mxE /c; apply: E_ext => k.
  by rewrite mulmxE big_ord1 [(_^T) _ _]mxE submxE mxE expr2.
have z0 : 0 < z by exact: mulr_gt0.
pose q := s ^+ 2 / a; have q0 : 0 < q by rewrite divr_gt0 // exprn_even_gt0.
have qn : q != 0 by rewrite gt_eqF.
pose k := sg ^+ 2 * delta ^+ 2 / (12%:R * s ^+ 2).
have k0 : 0 <= k by rewrite /k; apply: divr_ge0; apply: mulr_ge0; rewrite ?sqr_ge0 ?ler0n.
have an : a != 0 by rewrite gt_eqF.
have cS' j : (j < N)%N -> c j.+1 / q = p * (c j / q) * p + z * (1 + k).
  move=> jN; rewrite -cE cS // !addmxE !mulmxE big_ord1 mulmxE big_ord1 ![(_^T) _ _]mxE cE p0 !mxE big_ord1 !mxE mulr1n.
  rewrite /q /z /k; move/eqP: an; move/eqP: sn; move: (c j) (p) => cj pp; rewrite !exprS !expr0; toR => h1 h2.
  by apply: (_ : @eq R _ _); toR; field.
have d0 : c 0%N / q = 0 by rewrite -cE c0 mxE mul0r.
have [B1 B2] := @var_heun z k (fun j => c j / q) N z0 k0 d0 cS' n nN.
have lo : 1 + z + z ^+ 2 / 2%:R <= p by [].
have up : p <= exp z by exact: exp_quad_ge (ltW z0).
have [r1 r2] := p_pow z0 lo up n.
have t2 : 2%:R * a * t = 2%:R * (n%:R * z) by rewrite /t /z -mulrA; congr (_ * _); rewrite mulrCA.
have e : s ^+ 2 / (2%:R * a) = q / 2%:R by rewrite /q invfM mulrA mulrAC.
have -> : v = q * ((exp (2%:R * (n%:R * z)) - 1) / 2%:R) by rewrite /v t2 e -!mulrA [2%:R^-1 * _]mulrC.
have -> : var = q * (c n / q) by rewrite mulrCA divff // mulr1.
split.
- exists (p ^+ n / exp (n%:R * z)).
    have e0 : 0 < exp (n%:R * z) by exact: expR_gt0.
    by rewrite ler_pdivl_mulr // ler_pdivr_mulr // mul1r r2 -mulrA r1.
  have -> : a * t = n%:R * z by rewrite /t /z mulrCA.
  by rewrite /mean meanE // mulrA divfK // gt_eqF // expR_gt0.
- by rewrite -mulrA ler_pmul2l.
- by rewrite -mulrA ler_pmul2l.
Qed.

(** ** What tests/test_ssm_parabola_ode.py measures *)
Lemma std_tol (v var e : R) : 0 <= e -> e <= 1 -> 0 <= v -> (1 - e) ^+ 2 * v <= var -> var <= (1 + e) ^+ 2 * v ->
  `|sqrt var - sqrt v| <= sqrt v * e.
Proof.
move=> e0 e1 v0 V1 V2.
have sq1 q : 0 <= q -> sqrt (q ^+ 2 * v) = q * sqrt v.
  move=> /RleP q0; rewrite sqrt_mult; [|exact/RleP/sqr_ge0 | exact/RleP].
  by congr (_ * _); rewrite expr2; apply: sqrt_square.
have S1 : (1 - e) * sqrt v <= sqrt var.
  by rewrite -sq1; [apply/RleP/sqrt_le_1_alt/RleP | rewrite subr_ge0].
have S2 : sqrt var <= (1 + e) * sqrt v.
  by rewrite -sq1; [apply/RleP/sqrt_le_1_alt/RleP | rewrite addr_ge0 // ler01].
rewrite ler_norml; apply/andP; split.
  by rewrite ler_subr_addl; apply: le_trans S1; rewrite mulrBl !mul1r [e * _]mulrC.
by rewrite ler_subl_addl; apply: le_trans S2 _; rewrite mulrDl !mul1r [e * _]mulrC.
Qed.

Lemma alg4_test (lp : lapack) (g : prng) (sq : bool) :
  let delta : R := 1 / 1000%:R in
  let solver (k : key g) (x : 'cV[R]_1) f s T := marginal_xi (fun _ => Some 0) true lp (Some k) x T f s T 1 sq None None in
  exists x : key g -> R,
  (forall k, exists2 r, ssm_parabola_ode_solver (fun (y : 'cV[R]_1) _ => 1 *: y) (fun _ _ => const_mx 1 : 'M[R]_1) delta solver k (const_mx 1) 1000 = Val r &
     nth (Val (const_mx 1)) r.2 1000 = Val (const_mx (x k))) /\
  forall E F : expectation (key g), (forall G, F (fun k => G (split k 1000)) = iid E 1000 G) ->
  standard E (fun k => normal (child k 2 1) (1 * 4)) ->
  let mean := F x in let std := sqrt (F (fun k => (x k - mean) ^+ 2)) in
  let goal := sqrt (2%:R^-1 * (exp 2%:R - 1)) in
  `|mean - exp 1| <= exp 1 / 1000%:R /\ `|std - goal| <= goal / 1000%:R.
Proof.
move=> delta solver.
have dl : 0 < delta by rewrite divr_gt0 ?ltr01 ?ltr0n.
have [x [X1 X2]] := @alg4_weak lp g 1 1 delta 1 sq None 1000 1 ltr01 (oner_neq0 _) dl (oner_neq0 _) (or_introl (conj erefl erefl)).
exists (x 1000%N); split.
  by move=> k; have [traj T1 T2] := X1 k; eexists; [exact: T1 | exact: T2].
move=> E F si std mean st goal.
have := X2 E F si std 1000%N (leqnn _).
rewrite !mul1r !mulr1 -/mean.
have -> : 1000%:R * delta = 1 by rewrite /delta mul1r divff // pnatr_eq0.
rewrite ?mulr1 !expr1n div1r.
cbv zeta; rewrite !mul1r !mulr1; set var := F _ => -[[r /andP[r1 r2] ->] v1 v2].
have k1 : (1000%:R : R) = 1000%Re by rewrite RnatE INR_IZR_INZ.
have hE : delta = (/ 1000)%Re by rewrite /delta k1; toR; lra.
have e1 := exp_pos 1%Re.
split.
  have -> : r * exp 1 - exp 1 = - ((1 - r) * exp 1) by rewrite mulrBl mul1r opprB.
  rewrite normrN ger0_norm; last by apply: mulr_ge0; [rewrite subr_ge0 | exact/RleP/Rlt_le].
  rewrite mulrC; apply: ler_wpmul2l; first exact/RleP/Rlt_le.
  by move: r1 => /RleP r1; apply/RleP; move: r1; rewrite k1 hE !exprS expr0; toR; lra.
pose v := 2%:R^-1 * (exp 2%:R - 1) : R.
have v0 : 0 <= v.
  apply: mulr_ge0; first by rewrite invr_ge0 ler0n.
  by apply/RleP; have := exp_ineq1_le 2%Re; toR; lra.
apply: std_tol => //.
- by apply/RleP; rewrite k1; toR; lra.
- by apply/RleP; rewrite k1; toR; lra.
- apply: le_trans v1; rewrite -/v mulrC; apply: ler_wpmul2l => //.
  by apply/RleP; rewrite k1 hE !exprS expr0; toR; lra.
- apply: le_trans v2 _; rewrite -/v mulrC; apply: ler_wpmul2r => //.
  by apply/RleP; rewrite k1 hE !exprS !expr0; toR; lra.
Qed.

(** The variance is short by a term of first order. *)
Lemma alg4_first_order (lp : lapack) (g : prng) (sq : bool) (E : expectation (key g)) (F : nat -> expectation (key g)) :
  (forall N G, F N (fun k => G (split k N)) = iid E N G) ->
  standard E (fun k => normal (child k 2 1) (1 * 4)) ->
  let solver (k : key g) (x : 'cV[R]_1) f s T := marginal_xi (fun _ => Some 0) true lp (Some k) x T f s T 1 sq None None in
  forall K : R, exists (N : nat) (x : key g -> R),
  let delta : R := N.+1%:R^-1 in
  (forall k, exists2 r, ssm_parabola_ode_solver (fun (y : 'cV[R]_1) _ => 1 *: y) (fun _ _ => const_mx 1 : 'M[R]_1) delta solver k (const_mx 1) N.+1 = Val r &
     nth (Val (const_mx 1)) r.2 N.+1 = Val (const_mx (x k))) /\
  let var := F N.+1 (fun k => (x k - F N.+1 x) ^+ 2) in
  let v := 2%:R^-1 * (exp 2%:R - 1) in
  var < v * (1 - K * delta ^+ 2).
Proof.
move=> si std solver K.
have [N NK] : exists N : nat, 3%:R * K < N.+1%:R.
  have [n [_ Hn]] := nfloor_ex _ (Rabs_pos (3%:R * K)); exists n.
  apply: le_lt_trans (_ : Rabs (3%:R * K) < _); first by apply/RleP; exact: Rle_abs.
  apply/RltP; move: Hn; rewrite -(natr1' n) -RnatE; toR; lra.
pose delta : R := N.+1%:R^-1.
have dl : 0 < delta by rewrite invr_gt0 ltr0n.
have [x [X1 X2]] := @alg4_weak lp g 1 1 delta 1 sq None N.+1 1 ltr01 (oner_neq0 _) dl (oner_neq0 _) (or_introl (conj erefl erefl)).
exists N, (x N.+1); cbv zeta; split.
  by move=> k; have [traj T1 T2] := X1 k; eexists; [exact: T1 | exact: T2].
have [_ _] := X2 E (F N.+1) (si N.+1) std N.+1 (leqnn _).
rewrite !mul1r !mulr1.
have d1 : N.+1%:R * delta = 1 by rewrite /delta divff // pnatr_eq0.
rewrite d1 ?mulr1 !expr1n mulr1 !mul1r => U.
apply: le_lt_trans U _; rewrite -/delta.
have d2 : delta <= 1 by rewrite /delta invf_le1 ?ltr0n // ler1n.
have dK : 3%:R * K * delta < 1 by rewrite -[X in _ < X]d1 ltr_pmul2r.
rewrite ltr_pmul2l; last first.
  apply: mulr_gt0; first by rewrite invr_gt0 ltr0n.
  by apply/RltP; have := exp_ineq1_le 2%Re; toR; lra.
rewrite ltr_pdivr_mulr; last by rewrite addr_gt0 ?ltr01.
move: dl d2 dK => /RltP dl /RleP d2 /RltP dK; apply/RltP; move: dl d2 dK; rewrite !exprS expr0; move: (delta) => u; toR => dl d2 dK.
have u2 : (u * u <= u)%Re by have := Rmult_le_compat_l _ _ _ (Rlt_le _ _ dl) d2; lra.
have : (3 * K * u * u <= u)%Re by have := Rmult_le_compat_r _ _ _ (Rlt_le _ _ dl) (Rlt_le _ _ dK); lra.
have : (3 * K * u * u * u <= u)%Re.
  case: (Rle_lt_dec (3 * K * u * u)%Re 0%Re) => H; first by have := Rmult_le_compat_r _ _ _ (Rlt_le _ _ dl) H; lra.
  by have := Rmult_le_compat_l _ _ _ (Rlt_le _ _ H) d2; have := Rmult_le_compat_r _ _ _ (Rlt_le _ _ dl) (Rlt_le _ _ dK); lra.
by lra.
Qed.

(** Integrated Brownian motion *)
Lemma alg4_ibm (lp : lapack) (g : prng) (sq : bool) (delta : R) (N : nat) : 0 < delta ->
  let solver (k : key g) (x : 'cV[R]_2) f s T := marginal_xi (fun _ => Some 0) true lp (Some k) x T f s T 1 sq None None in
  exists x : nat -> key g -> 'cV[R]_2,
  (forall k, exists2 traj, ssm_parabola_ode_solver ibm_drift square_ibm_sigma delta solver k ibm_x0 N =
                 Val (mkseq (fun i => i%:R * delta) N.+1, traj) &
     forall n, (n <= N)%N -> nth (Val ibm_x0) traj n = Val (x n k)) /\
  forall E F : expectation (key g), (forall G, F (fun k => G (split k N)) = iid E N G) ->
  standard E (fun k => normal (child k 2 1) (2 * 4)) ->
  forall n, (n <= N)%N -> let t := n%:R * delta in let w := delta ^+ 2 / 12%:R in
  let cov := Emx F (fun k => (x n k - Emx F (x n)) *m (x n k - Emx F (x n))^T) in
  [/\ Emx F (x n) = cv 2 [:: 1 + t; 1],
      cov 0 0 = (1 + w) * (t * (t - delta) * (2%:R * t - delta) / 6%:R) + t * w,
      cov 0 1 = (1 + w) * (t * (t - delta) / 2%:R), cov 1 0 = cov 0 1 & cov 1 1 = (1 + w) * t].
Proof.
move=> dl solver.
pose A : 'M[R]_2 := mx 2 2 [:: [:: 0; 1]; [:: 0; 0]].
pose D : 'M[R]_2 := square_ibm_sigma 0 0.
have [x [X1 X2]] := @alg4_linear lp g 2 A D delta 1 sq None N ibm_x0 isT dl (oner_neq0 _) (or_introl (conj erefl erefl)).
exists x; split.
  by move=> k; have [traj T1 [_ T2]] := X1 k; exists traj; [exact: T1 | exact: T2].
move=> E F si std n nN t w cov.
have [m1 c0 cS] := X2 E F si std.
set P := _ + _ + _ in m1 cS; set S := _ + _ in cS.
pose C n := Emx F (fun k => (x n k - Emx F (x n)) *m (x n k - Emx F (x n))^T).
have {}c0 : C 0%N = 0 := c0.
have {}cS j : (j < N)%N -> C j.+1 = P *m C j *m P^T + S := cS j.
have AA : A *m A = 0.
  by apply/matrixP; apply: ord2P; apply: ord2P; rewrite mulmxE sum2 !mxE /= ?mulr0 ?mul0r ?addr0.
have [P00 P01 P10 P11] : [/\ P 0 0 = 1, P 0 1 = delta, P 1 0 = 0 & P 1 1 = 1].
  by rewrite /P AA scaler0 addr0; split; rewrite addmxE scalemxE !mxE /= ?mulr0 ?mulr1 ?addr0 ?add0r.
have [S00 S01 S10 S11] : [/\ S 0 0 = delta * w, S 0 1 = 0, S 1 0 = 0 & S 1 1 = delta * (1 + w)].
  have e1 : 1 ^+ 2 * delta ^+ 3 / 12%:R = delta * w by rewrite /w expr1n mul1r exprS -mulrA.
  rewrite /S e1; split; rewrite addmxE scalemxE mulmxE sum2 !mxE /= ?inordK //= ?mulr0 ?mul0r ?addr0 ?mulr0 ?add0r ?mulr1n ?mulr0n ?mulr1 //.
  by rewrite -[X in X + _]mulr1 -mulrDr.
have {cov}-> : cov = C n by [].
clearbody S P.
rewrite /t; elim: n nN {t} => [|n IH] nN.
  have -> : 0%:R * delta = 0 by rewrite mul0r.
  rewrite m1 // mxpow0 mul1mx c0; split; rewrite ?mxE ?mul0r ?mulr0 ?mul0r ?mulr0 ?addr0 //.
  by apply/colP; apply: ord2P; rewrite !mxE.
have [I1 I2 I3 I4 I5] := IH (ltnW nN).
have M1 : Emx F (x n.+1) = P *m Emx F (x n) by rewrite !m1 ?(ltnW nN) // mxpowS mulmxA.
have Pt (i j : 'I_2) : P^T i j = P j i by rewrite mxE.
rewrite M1 I1 cS // !addmxE; do ![rewrite [(_ *m _) _ _]mulmxE sum2].
rewrite !Pt P00 P01 P10 P11 S00 S01 S10 S11 I4 I2 I3 I5 -(natr1' n).
move: (n%:R : R) => m; rewrite /w; split; last first.
1-4: by rewrite !exprS !expr0; rfield.
by apply/colP; apply: ord2P; rewrite mulmxE sum2 ?P00 ?P01 ?P10 ?P11 !mxE /=; rring.
Qed.

(** Keys whose second half holds independent fair signs. *)
Definition halfkeyE n : expectation ktree := pushE (fun l => Node [:: kzero; l]) (signkeyE 1 n).
Lemma halfkey_standard n : standard (halfkeyE n) (fun k => normal (child (k : key tree_prng) 2 1) n).
Proof.
have [H1 H2] := signkey_standard1 n; split; [rewrite -[RHS]H1|rewrite -[RHS]H2];
  by apply/matrixP=> i j; rewrite !mxE; apply: (@E_ext _ (signkeyE 1 n)).
Qed.
