(** Proofs about the initial states of the probabilistic ODE solvers, the default arguments,
    the law of the samples, and Algorithm 3 run through sde_solver. *)
From Coq Require Import Reals Lra Lia FunctionalExtensionality.
From Coquelicot Require Import Coquelicot.
From mathcomp Require Import all_ssreflect all_algebra mxtens.
From Verif Require Import Rstruct Base Linalg Calc Prob Spec Expm M_Utils M_Foster M_SdeSolver M_Euler
  M_Filter M_Prior M_OdeSolvers L_Utils L_Foster L_SdeSolver L_Euler L_Ivp L_Filter L_Prior L_OdeSolvers L_Alg3.

Set Implicit Arguments.
Unset Strict Implicit.
Unset Printing Implicit Defensive.
Import Order.TTheory GRing.Theory Num.Theory.
Local Open Scope ring_scope.

(** ** Small remainders *)
Definition small (u : R -> R) : Prop := forall eps : R, 0 < eps ->
  exists2 del : R, 0 < del & forall h, `|h| <= del -> `|u h| <= eps * `|h|.

Lemma quotE (g : R -> R) (l h : R) : h != 0 -> ((g (0 + h) - g 0) / h - l)%Re = (g h - g 0 - h * l) / h.
Proof.
move=> h0; rewrite Rplus_0_l [RHS]mulrBl [h * l]mulrC mulfK //.
by rewrite -RminusE -RdivE -RminusE.
Qed.

Lemma small_derive (g : R -> R) (l : R) : small (fun h => g h - g 0 - h * l) -> is_derive g 0 l.
Proof.
move=> H; apply/is_derive_Reals => eps /RltP e0.
have e2 : 0 < eps / 2%:R by rewrite divr_gt0 // ltr0n.
have [del d0 Hd] := H _ e2.
exists (mkposreal del (elimT (RltP _ _) d0)) => h h0 /= hd.
have h0' : h != 0 by apply/eqP.
have hp : 0 < `|h| by rewrite normr_gt0.
have hl : `|h| <= del by apply: ltW; rewrite RnormE; apply/RltP.
have B := Hd h hl; apply/RltP; rewrite -RnormE.
rewrite quotE //.
rewrite normrM normfV ltr_pdivr_mulr //; apply: (le_lt_trans B).
rewrite ltr_pmul2r // ltr_pdivr_mulr ?ltr0n // ltr_pmulr // (_ : 1 = 1%:R) // ltr_nat //.
Qed.

Lemma derive_small (g : R -> R) (l : R) : is_derive g 0 l -> small (fun h => g h - g 0 - h * l).
Proof.
move/is_derive_Reals => H eps e0; have [[del d0] Hd] := H eps (elimT (RltP _ _) e0).
exists (del / 2%:R); first by rewrite divr_gt0 ?ltr0n //; apply/RltP.
move=> h hd; case: (h =P 0) => [->|/eqP h0]; first by rewrite subrr mul0r subr0 normr0 mulr0.
have hl : `|h| < del.
  apply: (le_lt_trans hd); rewrite ltr_pdivr_mulr ?ltr0n // ltr_pmulr; last exact/RltP.
  by rewrite (_ : 1 = 1%:R) // ltr_nat.
have := Hd h (elimN eqP h0); rewrite /= -RnormE => /(_ (elimT (RltP _ _) hl)) /RltP.
rewrite quotE //.
by rewrite -RnormE normrM normfV ltr_pdivr_mulr ?normr_gt0 // => /ltW.
Qed.

Lemma smallP (g : R -> R) (l : R) : is_derive g 0 l <-> small (fun h => g h - g 0 - h * l).
Proof. by split; [exact: derive_small | exact: small_derive]. Qed.

Lemma small_ext (u v : R -> R) : (forall h, u h = v h) -> small u -> small v.
Proof. by move=> E H eps e0; have [del d0 Hd] := H eps e0; exists del => // h; rewrite -E; exact: Hd. Qed.

Lemma smallD (u v : R -> R) : small u -> small v -> small (fun h => u h + v h).
Proof.
move=> Hu Hv eps e0; have e2 : 0 < eps / 2%:R by rewrite divr_gt0 // ltr0n.
have [a a0 Ha] := Hu _ e2; have [b b0 Hb] := Hv _ e2.
exists (Num.min a b); first by rewrite lt_minr a0.
move=> h; rewrite le_minr => /andP[ha hb]; apply: (le_trans (ler_norm_add _ _)).
have -> : eps * `|h| = eps / 2%:R * `|h| + eps / 2%:R * `|h| by rfield.
by rewrite ler_add ?Ha ?Hb.
Qed.

Lemma smallZ (c : R) (u : R -> R) : small u -> small (fun h => c * u h).
Proof.
move=> Hu eps e0; have c0 : 0 < `|c| + 1 by rewrite ltr_paddl // normr_ge0.
have [a a0 Ha] := Hu _ (divr_gt0 e0 c0); exists a => // h /Ha H.
rewrite normrM; apply: (@le_trans _ _ ((`|c| + 1) * `|u h|)).
  by rewrite ler_wpmul2r // ler_addl ler01.
apply: (@le_trans _ _ ((`|c| + 1) * (eps / (`|c| + 1) * `|h|))); first by rewrite ler_wpmul2l // ltW.
by rewrite mulrA mulrCA mulfV ?gt_eqF // mulr1.
Qed.

Lemma small_sum (I : Type) (r : seq I) (F : I -> R -> R) : (forall i, small (F i)) ->
  small (fun h => \sum_(i <- r) F i h).
Proof.
move=> H; elim: r => [|i r IH].
  by move=> eps e0; exists 1; [exact: ltr01|] => h _; rewrite big_nil normr0 mulr_ge0 // ltW.
by apply: small_ext (smallD (H i) IH) => h; rewrite big_cons.
Qed.

Lemma small_all n (F : 'I_n -> R -> R) : (forall i, small (F i)) -> forall eps : R, 0 < eps ->
  exists2 del : R, 0 < del & forall h, `|h| <= del -> forall i, `|F i h| <= eps * `|h|.
Proof.
move=> H eps e0.
have : exists2 del : R, 0 < del & forall h, `|h| <= del -> forall i, i \in enum 'I_n -> `|F i h| <= eps * `|h|.
  elim: (enum _) => [|i s [del d0 Hd]]; first by exists 1 => //; exact: ltr01.
  have [a a0 Ha] := H i _ e0; exists (Num.min a del); first by rewrite lt_minr a0.
  move=> h; rewrite le_minr => /andP[ha hb] j; rewrite inE => /orP[/eqP ->|js]; first exact: Ha.
  exact: Hd.
by case=> del d0 Hd; exists del => // h hd i; apply: Hd => //; rewrite mem_enum.
Qed.

(** ** The chain rule *)
Section Chain.
Variables (d e : nat) (f : 'cV[R]_d -> R -> 'cV[R]_e) (J : 'M[R]_(e, d)) (ft : 'cV[R]_e).
Variables (y : R -> 'cV[R]_d) (tau : R -> R) (w : 'cV[R]_d) (c : R).
Hypothesis Df : frechet f (y 0) (tau 0) J ft.
Hypothesis Dy : forall i, is_derive (fun s => y s i 0) 0 (w i 0).
Hypothesis Dt : is_derive tau 0 c.

Lemma chain i : is_derive (fun s => f (y s) (tau s) i 0) 0 ((J *m w + c *: ft) i 0).
Proof.
apply: small_derive.
pose u j h := y h j 0 - y 0 j 0 - h * w j 0; pose ut h := tau h - tau 0 - h * c.
have su j : small (u j) by exact: derive_small (Dy j).
have st : small ut by exact: derive_small Dt.
pose rem h := f (y h) (tau h) - f (y 0) (tau 0) - J *m (y h - y 0) - (tau h - tau 0) *: ft.
apply: (@small_ext (fun h => (\sum_j J i j * u j h + ft i 0 * ut h) + rem h i 0)) => [h|].
  rewrite /rem !(submxE, addmxE, scalemxE, mulmxE).
  rewrite (eq_bigr (fun j => J i j * (y h - y 0) j 0 - h * (J i j * w j 0))); last first.
    by move=> j _; rewrite submxE /u; rring.
  rewrite sumrB -mulr_sumr /ut oppmxE scalemxE; set A := \sum_(_ < d) _; set B := \sum_(_ < d) _.
  by rring.
apply: smallD.
  apply: smallD; last exact: smallZ.
  by apply: small_sum => j; exact: smallZ.
move=> eps e0; pose W := `|c| + \sum_j `|w j 0| + 1.
have sW : 0 <= \sum_j `|w j 0| by apply: sumr_ge0 => j _; exact: normr_ge0.
have W0 : 0 < W by rewrite /W ltr_paddl // addr_ge0.
have [del d0 Hd] := Df (divr_gt0 e0 W0).
have [a a0 Ha] := small_all su ltr01; have [b b0 Hb] := st _ ltr01.
exists (Num.min (Num.min a b) (del / W)); first by rewrite !lt_minr a0 b0 divr_gt0.
move=> h; rewrite !le_minr => /andP[/andP[ha hb] hd].
have -> : eps * `|h| = eps / W * (W * `|h|) by rewrite mulrA divfK // gt_eqF.
have := Hd (y h - y 0) (tau h - tau 0) (W * `|h|).
rewrite [y 0 + _]addrC subrK [tau 0 + _]addrC subrK => K; apply: K.
- move=> j; have -> : (y h - y 0) j 0 = u j h + h * w j 0 by rewrite submxE /u subrK.
  apply: (le_trans (ler_norm_add _ _)); rewrite /W mulrDl mul1r [X in _ <= X]addrC.
  apply: ler_add; first by rewrite -[X in _ <= X]mul1r Ha.
  rewrite normrM mulrC ler_wpmul2r // (bigD1 j) //= addrCA ler_addl.
  by apply: addr_ge0 => //; apply: sumr_ge0 => k _; exact: normr_ge0.
- have -> : tau h - tau 0 = ut h + h * c by rewrite /ut subrK.
  apply: (le_trans (ler_norm_add _ _)); rewrite /W mulrDl mul1r [X in _ <= X]addrC.
  apply: ler_add; first by rewrite -[X in _ <= X]mul1r Hb.
  by rewrite normrM mulrC ler_wpmul2r // ler_addl.
- by rewrite mulrC -ler_pdivl_mulr.
Qed.
End Chain.

Lemma frechet_jac d e (f : 'cV[R]_d -> R -> 'cV[R]_e) x t J ft : frechet f x t J ft ->
  jac (f^~ t) x = J /\ ex_jac (f^~ t) x.
Proof.
move=> Df.
have H i j : is_derive (fun s => f (vshift x j s) t i 0) 0 (J i j).
  have -> : J i j = (J *m (delta_mx j 0) + 0 *: ft) i 0.
    by rewrite scale0r addr0 mul_delta.
  apply: (@chain _ _ f J ft (fun s => vshift x j s) (fun _ => t) (delta_mx j 0) 0).
  - by rewrite vshift0.
  - by move=> k; rewrite [delta_mx _ _ _ _]mxE eqxx andbT; exact: is_derive_coord.
  - exact: is_derive_const.
split; last by move=> i j; exists (J i j).
by apply/matrixP=> i j; rewrite mxE; apply: is_pderiv_unique.
Qed.

(** ** Initial means *)
Section InitMean.
Variables (d n : nat) (f : 'cV[R]_d -> R -> 'cV[R]_d) (x : 'cV[R]_d).
Variables (J : 'M[R]_d) (ft : 'cV[R]_d) (y : R -> 'cV[R]_d) (y2 : 'cV[R]_d).
Hypothesis Df : frechet f x 0 J ft.
Hypotheses (y0 : y 0 = x) (Dy : forall i, is_derive (fun s => y s i 0) 0 (f x 0 i 0)).
Hypothesis Dy2 : forall i, is_derive (fun s => f (y s) s i 0) 0 (y2 i 0).

Lemma second_deriv : y2 = J *m f x 0 + ft.
Proof.
apply/colP=> i; rewrite -(is_derive_unique _ _ _ (Dy2 i)) -[ft]scale1r; apply: is_derive_unique.
apply: (@chain _ _ f J ft y id (f x 0) 1) => //; first by rewrite y0.
exact: is_derive_id.
Qed.

Lemma init_mean_slices (i : 'I_n) : slice i (init_mean f x n) =
  match val i with 0 => x | 1 => f x 0 | 2 => y2 - ft | _ => 0 end.
Proof.
rewrite slice_interl; case: (val i) => [|[|[|k]]] //.
by rewrite (frechet_jac Df).1 second_deriv addrK.
Qed.

Lemma init_mean_exact (i : 'I_n) : val i = 2%N -> slice i (init_mean f x n) = y2 <-> ft = 0.
Proof.
move=> i2; rewrite init_mean_slices i2; split=> [E|->]; last by rewrite subr0.
by apply: oppr_inj; apply: (addrI y2); rewrite E oppr0 addr0.
Qed.
End InitMean.

(** The ODE of a parabola interval, constant noise. *)
Lemma parabola_init d m n (a : 'cV[R]_d -> 'cV[R]_d) (s : 'M[R]_(d, m)) (delta : R) (u v : 'cV[R]_m) x J
  (y : R -> 'cV[R]_d) (y2 : 'cV[R]_d) (i : 'I_n) : delta != 0 ->
  frechet (fun z (_ : R) => a z) x 0 J 0 ->
  let f z t := a z + s *m jacR (fun r => eval_parabola r delta u v) t in
  y 0 = x -> (forall i, is_derive (fun r => y r i 0) 0 (f x 0 i 0)) ->
  (forall i, is_derive (fun r => f (y r) r i 0) 0 (y2 i 0)) -> val i = 2%N ->
  slice i (init_mean f x n) = y2 + (2%:R * sqrt 6%:R / delta ^+ 2) *: (s *m v) /\
  (slice i (init_mean f x n) = y2 <-> s *m v = 0).
Proof.
move=> d0 Da f y0 Dy Dy2 i2.
pose c := 2%:R * sqrt 6%:R / delta ^+ 2.
have fE z t : f z t = a z + (delta^-1 *: (s *m (u + sqrt 6%:R *: v)) + t *: (- c *: (s *m v))).
  rewrite /f jacR_eval // -scalemxAr !mulmxDr -!scalemxAr; congr (_ + _).
  apply/colP=> k; rewrite !(addmxE, scalemxE, oppmxE) /c; move: ((s *m u) k 0) ((s *m v) k 0) => p q.
  by move/eqP: d0 => d1; rfield.
have Df : frechet f x 0 J (- c *: (s *m v)).
  move=> eps e0; have [del dp Hd] := Da eps e0; exists del => // w t r wr tr rd.
  have := Hd w t r wr tr rd; congr (sup_le _ _).
  rewrite !fE; apply/colP=> k; rewrite !(addmxE, scalemxE, oppmxE, zeromxE).
  by move: (a _ _ _) (a _ _ _) ((J *m w) k 0) ((s *m v) k 0) => p1 p2 p3 p4; rring.
have E2 := init_mean_slices Df y0 Dy Dy2 i; rewrite i2 in E2.
split; first by rewrite E2 scaleNr opprK.
rewrite (init_mean_exact Df y0 Dy Dy2 i2); split=> [/eqP|->]; last by rewrite scaler0.
rewrite scaler_eq0 oppr_eq0 => /orP[/eqP c0|/eqP //].
have s6 : sqrt 6%:R != 0 :> R by rewrite gt_eqF //; apply/RltP; apply: sqrt_lt_R0; apply/RltP; rewrite ltr0n.
move/eqP: c0; rewrite /c mulf_eq0 invr_eq0 expf_eq0 /= (negPf d0) orbF mulf_eq0 (negPf s6) orbF.
by rewrite pnatr_eq0.
Qed.

(** ** Initial covariances *)
Lemma init_var1E d n (k l : 'I_d) (i j : 'I_n) :
  init_var1 d n (mxtens_index (k, i)) (mxtens_index (l, j)) =
  if ((k * n + i < 3 * d) && (l * n + j < 3 * d))%N then 0 else ((k == l) && (i == j))%:R.
Proof.
by rewrite mxE (can_eq (@mxtens_indexK _ _)) xpair_eqE.
Qed.

Lemma init_var1_wrong d n : (1 < d)%N -> (3 < n)%N ->
  exists (k l : 'I_d) (i j : 'I_n),
    [/\ val i = 3%N, val j = 2%N,
        init_var1 d n (mxtens_index (k, i)) (mxtens_index (k, i)) = 0 &
        init_var1 d n (mxtens_index (l, j)) (mxtens_index (l, j)) = 1].
Proof.
move=> d1 n3; have n2 : (2 < n)%N by exact: leq_trans n3.
have d0 : (0 < d)%N by exact: leq_trans d1.
have dp : (d.-1 < d)%N by rewrite prednK.
exists (Ordinal d0), (Ordinal dp), (Ordinal n3), (Ordinal n2); split=> //; rewrite init_var1E /= ?eqxx ?andbb.
  have -> : (0 * n + 3 < 3 * d)%N by rewrite mul0n add0n -(@ltn_pmul2l 3 1 d) in d1 *.
  by [].
suff -> : (d.-1 * n + 2 < 3 * d)%N = false by [].
case: d d1 {d0 dp} => [|[|e]] //= _; apply/negbTE; rewrite -leqNgt.
apply: (@leq_trans (e.+1 * 4 + 2)%N); last by rewrite leq_add2r leq_mul2l n3 orbT.
by apply/ssrnat.leP; rewrite -!multE -!plusE; lia.
Qed.

Lemma init_var1_ok d n : (3 < n)%N -> (0 < d)%N -> init_var1 d n = free_states d n 3 <-> d = 1%N.
Proof.
move=> n3 d0; split=> [E|e1].
  apply/eqP; rewrite eqn_leq d0 andbT leqNgt; apply/negP=> d1.
  have [k [l [i [j [i3 j2 H1 _]]]]] := init_var1_wrong d1 n3.
  by move: H1; rewrite E mxE mxtens_indexK eqxx /= i3 leqnn => /eqP; rewrite oner_eq0.
subst d; apply/matrixP=> p q; case: (mxtens_indexP p) => k i; case: (mxtens_indexP q) => l j.
rewrite init_var1E !mxE (can_eq (@mxtens_indexK _ _)) xpair_eqE mxtens_indexK /= !ord1 /= !mul0n !add0n.
case: (i =P j) => [->|_] /=; last by rewrite if_same.
by rewrite andbb ltnNge -leqNgt; case: leqP.
Qed.

(** ** Default arguments *)
Lemma ekf_noprior (lp : lapack) (g : prng) d (k : option (key g)) x (f : 'cV[R]_d -> R -> 'cV[R]_d) h N sq noise :
  ekf0 lp k x f h N sq None noise = Raise TypeError /\ ekf1 lp k x f h N sq None noise = Raise TypeError.
Proof. by []. Qed.

Lemma alg3_noprior (lp : lapack) (g : prng) d (k : option (key g)) x (f : 'cV[R]_d -> R -> 'cV[R]_d) h N sq noise :
  ekf0_2 lp k x f h N sq None noise = ekf0_2 lp k x f h N sq (a_prior (ioup 0 1 1 h d)) noise /\
  ekf1_2 lp k x f h N sq None noise = ekf1_2 lp k x f h N sq (a_prior (ioup 0 1 1 h d)) noise.
Proof.
have E init EKF0 : @_solver lp d 0 init f h N sq EKF0 None noise =
    @_solver lp d 0 init f h N sq EKF0 (a_prior (ioup 0 1 1 h d)) noise.
  by rewrite /_solver (@get_prior_id d 0).
by case: x => [[s m] P]; rewrite /ekf0_2 /ekf1_2 /alg3 !E.
Qed.

(** ** Samples of a run *)
Lemma free_psd d n : psd (ekf1_var d n).
Proof. by rewrite -ekf1_var_gram; exact: psd_gram. Qed.

Lemma solver_psd (lp : lapack) d n m0 P0 f h N EKF0 (tr : transition (d * n.+2)) (V : 'M[R]_d) m P :
  psd P0 -> psd tr.1.2 -> psd V ->
  @_solver lp d n (m0, P0) f h N false EKF0 (a_prior tr) (a_noise V) = Val (m, P) -> psd P.
Proof.
case: tr => [[xi Q] A] /= p0 pQ pV; rewrite (@solver_run lp d n f h false EKF0 _ _ _ N xi Q A V Q) ?get_prior_id ?get_noise_id //.
exact: ekf_psd.
Qed.

Section RunSamples.
Variables (lp : lapack) (d n : nat) (g : prng) (E : expectation (key g)) (f : 'cV[R]_d -> R -> 'cV[R]_d).
Variables (h : R) (N : nat) (sq : bool) (tr : transition (d * n.+2)) (V : 'M[R]_d) (x0 : 'cV[R]_d).
Hypotheses (d0 : (0 < d)%N) (pQ : sq = false -> psd tr.1.2) (pV : sq = false -> psd V).
Hypothesis st : standard E (fun k => normal k (d * n.+2)).

Lemma run_samples EKF0 (P0 : 'M[R]_(d * n.+2)) m' : psd P0 ->
  let run k := let! filtered := @_solver lp d n (init_mean f x0 n.+2, P0) f h N sq EKF0 (a_prior tr) (a_noise V) in
    Val (output lp k sq filtered) in
  run None = Val m' -> exists X : key g -> 'cV[R]_d, exists C,
    [/\ forall k, run (Some k) = Val (X k), psd C, Emx E X = m' & Emx E (fun k => (X k - m') *m (X k - m')^T) = C].
Proof.
move=> p0 run; rewrite /run; case Er: _solver => [[m P]||] //; cbn [rbind] => -[<-].
exists (fun k => output lp (Some k) sq (m, P)), (slice2 0 0 (if sq then P *m P^T else P)).
have pP : sq = false -> psd P by move=> e; move: Er; rewrite e; apply: solver_psd; [| exact: pQ | exact: pV].
have [H1 H2] := @output_law lp d g E n.+1 sq m P st pP; split=> //.
rewrite -sel_slice2; apply: psd_congr.
by case: (sq) pP => [_|H]; [exact: psd_gram | exact: H].
Qed.
End RunSamples.

(** ** Two integrators driven by the same noise *)
Lemma driver_sim (g : prng) d m X Y drift sigma (bm : path_approx g m) delta
  (int1 : key g -> X -> ('cV[R]_d -> R -> 'cV[R]_d) -> R -> X)
  (int2 : key g -> Y -> ('cV[R]_d -> R -> 'cV[R]_d) -> R -> Y) (rel : X -> Y -> Prop) k x0 y0 N c0 :
  (forall k x y f, rel x y -> rel (int1 k x f delta) (int2 k y f delta)) -> rel x0 y0 ->
  let sol1 := sde_solver drift sigma bm delta int1 k x0 N in
  let sol2 := sde_solver drift sigma bm delta int2 k y0 N in
  (forall i, (i <= N)%N -> rel (nth x0 sol1.1.2 i) (nth y0 sol2.1.2 i)) /\
  (forall i, (i < N)%N -> nth c0 sol1.2 i = nth c0 sol2.2 i).
Proof.
move=> sim r0 sol1 sol2.
have [A0 A] := @driver_states g d m _ drift sigma bm delta int1 k x0 N c0.
have [B0 B] := @driver_states g d m _ drift sigma bm delta int2 k y0 N c0.
have Ec i : (i < N)%N -> nth c0 sol1.2 i = nth c0 sol2.2 i.
  by move=> iN; rewrite /sol1 /sol2 (A i iN).1 (B i iN).1.
split=> // i; elim: i => [_|i IH iN]; first by rewrite /sol1 /sol2 A0 B0.
rewrite /sol1 /sol2 (A i iN).2 (B i iN).2 -/sol1 -/sol2 (Ec i iN).
by apply: sim; apply: IH; exact: ltnW.
Qed.

Section Alg3Driver.
Variables (lp : lapack) (g : prng) (d m : nat) (drift : 'cV[R]_d -> R -> 'cV[R]_d).
Variables (sigma : 'cV[R]_d -> R -> 'M[R]_(d, m)) (bm : path_approx g m) (delta : R) (M : nat) (sq : bool).

(** Algorithm 3 as integrator, with the sampling key chosen by [phi]. *)
Definition alg3_int (EKF0 : bool) (prior : prior_arg) (noise : noise_arg) (g' : prng) (phi : key g -> option (key g'))
  (k : key g) (x : res (gauss d)) (f : 'cV[R]_d -> R -> 'cV[R]_d) (T : R) : res (gauss d) :=
  let! x := x in
  if EKF0 then ekf0_2 lp (phi k) x f (T / M%:R) M sq prior noise
  else ekf1_2 lp (phi k) x f (T / M%:R) M sq prior noise.

Lemma alg3_keys EKF0 prior noise (g1 g2 : prng) (phi : key g -> option (key g1)) (psi : key g -> option (key g2))
  k (s s' m0 : 'cV[R]_d) P00 N c0 :
  let sol1 := sde_solver drift sigma bm delta (alg3_int EKF0 prior noise phi) k (Val (s, m0, P00)) N in
  let sol2 := sde_solver drift sigma bm delta (alg3_int EKF0 prior noise psi) k (Val (s', m0, P00)) N in
  (forall i, (i <= N)%N -> rmap (@law d) (nth (Val (s, m0, P00)) sol1.1.2 i) =
                           rmap (@law d) (nth (Val (s', m0, P00)) sol2.1.2 i)) /\
  (forall i, (i < N)%N -> nth c0 sol1.2 i = nth c0 sol2.2 i).
Proof.
apply: (@driver_sim g d m _ _ drift sigma bm delta _ _ (fun x y => rmap (@law d) x = rmap (@law d) y)) => //.
move=> kk [[[s1 m1] P1]||e1] [[[s2 m2] P2]||e2] f //=; rewrite /law /= => -[-> ->].
by rewrite /alg3_int /=; case: EKF0; rewrite /ekf0_2 /ekf1_2 /=; apply: alg3_law.
Qed.

Lemma alg3_ibm_driver (sp : R) (phi : key g -> option (key g)) k (s m0 : 'cV[R]_d) P00 N :
  0 < delta -> (0 < M)%N -> sp != 0 -> psd P00 ->
  let h := delta / M%:R in
  let sol := sde_solver drift sigma bm delta (alg3_int true (a_prior (ioup 0 sp 1 h d)) None phi) k (Val (s, m0, P00)) N in
  forall i, (i <= N)%N -> exists s' m',
    nth (Val (s, m0, P00)) sol.1.2 i = Val (s', m', P00 + (i%:R * (M%:R * (sp ^+ 2 * h ^+ 3 / 12%:R)))%:M).
Proof.
move=> d0 M0 s0 pP h sol.
have h0 : 0 < h by rewrite divr_gt0 // ltr0n.
have [A0 A] : nth (Val (s, m0, P00)) sol.1.2 0 = Val (s, m0, P00) /\ forall i, (i < N)%N -> exists (kk : key g) F,
    nth (Val (s, m0, P00)) sol.1.2 i.+1 = alg3_int true (a_prior (ioup 0 sp 1 h d)) None phi kk (nth (Val (s, m0, P00)) sol.1.2 i) F delta.
  have c0 : coeffs bm := get_coeffs bm k delta.
  have [A0 A] := @driver_states g d m _ drift sigma bm delta (alg3_int true (a_prior (ioup 0 sp 1 h d)) None phi) k (Val (s, m0, P00)) N c0.
  split=> [|i iN]; first exact: A0.
  by do 2 eexists; exact: (A i iN).2.
elim=> [_|i IH iN].
  exists s, m0; rewrite A0 mul0r (_ : 0%:M = 0) ?addr0 //.
  by apply/matrixP=> a b; rewrite !mxE mul0rn.
have [s1 [m1 E1]] := IH (ltnW iN); have [kk [F ->]] := A i iN; rewrite E1 /alg3_int; cbn [rbind].
set V := P00 + _; have pV : psd V.
  apply: psdD => //; apply: scalar_psd; apply: mulr_ge0; first exact: ler0n.
  by apply: mulr_ge0; [exact: ler0n | exact: cc_ge0].
have [s' [-> _]] := @ekf0_2_ibm lp d F h sp h0 s0 (a_prior (ioup 0 sp 1 h d)) (@get_prior_id d 0 h _) g (phi kk) s1 m1 V M sq pV.
do 2 eexists; congr (Val (_, _, _)); rewrite /V -addrA; congr (_ + _).
by rewrite -raddfD /= natS mulrDl mul1r.
Qed.

End Alg3Driver.

(** ** Noise-free steps of the solvers *)
Lemma solver_rcons (lp : lapack) d n f h sq EKF0 xi Q A (V : 'M[R]_d) init N r :
  @_solver lp d n init f h N.+1 sq EKF0 (a_prior (xi, Q, A)) (a_noise V) = Val r ->
  exists Q' x, [/\ (if sq then cholesky lp Q else Val Q) = Val Q',
    @_solver lp d n init f h N sq EKF0 (a_prior (xi, Q, A)) (a_noise V) = Val x &
    ekf lp (@observation_function d EKF0 f n) A Q' xi V sq init
      (rcons (mkseq (fun k => k.+1%:R * h) N) (N.+1%:R * h)) = Val r].
Proof.
case EQ: (if sq then cholesky lp Q else Val Q) => [Q'||]; last first.
- by rewrite /_solver get_noise_id get_prior_id; cbn [rbind]; rewrite EQ.
- by rewrite /_solver get_noise_id get_prior_id; cbn [rbind]; rewrite EQ.
have run N' := @solver_run lp d n f h sq EKF0 (a_prior (xi, Q, A)) (a_noise V) init N' xi Q A V Q'
  (@get_prior_id d n h _) (get_noise_id V) EQ.
rewrite !run.
have -> : mkseq (fun k : nat => k.+1%:R * h) N.+1 = rcons (mkseq (fun k => k.+1%:R * h) N) (N.+1%:R * h).
  by rewrite /mkseq -addn1 iotaD map_cat /= cats1 add0n addn1.
move=> E; exists Q'; have := E; rewrite {1}ekf_rcons; case E2: (ekf _ _ _ _ _ _ _ _ (mkseq _ _)) => [x||] //= E3.
by exists x; rewrite E.
Qed.

Lemma solver_exact (lp : lapack) d n f h sq EKF0 xi Q A init N m' P' :
  (sq = false -> psd Q /\ psd init.2) ->
  @_solver lp d n init f h N.+1 sq EKF0 (a_prior (xi, Q, A)) None = Val (m', P') ->
  exists m P, @_solver lp d n init f h N sq EKF0 (a_prior (xi, Q, A)) None = Val (m, P) /\
    let mp := A *m m + xi in let t := N.+1%:R * h in
    let J := if EKF0 then 0 else jac (f^~ t) (slice 0 mp) in
    let C := if sq then P' *m P'^T else P' in
    [/\ slice 1 m' = f (slice 0 mp) t + J *m (slice 0 m' - slice 0 mp),
        (selector d 1 - J *m selector d 0) *m C = 0 & C *m (selector d 1 - J *m selector d 0)^T = 0].
Proof.
have noN N' : @_solver lp d n init f h N' sq EKF0 (a_prior (xi, Q, A)) None =
    @_solver lp d n init f h N' sq EKF0 (a_prior (xi, Q, A)) (a_noise (0 : 'M[R]_d)).
  by rewrite /_solver get_noise_id.
move=> pQ; rewrite noN => /solver_rcons [Q' [x [EQ Ex E]]].
have pQ' : sq = false -> psd Q' /\ psd init.2.
  by move=> e; move: EQ (pQ e); rewrite e => -[->].
have [m [P [Er H]]] := ekf_exact pQ' E; exists m, P; split.
  rewrite noN (@solver_run lp d n f h sq EKF0 (a_prior (xi, Q, A)) (a_noise (0 : 'M[R]_d)) init N xi Q A 0 Q') //.
  - exact: get_prior_id.
  - exact: get_noise_id.
move: H; cbv zeta; set mp := A *m m + xi; set t := N.+1%:R * h; set J := if EKF0 then _ else _.
have -> : jacfwd (fun x => @observation_function d EKF0 f n x t) mp = selector d 1 - J *m selector d 0.
  by rewrite /J; case: (EKF0); [rewrite obs_jac0 mul0mx subr0 | rewrite obs_jac1].
rewrite obs_residual => -[H1 H2 H3]; split=> //; move: H1.
rewrite mulmxBl -mulmxA !sel_slice !sliceB => H1; apply/eqP; rewrite -subr_eq0 -H1; apply/eqP.
rewrite opprD !addrA; congr (_ - _); rewrite -!addrA [in RHS]addrC !addrA subrK addrC.
by [].
Qed.

(** Samples of ekf0 in the integrated Brownian setting. *)
Lemma ekf0_sample_law (lp : lapack) d (f : 'cV[R]_d -> R -> 'cV[R]_d) h sigma (g : prng) (E : expectation (key g)) x0 N sq :
  (0 < d)%N -> 0 < h -> sigma != 0 -> standard E (fun k => normal k (d * 2)) ->
  exists X : key g -> 'cV[R]_d,
    let m := (pec f h x0 N).1 in
    [/\ forall k, ekf0 lp (Some k) x0 f h N sq (a_prior (ioup 0 sigma 1 h d)) None = Val (X k), Emx E X = m &
        Emx E (fun k => (X k - m) *m (X k - m)^T) = (N%:R * (sigma ^+ 2 * h ^+ 3 / 12%:R))%:M].
Proof.
move=> d0 h0 s0 st; have [m [P [_ H1 H2 H3]]] := @ekf0_filter lp d f h sigma d0 h0 s0 x0 N sq.
exists (fun k => output lp (Some k) sq (m, P)).
have pP : sq = false -> psd P.
  move=> e; move: H1; rewrite e => ->; apply: pos_cov_psd; apply: scalar_psd.
  by rewrite mulr_ge0 ?ler0n //; exact: cc_ge0.
have [K1 K2] := @output_law lp d g E 1 sq m P st pP; rewrite -H2; split=> //.
have [E00 _] := proj2 (pos_covP _ _) (erefl (pos_cov (N%:R * (sigma ^+ 2 * h ^+ 3 / 12%:R))%:M : 'M[R]_(d * 2))).
by rewrite [LHS]K2 H1 E00.
Qed.

(** Concrete runs. *)
Lemma ekf0_ex (lp : lapack) (g : prng) sq :
  ekf0 lp (None : option (key g)) (const_mx 1 : 'cV[R]_1) (fun x _ => x) 1 2 sq (a_prior (ioup 0 1 1 1 1)) None =
  Val (const_mx (23%:R / 4%:R)).
Proof.
rewrite (@ekf0_pec lp 1 _ 1 1) ?ltr01 ?oner_neq0 //; congr Val; apply/matrixP=> i j.
by rewrite /= !(addmxE, scalemxE, mxE); rfield.
Qed.

Lemma ekf0_exp_example (h : R) (N : nat) : 0 < h ->
  let f (x : 'cV[R]_1) (t : R) := x in let y (t : R) : 'cV[R]_1 := const_mx (exp t) in
  [/\ lipschitz f 1, deriv_on (N%:R * h) y (fun t => f (y t) t), deriv_on (N%:R * h) (fun t => f (y t) t) y,
      deriv_on (N%:R * h) y y & forall t, 0 <= t -> t <= N%:R * h -> sup_le (y t) (exp (N%:R * h))].
Proof. by move=> h0 f y; have [H1 H2 H3] := euler_exp_example N (ltW h0); split. Qed.

(** The missing time derivative. *)
Lemma init_time_ex n (i : 'I_n) : val i = 2%N ->
  let f (x : 'cV[R]_1) (t : R) : 'cV[R]_1 := const_mx t in
  let y (t : R) : 'cV[R]_1 := const_mx (t ^+ 2 / 2%:R) in
  [/\ frechet f 0 0 0 (const_mx 1), y 0 = 0, forall t i, is_derive (fun s => y s i 0) t (f (y t) t i 0),
      forall t i, is_derive (fun s => f (y s) s i 0) t 1 & slice i (init_mean f 0 n) = 0].
Proof.
move=> i2 f y; split.
- move=> eps e0; exists 1; first exact: ltr01.
  move=> v s r vr sr _ k; rewrite /f mul0mx subr0 !(submxE, addmxE, oppmxE, scalemxE, mxE) add0r subr0 mulr1 subrr normr0.
  by apply: mulr_ge0; [exact: ltW | apply: le_trans sr; exact: normr_ge0].
- by apply/matrixP=> k l; rewrite !mxE expr0n mul0r.
- move=> t k; rewrite /f /y mxE.
  apply: (is_derive_ext (fun s : R => (s ^ 2 / 2)%Re)); first by move=> s; rewrite mxE; toR.
  by auto_derive => //; field.
- move=> t k; rewrite /f; apply: (is_derive_ext (fun s : R => s)); first by move=> s; rewrite mxE.
  exact: is_derive_id.
- by rewrite slice_interl i2 /f; apply/matrixP=> k l; rewrite mxE big_ord1 !mxE pderiv_const mul0r.
Qed.

Lemma modes_agree (lp : lapack) (g : prng) d (f : 'cV[R]_d -> R -> 'cV[R]_d) h N n
  (tr : transition (d * n.+2)) x0 noise : (0 < d)%N -> pd tr.1.2 ->
  noise = None \/ (exists2 V : 'M[R]_d, noise = a_noise V & V *m V^T = V) ->
  ekf0 lp (None : option (key g)) x0 f h N true (a_prior tr) noise =
  ekf0 lp (None : option (key g)) x0 f h N false (a_prior tr) noise /\
  ekf1 lp (None : option (key g)) x0 f h N true (a_prior tr) noise =
  ekf1 lp (None : option (key g)) x0 f h N false (a_prior tr) noise.
Proof.
move=> d0 pQ [->|[V -> EV]]; last by rewrite ekf0_noise // ekf1_noise // EV.
by rewrite !ekf0_none // !ekf1_none // ekf0_noise // ekf1_noise // mul0mx.
Qed.

Lemma ekf0_samples (lp : lapack) d n (g : prng) (E : expectation (key g)) (f : 'cV[R]_d -> R -> 'cV[R]_d)
  h N sq (tr : transition (d * n.+2)) (V : 'M[R]_d) x0 m' : (0 < d)%N ->
  (sq = false -> psd tr.1.2) -> (sq = false -> psd V) -> standard E (fun k => normal k (d * n.+2)) ->
  ekf0 lp (None : option (key g)) x0 f h N sq (a_prior tr) (a_noise V) = Val m' ->
  exists X : key g -> 'cV[R]_d, exists C,
    [/\ forall k, ekf0 lp (Some k) x0 f h N sq (a_prior tr) (a_noise V) = Val (X k), psd C, Emx E X = m' &
        Emx E (fun k => (X k - m') *m (X k - m')^T) = C].
Proof.
move=> d0 pQ pV st; rewrite ekf0_run //; case: (ltnP n 2) => n2 // H.
have [X [C [H1 H2 H3 H4]]] := @run_samples lp d n g E f h N sq tr V x0 pQ pV st true 0 m' (@psd0 _) H.
by exists X, C; split=> // k; rewrite ekf0_run // n2 H1.
Qed.

Lemma ekf1_samples (lp : lapack) d n (g : prng) (E : expectation (key g)) (f : 'cV[R]_d -> R -> 'cV[R]_d)
  h N sq (tr : transition (d * n.+2)) (V : 'M[R]_d) x0 m' : (0 < d)%N ->
  (sq = false -> psd tr.1.2) -> (sq = false -> psd V) -> standard E (fun k => normal k (d * n.+2)) ->
  ekf1 lp (None : option (key g)) x0 f h N sq (a_prior tr) (a_noise V) = Val m' ->
  exists X : key g -> 'cV[R]_d, exists C,
    [/\ forall k, ekf1 lp (Some k) x0 f h N sq (a_prior tr) (a_noise V) = Val (X k), psd C, Emx E X = m' &
        Emx E (fun k => (X k - m') *m (X k - m')^T) = C].
Proof.
move=> d0 pQ pV st; rewrite ekf1_run // => H.
have [X [C [H1 H2 H3 H4]]] := @run_samples lp d n g E f h N sq tr V x0 pQ pV st false _ m' (@free_psd d n) H.
by exists X, C; split=> // k; rewrite ekf1_run // H1.
Qed.
