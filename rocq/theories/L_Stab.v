(** Proofs about the stability of the EKF solvers on x' = lam x. *)
From Coq Require Import Reals Lra FunctionalExtensionality.
From Coquelicot Require Import Coquelicot.
From mathcomp Require Import all_ssreflect all_algebra mxtens.
From Verif Require Import Rstruct Base Linalg Lapack Calc Prob Spec M_Utils L_Utils M_Filter L_Filter M_Prior L_Prior
  M_OdeSolvers L_Ivp L_OdeSolvers L_Alg3.

Set Implicit Arguments.
Unset Strict Implicit.
Unset Printing Implicit Defensive.
Import Order.TTheory GRing.Theory Num.Theory.
Local Open Scope ring_scope.

(** ** Updates of covariances made of scalar blocks *)
Section Blocks.
Variables (lp : lapack) (d : nat) (lam : R).

Definition blocks (P : 'M[R]_(d * 2)) (a : 'I_2 -> 'I_2 -> R) := forall i j, slice2 i j P = (a i j)%:M.

Lemma scalar_mx_add (a b : R) : (a%:M + b%:M : 'M[R]_d) = (a + b)%:M.
Proof. by rewrite -raddfD. Qed.
Lemma scalar_mx_opp (a : R) : (- a%:M : 'M[R]_d) = (- a)%:M.
Proof. by rewrite -raddfN. Qed.

Lemma blocks_update m P (c : 'cV[R]_d) a : psd P -> blocks P a ->
  let H := selector d 1 - lam%:M *m selector d 0 in
  let k i := a i 1 - lam * a i 0 in
  let s := k 1 - lam * k 0 in
  0 < s -> a 0 1 = a 1 0 ->
  exists m' P', [/\ update lp (m, P) c H 0 false = Val (m', P', s%:M),
    forall i, slice i m' = slice i m - (k i / s) *: c &
    blocks P' (fun i j => a i j - k i * k j / s)].
Proof.
move=> pP bP H k s s0 sym.
have HT : H^T = (selector d 1)^T - lam *: (selector d 0)^T.
  by rewrite /H linearB /= trmx_mul tr_scalar_mx mul_mx_scalar.
have HE : H = selector d 1 - lam *: selector d 0 by rewrite /H mul_scalar_mx.
have PH (i : 'I_2) : selector d i *m P *m H^T = (k i)%:M.
  rewrite HT mulmxBr -scalemxAr !sel_slice2 !bP scale_scalar_mx scalar_mx_opp scalar_mx_add //.
have aT : forall i j, a i j = a j i by move=> i j; elim/ord2P: i; elim/ord2P: j => //; rewrite sym.
have HP (j : 'I_2) : H *m P *m (selector d j)^T = (k j)%:M.
  rewrite HE !mulmxBl -!scalemxAl !sel_slice2 !bP scale_scalar_mx scalar_mx_opp scalar_mx_add.
  by rewrite /k (aT 1) (aT 0).
have SE : H *m P *m H^T + 0 = s%:M.
  by rewrite addr0 {1}HE !mulmxBl -!scalemxAl !PH scale_scalar_mx scalar_mx_opp scalar_mx_add.
have pS : pd (H *m P *m H^T + 0) by rewrite SE -scalemx1; apply: pdZ => //; exact: pd1.
rewrite (updateE lp m c pP pS) SE; do 2!eexists; split; first by [].
- move=> i; rewrite sliceB invmx_scalar mul_mx_scalar -scalemxAl; congr (_ - _).
  by rewrite -sel_slice -scalemxAr !mulmxA PH mul_scalar_mx scalerA mulrC.
- move=> i j; rewrite slice2B bP invmx_scalar mul_mx_scalar -!scalemxAl -sel_slice2 -scalemxAr -scalemxAl.
  rewrite !mulmxA PH -!mulmxA (mulmxA H) HP -scalar_mxM scale_scalar_mx scalar_mx_opp scalar_mx_add.
  by rewrite mulrC.
Qed.
End Blocks.

(** ** One step, and runs, of EKF1 on x' = lam x *)
Section Dahlquist.
Variables (lp : lapack) (d : nat) (lam h sigma : R).
Hypotheses (h0 : 0 < h) (s0 : sigma != 0).
Let f (x : 'cV[R]_d) (t : R) := lam *: x.
Let A := (ioup 0 sigma 1 h d).2.
Let Q := (ioup 0 sigma 1 h d).1.2.
Let s2 := sigma ^+ 2.
Let z := lam * h.
Let cov (p : R) (i j : 'I_2) : R := p * (if i == 0 then 1 else lam) * (if j == 0 then 1 else lam).
Let den (p : R) := p * lam ^+ 2 * z ^+ 2 + s2 * h * (1 - z + z ^+ 2 / 3%:R).

Lemma s2_gt0 : 0 < s2. Proof. by rewrite /s2 exprn_even_gt0. Qed.

Lemma quad_gt0 (u : R) : 0 < 1 - u + u ^+ 2 / 3%:R.
Proof.
have -> : 1 - u + u ^+ 2 / 3%:R = (u - 3%:R / 2%:R) ^+ 2 / 3%:R + 4%:R^-1 by rfield.
by rewrite ltr_spaddr ?invr_gt0 ?ltr0n // divr_ge0 ?sqr_ge0 // ler0n.
Qed.

Lemma den_gt0 p : 0 <= p -> 0 < den p.
Proof.
move=> p0; rewrite /den; apply: ltr_paddl; last by apply: mulr_gt0; [apply: mulr_gt0 (s2_gt0) h0 | exact: quad_gt0].
by apply: mulr_ge0; [apply: mulr_ge0 => //|]; exact: exprn_even_ge0.
Qed.

Lemma dahlquist_step m P p t : psd P -> blocks P (cov p) -> 0 <= p -> slice 1 m = lam *: slice 0 m ->
  let p' := (s2 ^+ 2 * h ^+ 4 / 12%:R + p * s2 * h * (1 + z + z ^+ 2 / 3%:R)) / den p in
  exists m' P', [/\ ekf_body lp (@observation_function d false f 0) A Q 0 0 false (m, P) t = Val (m', P'),
    slice 0 m' = (s2 * h * (1 - z ^+ 2 / 6%:R) / den p) *: slice 0 m,
    slice 1 m' = lam *: slice 0 m' & blocks P' (cov p')].
Proof.
move=> pP bP p0 Em p'; rewrite /ekf_body /predict; cbn [fst snd]; rewrite addr0 obs_jac1 obs_residual.
have -> : jac (f^~ t) (slice 0 (A *m m)) = lam%:M.
  rewrite -[RHS](jac_mul _ (slice 0 (A *m m))); apply: jac_ext => y; by rewrite mul_scalar_mx.
have [E1 E2] := @ibm_Am d h sigma m; rewrite -/A in E1 E2; rewrite E1 E2 /f Em.
set c := _ - _.
have pP' : psd (A *m P *m A^T + Q).
  by apply: psdD; [apply: psd_congr | apply: pd_psd; exact: ioup_pd].
have [q1 q2 q3 q4] := @ibm_Q d h sigma; rewrite -/Q -/s2 in q1 q2 q3 q4.
have [e1 e2 e3 e4] := @ibm_A d h sigma; rewrite -/A in e1 e2 e3 e4.
pose u (i : 'I_2) : R := if i == 0 then 1 + z else lam.
pose q (i j : 'I_2) : R := if i == 0 then (if j == 0 then s2 * h ^+ 3 / 3%:R else s2 * h ^+ 2 / 2%:R)
                    else (if j == 0 then s2 * h ^+ 2 / 2%:R else s2 * h).
have bQ : blocks Q q by move=> i j; elim/ord2P: i; elim/ord2P: j; rewrite ?q1 ?q2 ?q3 ?q4.
have bP' : blocks (A *m P *m A^T + Q) (fun i j => p * u i * u j + q i j).
  move=> i j; rewrite slice2D bQ !slice2_mul !sum2V !slice2_mul !sum2V !bP !slice2T -scalar_mx_add; congr (_ + _).
  have S0 : (0 : 'M[R]_d) = 0%:M by rewrite scalar0.
  elim/ord2P: i; elim/ord2P: j; rewrite ?e1 ?e2 ?e3 ?e4 ?S0 !tr_scalar_mx -!scalar_mxM !scalar_mx_add -!scalar_mxM !scalar_mx_add;
  congr (_%:M); rewrite /cov /u /z /=; rring.
pose k0 := p * u 0 * u 1 + q 0 1 - lam * (p * u 0 * u 0 + q 0 0).
pose k1 := p * u 1 * u 1 + q 1 1 - lam * (p * u 1 * u 0 + q 1 0).
have sE : k1 - lam * k0 = den p by rewrite /k1 /k0 /den /u /q /z /=; rfield.
have d1 : den p != 0 by rewrite gt_eqF ?den_gt0.
have h1 : h != 0 by rewrite gt_eqF.
have := @blocks_update lp d lam (A *m m) _ c _ pP' bP'; cbv beta zeta; rewrite -/k0 -/k1 sE.
case; [exact: den_gt0 | by rewrite /q /=; rring |] => m' [P' [-> Hm HP]].
exists m', P'; split=> //.
- rewrite Hm -/k0 E1 Em.
  have -> : c = (- (lam * z)) *: slice 0 m.
    by rewrite /c /z; apply/colP=> l; rewrite !(addmxE, oppmxE, scalemxE); rring.
  rewrite scalerA -scaleNr -{1}[slice 0 m]scale1r scalerA -!scalerDl; congr (_ *: _).
  apply: (mulIf d1); rewrite (divfK d1).
  transitivity ((1 + h * lam) * den p + lam * z * (k0 / den p * den p)); first rring.
  rewrite (divfK d1).
  by rewrite /k0 /den /u /q /z /=; rfield.
- rewrite !Hm -/k0 -/k1 E1 E2 Em scalerBr !scalerA.
  have -> : c = (- (lam * z)) *: slice 0 m.
    by rewrite /c /z; apply/colP=> l; rewrite !(addmxE, oppmxE, scalemxE); rring.
  have -> : k1 = den p + lam * k0 by rewrite -sE subrK.
  apply/colP=> l; rewrite !(addmxE, oppmxE, scalemxE); move: (slice 0 m l 0) => y.
  by move: k0 {sE HP Hm} => k; move: (den p) d1 => D d1; rewrite /z; toR; field; exact/eqP.
- move=> i j; rewrite HP; congr (_%:M).
  have -> : cov p' i j = (s2 ^+ 2 * h ^+ 4 / 12%:R + p * s2 * h * (1 + z + z ^+ 2 / 3%:R)) *
     (if i == 0 then 1 else lam) * (if j == 0 then 1 else lam) / den p.
    by rewrite /cov /p' -!mulrA; congr (_ * _); rewrite mulrC !mulrA.
  apply: (mulIf d1); rewrite mulrBl !(divfK d1).
  by elim/ord2P: i; elim/ord2P: j; rewrite /den /u /q /z /=; rfield.
Qed.

Lemma dahlquist_ge0 N : 0 <= (dahlquist lam h s2 N).2.
Proof.
elim: N => [|N]; first by [].
rewrite /=; case: (dahlquist _ _ _ _) => r p; cbn [fst snd] => p0.
apply: divr_ge0; last by rewrite -/(den p); exact: ltW (den_gt0 p0).
have s20 := ltW s2_gt0; have hh := ltW h0.
apply: addr_ge0; first by rewrite divr_ge0 ?ler0n // mulr_ge0 // exprn_even_ge0.
have := ltW (quad_gt0 (- z)); rewrite opprK sqrrN => q0.
by apply: mulr_ge0 => //; apply: mulr_ge0 => //; exact: mulr_ge0.
Qed.

Lemma blocks_psd (P : 'M[R]_(d * 2)) p : 0 <= p -> blocks P (cov p) -> psd P.
Proof.
move=> p0 bP; have -> : P = p *: ((selector d 0 + lam *: selector d 1)^T *m (selector d 0 + lam *: selector d 1)).
  apply: slice2_ext => i j; rewrite bP -sel_slice2.
  have E (l : 'I_2) : (selector d 0 + lam *: selector d 1) *m (selector d l)^T = (if l == 0 then 1 else lam)%:M.
    rewrite mulmxDl -scalemxAl !sel_ortho scale_scalar_mx scalar_mx_add.
    by elim/ord2P: l; rewrite /= ?mulr0 ?mulr1 ?addr0 ?add0r.
  rewrite -scalemxAr -scalemxAl !mulmxA -!mulmxA E mulmxA.
  have -> : selector d i *m (selector d 0 + lam *: selector d 1)^T = ((selector d 0 + lam *: selector d 1) *m (selector d i)^T)^T.
    by rewrite trmx_mul trmxK.
  by rewrite E tr_scalar_mx -scalar_mxM scale_scalar_mx mulrA.
apply: psdZ => //; rewrite -{2}[_ + _]trmxK; exact: psd_gram.
Qed.

Lemma dahlquist_run m0 N : slice 1 m0 = lam *: slice 0 m0 ->
  exists m' P', [/\ ekf lp (@observation_function d false f 0) A Q 0 0 false (m0, 0)
    (mkseq (fun k => k.+1%:R * h) N) = Val (m', P'),
    slice 0 m' = (dahlquist lam h s2 N).1 *: slice 0 m0, slice 1 m' = lam *: slice 0 m' &
    blocks P' (cov (dahlquist lam h s2 N).2)].
Proof.
move=> E0; elim: N => [|N [m1 [P1 [E1 E2 E3 E4]]]].
  exists m0, 0; rewrite ekf_nil /= scale1r; split=> // i j.
  by rewrite /cov !mul0r slice20 scalar0.
have -> : mkseq (fun k : nat => k.+1%:R * h) N.+1 = rcons (mkseq (fun k => k.+1%:R * h) N) (N.+1%:R * h).
  by rewrite /mkseq -addn1 iotaD map_cat /= cats1 add0n addn1.
have p0 := dahlquist_ge0 N.
have [m2 [P2 [F1 F2 F3 F4]]] := dahlquist_step (N.+1%:R * h) (blocks_psd p0 E4) E4 p0 E3.
exists m2, P2; rewrite ekf_rcons E1; cbn [rbind]; rewrite F1; split=> //.
- by rewrite F2 E2 scalerA /=; case: (dahlquist _ _ _ _).
- by move: F4; rewrite /=; case: (dahlquist _ _ _ _).
Qed.

Lemma dahlquist_solver sq x0 N : exists m P,
  [/\ @_solver lp d 0 (init_mean f x0 2, 0) f h N sq false (a_prior (ioup 0 sigma 1 h d)) None = Val (m, P),
      slice 0 m = (dahlquist lam h s2 N).1 *: x0, slice 1 m = lam *: slice 0 m &
      blocks (if sq then P *m P^T else P) (cov (dahlquist lam h s2 N).2)].
Proof.
have E0 : slice 1 (init_mean f x0 2) = lam *: slice 0 (init_mean f x0 2).
  by rewrite slice_init_mean1 slice_init_mean0.
have [m1 [P1 [E1 E2 E3 E4]]] := dahlquist_run N E0; rewrite slice_init_mean0 in E2.
have [_ [LQ [EQ _ EL]]] := @ioup_chol lp sigma 1 h d s0 h0.
have EQ' : (if sq then cholesky lp Q else Val Q) = Val (if sq then LQ else Q) by case: (sq); rewrite ?EQ.
rewrite (@solver_run lp d 0 f h sq false (a_prior (ioup 0 sigma 1 h d)) None (init_mean f x0 2, 0) N 0 Q A 0 _
  (get_prior_id _ _) erefl EQ').
case: (sq) {EQ'}; last by exists m1, P1.
have := ekf_sqrt_state lp (@observation_function d false f 0) A 0 LQ 0 (init_mean f x0 2) 0 (mkseq (fun k : nat => k.+1%:R * h) N).
rewrite !mul0mx EL E1; case E5: (ekf _ _ _ _ _ _ _ _) => [[m2 W2]||] //= [Em EW2].
by exists m2, W2; rewrite -Em; split=> //; rewrite -EW2.
Qed.

(** The factor of the mean decreases geometrically when lam < 0, whatever the step. *)
Let rho := `|1 - z ^+ 2 / 6%:R| / (1 - z + z ^+ 2 / 3%:R).

Lemma rho_ge0 : 0 <= rho.
Proof. by rewrite divr_ge0 // ltW // quad_gt0. Qed.

Lemma dahlquist_le N : `|(dahlquist lam h s2 N).1| <= rho ^+ N.
Proof.
elim: N => [|N IH]; first by rewrite /= normr1.
have p0 := dahlquist_ge0 N; move: IH p0.
rewrite exprS /=; case: (dahlquist _ _ _ _) => r p; cbn [fst snd] => IH p0.
rewrite normrM; apply: ler_pmul => //.
have D0 := den_gt0 p0; rewrite -/(den p) normrM normfV (gtr0_norm D0) normrM.
have c0 : 0 < s2 * h by rewrite mulr_gt0 ?s2_gt0.
rewrite (gtr0_norm c0) /rho ler_pdivr_mulr // [X in _ <= X]mulrAC ler_pdivl_mulr ?quad_gt0 //.
rewrite -mulrA mulrCA; apply: ler_wpmul2l => //.
rewrite /den ler_addr; apply: mulr_ge0; first by apply: mulr_ge0 => //; exact: exprn_even_ge0.
exact: exprn_even_ge0.
Qed.

Lemma rho_lt1 : lam < 0 -> rho < 1.
Proof.
move=> l0; have z0 : z < 0 by rewrite /z nmulr_rlt0.
rewrite /rho ltr_pdivr_mulr ?quad_gt0 // mul1r ltr_norml.
have zz : 0 <= z ^+ 2 by exact: sqr_ge0.
by apply/andP; split; move: z0 zz; move: (z) => y /RltP y0 /RleP yy; apply/RltP; move: y0 yy; toR; nra.
Qed.
End Dahlquist.

(** ** EKF0 on the same equation *)
Section Explicit.
Variables (d : nat) (lam h : R) (x0 : 'cV[R]_d).
Let f (x : 'cV[R]_d) (t : R) := lam *: x.
Let z := lam * h.
Fixpoint pec1 (k : nat) : R * R :=
  if k is k'.+1 then let: (a, b) := pec1 k' in (a + (b + z * (a + b)) / 2%:R, z * (a + b)) else (1, z).

Lemma pec_lin k : (pec f h x0 k).1 = (pec1 k).1 *: x0 /\ h *: (pec f h x0 k).2 = (pec1 k).2 *: x0.
Proof.
elim: k => [|k]; first by rewrite /= scale1r /f scalerA mulrC.
rewrite /=; case: (pec _ _ _ _) => x v; case: (pec1 k) => a b; cbn [fst snd] => -[-> Ev].
have E : h *: f (a *: x0 + h *: v) (k.+1%:R * h) = (z * (a + b)) *: x0.
  by rewrite Ev /f -scalerDl !scalerA /z; congr (_ *: _); rring.
move: E; move: (f _ _) => v' E; split=> //.
have -> : (h / 2%:R) *: (v + v') = 2%:R^-1 *: (h *: v + h *: v').
  by rewrite -scalerDr scalerA mulrC.
by rewrite Ev E; apply/colP=> l; rewrite !(addmxE, scalemxE); rfield.
Qed.

(** With lam h <= -2 the iterates alternate in sign and at least double. *)
Lemma pec1_grow k : z <= - 2%:R ->
  let s := (-1) ^+ k in
  let: (a, b) := pec1 k.+1 in 0 <= s * a /\ 2%:R ^+ k.+1 <= s * b.
Proof.
move=> z2 s; rewrite /s {s}; elim: k => [|k].
  rewrite /= !expr0 !mul1r expr1; split.
    by apply/RleP; move/RleP: z2; toR; nra.
  by apply/RleP; move/RleP: z2; toR; nra.
rewrite -[pec1 k.+2]/(let: (a, b) := pec1 k.+1 in (a + (b + z * (a + b)) / 2%:R, z * (a + b))).
case: (pec1 k.+1) => a b [Ha Hb].
rewrite !exprS; move: Ha Hb; rewrite !exprS; move: ((-1) ^+ k) (2%:R ^+ k) (exprn_ge0 k (ler0n R_numDomainType 2)) => s w.
move=> /RleP w0 /RleP Ha /RleP Hb; move/RleP: z2 => z2; split; apply/RleP; move: w0 z2 Ha Hb; toR.
  nra.
nra.
Qed.

Lemma pec1_large k : z <= - 2%:R -> 2%:R ^+ k <= `|(pec1 k.+2).1|.
Proof.
move=> z2; have := pec1_grow k z2; cbv beta zeta.
rewrite -[pec1 k.+2]/(let: (a, b) := pec1 k.+1 in (a + (b + z * (a + b)) / 2%:R, z * (a + b))).
case: (pec1 k.+1) => a b [Ha Hb]; cbn [fst snd].
have -> : `|a + (b + z * (a + b)) / 2%:R| = `|(-1) ^+ k * (a + (b + z * (a + b)) / 2%:R)|.
  by rewrite normrM normrX normrN1 expr1n mul1r.
rewrite ler_normr; apply/orP; right.
move: Ha Hb; rewrite exprS; move: ((-1) ^+ k) (2%:R ^+ k) (exprn_ge0 k (ler0n R_numDomainType 2)) => s w.
move=> /RleP w0 /RleP Ha /RleP Hb; move/RleP: z2 => z2; apply/RleP; move: w0 z2 Ha Hb; toR; nra.
Qed.
End Explicit.

(** ** The two solvers *)
Section Solvers.
Variables (lp : lapack) (d : nat) (lam h sigma : R) (x0 : 'cV[R]_d) (sq : bool) (g : prng).
Hypotheses (d0 : (0 < d)%N) (h0 : 0 < h) (s0 : sigma != 0).
Notation prior := (a_prior (ioup 0 sigma 1 h d)).
Let f (x : 'cV[R]_d) (t : R) := lam *: x.

Lemma ekf1_dahlquist N :
  ekf1 lp (None : option (key g)) x0 f h N sq prior None = Val ((dahlquist lam h (sigma ^+ 2) N).1 *: x0) /\
  exists m P, @_solver lp d 0 (init_mean f x0 2, 0) f h N sq false prior None = Val (m, P) /\
    let C := if sq then P *m P^T else P in
    let p := (dahlquist lam h (sigma ^+ 2) N).2 in
    [/\ slice2 0 0 C = p%:M, slice2 0 1 C = (p * lam)%:M, slice2 1 0 C = (p * lam)%:M & slice2 1 1 C = (p * lam ^+ 2)%:M].
Proof.
have [m [P [E1 E2 E3 E4]]] := @dahlquist_solver lp d lam h sigma h0 s0 sq x0 N; split.
  by rewrite ekf1_run // E1; cbn [rbind]; rewrite /output E2.
exists m, P; split=> //; cbv zeta; rewrite !E4 /= !mulr1; split=> //.
by rewrite expr2 mulrA.
Qed.

Lemma ekf1_lin_step : let z := lam * h in
  ekf1 lp (None : option (key g)) x0 f h 1 sq prior None = Val (((1 - z ^+ 2 / 6%:R) / (1 - z + z ^+ 2 / 3%:R)) *: x0).
Proof.
move=> z; rewrite (ekf1_dahlquist 1).1; congr Val; congr (_ *: _); cbn [dahlquist fst].
have sh : sigma ^+ 2 * h != 0 by rewrite mulf_neq0 ?expf_neq0 ?(gt_eqF h0).
by rewrite !mul0r add0r mulr1 -mulf_div divff // mul1r.
Qed.

Lemma ekf1_stable N : lam < 0 ->
  let z := lam * h in
  let rho := `|1 - z ^+ 2 / 6%:R| / (1 - z + z ^+ 2 / 3%:R) in
  rho < 1 /\ exists r, ekf1 lp (None : option (key g)) x0 f h N sq prior None = Val (r *: x0) /\ `|r| <= rho ^+ N.
Proof.
move=> l0 z rho; split; first exact: rho_lt1.
by eexists; split; [exact: (ekf1_dahlquist N).1 | exact: dahlquist_le].
Qed.

Lemma ekf0_unstable N : lam * h <= - 2%:R ->
  exists r, ekf0 lp (None : option (key g)) x0 f h N.+2 sq prior None = Val (r *: x0) /\ 2%:R ^+ N <= `|r|.
Proof.
move=> z2; rewrite ekf0_pec // (pec_lin lam h x0 N.+2).1.
by eexists; split; [reflexivity | exact: pec1_large].
Qed.
End Solvers.
