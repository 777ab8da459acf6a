(** Lemmas about the experiment scripts: two Euler runs, local order, closed form, pairing. *)
From Coq Require Import Reals Lra Lia FunctionalExtensionality.
From mathcomp Require Import all_ssreflect all_algebra mxtens.
From Verif Require Import Rstruct Base Linalg Lapack Expm Calc Prob Spec M_Utils L_Utils M_Foster L_Foster M_SdeSolver
  L_SdeSolver M_Euler L_Euler M_ItoStrat L_ItoStrat L_Init M_Filter M_Prior M_OdeSolvers M_Scripts L_Scripts.

Set Implicit Arguments.
Unset Strict Implicit.
Unset Printing Implicit Defensive.
Import Order.TTheory GRing.Theory Num.Theory.
Local Open Scope ring_scope.


Lemma mkseq_map T U (f : T -> U) (h : nat -> T) n : mkseq (fun i => f (h i)) n = [seq f x | x <- mkseq h n].
Proof. by rewrite /mkseq -map_comp. Qed.

(** ** EM_FHN: two Euler-Maruyama runs on one path *)
Section TwoEuler.
Variables (g : prng) (d m fine : nat) (delta : R).
Variables (drift : 'cV[R]_d -> R -> 'cV[R]_d) (sigma : 'cV[R]_d -> R -> 'M[R]_(d, m)).
Notation bm := (get_approx_fine g m fine).
Notation coef k := (get_coeffs bm (split2 k).1 delta).

Lemma fine_sum (k : key g) :
  \sum_(w <- fine_incs (parabolas_fine m fine k delta)) w = (parabolas_fine m fine k delta).1.1.1.
Proof.
apply/colP=> i; rewrite /fine_incs /= /parabolas_fine /parabolas_fine_keys.
set fe := map _ _.
have : forall (us : seq ('cV[R]_m * 'cV[R]_m)) a b, ((scan (update_eps (delta / fine%:R)) (a, b) us).1).1 = a + \sum_(w <- unzip1 us) w.
  elim=> [|u us IH] a b /=; first by rewrite big_nil addr0.
  by case: u => u1 u2; rewrite big_cons /= IH addrA.
move/(_ (zip (unzip1 fe) [seq (1 / sqrt 6%:R) *: e | e <- unzip2 fe]) 0 0).
case: (scan _ _ _).1 => a b /= ->; rewrite add0r unzip1_zip //.
by rewrite !size_map.
Qed.

Lemma fine_total (k : key g) : \sum_(w <- fine_incs (coef k)) w = (coef k).1.1.1.
Proof. exact: fine_sum. Qed.

Let coarse (y : res 'cV[R]_d) (kt : key g * R) : res 'cV[R]_d :=
  let! y := y in final (em_pathwise (fun z t => drift z (t + kt.2)) (fun z t => sigma z (t + kt.2)) delta
    [:: (coef kt.1).1.1.1] y 1 false).
Let int2 (k : key g) (x : res 'cV[R]_d) (vf : 'cV[R]_d -> R -> 'cV[R]_d) (T : R) := x.

Let next2 (y : res 'cV[R]_d) (kt : key g * R) : res 'cV[R]_d :=
  let! y := y in final (em_pathwise (fun z t => drift z (t + kt.2)) (fun z t => sigma z (t + kt.2)) (delta / fine%:R)
    (fine_incs (coef kt.1)) y fine false).

Lemma two_em_bodyE x y i kt : two_em_body fine delta drift sigma (x, y) (i, kt) =
  ((coarse x kt, next2 y kt), (coarse x kt, next2 y kt)).
Proof.
case: kt => k t; rewrite /coarse /next2 /two_em_body; cbn [fst snd].
by rewrite -fine_total; case: (split2 k).
Qed.

Lemma two_em_scan is_ kts x y : size is_ = size kts ->
  let out := (scan (two_em_body fine delta drift sigma) (x, y) (zip is_ kts)).2 in
  unzip1 out = (scan (fun y kt => (coarse y kt, coarse y kt)) x kts).2 /\
  unzip2 out = (scan (fun y kt => (next2 y kt, next2 y kt)) y kts).2.
Proof.
elim: kts is_ x y => [|kt kts IH] [|i is_] x y // [E] out.
rewrite {}/out; change (zip (i :: is_) (kt :: kts)) with ((i, kt) :: zip is_ kts); cbn [scan].
rewrite two_em_bodyE; cbn [fst snd unzip1 unzip2 map].
by have [-> ->] := IH is_ (coarse x kt) (next2 y kt) E.
Qed.

Lemma two_em_first k y0 N :
  Val y0 :: (scan (fun y kt => (coarse y kt, coarse y kt)) (Val y0) (zip (split k N) (grid delta N))).2 =
  mkseq (fun i => Val (emseq drift sigma delta (nth 0 [seq (coef k').1.1.1 | k' <- split k N]) y0 i)) N.+1.
Proof.
rewrite scan_states //.
have sz : size (zip (split k N) (grid delta N)) = N by rewrite size_zip size_split size_mkseq minnn.
rewrite sz; apply: eq_in_mkseq; elim=> [|i IH] iN; first by rewrite carry_at0.
rewrite (@carry_atS _ _ _ _ _ _ _ (k, 0)) ?sz // IH ?(ltnW iN) //.
rewrite nth_zip ?size_split ?size_mkseq // nth_mkseq //; cbn [fst snd]; rewrite /coarse rbind_val final_em //.
have iE : i.+1 = (i + 1)%N by rewrite addn1.
rewrite iE emseq_shift; congr Val.
apply: emseq_ext => j; rewrite ltnS leqn0 => /eqP ->.
by rewrite addn0 (nth_map k) ?size_split.
Qed.

Lemma two_em_pair X (ode_int : key g -> X -> ('cV[R]_d -> R -> 'cV[R]_d) -> R -> X) z0 k x0 N : (0 < fine)%N ->
  let c := (sde_solver drift sigma bm delta ode_int k z0 N).2 in
  exists ts ys tsf ysf,
    [/\ em_pathwise drift sigma delta [seq b.1.1.1 | b <- c] x0 N false = Val (ts, ys),
        em_pathwise drift sigma (delta / fine%:R) (flatten [seq fine_incs b | b <- c]) x0 (fine * N) false = Val (tsf, ysf)
      & two_em_solver fine delta drift sigma k x0 N =
          (ts, [seq Val y | y <- ys], mkseq (fun i => Val (nth 0 ysf (i * fine))) N.+1)].
Proof.
move=> f0 c; rewrite /c sde_coeffs -!map_comp.
rewrite !em_pathwiseE; first last.
- by rewrite size_map size_split.
- by rewrite (size_chunks (@all_chunks g m fine delta k N)) size_map size_split.
eexists _, _, _, _; split; [reflexivity|reflexivity|].
rewrite /two_em_solver !scan_ev_progress but_last_grid -/(grid delta N) /jnp_insert !take0 !drop0 !cat0s linspace_grid.
have sz : size (iota 0 N) = size (zip (split k N) (grid delta N)).
  by rewrite size_iota size_zip size_split size_mkseq minnn.
have [E1 E2] := two_em_scan (Val x0) (Val x0) sz.
rewrite [X in (_, X, _)](_ : _ = Val x0 :: unzip1 (scan (two_em_body fine delta drift sigma) (Val x0, Val x0)
   (zip (iota 0 N) (zip (split k N) (grid delta N)))).2) //.
rewrite [X in (_, X)](_ : _ = Val x0 :: unzip2 (scan (two_em_body fine delta drift sigma) (Val x0, Val x0)
   (zip (iota 0 N) (zip (split k N) (grid delta N)))).2) //.
rewrite E1 E2 two_em_first ram_second //; congr (_, _, _); first by rewrite mkseq_map.
apply: eq_in_mkseq => i; rewrite ltnS => iN; rewrite nth_mkseq // ltnS mulnC leq_mul2l iN orbT //.
Qed.
End TwoEuler.

(** ** local_order_experiment_from_scratch.py *)
Section LocalOrder.
Variables (lp : lapack) (g : prng) (fine_N : nat) (delta : R).
Variables (x0 : 'cV[R]_1) (drift : 'cV[R]_1 -> R -> 'cV[R]_1) (sigma : 'cV[R]_1 -> R -> 'M[R]_1).

Lemma local_step_raises N (k : key g) : local_step lp fine_N delta x0 drift sigma N k = Raise TypeError.
Proof.
rewrite /local_step /local_reference final_em ?rbind_val.
  by rewrite (proj1 (ekf_noprior _ _ _ _ _ _ _ _)).
rewrite size_map /fine_incs /parabolas_fine /parabolas_fine_keys.
by case: (scan _ _ _).1 => a b /=; rewrite !size_map size_split.
Qed.

Let h := delta / fine_N%:R.

Lemma emseq_scale (c : R) w x n :
  emseq drift sigma h (fun i => c *: w i) x n = emseq drift (fun z t => c *: sigma z t) h w x n.
Proof. by elim: n => //= n ->; rewrite /emstep -scalemxAl -scalemxAr. Qed.

Lemma size_local (k : key g) : size (fine_incs (parabolas_fine 1 fine_N k delta)) = fine_N.
Proof.
rewrite /fine_incs /parabolas_fine /parabolas_fine_keys.
by case: (scan _ _ _).1 => a b /=; rewrite !size_map size_split.
Qed.

Lemma local_referenceE (k : key g) :
  let k' := nth k (split k 1) 0 in
  let incs := fine_incs (parabolas_fine 1 fine_N k' delta) in
  local_reference fine_N delta x0 drift sigma k =
  final (em_pathwise drift (fun z t => sqrt (1 / h) *: sigma z t) h incs x0 fine_N false).
Proof.
move=> k' incs; rewrite /local_reference !final_em ?size_map ?size_local // -/h -/k' -/incs -emseq_scale; congr Val.
by apply: emseq_ext => i iN; rewrite (nth_map 0) // size_local.
Qed.

(** What the comment asks for: normalised increments, and [standard = True]. *)
Lemma local_standard (k : key g) incs : 0 < delta -> size incs = fine_N -> (0 < fine_N)%N ->
  em_pathwise drift sigma h [seq sqrt (1 / h) *: w | w <- incs] x0 fine_N true =
  em_pathwise drift sigma h incs x0 fine_N false.
Proof.
move=> d0 s f0; rewrite em_standard -map_comp; congr em_pathwise; rewrite -[RHS]map_id; apply: eq_map => w /=.
have h0 : 0 < h by rewrite divr_gt0 // ltr0n.
have -> : sqrt (1 / h) = (sqrt h)^-1 by rewrite div1r; toR; rewrite sqrt_inv //; apply: Rlt_le; apply/RltP.
rewrite scalerA divff ?scale1r // gt_eqF //; apply/RltP; apply: sqrt_lt_R0; exact/RltP.
Qed.
End LocalOrder.

Lemma emseq_bm (h : R) (w : nat -> 'cV[R]_1) x n :
  emseq (fun _ _ => 0) (fun _ _ => 1%:M) h w x n = x + \sum_(i < n) w i.
Proof.
elim: n => [|n IH]; first by rewrite big_ord0 addr0.
by rewrite big_ord_recr /= IH /emstep scaler0 addr0 mul1mx addrA.
Qed.

(** Brownian motion itself: the reference multiplies the path by [sqrt (1 / h)]. *)
Lemma local_bm (g : prng) fine_N (delta : R) x0 (k : key g) : (0 < fine_N)%N -> 0 < delta ->
  let k' := nth k (split k 1) 0 in
  local_reference fine_N delta x0 (fun _ _ => 0) (fun _ _ => 1%:M) k =
  Val (x0 + sqrt (fine_N%:R / delta) *: (parabolas_fine 1 fine_N k' delta).1.1.1).
Proof.
move=> f0 d0 k'; rewrite local_referenceE final_em ?size_local //.
rewrite -(emseq_scale fine_N delta _ _ (sqrt (1 / (delta / fine_N%:R)))) emseq_bm div1r invfM invrK mulrC.
rewrite -scaler_sumr -fine_sum; congr (Val (_ + _ *: _)).
by rewrite (big_nth 0) big_mkord size_local.
Qed.

(** A generator whose draws are all 1. *)
Definition ones_prng : prng :=
  @Prng unit (fun _ n => nseq n tt) (fun _ n => size_nseq n tt) (fun _ n => const_mx 1) (fun _ m n => const_mx 1).

Lemma ones_fine fine_N (delta : R) : 
  (parabolas_fine 1 fine_N (tt : key ones_prng) delta).1.1.1 = const_mx (fine_N%:R * sqrt (delta / fine_N%:R)).
Proof.
rewrite -fine_sum /fine_incs /parabolas_fine /parabolas_fine_keys.
case: (scan _ _ _).1 => a b; cbn [fst snd]; rewrite /= /unzip1 -map_comp.
rewrite big_map /= (eq_bigr (fun _ => const_mx (sqrt (delta / fine_N%:R)))); last first.
  by move=> i _; apply/colP=> j; rewrite !mxE mulr1.
have E (n : nat) (c : 'cV[R]_1) : \sum_(i <- nseq n tt) c = n%:R *: c.
  elim: n => [|n IH]; first by rewrite big_nil scale0r.
  by rewrite /= big_cons IH [n.+1%:R]mulrS scalerDl scale1r.
by rewrite E; apply/colP=> j; rewrite !mxE.
Qed.

(** ** breaking_multidimensionnal.py *)
Lemma arange1 (stop step : R) : 0 < stop -> stop <= step -> arange stop step = [:: 0].
Proof.
move=> s0 ss; rewrite /arange.
have q : 0 < stop / step <= 1.
  by rewrite divr_gt0 ?(lt_le_trans s0) // ler_pdivr_mulr ?mul1r ?(lt_le_trans s0).
have -> : Int_part (- (stop / step)) = Z.opp 1.
  case/andP: q => /RltP q1 /RleP q2; move: q1 q2; toR; move=> q1 q2.
  have [I1 I2] := base_Int_part (- (stop / step))%Re.
  have J1 : Z.lt (Int_part (- (stop / step))%Re) Z0 by apply: lt_IZR; lra.
  have J2 : Z.lt (Z.opp 2) (Int_part (- (stop / step))%Re) by apply: lt_IZR; simpl; lra.
  by lia.
by rewrite /= /mkseq /= mul0r.
Qed.

Section Closed.
Variables (d m : nat) (A : 'M[R]_d) (S : 'M[R]_(d, m)).

Lemma closed_stepE delta M incs x : 0 < delta -> delta <= M%:R ->
  closed_step A S delta M incs x = expm (delta *: A) *m (x + S *m \sum_(w <- incs) w).
Proof.
move=> d0 dM; rewrite /closed_step arange1 // mulmxDr; congr (_ + _).
rewrite !mulmx_sumr [RHS](big_nth 0) /index_iota subn0 big_seq [RHS]big_seq; apply: eq_bigr => i.
rewrite mem_iota add0n => /andP [_ iN]; have -> : get_clamped 0 [:: (0 : R)] i = 0 by rewrite /get_clamped minn0.
rewrite /get_clamped subr0 -mulmxA; congr (_ *m (_ *m nth _ _ _)).
by apply/minn_idPl; rewrite -ltnS prednK // (leq_ltn_trans _ iN).
Qed.

(** The formula of the docstring, and the distance to it. *)
Definition docstring_step (delta : R) (incs : seq 'cV[R]_m) (x : 'cV[R]_d) : 'cV[R]_d :=
  expm (delta *: A) *m x +
  \sum_(i < size incs) expm ((delta - i%:R * (delta / (size incs)%:R)) *: A) *m S *m nth 0 incs i.

Lemma closed_step_diff delta M incs x : 0 < delta -> delta <= M%:R ->
  closed_step A S delta M incs x - docstring_step delta incs x =
  \sum_(i < size incs) expm ((delta - i%:R * (delta / (size incs)%:R)) *: A)
     *m (expm ((i%:R * (delta / (size incs)%:R)) *: A) - 1%:M) *m S *m nth 0 incs i.
Proof.
move=> d0 dM; rewrite closed_stepE // mulmxDr /docstring_step opprD addrACA subrr add0r.
rewrite !mulmx_sumr (big_nth 0) big_mkord -sumrB; apply: eq_bigr => i _.
rewrite mulmxBr mulmx1 -expm_add subrK mulmxBl mulmxBl; congr (_ - _).
by rewrite mulmxA.
Qed.

Lemma closed_step_nilp delta M incs x : A *m A = 0 -> 0 < delta -> delta <= M%:R ->
  closed_step A S delta M incs x - docstring_step delta incs x =
  A *m S *m \sum_(i < size incs) (i%:R * (delta / (size incs)%:R)) *: nth 0 incs i.
Proof.
move=> AA d0 dM; rewrite closed_step_diff // mulmx_sumr; apply: eq_bigr => i _.
have eA t : expm (t *: A) = 1%:M + t *: A.
  rewrite (@expm_nilp _ A 2 t); last first.
    by case=> [|[|k]] // _; rewrite !mxpowS mulmxA AA mul0mx.
  by rewrite !big_ord_recl big_ord0 addr0 /= expr0 expr1 !divr1 scale1r mulmx1.
rewrite !eA [X in _ *m X *m _ *m _]addrAC subrr add0r mulmxDl mul1mx -!scalemxAr -!scalemxAl AA !scaler0 addr0.
by rewrite -?scalemxAl -?scalemxAr.
Qed.
End Closed.
