(** When the declared variances of utils/ivp.py are covariance matrices. *)
From Coq Require Import Reals Lra Psatz.
From Coquelicot Require Import Coquelicot.
From mathcomp Require Import all_ssreflect all_algebra mxtens.
From Verif Require Import Rstruct Base Linalg Calc Prob Spec M_Utils M_Ivp L_Ivp.

Set Implicit Arguments.
Unset Strict Implicit.
Unset Printing Implicit Defensive.
Import Order.TTheory GRing.Theory Num.Theory.
Local Open Scope ring_scope.

Lemma qf2 (A : 'M[R]_2) (x : 'cV[R]_2) :
  qf A x = (x 0 0 * A 0 0 + x 1 0 * A 1 0) * x 0 0 + (x 0 0 * A 0 1 + x 1 0 * A 1 1) * x 1 0.
Proof. by rewrite /qf mulmxE sum2 !mulmxE !sum2 !trmxE. Qed.

Lemma psd2 (A : 'M[R]_2) : A 0 1 = A 1 0 -> 0 < A 0 0 -> (psd A <-> 0 <= A 0 0 * A 1 1 - A 0 1 ^+ 2).
Proof.
move=> E a0; split.
  case=> _ /(_ (cv 2 [:: - A 0 1; A 0 0])); rewrite qf2 !mxE /= -E.
  move: (A 0 0) (A 0 1) (A 1 1) a0 => a b c /RltP a0 /RleP H; apply/RleP; move: a0 H; rewrite expr2; toR => a0 H.
  apply: (Rmult_le_reg_l a) => //; lra.
move=> D; split; first by apply/matrixP; apply: ord2P; apply: ord2P; rewrite trmxE //.
move=> x; rewrite qf2 -E; move: (x 0 0) (x 1 0) (A 0 0) (A 0 1) (A 1 1) a0 D => u v a b c /RltP a0 /RleP D.
apply/RleP; move: a0 D; rewrite expr2; toR => a0 D.
have S : (0 <= (a * u + b * v) * (a * u + b * v) + (a * c + - (b * b)) * (v * v))%Re.
  apply: Rplus_le_le_0_compat; first exact: Rle_0_sqr.
  apply: Rmult_le_pos; [lra | exact: Rle_0_sqr].
apply: (Rmult_le_reg_l a) => //; lra.
Qed.

Lemma fhn_psd (sig eps t : R) : sig != 0 -> eps != 0 -> (psd (fhn_variance_ sig eps t) <-> 0 <= t <= 1 / 4%:R).
Proof.
move=> s0 e0.
have E00 : fhn_variance_ sig eps t 0 0 = sig ^+ 2 * (t ^+ 3 / (3%:R * eps ^+ 2)).
  by rewrite !mxE /=; move/eqP: e0; rewrite !exprS !expr0; toR => e0; field.
have S2 : 0 < sig ^+ 2 by rewrite exprn_even_gt0.
have e2 : 0 < eps ^+ 2 by rewrite exprn_even_gt0.
have [t0|t0|t0] := ltgtP t 0.
- split=> // H; have := psd_entry 0 H; rewrite E00 pmulr_rge0 // pmulr_lge0 ?invr_gt0 ?(pmulr_rgt0 _ (ltr0Sn _ 2)) //.
  by rewrite exprn_odd_ge0 // leNgt t0.
- have A0 : 0 < fhn_variance_ sig eps t 0 0.
    by rewrite E00; apply: mulr_gt0 => //; apply: divr_gt0; [exact: exprn_gt0 | apply: mulr_gt0 => //; rewrite ltr0n].
  rewrite psd2 //; last by rewrite !mxE.
  have -> : fhn_variance_ sig eps t 0 0 * fhn_variance_ sig eps t 1 1 - fhn_variance_ sig eps t 0 1 ^+ 2
     = (sig ^+ 2) ^+ 2 * (t ^+ 4 / (12%:R * eps ^+ 2)) * (1 - 4%:R * t).
    rewrite E00 !mxE /= !exprS !expr0; move/eqP: e0; toR => e0; field; lra.
  have P : 0 < (sig ^+ 2) ^+ 2 * (t ^+ 4 / (12%:R * eps ^+ 2)).
    apply: mulr_gt0; first exact: exprn_gt0.
    by apply: divr_gt0; [exact: exprn_gt0 | apply: mulr_gt0 => //; rewrite ltr0n].
  rewrite pmulr_rge0 // subr_ge0 /= ler_pdivl_mulr ?ltr0n // mulrC.
  by [].
- rewrite t0; split=> _; last first.
    suff -> : fhn_variance_ sig eps 0 = 0 by exact: psd0.
    by apply/matrixP; apply: ord2P; apply: ord2P; rewrite !mxE /= ?expr0n /= ?mulr0 ?mul0r ?subrr ?mulr0.
  by apply: divr_ge0; [exact: ler01 | exact: ler0n].
Qed.

Lemma harm_psd (gamma D sig t : R) : sig != 0 ->
  (psd (harm_variance3 gamma D sig t) <-> 0 <= t /\ 0 <= 3%:R + 6%:R * gamma * t - (gamma ^+ 2 + 4%:R * D) * t ^+ 2 \/ t = 0).
Proof.
move=> s0.
have E00 : harm_variance3 gamma D sig t 0 0 = sig ^+ 2 * (t ^+ 3 / 3%:R).
  by rewrite !mxE /= mul1r [t ^+ 3 / _]mulrC.
have S2 : 0 < sig ^+ 2 by rewrite exprn_even_gt0.
have [t0|t0|t0] := ltgtP t 0.
- split=> [H|]; last by case=> [[//]|H]; move: t0; rewrite H ltxx.
  have := psd_entry 0 H; rewrite E00 pmulr_rge0 // pmulr_lge0 ?invr_gt0 ?ltr0n //.
  by rewrite exprn_odd_ge0 // leNgt t0.
- have A0 : 0 < harm_variance3 gamma D sig t 0 0.
    by rewrite E00; apply: mulr_gt0 => //; apply: divr_gt0; [exact: exprn_gt0 | rewrite ltr0n].
  rewrite psd2 //; last by rewrite !mxE.
  have -> : harm_variance3 gamma D sig t 0 0 * harm_variance3 gamma D sig t 1 1 - harm_variance3 gamma D sig t 0 1 ^+ 2
     = (sig ^+ 2) ^+ 2 * (t ^+ 4 / 36%:R) * (3%:R + 6%:R * gamma * t - (gamma ^+ 2 + 4%:R * D) * t ^+ 2).
    rewrite E00 !mxE /= !exprS !expr0; toR; field.
  have P : 0 < (sig ^+ 2) ^+ 2 * (t ^+ 4 / 36%:R).
    apply: mulr_gt0; first exact: exprn_gt0.
    by apply: divr_gt0; [exact: exprn_gt0 | rewrite ltr0n].
  rewrite pmulr_rge0 //; split=> [H|[[_ H]|H]] //; first by left; split=> //; exact: ltW.
  by move: t0; rewrite H ltxx.
- split=> _; first by right.
  rewrite t0; suff -> : harm_variance3 gamma D sig 0 = 0 by exact: psd0.
  by apply/matrixP; apply: ord2P; apply: ord2P; rewrite !mxE /= ?expr0n /= ?mulr0 ?mul0r ?mulr0 ?subrr ?mul0r ?addr0 ?mulr0.
Qed.

Lemma harm_psd_default t :
  psd (harm_variance3 harm_sq_gamma harm_sq_D harm_sq_sig t) <-> 0 <= t <= (3%:R + 2%:R * sqrt 6%:R) / 5%:R.
Proof.
have s6 : sqrt 6%:R * sqrt 6%:R = 6%:R by apply: sqrt_def; apply/RleP; exact: ler0n.
have s60 : 2%:R <= sqrt 6%:R.
  apply/RleP; have H4 : sqrt (2%Re * 2%Re)%Re = 2%Re by apply: sqrt_square; lra.
  by have := sqrt_le_1 (2%Re * 2%Re)%Re 6%Re; rewrite H4; toR; lra.
rewrite harm_psd ?pnatr_eq0 // /harm_sq_gamma /harm_sq_D expr1n !mulr1.
rewrite expr2; move: s6 s60; set r := sqrt _; move: (r) => q; clear r.
move=> + /RleP; toR => q6 q2; split.
  case=> [[/RleP t0 /RleP H]|->].
    apply/andP; split; first by apply/RleP.
    apply/RleP; move: t0 H; toR => t0 H.
    apply: (Rmult_le_reg_r 5%Re); first lra.
    have -> : ((3 + 2 * q) * / 5 * 5 = 3 + 2 * q)%Re by field.
    nra.
  by apply/andP; split=> //; apply/RleP; toR; lra.
case/andP=> /RleP t0 /RleP H; left; split; first by apply/RleP.
apply/RleP; move: t0 H; toR => t0 H.
have {}H : (5 * t <= 3 + 2 * q)%Re by lra.
nra.
Qed.

Lemma qf3 (A : 'M[R]_3) (x : 'cV[R]_3) (i2 : 'I_3 := inord 2) :
  qf A x = (x 0 0 * A 0 0 + x 1 0 * A 1 0 + x i2 0 * A i2 0) * x 0 0 + (x 0 0 * A 0 1 + x 1 0 * A 1 1 + x i2 0 * A i2 1) * x 1 0 +
   (x 0 0 * A 0 i2 + x 1 0 * A 1 i2 + x i2 0 * A i2 i2) * x i2 0.
Proof. by rewrite /qf mulmxE sum3 !mulmxE !sum3 !trmxE. Qed.

Lemma ibm_psd t : psd (ibm_var t) <-> 0 <= t.
Proof.
split; first by move=> H; have := psd_entry 1 H; rewrite !mxE /= expr1n mul1r.
move=> /RleP t0; split; first by apply/matrixP; apply: ord2P; apply: ord2P; rewrite !mxE.
move=> x; rewrite qf2 !mxE /= expr1n !mul1r; move: (x 0 0) (x 1 0) t0 => u v; rewrite !exprS !expr0 => t0.
apply/RleP; move: t0; toR => t0.
have S : (0 <= t * ((v + u * t / 2) * (v + u * t / 2) + (t * u) * (t * u) / 12))%Re.
  apply: Rmult_le_pos => //; move: (v + _)%Re (t * u)%Re => p q.
  by have := Rle_0_sqr p; have := Rle_0_sqr q; rewrite /Rsqr; toR; lra.
lra.
Qed.

Lemma dibm_psd t : psd (dibm_var t) <-> 0 <= t.
Proof.
split; first by move=> H; have := psd_entry (inord 2) H; rewrite !mxE /= inordK //= expr1n mul1r.
move=> /RleP t0; split; first by apply/matrixP; apply: ord3P; apply: ord3P; rewrite !mxE /= ?inordK.
move=> x; rewrite qf3 !mxE /= !inordK //= expr1n !mul1r; move: (x 0 0) (x 1 0) (x (inord 2) 0) t0 => u v w; rewrite !exprS !expr0 => t0.
apply/RleP; move: t0; toR => t0.
have S : (0 <= t * ((w + v * t / 2 + u * (t * t) / 6) * (w + v * t / 2 + u * (t * t) / 6) +
  (t * (v + u * t / 2)) * (t * (v + u * t / 2)) / 12 + (t * t * u) * (t * t * u) / 720))%Re.
  apply: Rmult_le_pos => //.
  move: (w + _ + _)%Re (t * (v + _))%Re (t * t * u)%Re => p q r.
  by have := Rle_0_sqr p; have := Rle_0_sqr q; have := Rle_0_sqr r; rewrite /Rsqr; toR; lra.
lra.
Qed.

Lemma harm_trap_psd (gamma D : R) m (C : 'M[R]_(2, m)) nodes t : 0 <= t -> (1 < nodes)%N ->
  psd (harm_variance gamma D C nodes t).
Proof.
move=> t0 n1; rewrite /harm_variance /trapz_x; set f := fun s : R => _; set xs := linspace _ _ _.
rewrite size_map size_linspace big_nat_cond; apply: psd_sum => i /andP [/andP [_ iN] _].
have iN' : (i.+1 < nodes)%N by rewrite -ltn_predRL.
apply: psdZ.
  apply: divr_ge0; last exact: ler0n.
  rewrite /xs !nth_linspace ?(ltnW iN') // !add0r subr0 -mulrBl; apply: mulr_ge0.
    by rewrite subr_ge0 ler_nat.
  by apply: divr_ge0 => //; exact: ler0n.
rewrite !(nth_map 0) ?size_linspace ?(ltnW iN') //; apply: psdD; exact: psd_gram.
Qed.

Lemma gbm_var_ge0 (a b t : R) : 0 <= t -> 0 <= gbm_variance_ a b t 0 0.
Proof.
move=> t0; rewrite !mxE expr1n mul1r; apply: mulr_ge0; last by apply/RleP/Rlt_le; exact: exp_pos.
rewrite subr_ge0; have := exp_ineq1_le (b ^+ 2 * t).
have : 0 <= b ^+ 2 * t by apply: mulr_ge0 => //; exact: sqr_ge0.
move: (b ^+ 2 * t) => u /RleP u0 H; apply/RleP; move: u0 H; toR; lra.
Qed.

(** ** Defaults *)
Lemma fhn_mean_default t : fhn_mean t =
  mean_taylor2 (fun z => fhn_drift z 0) (fun z => fhn_sigma z 0) fhn_x0 t + cv 2 [:: 8%:R * t ^+ 2; 0].
Proof.
rewrite /fhn_mean (@fhn_taylor fhn_gamma fhn_sig fhn_eps fhn_alpha fhn_s fhn_x0); last by rewrite /fhn_eps; toR; lra.
congr (_ + _); apply/matrixP; apply: ord2P => j; rewrite !mxE //= /fhn_alpha /fhn_eps !exprS !expr0; toR; field.
Qed.

Lemma fhn_variance_default t : (fhn_variance t =
  mx 2 2 [:: [:: 3%:R * t ^+ 3; - (9%:R / 20%:R) * t ^+ 2]; [:: - (9%:R / 20%:R) * t ^+ 2; 9%:R / 100%:R * (t - t ^+ 2)]]) /\
  forall x s, fhn_sigma x s *m (fhn_sigma x s)^T = mx 2 2 [:: [:: 0; 0]; [:: 0; 9%:R / 100%:R]].
Proof.
split=> [|x s]; apply/matrixP; apply: ord2P; apply: ord2P; rewrite ?mulmxE ?big_ord1 !mxE /= /fhn_sig ?/fhn_eps ?exprS ?expr0;
  toR; field.
Qed.

Lemma synred_noise (sI sE : R) (x : 'cV[R]_2) : 0 <= x 1 0 ->
  synred_sigma_ sI sE x *m (synred_sigma_ sI sE x)^T = mx 2 2 [:: [:: sE ^+ 2 * x 1 0; 0]; [:: 0; sI ^+ 2 * x 1 0]].
Proof.
move=> x0; have Q : sqrt (x 1 0) * sqrt (x 1 0) = x 1 0 by apply: sqrt_def; apply/RleP.
have v1 : vget x 1 = x 1 0 by rewrite /vget; congr (x _ 0); apply/val_inj; rewrite /= inordK.
have v2 : vget x 2 = x 1 0 by rewrite /vget; congr (x _ 0); apply/val_inj; rewrite /= inordK.
by apply/matrixP; apply: ord2P; apply: ord2P; rewrite mulmxE sum2 !mxE /= ?v1 ?v2 ?mulr0 ?mul0r ?addr0 ?add0r ?mulr0 // mulrACA Q expr2.
Qed.

Lemma syn_noise (sI sE : R) (x : 'cV[R]_3) : 0 <= x 1 0 -> 0 <= x (inord 2) 0 ->
  syn_sigma_ sI sE x *m (syn_sigma_ sI sE x)^T =
  mx 3 3 [:: [:: 0; 0; 0]; [:: 0; sE ^+ 2 * x 1 0; 0]; [:: 0; 0; sI ^+ 2 * x (inord 2) 0]].
Proof.
move=> x1 x2; have Q1 : sqrt (x 1 0) * sqrt (x 1 0) = x 1 0 by apply: sqrt_def; apply/RleP.
have Q2 : sqrt (x (inord 2) 0) * sqrt (x (inord 2) 0) = x (inord 2) 0 by apply: sqrt_def; apply/RleP.
have v1 : vget x 1 = x 1 0 by rewrite /vget; congr (x _ 0); apply/val_inj; rewrite /= inordK.
have v2 : vget x 2 = x (inord 2) 0 by [].
by apply/matrixP; apply: ord3P; apply: ord3P; rewrite mulmxE sum3 !mxE /= ?inordK //= ?v1 ?v2 ?mulr0 ?mul0r ?addr0 ?add0r ?mulr0 // mulrACA ?Q1 ?Q2 expr2.
Qed.

Lemma harm_noise : harm_sq_C *m harm_sq_C^T = mx 2 2 [:: [:: 0; 0]; [:: 0; 4%:R]] /\
  harm_C *m harm_C^T = mx 2 2 [:: [:: 0; 0]; [:: 0; 1]].
Proof.
split; apply/matrixP; apply: ord2P; apply: ord2P; rewrite mulmxE ?sum2 ?big_ord1 !mxE /= /harm_sig ?/harm_sq_sig; toR; ring.
Qed.

Lemma expansions_bad :
  ~ psd (fhn_variance 1) /\ ~ psd (harm_variance3 harm_sq_gamma harm_sq_D harm_sq_sig 2%:R).
Proof.
have H : fhn_sig != 0 /\ fhn_eps != 0 by split; rewrite mulf_neq0 ?invr_eq0 ?pnatr_eq0 ?oner_eq0.
split.
  case: H => H1 H2; move/(fhn_psd _ H1 H2)/andP => [_ /RleP]; toR; lra.
move/harm_psd; rewrite pnatr_eq0 => /(_ isT) [[_ /RleP]|/eqP]; last by rewrite pnatr_eq0.
rewrite /harm_sq_gamma /harm_sq_D !expr2; toR; lra.
Qed.
