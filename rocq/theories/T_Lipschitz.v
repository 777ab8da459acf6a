(** Property C98: the Lipschitz constant experiment. *)
From Coq Require Import Reals Lra.
From mathcomp Require Import all_ssreflect all_algebra mxtens.
From Verif Require Import Rstruct Base Linalg Calc Prob Spec Spec3 M_Foster M_Lipschitz L_Lipschitz.

Set Implicit Arguments.
Unset Strict Implicit.
Unset Printing Implicit Defensive.
Import Order.TTheory GRing.Theory Num.Theory.
Local Open Scope ring_scope.

(** C98: the trapezoidal value of the total variation of one parabola lies between |a| and
    |a| + sqrt 6 / 2 |b|; both ends are attained. *)
Theorem C98_pathwise (n : nat) (delta : R) (a b : 'cV[R]_1) : (0 < n)%N -> 0 < delta ->
  let L := lip_trapz n delta a b in
  [/\ `|a 0 0| <= L,
      sqrt 6%:R * `|b 0 0| <= `|a 0 0| -> L = `|a 0 0|,
      ~~ odd n -> L <= `|a 0 0| + sqrt 6%:R / 2%:R * `|b 0 0| &
      ~~ odd n -> a 0 0 = 0 -> L = sqrt 6%:R / 2%:R * `|b 0 0|].
Proof.
exact: (fun n0 d0 => And4 (lip_lower a b n0 d0) (@lip_monotone n delta a b n0 d0)
  (@lip_upper n delta a b n0 d0) (@lip_bridge n delta a b n0 d0)).
Qed.
Print Assumptions C98_pathwise.

Section C98.
Variables (g : prng) (E : expectation (key g)).

(** The mean over independent keys is unbiased for the mean of one value. *)
Theorem C98_mean N delta n : (0 < n)%N ->
  iid E n (fun ks => lip_experiment N ks delta) = E (fun k => lip_value N delta k).
Proof. exact: experiment_mean. Qed.

(** The plotted bound holds for small steps ... *)
Theorem C98_bound (delta M : R) : monotone E -> standard2 E (fun k => normal2 k 2 1) ->
  0 < delta -> sqrt delta <= 1 / 100%:R ->
  E (fun k => exp (`|normal2 k 2 1 0 0| + sqrt 3%:R / 2%:R * `|normal2 k 2 1 1 0|)) <= M ->
  M * sqrt delta <= 29%:R / 400%:R ->
  E (fun k => lip_value 100 delta k) <= theoretical_bound delta.
Proof. exact: (fun Em std d0 ds HM Hs => bound_holds Em std d0 ds HM Hs). Qed.

(** ... and fails for every step of length at least nine. *)
Theorem C98_bound_refuted (delta : R) : monotone E -> standard2 E (fun k => normal2 k 2 1) ->
  9%:R <= delta -> theoretical_bound delta < E (fun k => lip_value 100 delta k).
Proof. exact: (fun Em std => bound_fails Em std). Qed.
End C98.
Print Assumptions C98_mean.
Print Assumptions C98_bound.
Print Assumptions C98_bound_refuted.

(** Fair signs as draws, at two steps. *)
Example C98_ex : let d : R := (64 / 1000000)%Re in
  signkeyE 2 1 (fun k : key tree_prng => lip_value 100 d k) <= theoretical_bound d /\
  theoretical_bound 10%:R < signkeyE 2 1 (fun k : key tree_prng => lip_value 100 10%:R k).
Proof.
move=> d; have sd : sqrt d = (8 / 1000)%Re.
  by rewrite -(sqrt_Rsqr (8 / 1000)%Re); [congr sqrt; rewrite /Rsqr /d; field | lra].
split.
  apply: (@C98_bound tree_prng (signkeyE 2 1) d 9%:R (@signkey_monotone 2 1) (signkey_standard 2 1)).
  - by apply/RltP; rewrite /d; toR; lra.
  - by rewrite sd; apply/RleP; toR; lra.
  - exact: signkey_moment.
  - by rewrite sd; apply/RleP; toR; lra.
by apply: (@C98_bound_refuted tree_prng (signkeyE 2 1) _ (@signkey_monotone 2 1) (signkey_standard 2 1)); rewrite ler_nat.
Qed.

Example C98_pathwise_ex : lip_trapz 100 (1 / 4%:R) (\col_i 3%:R) (\col_i 1) = 3%:R.
Proof.
have [|_ H _ _] := @C98_pathwise 100 (1 / 4%:R) (\col_i 3%:R) (\col_i 1) isT; first by rewrite divr_gt0 ?ltr01 ?ltr0n.
rewrite H !mxE (ger0_norm (ler0n _ _)) // normr1 mulr1.
have : (sqrt 6%Re <= 3)%Re.
  by rewrite -[X in (_ <= X)%Re](sqrt_Rsqr 3%Re); [apply: sqrt_le_1_alt; rewrite /Rsqr; lra|lra].
by move=> h; apply/RleP; toR.
Qed.
