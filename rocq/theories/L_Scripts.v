(** Lemmas about the experiment scripts. *)
From Coq Require Import Reals Lra FunctionalExtensionality.
From mathcomp Require Import all_ssreflect all_algebra mxtens.
From Verif Require Import Rstruct Base Linalg Lapack Calc Prob Spec M_Utils L_Utils M_Foster L_Foster M_SdeSolver
  L_SdeSolver M_Euler L_Euler M_ItoStrat L_ItoStrat M_Filter M_Prior M_OdeSolvers M_Scripts.

Set Implicit Arguments.
Unset Strict Implicit.
Unset Printing Implicit Defensive.
Import Order.TTheory GRing.Theory Num.Theory.
Local Open Scope ring_scope.

(** ** Lists *)
Lemma nth_chunks T (x0 : T) p (cs : seq (seq T)) i j : all (fun c => size c == p) cs -> (j < p)%N ->
  nth x0 (flatten cs) (i * p + j) = nth x0 (nth [::] cs i) j.
Proof.
move=> + jp; elim: cs i => [|c cs IH] [|i] /=.
- by rewrite !nth_nil.
- by rewrite !nth_nil.
- by case/andP=> /eqP cp _; rewrite nth_cat mul0n add0n cp jp.
by case/andP=> /eqP cp H; rewrite nth_cat mulSn -addnA cp ltnNge leq_addr /= addKn IH.
Qed.

Lemma size_chunks T p (cs : seq (seq T)) : all (fun c => size c == p) cs -> size (flatten cs) = (p * size cs)%N.
Proof. by elim: cs => [|c cs IH] /=; rewrite ?muln0 // => /andP [/eqP cp H]; rewrite size_cat IH // cp mulnS. Qed.

(** ** One call of the pathwise scheme *)
Section Em.
Variables (d m : nat) (drift : 'cV[R]_d -> R -> 'cV[R]_d) (sigma : 'cV[R]_d -> R -> 'M[R]_(d, m)).

Lemma final_em h incs x N : size incs = N ->
  final (em_pathwise drift sigma h incs x N false) = Val (emseq drift sigma h (nth 0 incs) x N).
Proof.
by move=> sN; rewrite em_pathwiseE // /final rbind_val size_mkseq nth_mkseq.
Qed.

Lemma stride_em h (w : nat -> 'cV[R]_m) x p N : (0 < p)%N ->
  stride 0 p (mkseq (emseq drift sigma h w x) (p * N).+1) = mkseq (fun i => emseq drift sigma h w x (i * p)) N.+1.
Proof.
move=> p0; rewrite /stride size_mkseq.
have -> : (((p * N).+1 + p.-1) %/ p = N.+1)%N by rewrite addSnnS prednK // -mulnSr mulKn.
by apply: eq_in_mkseq => i; rewrite ltnS => iN; rewrite nth_mkseq // ltnS mulnC leq_mul2l iN orbT.
Qed.
End Em.

(** ** The low-memory scripts *)
Section Ram.
Variables (g : prng) (d m : nat) (X : Type) (fine : nat) (delta : R).
Variables (drift : 'cV[R]_d -> R -> 'cV[R]_d) (sigma : 'cV[R]_d -> R -> 'M[R]_(d, m)).
Variable ode_int : key g -> X -> ('cV[R]_d -> R -> 'cV[R]_d) -> R -> X.
Notation bm := (get_approx_fine g m fine).
Notation coef k := (get_coeffs bm (split2 k).1 delta).

Lemma size_fine_incs k : size (fine_incs (coef k)) = fine.
Proof.
rewrite /fine_incs /= /parabolas_fine /parabolas_fine_keys.
by case: (scan _ _ _).1 => a b /=; rewrite !size_map size_split.
Qed.

Lemma sde_coeffs drift' (sigma' : 'cV[R]_d -> R -> 'M[R]_(d, m)) Y
  (int' : key g -> Y -> ('cV[R]_d -> R -> 'cV[R]_d) -> R -> Y) (b : path_approx g m) k x0 N :
  (sde_solver drift' sigma' b delta int' k x0 N).2 = [seq get_coeffs b (split2 k').1 delta | k' <- split k N].
Proof.
rewrite sde_solverE /= /run; have : size (split k N) = size (grid delta N) by rewrite size_split size_mkseq.
elim: (split k N) (grid delta N) x0 => [|k' ks IH] [|t ts] x //= [E].
by rewrite /step /sde_body; case Es: (split2 k') => [k1 k2] /=; rewrite IH.
Qed.

Let next2 (y : res 'cV[R]_d) (kt : key g * R) : res 'cV[R]_d :=
  let! y := y in final (em_pathwise (fun z t => drift z (t + kt.2)) (fun z t => sigma z (t + kt.2)) (delta / fine%:R)
    (fine_incs (coef kt.1)) y fine false).

Lemma ram_bodyE x y i kt : ram_body fine delta drift sigma ode_int (x, y) (i, kt) =
  let x' := (sde_body drift sigma bm delta ode_int x (i, kt)).1 in ((x', next2 y kt), (x', next2 y kt)).
Proof. by case: kt => k t; rewrite /next2 /ram_body /sde_body; case: (split2 k). Qed.

Lemma sde_body_out x i kt :
  (sde_body drift sigma bm delta ode_int x (i, kt)).2.1 = (sde_body drift sigma bm delta ode_int x (i, kt)).1.
Proof. by case: kt => k t; rewrite /sde_body; case: (split2 k). Qed.

Lemma ram_scan is_ kts x y : size is_ = size kts ->
  let out := (scan (ram_body fine delta drift sigma ode_int) (x, y) (zip is_ kts)).2 in
  unzip1 out = unzip1 (scan (sde_body drift sigma bm delta ode_int) x (zip is_ kts)).2 /\
  unzip2 out = (scan (fun y kt => (next2 y kt, next2 y kt)) y kts).2.
Proof.
elim: kts is_ x y => [|kt kts IH] [|i is_] x y // [E] out.
rewrite {}/out; change (zip (i :: is_) (kt :: kts)) with ((i, kt) :: zip is_ kts); cbn [scan].
rewrite ram_bodyE; cbn [fst snd unzip1 unzip2 map].
by have [-> ->] := IH is_ (sde_body drift sigma bm delta ode_int x (i, kt)).1 (next2 y kt) E; rewrite sde_body_out.
Qed.

Lemma ram_solverE k x0 y0 N :
  let s := sde_solver drift sigma bm delta ode_int k x0 N in
  ram_solver fine delta drift sigma ode_int k x0 y0 N =
  (s.1.1, s.1.2, Val y0 :: (scan (fun y kt => (next2 y kt, next2 y kt)) (Val y0) (zip (split k N) (grid delta N))).2).
Proof.
rewrite /ram_solver /sde_solver !scan_ev_progress but_last_grid -/(grid delta N) /jnp_insert !take0 !drop0 /=.
have sz : size (iota 0 N) = size (zip (split k N) (grid delta N)).
  by rewrite size_iota size_zip size_split size_mkseq minnn.
by have [-> ->] := ram_scan x0 (Val y0) sz.
Qed.

Let chunks k N := [seq fine_incs (coef k') | k' <- split k N].

Lemma all_chunks k N : all (fun c => size c == fine) (chunks k N).
Proof. by rewrite /chunks; elim: (split k N) => // k' ks IH; rewrite [all _ _]/= IH -[fine_incs _]/(fine_incs (coef k')) size_fine_incs eqxx. Qed.

Lemma ram_second k y0 N : (0 < fine)%N ->
  Val y0 :: (scan (fun y kt => (next2 y kt, next2 y kt)) (Val y0) (zip (split k N) (grid delta N))).2 =
  mkseq (fun i => Val (emseq drift sigma (delta / fine%:R) (nth 0 (flatten (chunks k N))) y0 (i * fine))) N.+1.
Proof.
move=> f0; rewrite scan_states //.
have sz : size (zip (split k N) (grid delta N)) = N by rewrite size_zip size_split size_mkseq minnn.
rewrite sz; apply: eq_in_mkseq; elim=> [|i IH] iN; first by rewrite carry_at0.
rewrite (@carry_atS _ _ _ _ _ _ _ (k, 0)) ?sz // IH ?(ltnW iN) //.
rewrite nth_zip ?size_split ?size_mkseq // nth_mkseq //; cbn [fst snd]; rewrite /next2 rbind_val final_em ?size_fine_incs //.
rewrite mulSn addnC emseq_shift; congr Val.
have -> : (i * fine)%:R * (delta / fine%:R) = i%:R * delta :> R.
  by rewrite natrM -mulrA; congr (_ * _); rewrite mulrC divfK // pnatr_eq0 -lt0n.
apply: emseq_ext => j jf; rewrite (nth_chunks 0 i (all_chunks k N) jf) (nth_map k) //.
by rewrite size_split.
Qed.
End Ram.

Section Pairs.
Variables (g : prng) (d m : nat) (X : Type) (fine : nat) (delta : R).
Implicit Types (drift : 'cV[R]_d -> R -> 'cV[R]_d) (sigma : 'cV[R]_d -> R -> 'M[R]_(d, m)).
Variable ode_int : key g -> X -> ('cV[R]_d -> R -> 'cV[R]_d) -> R -> X.
Notation bm := (get_approx_fine g m fine).

Lemma ram_pair drift sigma k x0 y0 N : (0 < fine)%N ->
  let s := sde_solver drift sigma bm delta ode_int k x0 N in
  let r := ram_solver fine delta drift sigma ode_int k x0 y0 N in
  r.1 = s.1 /\
  exists ts ys, [/\ em_pathwise drift sigma (delta / fine%:R) (flatten [seq fine_incs c | c <- s.2]) y0 (fine * N) false
                      = Val (ts, ys),
    size r.2 = N.+1 & forall i, (i <= N)%N -> nth Nan r.2 i = Val (nth 0 ys (i * fine))].
Proof.
move=> f0 s r; rewrite /r ram_solverE; cbn [fst snd]; rewrite -/s; split; first by case: (s.1).
rewrite /s sde_coeffs -map_comp.
rewrite em_pathwiseE; last by rewrite (size_chunks (@all_chunks g m fine delta k N)) size_map size_split.
eexists _, _; split; first reflexivity.
  by rewrite ram_second // size_mkseq.
move=> i iN; rewrite ram_second // nth_mkseq ?ltnS // nth_mkseq // ltnS mulnC leq_mul2l iN orbT //.
Qed.

Lemma ram_plain_gen drift sigma k x0 y0 N : (0 < fine)%N -> to_stratonovich drift sigma = (drift, sigma) ->
  exists sols ys incs,
    plain_experiment fine delta drift sigma ode_int k x0 y0 N = Val (sols, ys, incs) /\
    ram_solver fine delta drift sigma ode_int k x0 y0 N =
      (mkseq (fun i => i%:R * delta) N.+1, sols, [seq Val y | y <- ys]).
Proof.
move=> f0 sE; rewrite /plain_experiment sE.
have sc := @sde_coeffs g d m delta drift sigma X ode_int bm k x0 N.
set S := sde_solver _ _ _ _ _ _ _ _ in sc *.
rewrite (surjective_pairing S) (surjective_pairing S.1) sc -map_comp.
rewrite em_pathwiseE; last by rewrite (size_chunks (@all_chunks g m fine delta k N)) size_map size_split.
rewrite rbind_val stride_em //; eexists _, _, _; split; first reflexivity.
rewrite ram_solverE ram_second // -/S; congr (_, _, _); first by rewrite /S sde_solverE.
by rewrite /mkseq -map_comp.
Qed.

(** The plain script, for noise that does not depend on the state. *)
Lemma ram_plain drift (G : R -> 'M[R]_(d, m)) k x0 y0 N : (0 < fine)%N ->
  let s := to_stratonovich drift (fun _ => G) in
  exists sols ys incs,
    plain_experiment fine delta drift (fun _ => G) ode_int k x0 y0 N = Val (sols, ys, incs) /\
    ram_solver fine delta s.1 s.2 ode_int k x0 y0 N =
      (mkseq (fun i => i%:R * delta) N.+1, sols, [seq Val y | y <- ys]).
Proof.
move=> f0 s.
have sE1 : s.1 = drift.
  apply: functional_extensionality => x; apply: functional_extensionality => t.
  by have [_ ->] := correction_additive drift G x t.
have sE : to_stratonovich drift (fun _ => G) = (drift, fun _ => G).
  by rewrite (surjective_pairing (to_stratonovich _ _)) -/s sE1.
by rewrite /s sE; apply: ram_plain_gen.
Qed.
End Pairs.

(** For geometric Brownian motion the two scripts differ. *)
Lemma ram_plain_differ (g : prng) (X : Type) (k : key g) (x0 : X) ode_int :
  let sigma (x : 'cV[R]_1) (t : R) := diag_mx x^T in
  let s := to_stratonovich (fun _ _ => 0) sigma in
  exists sols ys incs, plain_experiment 1 1 (fun _ _ => 0) sigma ode_int k x0 (const_mx 1) 1 = Val (sols, ys, incs) /\
    nth Nan (ram_solver 1 1 s.1 s.2 ode_int k x0 (const_mx 1) 1).2 1 = Val (nth 0 ys 1 - 2%:R^-1 *: const_mx 1).
Proof.
move=> sigma s; rewrite /plain_experiment (surjective_pairing (to_stratonovich _ _)) -/s.
have sc := @sde_coeffs g 1 1 1 s.1 s.2 X ode_int (get_approx_fine g 1 1) k x0 1.
set S := sde_solver _ _ _ _ _ _ _ _ in sc *.
rewrite (surjective_pairing S) (surjective_pairing S.1) sc -map_comp.
rewrite em_pathwiseE; last by rewrite (size_chunks (@all_chunks g 1 1 1 k 1)) size_map size_split.
rewrite rbind_val stride_em //; eexists _, _, _; split; first reflexivity.
rewrite ram_solverE ram_second // [LHS]nth_mkseq // nth_mkseq // !muln1; congr Val.
rewrite /emseq /emstep.
set w := nth 0 _ 0; rewrite /dWs -/w.
have -> : s.1 (const_mx 1) (0%:R * (1 / 1%:R)) = - (2%:R^-1 *: const_mx 1) :> 'cV[R]_1.
  rewrite /s /= /sigma; have := @correction_diag 1 (fun _ _ => 0) (const_mx 1) (0%:R * (1 / 1%:R)).
  by rewrite /= !add0r => ->.
by rewrite divr1 scale1r scaler0 addr0 addrAC.
Qed.
