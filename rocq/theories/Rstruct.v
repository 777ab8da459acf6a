(** Canonical mathcomp algebraic structures on Coq's standard real numbers.

    Nothing here models the repository.  The file only makes the standard
    library's [R] usable as the scalar type of mathcomp matrices: equality,
    choice, commutative ring, field, ordered field and real closed field.
    It adds no axiom; it uses those of [Coq.Reals] plus
    [Epsilon] and [functional_extensionality] of [Coq.Logic]. *)
From Coq Require Import Reals Epsilon FunctionalExtensionality Lra.
From mathcomp Require Import all_ssreflect ssralg ssrint ssrnum poly.

Set Implicit Arguments.
Unset Strict Implicit.
Unset Printing Implicit Defensive.

Local Open Scope R_scope.

Definition eqr (r1 r2 : R) : bool :=
  if Req_EM_T r1 r2 is left _ then true else false.

Lemma eqrP : Equality.axiom eqr.
Proof. by move=> r1 r2; rewrite /eqr; case: Req_EM_T=> H; constructor. Qed.

Definition R_eqMixin := EqMixin eqrP.
Canonical R_eqType := Eval hnf in EqType R R_eqMixin.

Fact inhR : inhabited R. Proof. exact: (inhabits 0). Qed.

Definition pickR (P : pred R) (n : nat) :=
  let x := epsilon inhR P in if P x then Some x else None.

Fact pickR_some P n x : pickR P n = Some x -> P x.
Proof. by rewrite /pickR; case: (boolP (P _)) => // Px [<-]. Qed.

Fact pickR_ex (P : pred R) : (exists x : R, P x) -> exists n, pickR P n.
Proof. by rewrite /pickR; move=> /(epsilon_spec inhR)->; exists 0%N. Qed.

Fact pickR_ext (P Q : pred R) : P =1 Q -> pickR P =1 pickR Q.
Proof.
move=> PEQ n; rewrite /pickR; set u := epsilon _ _; set v := epsilon _ _.
suff -> : u = v by rewrite PEQ.
by congr epsilon; apply: functional_extensionality=> x; rewrite PEQ.
Qed.

Definition R_choiceMixin : choiceMixin R := Choice.Mixin pickR_some pickR_ex pickR_ext.
Canonical R_choiceType := Eval hnf in ChoiceType R R_choiceMixin.

Fact RplusA : associative Rplus. Proof. by move=> x y z; lra. Qed.
Fact RmultA : associative Rmult. Proof. by move=> x y z; rewrite Rmult_assoc. Qed.

Definition R_zmodMixin := ZmodMixin RplusA Rplus_comm Rplus_0_l Rplus_opp_l.
Canonical R_zmodType := Eval hnf in ZmodType R R_zmodMixin.

Fact R1_neq_0 : (1 : R) != 0.
Proof. by apply/eqP/R1_neq_R0. Qed.

Definition R_ringMixin := RingMixin RmultA Rmult_1_l Rmult_1_r
  Rmult_plus_distr_r Rmult_plus_distr_l R1_neq_0.
Canonical R_ringType := Eval hnf in RingType R R_ringMixin.
Canonical R_comRingType := Eval hnf in ComRingType R Rmult_comm.

Definition Rinvx r := if (r != 0) then / r else r.
Definition unit_R r := r != 0.

Lemma RmultRinvx : {in unit_R, left_inverse 1 Rinvx Rmult}.
Proof.
by move=> r; rewrite -topredE /unit_R /Rinvx => /= rNZ; rewrite rNZ Rinv_l //; apply/eqP.
Qed.

Lemma RinvxRmult : {in unit_R, right_inverse 1 Rinvx Rmult}.
Proof.
by move=> r; rewrite -topredE /unit_R /Rinvx => /= rNZ; rewrite rNZ Rinv_r //; apply/eqP.
Qed.

Lemma intro_unit_R x y : y * x = 1 /\ x * y = 1 -> unit_R x.
Proof.
move=> [yx1 _]; apply/eqP => x0; move: yx1; rewrite x0 Rmult_0_r => /esym.
exact: R1_neq_R0.
Qed.

Lemma Rinvx_out : {in predC unit_R, Rinvx =1 id}.
Proof. by move=> x; rewrite inE /= /Rinvx -if_neg => ->. Qed.

Definition R_unitRingMixin := UnitRingMixin RmultRinvx RinvxRmult intro_unit_R Rinvx_out.
Canonical R_unitRing := Eval hnf in UnitRingType R R_unitRingMixin.
Canonical R_comUnitRingType := Eval hnf in [comUnitRingType of R].

Lemma R_idomainMixin x y : x * y = 0 -> (x == 0) || (y == 0).
Proof.
by move=> /Rmult_integral [] ->; rewrite eqxx ?orbT.
Qed.
Canonical R_idomainType := Eval hnf in IdomainType R R_idomainMixin.

Lemma R_field_mixin : GRing.Field.mixin_of [unitRingType of R].
Proof. by []. Qed.
Canonical R_fieldType := Eval hnf in FieldType R R_field_mixin.

Definition Rleb r1 r2 : bool := if Rle_dec r1 r2 is left _ then true else false.
Definition Rltb r1 r2 : bool := if Rlt_dec r1 r2 is left _ then true else false.

Lemma RlebP r1 r2 : reflect (r1 <= r2) (Rleb r1 r2).
Proof. by rewrite /Rleb; case: Rle_dec => H; constructor. Qed.
Lemma RltbP r1 r2 : reflect (r1 < r2) (Rltb r1 r2).
Proof. by rewrite /Rltb; case: Rlt_dec => H; constructor. Qed.

Fact Rnorm_add x y : Rleb (Rabs (x + y)) (Rabs x + Rabs y).
Proof. by apply/RlebP/Rabs_triang. Qed.
Fact Radd_gt0 x y : Rltb 0 x -> Rltb 0 y -> Rltb 0 (x + y).
Proof. by move=> /RltbP Hx /RltbP Hy; apply/RltbP; lra. Qed.
Fact Rnorm0 x : Rabs x = 0 -> x = 0.
Proof. by move=> H; case: (Req_EM_T x 0) => // /Rabs_no_R0. Qed.
Fact Rleb_total x y : Rleb 0 x -> Rleb 0 y -> Rleb x y || Rleb y x.
Proof.
move=> _ _; case: (Rle_dec x y) => H.
  by have -> : Rleb x y by apply/RlebP.
by have -> : Rleb y x; rewrite ?orbT //; apply/RlebP; lra.
Qed.
Fact RnormM : {morph Rabs : x y / x * y}. Proof. exact: Rabs_mult. Qed.
Fact RleN x y : (Rleb x y) = (Rabs (y - x) == y - x).
Proof.
apply/RlebP/eqP => H; first by rewrite Rabs_right //; lra.
have := Rabs_pos (y - x); rewrite H; lra.
Qed.
Fact Rlt_def x y : (Rltb x y) = (y != x) && (Rleb x y).
Proof.
apply/RltbP/andP => [H|[/eqP yx /RlebP xy]].
  by split; [apply/eqP => yx; lra | apply/RlebP; lra].
by case: (Rle_lt_or_eq_dec _ _ xy) => // E; case: yx.
Qed.
Definition R_numMixin :=
  NumMixin Rnorm_add Radd_gt0 Rnorm0 Rleb_total RnormM RleN Rlt_def.

Canonical R_porderType := POrderType ring_display R R_numMixin.
Canonical R_numDomainType := NumDomainType R R_numMixin.
Canonical R_normedZmodType := NormedZmodType R R R_numMixin.
Canonical R_numFieldType := [numFieldType of R].

Lemma R_total : totalPOrderMixin R_porderType.
Proof.
move=> x y; case: (Rle_dec x y) => H; apply/orP.
  by left; apply/RlebP.
by right; apply/RlebP; lra.
Qed.
Canonical R_latticeType := LatticeType R R_total.
Canonical R_distrLatticeType := DistrLatticeType R R_total.
Canonical R_orderType := OrderType R R_total.
Canonical R_realDomainType := [realDomainType of R].
Canonical R_realFieldType := [realFieldType of R].


(** Conversions between the generic (mathcomp) and the concrete
    (standard library) operations; all hold by computation. *)
Lemma RplusE (x y : R) : GRing.add x y = Rplus x y. Proof. by []. Qed.
Lemma RoppE (x : R) : GRing.opp x = Ropp x. Proof. by []. Qed.
Lemma RminusE (x y : R) : GRing.add x (GRing.opp y) = Rminus x y. Proof. by []. Qed.
Lemma RmultE (x y : R) : GRing.mul x y = Rmult x y. Proof. by []. Qed.
Lemma R0E : (GRing.zero R_zmodType) = 0. Proof. by []. Qed.
Lemma R1E : (GRing.one R_ringType) = 1. Proof. by []. Qed.
Lemma RinvE (x : R) : GRing.inv x = Rinv x.
Proof.
rewrite /GRing.inv /= /Rinvx; case: (Req_EM_T x 0) => [->|/eqP ->] //.
by rewrite eqxx Rinv_0.
Qed.
Lemma RdivE (x y : R) : GRing.mul x (GRing.inv y) = Rdiv x y.
Proof. by rewrite RinvE. Qed.
Lemma RleP (x y : R) : reflect (Rle x y) (Num.Def.ler x y).
Proof. exact: RlebP. Qed.
Lemma RltP (x y : R) : reflect (Rlt x y) (Num.Def.ltr x y).
Proof. exact: RltbP. Qed.
Lemma RnatE (n : nat) : (n%:R)%R = INR n.
Proof.
elim: n => // n IH; rewrite -addn1 GRing.natrD IH.
by rewrite plus_INR.
Qed.
Lemma RpowE (x : R) n : GRing.exp x n = pow x n.
Proof. by elim: n => // n IH; rewrite GRing.exprS IH. Qed.
Lemma RnormE (x : R) : Num.Def.normr x = Rabs x. Proof. by []. Qed.

Delimit Scope R_scope with Re.
Delimit Scope ring_scope with R.

(** [toR] rewrites generic operations on reals into standard library ones. *)
Ltac toR :=
  rewrite ?(RdivE, RinvE, RpowE, RnatE, RminusE, RmultE, RoppE, RplusE, R0E, R1E, RnormE);
  rewrite ?INR_IZR_INZ; cbn [Z.of_nat Pos.of_succ_nat Pos.succ];
  try match goal with |- @eq _ ?a ?b => change (@eq R a b) end.
Ltac rring := by toR; ring.
Ltac rfield := by toR; field.
Ltac rlra := by try apply/RleP; try apply/RltP; toR; lra.

(** Simplification must not unfold the generic operations. *)
Arguments GRing.add : simpl never.
Arguments GRing.opp : simpl never.
Arguments GRing.mul : simpl never.
Arguments GRing.inv : simpl never.
Arguments GRing.zero : simpl never.
Arguments GRing.one : simpl never.
Arguments GRing.natmul : simpl never.
Arguments GRing.exp : simpl never.
Arguments GRing.scale : simpl never.

(** Real arguments are written with the generic (ring) notations. *)
Bind Scope ring_scope with R.
Arguments sqrt _%R.
Arguments exp _%R.
Arguments ln _%R.
Arguments Rabs _%R.

Lemma eq_opp0 (x : R) : x = GRing.opp x -> x = GRing.zero R_zmodType.
Proof. by rewrite RoppE R0E => H; lra. Qed.
