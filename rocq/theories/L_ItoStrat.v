(** Lemmas about the Ito / Stratonovich conversion. *)
From Coq Require Import Reals Lra.
From Coquelicot Require Import Coquelicot.
From mathcomp Require Import all_ssreflect all_algebra mxtens.
From Verif Require Import Rstruct Base Linalg Calc Prob Spec M_ItoStrat.

Set Implicit Arguments.
Unset Strict Implicit.
Unset Printing Implicit Defensive.
Import Order.TTheory GRing.Theory Num.Theory.
Local Open Scope ring_scope.

Section Conversion.
Variables (d m : nat).
Implicit Types (f : drift_fn d) (g : diff_fn d m).

Lemma conversions_inverse f g x t :
  (let: (f', g') := to_ito f g in (to_stratonovich f' g').1 x t = f x t /\ (to_stratonovich f' g').2 = g) /\
  (let: (f', g') := to_stratonovich f g in (to_ito f' g').1 x t = f x t /\ (to_ito f' g').2 = g).
Proof. by rewrite /= addrK subrK. Qed.

Lemma drift_correction_columns g t x :
  drift_correction g t x =
  \sum_k jac (field_col (g^~ t) k) x *m field_col (g^~ t) k x.
Proof.
apply/colP=> i; rewrite mxE summxE exchange_big; apply: eq_bigr => k _.
rewrite mxE; apply: eq_bigr => j _; rewrite !mxE mulrC; congr (_ * _).
by apply: pderiv_ext => z; rewrite mxE.
Qed.

Lemma correction_formula f g x t i :
  (to_ito f g).1 x t i 0 = f x t i 0 +
     2%:R^-1 * (\sum_j \sum_k g x t j k * pderiv (fun z => g z t i k) j x) /\
  (to_stratonovich f g).1 x t i 0 = f x t i 0 -
     2%:R^-1 * (\sum_j \sum_k g x t j k * pderiv (fun z => g z t i k) j x).
Proof. by rewrite /= !mxE. Qed.

Lemma correction_columns f g x t :
  (to_ito f g).1 x t = f x t +
     2%:R^-1 *: \sum_k jac (field_col (g^~ t) k) x *m field_col (g^~ t) k x.
Proof. by rewrite /= drift_correction_columns. Qed.

Lemma correction_additive f (G : R -> 'M[R]_(d, m)) x t :
  (to_ito f (fun _ => G)).1 x t = f x t /\ (to_stratonovich f (fun _ => G)).1 x t = f x t.
Proof.
have E : drift_correction (fun _ => G) t x = 0.
  apply/colP=> i; rewrite !mxE big1 // => j _; rewrite big1 // => k _.
  by rewrite /jac3 pderiv_const mulr0.
by rewrite /= E scaler0 addr0 subr0.
Qed.
End Conversion.

(** Scalar SDE. *)
Lemma correction_scalar (f : drift_fn 1) (s s' : R -> R -> R) x t :
  is_derive (fun z => s z t) x (s' x t) ->
  (to_ito f (fun z t => (s (z 0 0) t)%:M)).1 x%:M t = f x%:M t + (2%:R^-1 * (s x t * s' x t))%:M.
Proof.
move=> H; apply/colP=> i; rewrite (ord1 i) /= !mxE big_ord1 big_ord1 !mxE /= !mulr1n; congr (_ + _ * (_ * _)).
apply: is_pderiv_unique.
apply: (is_derive_ext (fun e : R => s (x + e)%Re t)).
  by move=> e; rewrite !mxE /= !mulr1n mulr1.
have -> : s' x t = scal 1%Re (s' x t) by rewrite /scal /= /mult /= Rmult_1_l.
apply: (is_derive_comp (fun z => s z t) (fun e => (x + e)%Re) 0%Re).
  by rewrite Rplus_0_r.
by auto_derive => //; ring.
Qed.

(** diag(x): every coordinate a geometric Brownian motion. *)
Lemma correction_diag d (f : drift_fn d) x t :
  (to_ito f (fun z _ => diag_mx z^T)).1 x t = f x t + 2%:R^-1 *: x.
Proof.
congr (_ + _ *: _); apply/colP=> i; rewrite mxE (bigD1 i) //= [X in _ + X]big1 ?addr0; last first.
  move=> j ji; rewrite (bigD1 j) //= big1 ?addr0; last first.
    by move=> k kj; rewrite !mxE eq_sym (negPf kj) mul0r.
  rewrite /jac3 (@pderiv_ext _ _ (fun _ => 0)) ?pderiv_const ?mulr0 //.
  by move=> z; rewrite !mxE eq_sym (negPf ji) mulr0n.
rewrite (bigD1 i) //= [X in _ + X]big1 ?addr0; last first.
  by move=> k ki; rewrite !mxE eq_sym (negPf ki) mulr0n mul0r.
rewrite /jac3 (@pderiv_ext _ _ (fun z => z i 0)); last by move=> z; rewrite !mxE eqxx mulr1n.
by rewrite pderiv_coord eqxx mulr1 !mxE eqxx mulr1n.
Qed.

(** Linear invertible change of coordinates y = P x. *)
Section Coordinates.
Variables (d m : nat) (P : 'M[R]_d) (g : diff_fn d m) (t : R) (y : 'cV[R]_d).
Hypothesis Pu : P \in unitmx.
Definition moved : diff_fn d m := fun y t => P *m g (invmx P *m y) t.
Hypothesis Hd : forall i k, dir_diff (fun z => g z t i k) (invmx P *m y).

Lemma pderiv_moved i k j :
  pderiv (fun z => moved z t i k) j y =
  \sum_a P i a * \sum_l invmx P l j * pderiv (fun z => g z t a k) l (invmx P *m y).
Proof.
apply: is_pderiv_unique.
apply: (is_derive_ext (fun s : R => (\sum_a P i a * g (invmx P *m y + s *: col j (invmx P)) t a k : R))).
  move=> s; rewrite /moved mxE; apply: eq_bigr => a _; congr (_ * g _ _ _ _).
  rewrite /vshift mulmxDr -scalemxAr; congr (_ + _ *: _).
  apply/colP=> l; rewrite !mxE (bigD1 j) //= big1 ?addr0 ?mxE ?eqxx ?mulr1 //.
  by move=> b bj; rewrite !mxE (negPf bj) mulr0.
apply: is_derive_sum => a; apply: is_derive_scal.
have := Hd a k (col j (invmx P)); congr is_derive.
by apply: eq_bigr => l _; rewrite mxE.
Qed.

Lemma correction_moved :
  drift_correction moved t y = P *m drift_correction g t (invmx P *m y).
Proof.
apply/colP=> i; rewrite [LHS]mxE [RHS]mxE.
under eq_bigr => j _ do under eq_bigr => k _ do rewrite /jac3 pderiv_moved.
under [RHS]eq_bigr => a _ do rewrite mxE.
set x := invmx P *m y.
transitivity (\sum_k \sum_a \sum_l (\sum_j moved y t j k * invmx P l j) * (P i a * pderiv (fun z => g z t a k) l x)).
  rewrite exchange_big; apply: eq_bigr => k _; rewrite /=.
  under eq_bigr => j _ do rewrite mulr_sumr.
  rewrite exchange_big; apply: eq_bigr => a _; rewrite /=.
  under eq_bigr => j _ do rewrite mulr_sumr mulr_sumr.
  rewrite exchange_big; apply: eq_bigr => l _; rewrite /= mulr_suml.
  by apply: eq_bigr => j _; rring.
have E k l : \sum_j moved y t j k * invmx P l j = g x t l k.
  have -> : \sum_j moved y t j k * invmx P l j = (invmx P *m moved y t) l k.
    by rewrite mxE; apply: eq_bigr => j _; rewrite mulrC.
  by rewrite /moved mulmxA mulVmx // mul1mx.
under eq_bigr => k _ do under eq_bigr => a _ do under eq_bigr => l _ do rewrite E.
rewrite exchange_big; apply: eq_bigr => a _; rewrite /= mulr_sumr exchange_big /=.
apply: eq_bigr => l _; rewrite mulr_sumr; apply: eq_bigr => k _; rewrite /jac3; rring.
Qed.
End Coordinates.

Lemma correction_coordinates d m (P : 'M[R]_d) (f : drift_fn d) (g : diff_fn d m) t x :
  P \in unitmx -> (forall i k, dir_diff (fun z => g z t i k) x) ->
  (to_ito (fun y t => P *m f (invmx P *m y) t) (fun y t => P *m g (invmx P *m y) t)).1 (P *m x) t =
  P *m (to_ito f g).1 x t.
Proof.
move=> Pu H; rewrite /= -/(moved P g) correction_moved // mulmxA mulVmx // mul1mx //.
by rewrite mulmxDr -scalemxAr.
Qed.

Lemma dir_diff_diag d (x : 'cV[R]_d) i k : dir_diff (fun z => diag_mx z^T i k) x.
Proof.
move=> v; pose c : R := (i == k)%:R; pose a : R := x i 0; pose b : R := v i 0.
apply: (is_derive_ext (fun s : R => (c * (a + s * b))%Re)).
  by move=> s; rewrite !mxE -mulr_natl /c /a /b; case: eqP => [->|] //; rewrite mul0r Rmult_0_l.
have -> : \sum_j v j 0 * pderiv (fun z => diag_mx z^T i k) j x = (c * b)%Re.
  rewrite (bigD1 i) //= big1 ?addr0; last first.
    move=> j ji; rewrite (@pderiv_ext _ _ (fun z => c * z i 0)).
      by rewrite pderivZ pderiv_coord eq_sym (negPf ji) !mulr0.
    by move=> z; rewrite !mxE -mulr_natl /c; case: eqP => [->|] //; rewrite !mul0r.
  rewrite (@pderiv_ext _ _ (fun z => c * z i 0)).
    by rewrite pderivZ pderiv_coord eqxx mulr1 mulrC.
  by move=> z; rewrite !mxE -mulr_natl /c; case: eqP => [->|] //; rewrite !mul0r.
by auto_derive => //; ring.
Qed.
