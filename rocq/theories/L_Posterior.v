(** Lemmas about the samples drawn by pathwise_sampling_from_posterior.py. *)
From Coq Require Import Reals Lra FunctionalExtensionality IndefiniteDescription.
From mathcomp Require Import all_ssreflect all_algebra mxtens.
From Verif Require Import Rstruct Base Linalg Lapack Calc Prob M_Utils M_Scripts.

Set Implicit Arguments.
Unset Strict Implicit.
Unset Printing Implicit Defensive.
Import Order.TTheory GRing.Theory Num.Theory.
Local Open Scope ring_scope.

(** ** Triangular factors *)
Section Triangular.
Variable p : nat.
Implicit Types L A : 'M[R]_p.

Definition diagonal A := forall i j, i != j -> A i j = 0.

Lemma lower_unit L : lower_tri L -> (forall i, 0 < L i i) -> L \in unitmx.
Proof.
by move=> lL dL; rewrite unitmxE det_lower // unitfE gt_eqF // prodr_gt0.
Qed.

(** A lower triangular matrix that commutes with its transpose is diagonal. *)
Lemma normal_lower L : lower_tri L -> L^T *m L = L *m L^T -> diagonal L.
Proof.
move=> lL E.
have H (n : nat) : forall j : 'I_p, (j < n)%N -> forall i : 'I_p, (j < i)%N -> L i j = 0.
  elim: n => // n IH j; rewrite ltnS leq_eqVlt => /orP [/eqP jn|]; last exact: IH.
  have/matrixP/(_ j j) := E; rewrite !mulmxE.
  rewrite (bigD1 j) //= [RHS](bigD1 j) //= !trmxE [X in _ = _ + X]big1 ?addr0; last first.
    move=> k kj; case: (ltngtP k j) => [lt|gt|/val_inj eq]; last by rewrite eq eqxx in kj.
      by rewrite (IH k) ?mul0r // -jn.
    by rewrite lL ?mul0r.
  move/(canRL (addKr _)); rewrite addNr => S0 i ji.
  have ij : i != j by apply: contraTneq ji => ->; rewrite ltnn.
  have pos k : k != j -> 0 <= L^T j k * L k j by move=> _; rewrite trmxE -expr2 sqr_ge0.
  have := psumr_eq0P pos S0 ij; rewrite trmxE => /eqP.
  by rewrite -expr2 sqrf_eq0 => /eqP.
move=> i j ij; case: (ltngtP i j) => [lt|gt|/val_inj eq]; first exact: lL.
  by apply: (H j.+1).
by rewrite eq eqxx in ij.
Qed.

Lemma diagonal_gram L : diagonal L -> L^T *m L = L *m L^T.
Proof.
move=> dL; have -> // : L^T = L.
by apply/matrixP=> i j; rewrite trmxE; case: (eqVneq i j) => [->//|ij]; rewrite !dL // eq_sym.
Qed.

(** The factor of a diagonal matrix is diagonal. *)
Lemma gram_diagonal L : lower_tri L -> (forall i, 0 < L i i) -> diagonal (L *m L^T) <-> diagonal L.
Proof.
move=> lL pL; split=> [D|dL i j ij]; last first.
  rewrite mulmxE (bigD1 i) //= trmxE [L j i]dL 1?eq_sym // mulr0 add0r big1 // => k ki.
  by rewrite dL 1?eq_sym // mul0r.
have H (n : nat) : forall j : 'I_p, (j < n)%N -> forall i : 'I_p, (j < i)%N -> L i j = 0.
  elim: n => // n IH j; rewrite ltnS leq_eqVlt => /orP [/eqP jn|]; last exact: IH.
  move=> i ji; have ij : i != j by apply: contraTneq ji => ->; rewrite ltnn.
  have := D i j ij; rewrite mulmxE (bigD1 j) //= trmxE big1 ?addr0.
    by move/eqP; rewrite mulf_eq0 [L j j == 0]gt_eqF // orbF => /eqP.
  move=> k kj; rewrite trmxE; case: (ltngtP k j) => [lt|gt|/val_inj eq]; last by rewrite eq eqxx in kj.
    by rewrite (IH k _ j lt) ?mulr0 // -jn.
  by rewrite [L j k]lL ?mulr0.
move=> i j ij; case: (ltngtP i j) => [lt|gt|/val_inj eq]; first exact: lL.
  by apply: (H j.+1).
by rewrite eq eqxx in ij.
Qed.

(** Cholesky factors are unique. *)
Lemma chol_unique L L' : lower_tri L -> lower_tri L' -> (forall i, 0 < L i i) -> (forall i, 0 < L' i i) ->
  L *m L^T = L' *m L'^T -> L = L'.
Proof.
move=> lL lL' pL pL' E.
have H (n : nat) : forall j : 'I_p, (j < n)%N -> forall i, L i j = L' i j.
  elim: n => // n IH j; rewrite ltnS leq_eqVlt => /orP [/eqP jn|]; last exact: IH.
  have tail (M : 'M[R]_p) (i : 'I_p) : lower_tri M ->
    (M *m M^T) i j = M i j * M j j + \sum_(k < p | (k < j)%N) M i k * M j k.
    move=> lM; rewrite mulmxE (bigD1 j) //= trmxE; congr (_ + _).
    rewrite [LHS](bigID (fun k : 'I_p => (k < j)%N)) /= [X in _ + X]big1 ?addr0.
      apply: eq_big => [k|k _]; last by rewrite trmxE.
      by rewrite andb_idl // => kj; apply: contraTneq kj => ->; rewrite ltnn.
    move=> k /andP [kj nlt]; rewrite trmxE [M j k]lM ?mulr0 //.
    by rewrite ltn_neqAle eq_sym kj /= leqNgt.
  have same i : L i j * L j j = L' i j * L' j j.
    have/matrixP/(_ i j) := E; rewrite !tail // => /eqP.
    rewrite (eq_bigr (fun k : 'I_p => L' i k * L' j k)); last by move=> k kj; rewrite !IH // -jn.
    by rewrite (can_eq (addrK _)) => /eqP.
  have dj : L j j = L' j j.
    by have /eqP := same j; rewrite -!expr2 eqr_expn2 ?ltW // => /eqP.
  move=> i; have := same i; rewrite dj => /(mulIf _); apply.
  by rewrite gt_eqF.
by apply/matrixP=> i j; apply: (H j.+1).
Qed.
End Triangular.

(** ** Block diagonal matrices over time *)
Section Blocks.
Variables (n dim : nat).
Implicit Types B C : 'I_n -> 'M[R]_dim.

Lemma bdE B k i l j :
  stacked_var B (mxtens_index (k, i)) (mxtens_index (l, j)) = if k == l then B k i j else 0.
Proof. by rewrite mxE !mxtens_indexK. Qed.

Lemma sum_index (F : 'I_(n * dim) -> R) : \sum_p F p = \sum_k \sum_i F (mxtens_index (k, i)).
Proof.
rewrite (reindex (@mxtens_index n dim)) /=; last first.
  by apply: onW_bij; exists (@mxtens_unindex n dim); [exact: mxtens_indexK | exact: mxtens_unindexK].
by rewrite pair_bigA; apply: eq_bigr => -[k i].
Qed.

Lemma bd_ext (A A' : 'M[R]_(n * dim)) :
  (forall k i l j, A (mxtens_index (k, i)) (mxtens_index (l, j)) = A' (mxtens_index (k, i)) (mxtens_index (l, j))) -> A = A'.
Proof.
move=> H; apply/matrixP=> p q; rewrite -[p]mxtens_unindexK -[q]mxtens_unindexK.
by case: (mxtens_unindex p) => k i; case: (mxtens_unindex q) => l j.
Qed.

Lemma bd_tr B : (stacked_var B)^T = stacked_var (fun k => (B k)^T).
Proof.
by apply: bd_ext => k i l j; rewrite trmxE !bdE eq_sym; case: eqP => [->|//]; rewrite trmxE.
Qed.

Lemma bd_mul B C : stacked_var B *m stacked_var C = stacked_var (fun k => B k *m C k).
Proof.
apply: bd_ext => k i l j; rewrite mulmxE sum_index bdE (bigD1 k) //= [X in _ + X]big1 ?addr0.
  case: eqP => [->|kl]; first by rewrite mulmxE; apply: eq_bigr => a _; rewrite !bdE !eqxx.
  by rewrite big1 // => a _; rewrite [X in _ * X]bdE; case: eqP => // _; rewrite mulr0.
by move=> m mk; rewrite big1 // => a _; rewrite bdE eq_sym (negPf mk) mul0r.
Qed.

Lemma index_lt (k : 'I_n) (i j : 'I_dim) : (mxtens_index (k, i) < mxtens_index (k, j))%N = (i < j)%N.
Proof. by rewrite /= ltn_add2l. Qed.

Lemma bd_lower B : (forall k, lower_tri (B k)) -> lower_tri (stacked_var B).
Proof.
move=> lB p q; rewrite -[p]mxtens_unindexK -[q]mxtens_unindexK.
case: (mxtens_unindex p) => k i; case: (mxtens_unindex q) => l j; rewrite bdE.
by case: eqP => [->|//]; rewrite index_lt; exact: lB.
Qed.

Lemma bd_diag B p : stacked_var B p p = B (mxtens_unindex p).1 (mxtens_unindex p).2 (mxtens_unindex p).2.
Proof.
by rewrite -{1 2}[p]mxtens_unindexK; case: (mxtens_unindex p) => k i; rewrite bdE eqxx.
Qed.

Lemma bd_diagonal B : diagonal (stacked_var B) <-> forall k, diagonal (B k).
Proof.
split=> [D k i j ij|D p q].
  have := D (mxtens_index (k, i)) (mxtens_index (k, j)); rewrite bdE eqxx; apply.
  by rewrite (can_eq (@mxtens_indexK _ _)) xpair_eqE eqxx.
rewrite -[p]mxtens_unindexK -[q]mxtens_unindexK (can_eq (@mxtens_indexK _ _)).
case: (mxtens_unindex p) => k i; case: (mxtens_unindex q) => l j; rewrite bdE xpair_eqE.
by case: eqP => [->|//] /=; exact: D.
Qed.
End Blocks.

(** ** The samples *)
Lemma stacking (n dim : nat) (mu : 'I_n -> 'cV[R]_dim) (V : 'I_n -> 'M[R]_dim) k i l j :
  stacked_mean mu (mxtens_index (k, i)) 0 = mu k i 0 /\
  stacked_var V (mxtens_index (k, i)) (mxtens_index (l, j)) = if k == l then V k i j else 0.
Proof. by rewrite bdE !mxE mxtens_indexK. Qed.

Section Sampling.
Variables (lp : lapack) (g : prng) (n dim : nat).
Variables (mu : 'I_n -> 'cV[R]_dim) (V : 'I_n -> 'M[R]_dim).
Hypothesis Vpd : forall k, pd (V k).

Lemma chol_pick_each : exists L : 'I_n -> 'M[R]_dim,
  forall k, [/\ cholesky lp (V k) = Val (L k), lower_tri (L k), forall i, 0 < L k i i & L k *m (L k)^T = V k].
Proof.
have H k : exists L, [/\ cholesky lp (V k) = Val L, lower_tri L, forall i, 0 < L i i & L *m L^T = V k].
  by have [L [E lL pL LL]] := cholP lp (Vpd k); exists L; rewrite /cholesky E.
by exists (fun k => proj1_sig (constructive_indefinite_description _ (H k))) => k;
  case: (constructive_indefinite_description _ _).
Qed.

Lemma posterior_sampleE : exists L : 'I_n -> 'M[R]_dim,
  (forall k, [/\ cholesky lp (V k) = Val (L k), lower_tri (L k), forall i, 0 < L k i i & L k *m (L k)^T = V k]) /\
  forall key : key g, posterior_sample lp mu V key =
    Val (stacked_mean mu + (stacked_var L)^T *m normal key (n * dim)).
Proof.
have [L HL] := chol_pick_each; exists L; split=> // key.
have lB : lower_tri (stacked_var L) by apply: bd_lower => k; have [] := HL k.
have pB p : 0 < stacked_var L p p by rewrite bd_diag; have [_ _ ->] := HL (mxtens_unindex p).1.
have BB : stacked_var L *m (stacked_var L)^T = stacked_var V.
  rewrite bd_tr bd_mul; apply: bd_ext => k i l j; rewrite !bdE.
  by have [_ _ _ ->] := HL k.
have pV : pd (stacked_var V) by rewrite -BB; apply: pd_gram; apply: lower_unit.
have [L' [E lL' pL' LL']] := cholP lp pV.
rewrite /posterior_sample /upper_cholesky /cholesky E !rbind_val.
by rewrite (@chol_unique _ L' (stacked_var L)) // LL' BB.
Qed.

Lemma posterior_law (Om : Type) (E : expectation Om) (ks : Om -> key g) :
  standard E (fun w => normal (ks w) (n * dim)) ->
  exists (L : 'I_n -> 'M[R]_dim) (X : Om -> 'cV[R]_(n * dim)),
  [/\ forall k, [/\ lower_tri (L k), forall i, 0 < L k i i & L k *m (L k)^T = V k],
      forall w, posterior_sample lp mu V (ks w) = Val (X w),
      Emx E X = stacked_mean mu &
      forall k i l j, Emx E (fun w => (X w - stacked_mean mu) *m (X w - stacked_mean mu)^T)
        (mxtens_index (k, i)) (mxtens_index (l, j)) = if k == l then ((L k)^T *m L k) i j else 0].
Proof.
move=> std; have [L [HL HS]] := posterior_sampleE.
exists L, (fun w => stacked_mean mu + (stacked_var L)^T *m normal (ks w) (n * dim)).
have [M1 M2] := standard_affine (stacked_mean mu) (stacked_var L)^T std; split=> [k|w||k i l j].
- by have [] := HL k.
- exact: HS.
- exact: M1.
by rewrite M2 trmxK bd_tr bd_mul bdE.
Qed.

Lemma posterior_exact (Om : Type) (E : expectation Om) (ks : Om -> key g) (X : Om -> 'cV[R]_(n * dim)) :
  standard E (fun w => normal (ks w) (n * dim)) -> (forall w, posterior_sample lp mu V (ks w) = Val (X w)) ->
  (Emx E (fun w => (X w - stacked_mean mu) *m (X w - stacked_mean mu)^T) = stacked_var V <->
   forall k i j, i != j -> V k i j = 0) /\
  \tr (Emx E (fun w => (X w - stacked_mean mu) *m (X w - stacked_mean mu)^T)) = \tr (stacked_var V) /\
  \det (Emx E (fun w => (X w - stacked_mean mu) *m (X w - stacked_mean mu)^T)) = \det (stacked_var V).
Proof.
move=> std HX; have [L [HL HS]] := posterior_sampleE.
have XE w : X w = stacked_mean mu + (stacked_var L)^T *m normal (ks w) (n * dim).
  by have := HS (ks w); rewrite HX => -[].
have [_ M2] := standard_affine (stacked_mean mu) (stacked_var L)^T std.
have -> : Emx E (fun w => (X w - stacked_mean mu) *m (X w - stacked_mean mu)^T) = (stacked_var L)^T *m stacked_var L.
  by rewrite -[RHS](congr1 (fun A => _ *m A) (trmxK _)) -[RHS]M2; apply: Emx_ext => w; rewrite XE.
have lB : lower_tri (stacked_var L) by apply: bd_lower => k; have [] := HL k.
have pB p : 0 < stacked_var L p p by rewrite bd_diag; have [_ _ ->] := HL (mxtens_unindex p).1.
have BB : stacked_var L *m (stacked_var L)^T = stacked_var V.
  rewrite bd_tr bd_mul; apply: bd_ext => k i l j; rewrite !bdE.
  by have [_ _ _ ->] := HL k.
split; last by rewrite -BB mxtrace_mulC !det_mulmx mulrC.
split=> [EQ k i j ij|D].
  have D : diagonal (stacked_var V).
    by rewrite -BB; apply/gram_diagonal => //; apply: normal_lower => //; rewrite BB.
  by move/bd_diagonal: D => D; apply: D.
rewrite diagonal_gram //; apply/gram_diagonal => //; rewrite BB; apply/bd_diagonal => k i j ij.
exact: D.
Qed.
End Sampling.
