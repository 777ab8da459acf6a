(** Symmetric, positive (semi-)definite matrices, and contracts for the
    LAPACK routines called by the package. *)
From Coq Require Import Reals Lra ClassicalEpsilon.
From mathcomp Require Import all_ssreflect all_algebra mxtens.
From Verif Require Import Rstruct Base.

Set Implicit Arguments.
Unset Strict Implicit.
Unset Printing Implicit Defensive.
Import Order.TTheory GRing.Theory Num.Theory.
Local Open Scope ring_scope.

(** Quadratic form [x^T A x]. *)
Definition qf n (A : 'M[R]_n) (x : 'cV[R]_n) : R := (x^T *m A *m x) 0 0.
Definition sym n (A : 'M[R]_n) : Prop := A^T = A.
Definition psd n (A : 'M[R]_n) : Prop := sym A /\ forall x, 0 <= qf A x.
Definition pd n (A : 'M[R]_n) : Prop := sym A /\ forall x, x != 0 -> 0 < qf A x.
Definition lower_tri n (A : 'M[R]_n) : Prop :=
  forall i j : 'I_n, (i < j)%N -> A i j = 0.
Definition orthogonal_mx n (Q : 'M[R]_n) : Prop := Q^T *m Q = 1%:M.

(** ** LAPACK contracts.
    [qr_r A] is the full (m x n) R factor of [scipy.linalg.qr(A, mode='r')];
    [chol] is [jnp.linalg.cholesky] ([None]: NaN);
    [sqrtm] is [scipy.linalg.sqrtm] (real part). *)
Record lapack := Lapack {
  qr_r : forall m n, 'M[R]_(m, n) -> 'M[R]_(m, n);
  qr_rP : forall m n (A : 'M[R]_(m, n)),
    exists Q : 'M[R]_m, [/\ orthogonal_mx Q, A = Q *m qr_r A &
      forall (i : 'I_m) (j : 'I_n), (j < i)%N -> qr_r A i j = 0];
  chol : forall n, 'M[R]_n -> option 'M[R]_n;
  cholP : forall n (A : 'M[R]_n), pd A ->
    exists L, [/\ chol A = Some L, lower_tri L, (forall i, 0 < L i i) & L *m L^T = A];
  chol_nan : forall n (A : 'M[R]_n), sym A -> ~ pd A -> chol A = None;
  sqrtm : forall n, 'M[R]_n -> 'M[R]_n;
  sqrtmP : forall n (A : 'M[R]_n), psd A -> psd (sqrtm A) /\ sqrtm A *m sqrtm A = A
}.

(** [scipy.linalg.solve(S, B, assume_a='pos')]: Cholesky solve, which reads the upper
    triangle of [S] only; NaN when that is not positive definite. *)
Definition symup n (S : 'M[R]_n) : 'M[R]_n := \matrix_(i, j) if (i <= j)%N then S i j else S j i.
Definition solve_pos n k (S : 'M[R]_n) (B : 'M[R]_(n, k)) : res 'M[R]_(n, k) :=
  if excluded_middle_informative (pd (symup S)) then Val (invmx (symup S) *m B) else Nan.

(** [scipy.linalg.solve(S, b)]: LU solve; NaN/inf when singular. *)
Definition solve_gen n k (S : 'M[R]_n) (B : 'M[R]_(n, k)) : res 'M[R]_(n, k) :=
  if S \in unitmx then Val (invmx S *m B) else Nan.

(** [scipy.linalg.solve_triangular(L, c, lower=True)]: reads the lower
    triangle only; NaN/inf when a diagonal entry is 0. *)
Definition tril n (A : 'M[R]_n) : 'M[R]_n := \matrix_(i, j) if (j <= i)%N then A i j else 0.
Definition solve_lower n k (L : 'M[R]_n) (c : 'M[R]_(n, k)) : res 'M[R]_(n, k) :=
  if tril L \in unitmx then Val (invmx (tril L) *m c) else Nan.

(** [jnp.linalg.cholesky] as a result. *)
Definition cholesky (lp : lapack) n (A : 'M[R]_n) : res 'M[R]_n :=
  if chol lp A is Some L then Val L else Nan.

(** ** Quadratic forms *)
Section Psd.
Variable n : nat.
Implicit Types (A B P : 'M[R]_n) (x : 'cV[R]_n).

Lemma qfE A x : qf A x = \sum_i \sum_j x i 0 * A i j * x j 0.
Proof.
rewrite /qf mxE exchange_big /=; apply: eq_bigr => j _.
by rewrite !mxE big_distrl /=; apply: eq_bigr => i _; rewrite !mxE.
Qed.

Lemma qfD A B x : qf (A + B) x = qf A x + qf B x.
Proof. by rewrite /qf mulmxDr mulmxDl mxE. Qed.
Lemma qfN A x : qf (- A) x = - qf A x.
Proof. by rewrite /qf mulmxN mulNmx mxE. Qed.
Lemma qfB A B x : qf (A - B) x = qf A x - qf B x.
Proof. by rewrite qfD qfN. Qed.
Lemma qfZ c A x : qf (c *: A) x = c * qf A x.
Proof. by rewrite /qf -scalemxAr -scalemxAl mxE. Qed.
Lemma qf0 x : qf 0 x = 0.
Proof. by rewrite /qf mulmx0 mul0mx mxE. Qed.

Lemma sumsq_ge0 m (y : 'cV[R]_m) : 0 <= (y^T *m y) 0 0.
Proof. by rewrite mxE; apply: sumr_ge0 => i _; rewrite !mxE -expr2 sqr_ge0. Qed.

Lemma sumsq_eq0 m (y : 'cV[R]_m) : (y^T *m y) 0 0 = 0 -> y = 0.
Proof.
rewrite mxE => /eqP; rewrite psumr_eq0; last by move=> i _; rewrite !mxE -expr2 sqr_ge0.
move=> /allP H; apply/colP=> i; have := H i (mem_index_enum i).
by rewrite !mxE /= -expr2 sqrf_eq0 => /eqP.
Qed.

Lemma sym0 : sym (0 : 'M[R]_n). Proof. by rewrite /sym trmx0. Qed.
Lemma symD A B : sym A -> sym B -> sym (A + B).
Proof. by move=> HA HB; rewrite /sym linearD /= HA HB. Qed.
Lemma symZ c A : sym A -> sym (c *: A).
Proof. by move=> HA; rewrite /sym linearZ /= HA. Qed.
Lemma symN A : sym A -> sym (- A).
Proof. by move=> HA; rewrite /sym linearN /= HA. Qed.
Lemma symB A B : sym A -> sym B -> sym (A - B).
Proof. by move=> HA HB; apply: symD => //; apply: symN. Qed.

Lemma psd0 : psd (0 : 'M[R]_n).
Proof. by split=> [|x]; [exact: sym0 | rewrite qf0]. Qed.
Lemma psdD A B : psd A -> psd B -> psd (A + B).
Proof.
move=> [sA pA] [sB pB]; split=> [|x]; first exact: symD.
by rewrite qfD addr_ge0.
Qed.
Lemma psdZ c A : 0 <= c -> psd A -> psd (c *: A).
Proof.
move=> Hc [sA pA]; split=> [|x]; first exact: symZ.
by rewrite qfZ mulr_ge0.
Qed.
Lemma psd_sum (I : Type) (r : seq I) (p : pred I) (F : I -> 'M[R]_n) :
  (forall i, p i -> psd (F i)) -> psd (\sum_(i <- r | p i) F i).
Proof. by move=> H; elim/big_rec: _ => [|i A pi HA]; [exact: psd0 | apply: psdD => //; exact: H]. Qed.

Lemma pd_psd A : pd A -> psd A.
Proof.
move=> [sA pA]; split=> // x; case: (eqVneq x 0) => [->|/pA /ltW //].
by rewrite /qf mulmx0 mxE.
Qed.

Lemma pdD A B : pd A -> psd B -> pd (A + B).
Proof.
move=> [sA pA] [sB pB]; split=> [|x Hx]; first exact: symD.
by rewrite qfD ltr_paddr // pA.
Qed.
Lemma pdZ c A : 0 < c -> pd A -> pd (c *: A).
Proof.
move=> Hc [sA pA]; split=> [|x Hx]; first exact: symZ.
by rewrite qfZ mulr_gt0 // pA.
Qed.

Lemma pd_unit A : pd A -> A \in unitmx.
Proof.
move=> [sA pA]; rewrite -row_free_unit -kermx_eq0.
apply/eqP/row_matrixP => i; rewrite row0.
set v := row i _; have Hv : v *m A = 0 by apply/sub_kermxP; exact: row_sub.
apply/eqP/negPn/negP => v0.
have /pA : v^T != 0 by apply: contra v0 => /eqP E; rewrite -[v]trmxK E trmx0.
by rewrite /qf trmxK Hv mul0mx mxE ltxx.
Qed.

Lemma pd1 : pd (1%:M : 'M[R]_n).
Proof.
split=> [|x Hx]; first by rewrite /sym trmx1.
rewrite /qf mulmx1 lt_neqAle sumsq_ge0 andbT eq_sym.
by apply: contra Hx => /eqP /sumsq_eq0 ->.
Qed.

Lemma psd_pd_unit A : psd A -> A \in unitmx -> (forall x, qf A x = 0 -> A *m x = 0) -> pd A.
Proof.
move=> [sA pA] uA H; split=> // x Hx; rewrite lt_neqAle pA andbT eq_sym.
apply: contra Hx => /eqP /H E.
by rewrite -[x]mul1mx -(mulVmx uA) -mulmxA E mulmx0.
Qed.
End Psd.

Lemma qf_congr n m (B : 'M[R]_(m, n)) (A : 'M[R]_n) (x : 'cV[R]_m) :
  qf (B *m A *m B^T) x = qf A (B^T *m x).
Proof. by rewrite /qf trmx_mul trmxK !mulmxA. Qed.

Lemma sym_congr n m (B : 'M[R]_(m, n)) (A : 'M[R]_n) : sym A -> sym (B *m A *m B^T).
Proof. by move=> sA; rewrite /sym !trmx_mul trmxK sA mulmxA. Qed.

Lemma psd_congr n m (B : 'M[R]_(m, n)) (A : 'M[R]_n) : psd A -> psd (B *m A *m B^T).
Proof. by move=> [sA pA]; split=> [|x]; [exact: sym_congr | rewrite qf_congr]. Qed.

Lemma sym_gram n m (L : 'M[R]_(n, m)) : sym (L *m L^T).
Proof. by rewrite /sym trmx_mul trmxK. Qed.

Lemma qf_gram n m (L : 'M[R]_(n, m)) x : qf (L *m L^T) x = ((L^T *m x)^T *m (L^T *m x)) 0 0.
Proof. by rewrite /qf trmx_mul trmxK !mulmxA. Qed.

Lemma psd_gram n m (L : 'M[R]_(n, m)) : psd (L *m L^T).
Proof. by split=> [|x]; [exact: sym_gram | rewrite qf_gram sumsq_ge0]. Qed.

Lemma pd_gram n (L : 'M[R]_n) : L \in unitmx -> pd (L *m L^T).
Proof.
move=> uL; split=> [|x Hx]; first exact: sym_gram.
rewrite qf_gram lt_neqAle sumsq_ge0 andbT eq_sym; apply: contra Hx => /eqP /sumsq_eq0 E.
have uLT : L^T \in unitmx by rewrite unitmx_tr.
by rewrite -[x]mul1mx -(mulVmx uLT) -mulmxA E mulmx0.
Qed.

Lemma pd_gramP n (L : 'M[R]_n) : pd (L *m L^T) <-> L \in unitmx.
Proof.
split=> [H|]; last exact: pd_gram.
by have := pd_unit H; rewrite unitmx_mul => /andP [].
Qed.

(** Cauchy-Schwarz consequence: a psd matrix kills the null vectors of its form. *)
Lemma qf_lin n (A : 'M[R]_n) (x y : 'cV[R]_n) (c : R) : sym A ->
  qf A (x + c *: y) = qf A x + c * ((y^T *m A *m x) 0 0 *+ 2) + c ^+ 2 * qf A y.
Proof.
move=> sA; rewrite /qf.
have -> : (x + c *: y)^T = x^T + c *: y^T by apply/matrixP=> i j; rewrite !mxE.
rewrite !mulmxDl !mulmxDr -?scalemxAl -?scalemxAr -?scalemxAl.
rewrite !(addmxE, scalemxE).
have -> : (x^T *m A *m y) 0 0 = (y^T *m A *m x) 0 0.
  by rewrite -trmxE !trmx_mul trmxK sA mulmxA.
set u := (x^T *m _ *m x) _ _; set v := (y^T *m A *m x) 0 0; set w := (y^T *m A *m y) _ _.
by rewrite mulr2n mulrDr expr2 !addrA -!mulrA.
Qed.

Lemma psd_null n (A : 'M[R]_n) (x : 'cV[R]_n) : psd A -> qf A x = 0 -> A *m x = 0.
Proof.
move=> [sA pA] H; set z := A *m x.
suff : (z^T *m z) 0 0 = 0 by exact: sumsq_eq0.
have E : (z^T *m A *m x) 0 0 = (z^T *m z) 0 0 by rewrite /z -mulmxA.
set b := (z^T *m z) 0 0; have b0 : 0 <= b by exact: sumsq_ge0.
apply/eqP; rewrite eq_le b0 andbT leNgt; apply/negP => bpos.
set q := qf A z; have q0 : 0 <= q by exact: pA.
have := pA (x + (- (b / (q + 1))) *: z).
rewrite qf_lin // H add0r E -/b -/q.
have q1 : 0 < q + 1 by apply: ltr_paddl; [exact: q0 | exact: ltr01].
suff : - (b / (q + 1)) * (b *+ 2) + (- (b / (q + 1))) ^+ 2 * q < 0.
  by move=> L1 L2; have := lt_le_trans L1 L2; rewrite ltxx.
move: bpos q0 q1 => /RltP Hb /RleP Hq /RltP Hq1; apply/RltP; rewrite mulr2n; toR.
move: Hb Hq Hq1; rewrite ?RplusE ?R0E ?R1E => Hb Hq Hq1.
have -> : (- (b / (q + 1)) * (b + b) + (- (b / (q + 1))) ^ 2 * q =
   - (b ^ 2 / (q + 1) ^ 2 * (q + 2)))%Re by field; lra.
suff : (0 < b ^ 2 / (q + 1) ^ 2 * (q + 2))%Re by lra.
apply: Rmult_lt_0_compat; last lra.
by apply: Rdiv_lt_0_compat; apply: pow_lt.
Qed.

Lemma psd_unit_pd n (A : 'M[R]_n) : psd A -> A \in unitmx -> pd A.
Proof. by move=> pA uA; apply: psd_pd_unit => // x /(psd_null pA). Qed.

Lemma psd_entry n (A : 'M[R]_n) i : psd A -> 0 <= A i i.
Proof.
move=> [_ /(_ (delta_mx i 0))]; rewrite /qf trmx_delta -rowE -colE.
by rewrite !mxE.
Qed.

(** ** Solvers on the inputs they are meant for *)
Lemma symup_id n (S : 'M[R]_n) : sym S -> symup S = S.
Proof. by move=> sS; apply/matrixP=> i j; rewrite mxE; case: ifP => // _; rewrite -{1}sS mxE. Qed.

Lemma solve_posP n k (S : 'M[R]_n) (B : 'M[R]_(n, k)) : pd S -> solve_pos S B = Val (invmx S *m B).
Proof.
move=> pS; rewrite /solve_pos (symup_id pS.1).
by case: excluded_middle_informative.
Qed.

Lemma solve_posN n k (S : 'M[R]_n) (B : 'M[R]_(n, k)) : sym S -> ~ pd S -> solve_pos S B = Nan.
Proof.
move=> sS pS; rewrite /solve_pos (symup_id sS).
by case: excluded_middle_informative.
Qed.

Lemma tril_id n (A : 'M[R]_n) : lower_tri A -> tril A = A.
Proof.
move=> lA; apply/matrixP=> i j; rewrite mxE; case: leqP => // ij.
by rewrite lA.
Qed.

Lemma lower_tril n (A : 'M[R]_n) : lower_tri (tril A).
Proof. by move=> i j ij; rewrite mxE leqNgt ij. Qed.
