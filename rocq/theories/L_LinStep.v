(** Linear equations solved by Euler or EKF0 steps inside the driver. *)
From Coq Require Import Reals Lra FunctionalExtensionality.
From Coquelicot Require Import Coquelicot.
From mathcomp Require Import all_ssreflect all_algebra mxtens.
From Verif Require Import Rstruct Base Linalg Expm Calc Prob Spec Spec3 M_Foster M_ItoStrat M_SdeSolver M_Euler
  L_Foster L_ItoStrat L_SdeSolver L_Euler L_Chain L_Linear M_Prior M_OdeSolvers L_OdeSolvers Lapack M_Ivp L_Ivp L_Prior.

Set Implicit Arguments.
Unset Strict Implicit.
Unset Printing Implicit Defensive.
Import Order.TTheory GRing.Theory Num.Theory.
Local Open Scope ring_scope.

Section Run.
Variables (g : prng) (d m : nat) (A : 'M[R]_d) (S : 'M[R]_(d, m)) (h : R).
Variable int : key g -> 'cV[R]_d -> ('cV[R]_d -> R -> 'cV[R]_d) -> R -> 'cV[R]_d.
Variables (P : 'M[R]_d) (U V : 'M[R]_(d, m)).
Hypotheses (h0 : 0 < h) (lin : forall k z a b,
  int k z (fun z t => A *m z + S *m jacR (fun s => eval_parabola s h a b) t) h = P *m z + (U *m a + V *m b)).
Variables (N : nat) (x0 : 'cV[R]_d).
Let fs := to_stratonovich (fun z _ => A *m z) (fun _ _ => S).
Let run (k : key g) := sde_solver fs.1 fs.2 (get_approx g m) h int k x0 N.
Let x n k := nth x0 (run k).1.2 n.

Lemma step_lin n k : (n < N)%N ->
  let: (a, b) := parabolas m (child (child k N n) 2 0) h in
  x n.+1 k = P *m x n k + (U *m a + V *m b).
Proof.
move=> nN.
have [E1 E2] : nth (0, 0) (run k).2 n = parabolas m (child (child k N n) 2 0) h /\
    x n.+1 k = int (child (child k N n) 2 1) (x n k) (fun z t => fs.1 z (t + n%:R * h) +
      fs.2 z (t + n%:R * h) *m jacR (fun s => eval_parabola s h (nth (0, 0) (run k).2 n).1 (nth (0, 0) (run k).2 n).2) t) h.
  exact: (@interval_ode g d m _ fs.1 fs.2 (get_approx g m) h int k x0 N n (0, 0) nN).
by rewrite E2 E1 lin_field; case: (parabolas m _ h) => a b; rewrite lin.
Qed.

Variables (E F : expectation (key g)).
Hypotheses (split_iid : forall G, F (fun k => G (split k N)) = iid E N G)
  (std : standard2 E (fun k => normal2 (child k 2 0) 2 m)).
Let a (k : key g) := (parabolas m (child k 2 0) h).1.
Let b (k : key g) := (parabolas m (child k 2 0) h).2.
Let mean n := mxpow P n *m x0.
Let cov n := Emx F (fun k => (x n k - mean n) *m (x n k - mean n)^T).
Let C := h *: (U *m U^T) + (h / 2%:R) *: (V *m V^T).

Lemma run_moments : [/\ forall n, (n <= N)%N -> Emx F (x n) = mean n, cov 0%N = 0 &
  forall n, (n < N)%N -> cov n.+1 = P *m cov n *m P^T + C].
Proof.
have [a0 b0 aa ab bb] := ab_moments h0 std; rewrite -/a -/b in a0 b0 aa ab bb.
have ba : Emx E (fun k => b k *m (a k)^T) = 0.
  by rewrite -[LHS]trmxK -EmxT -[RHS]trmx0 -ab; congr (_^T); apply: Emx_ext => k; rewrite trmx_mul trmxK.
pose kick k := U *m a k + V *m b k.
have k0 : Emx E kick = 0 by rewrite EmxD !Emx_mull a0 b0 !mulmx0 addr0.
have k2 : Emx E (fun k => kick k *m (kick k)^T) = C.
  have KE k : kick k *m (kick k)^T = U *m (a k *m (a k)^T) *m U^T + U *m (a k *m (b k)^T) *m V^T +
      (V *m (b k *m (a k)^T) *m U^T + V *m (b k *m (b k)^T) *m V^T).
    rewrite /kick linearD /= !trmx_mul !mulmxDl !mulmxDr !mulmxA.
    by rewrite -!addrA; congr (_ + _); rewrite addrCA.
  rewrite (Emx_ext _ KE) !EmxD !Emx_mulr !Emx_mull aa ab ba bb !mulmx0 !mul0mx addr0 add0r.
  by rewrite !mul_mx_scalar -!scalemxAl.
pose st (z : 'cV[R]_d) (k : key g) := P *m z + kick k.
have xE n k : (n <= N)%N -> x n k = chain N st x0 n k.
  elim: n => [|n IH] nN; first by rewrite chain0 /x /run sde_solverE.
  rewrite chainS // -IH ?(ltnW nN) // /st /kick /a /b -/(child k N n).
  exact: (step_lin k nN).
have [C1 C2 C3] := @chain_moments g E F N split_iid d st x0 P _ kick (fun _ _ => erefl) k0 k2.
have cE n : (n <= N)%N -> cov n = Emx F (fun k => (chain N st x0 n k - mean n) *m (chain N st x0 n k - mean n)^T).
  by move=> nN; apply: Emx_ext => k; rewrite xE.
split=> [n nN||n nN]; first by rewrite /mean -C1 //; apply: Emx_ext => k; rewrite xE.
  by rewrite cE.
by rewrite !cE ?(ltnW nN) // C3.
Qed.
End Run.

(** ** Euler *)
Lemma euler_affine d (A : 'M[R]_d) (u : R -> 'cV[R]_d) h x M (P := 1%:M + h *: A) :
  euler x (fun z t => A *m z + u t) h M =
  mxpow P M *m x + \sum_(0 <= j < M) mxpow P (M - j.+1) *m (h *: u (j%:R * h)).
Proof.
have stE z t : estep (fun z t => A *m z + u t) h z t = P *m z + h *: u t.
  by rewrite /estep scalerDr addrA scalemxAl mulmxDl mul1mx.
rewrite eulerE; elim: M => [|M IH]; first by rewrite big_nil mul1mx addr0.
rewrite [LHS]/= stE IH big_nat_recr //= subnn mul1mx addrA; congr (_ + _).
rewrite mulmxDr mulmxA -mxpowS; congr (_ + _).
rewrite mulmx_sumr; apply: eq_big_nat => j /andP [_ jM].
by rewrite mulmxA -mxpowS subSn.
Qed.

Section EulerStep.
Variables (d m : nat) (A : 'M[R]_d) (S : 'M[R]_(d, m)) (h : R) (M : nat).
Hypotheses (h0 : 0 < h) (M0 : (0 < M)%N).
Let P := 1%:M + (h / M%:R) *: A.
Let w j : R := 1 - 2%:R * (j%:R / M%:R).
Let U := M%:R^-1 *: \sum_(0 <= j < M) mxpow P (M - j.+1) *m S.
Let V := (sqrt 6%:R / M%:R) *: \sum_(0 <= j < M) w j *: (mxpow P (M - j.+1) *m S).

Lemma euler_interval z a b :
  euler z (fun z t => A *m z + S *m jacR (fun s => eval_parabola s h a b) t) (h / M%:R) M =
  mxpow P M *m z + (U *m a + V *m b).
Proof.
have Mn : (M%:R : R) != 0 by rewrite pnatr_eq0 -lt0n.
have hn : h != 0 by rewrite gt_eqF.
rewrite euler_affine -/P; congr (_ + _).
rewrite /U /V -!scalemxAl !mulmx_suml !scaler_sumr -big_split; apply: eq_bigr => j _ /=.
rewrite jacR_eval // -[(w j *: _) *m b]scalemxAl !scalerA -!scalemxAr scalerA mulmxDr mulmxDr !mulmxA scalerDr.
rewrite -!scalemxAr !scalerA; congr (_ *: _ + _ *: _).
  by rewrite mulrAC divff // mul1r.
have -> : h / M%:R / h = M%:R^-1 by rewrite mulrAC divff // mul1r.
rewrite mulrCA mulrA; congr (_ * _); rewrite /w; congr (_ - _ * _).
by rewrite mulrA mulrAC mulfK.
Qed.
End EulerStep.

(** ** EKF0 *)
Lemma mpecS d p (A : 'M[R]_d) (u : nat -> 'M[R]_(d, p)) h X0 k :
  let Y' := A *m ((mpec A u h X0 k).1 + h *: (mpec A u h X0 k).2) + u k.+1 in
  mpec A u h X0 k.+1 = ((mpec A u h X0 k).1 + (h / 2%:R) *: ((mpec A u h X0 k).2 + Y'), Y').
Proof. by rewrite /=; case: (mpec A u h X0 k). Qed.

Lemma pecS d (f : 'cV[R]_d -> R -> 'cV[R]_d) h x0 k :
  let v' := f ((pec f h x0 k).1 + h *: (pec f h x0 k).2) (k.+1%:R * h) in
  pec f h x0 k.+1 = ((pec f h x0 k).1 + (h / 2%:R) *: ((pec f h x0 k).2 + v'), v').
Proof. by rewrite /=; case: (pec f h x0 k). Qed.

Section PecStep.
Variables (d m : nat) (A : 'M[R]_d) (S : 'M[R]_(d, m)) (h : R) (M : nat).
Hypotheses (h0 : 0 < h) (M0 : (0 < M)%N).
Let w j : R := 1 - 2%:R * (j%:R / M%:R).
Let ht := h / M%:R.
Let PP k := mpec A (fun _ => 0) ht 1%:M k.
Let UU k := mpec A (fun _ => h^-1 *: S) ht 0 k.
Let VV k := mpec A (fun j => (sqrt 6%:R / h * w j) *: S) ht 0 k.

Lemma pec_interval z a b k :
  let f z t := A *m z + S *m jacR (fun s => eval_parabola s h a b) t in
  pec f ht z k = ((PP k).1 *m z + ((UU k).1 *m a + (VV k).1 *m b), (PP k).2 *m z + ((UU k).2 *m a + (VV k).2 *m b)).
Proof.
move=> f.
have hn : h != 0 by rewrite gt_eqF.
have Mn : (M%:R : R) != 0 by rewrite pnatr_eq0 -lt0n.
have fE y j : f y (j%:R * ht) = A *m y + ((h^-1 *: S) *m a + ((sqrt 6%:R / h * w j) *: S) *m b).
  rewrite /f jacR_eval // -scalemxAr mulmxDr scalerDr -!scalemxAr -!scalemxAl scalerA; congr (_ + (_ + _ *: _)).
  have -> : j%:R * ht / h = j%:R / M%:R by rewrite /ht mulrA mulrAC mulfK.
  by rewrite mulrCA mulrA.
elim: k => [|k IH].
  have e : f z 0 = A *m z + ((h^-1 *: S) *m a + ((sqrt 6%:R / h * w 0) *: S) *m b) by rewrite -fE mul0r.
  rewrite /PP /UU /VV /= e !mulmx0 !add0r !mul0mx !add0r !addr0 mulmx1 mul1mx //.
rewrite pecS IH; cbn [fst snd]; rewrite fE /PP /UU /VV !mpecS -/(PP k) -/(UU k) -/(VV k); cbn [fst snd].
set X := PP k; set Y := UU k; set Z := VV k; rewrite !addr0.
have R0 : A *m (X.1 *m z + (Y.1 *m a + Z.1 *m b) + ht *: (X.2 *m z + (Y.2 *m a + Z.2 *m b))) +
   ((h^-1 *: S) *m a + ((sqrt 6%:R / h * w k.+1) *: S) *m b) =
   A *m (X.1 + ht *: X.2) *m z + ((A *m (Y.1 + ht *: Y.2) + h^-1 *: S) *m a +
   (A *m (Z.1 + ht *: Z.2) + (sqrt 6%:R / h * w k.+1) *: S) *m b).
  rewrite !(mulmxDl, mulmxDr, scalerDr) -!scalemxAl -!scalemxAr !mulmxA -!scalemxAl.
  by apply/matrixP=> i j; rewrite !(addmxE, scalemxE); toR; ring.
rewrite R0; congr (_, _).
rewrite !(mulmxDl, scalerDr, scalerA) -!scalemxAl.
by apply/matrixP=> i j; rewrite !(addmxE, scalemxE); toR; ring.
Qed.
End PecStep.

(** ** Nilpotent drift matrices *)
Section Nilpotent.
Variables (d m : nat) (A : 'M[R]_d) (S : 'M[R]_(d, m)) (h : R) (M : nat).
Hypotheses (h0 : 0 < h) (M0 : (0 < M)%N) (A2 : A *m A = 0).
Let w j : R := 1 - 2%:R * (j%:R / M%:R).
Let ht := h / M%:R.
Let hn : h != 0. Proof. by rewrite gt_eqF. Qed.
Let Mn : (M%:R : R) != 0. Proof. by rewrite pnatr_eq0 -lt0n. Qed.
Let nS k : (k.+1%:R : R) = k%:R + 1. Proof. by rewrite -addn1 natrD. Qed.

Lemma nil_P k : mpec A (fun _ => 0) ht 1%:M k = (1%:M + (k%:R * ht) *: A, A).
Proof.
elim: k => [|k IH]; first by rewrite /= mul0r scale0r addr0 mulmx1 addr0.
rewrite mpecS IH; cbn [fst snd].
have -> : A *m (1%:M + (k%:R * ht) *: A + ht *: A) + 0 = A.
  by rewrite addr0 !mulmxDr mulmx1 -!scalemxAr A2 !scaler0 !addr0.
congr (_, _); rewrite -addrA; congr (_ + _).
by rewrite nS; apply/matrixP=> i j; rewrite !(addmxE, scalemxE); toR; field.
Qed.

Lemma nil_U k : mpec A (fun _ => h^-1 *: S) ht 0 k =
  ((k%:R * ht / h) *: S + ((k%:R * ht) ^+ 2 / (2%:R * h)) *: (A *m S), h^-1 *: S + (k%:R * ht / h) *: (A *m S)).
Proof.
elim: k => [|k IH]; first by rewrite /= !mulmx0 !mul0r expr2 !mul0r !scale0r !addr0 add0r.
rewrite mpecS IH; cbn [fst snd].
rewrite !mulmxDr -!scalemxAr !mulmxDr -!scalemxAr !mulmxA A2 !mul0mx !scaler0 !addr0.
have hz : (h <> 0)%Re by apply/eqP.
congr (_, _); apply/matrixP=> i j; rewrite !(addmxE, scalemxE) !nS ?expr2; move: ((A *m S) i j) (S i j) => u v; toR; field => //.
Qed.

Let s6 := sqrt 6%:R.
Let xk k : R := s6 * (k%:R / M%:R) * (1 - k%:R / M%:R).
Let zk k : R := s6 * h / M%:R ^+ 3 * (M%:R * k%:R ^+ 2 / 2%:R - k%:R ^+ 3 / 3%:R + 5%:R / 6%:R * k%:R - 2%:R^-1).

Lemma nil_V k : mpec A (fun j => (s6 / h * w j) *: S) ht 0 k.+1 =
  (xk k.+1 *: S + zk k.+1 *: (A *m S), (s6 / h * w k.+1) *: S + (xk k.+1 + s6 / M%:R ^+ 2) *: (A *m S)).
Proof.
have hz : (h <> 0)%Re by apply/eqP.
have mz : (M%:R <> 0 :> R) by apply/eqP.
elim: k => [|k IH].
  rewrite mpecS /=; rewrite !mulmx0 !add0r -!scalemxAr.
  congr (_, _); apply/matrixP=> i j; rewrite !(addmxE, scalemxE) /xk /zk /w /ht;
    move: ((A *m S) i j) (S i j) (s6) => u v s; move: hz mz; move: (M%:R : R) => z hz mz; rewrite !exprS !expr0; toR; field => //.
rewrite mpecS IH; cbn [fst snd].
rewrite !mulmxDr -!scalemxAr !mulmxDr -!scalemxAr !mulmxA A2 !mul0mx !scaler0 !addr0.
congr (_, _); apply/matrixP=> i j; rewrite !(addmxE, scalemxE) /xk /zk /w /ht !nS;
    move: ((A *m S) i j) (S i j) (s6) => u v s; move: hz mz; move: (M%:R : R) (k%:R : R) => z q hz mz; rewrite !exprS !expr0; toR; field => //.
Qed.

Definition pec_gap : R := 5%:R / (6%:R * M%:R ^+ 2) - (2%:R * M%:R ^+ 3)^-1.
Let U := S + (h / 2%:R) *: (A *m S).
Let V (c : R) := (s6 * h * (6%:R^-1 + c)) *: (A *m S).

Lemma pec_nil z a b :
  (pec (fun z t => A *m z + S *m jacR (fun s => eval_parabola s h a b) t) ht z M).1 =
  (1%:M + h *: A) *m z + (U *m a + V pec_gap *m b).
Proof.
rewrite (pec_interval A S h0 M0 z a b M); cbn [fst].
have hz : (h <> 0)%Re by apply/eqP.
have mz : (M%:R <> 0 :> R) by apply/eqP.
have Mh : M%:R * (h / M%:R) = h by rewrite mulrC mulfVK.
rewrite -/ht nil_P nil_U; cbn [fst]; rewrite /ht Mh divff // scale1r.
have -> : h ^+ 2 / (2%:R * h) = h / 2%:R by rewrite expr2; toR; field.
congr (_ + (_ + _ *m _)).
rewrite -[X in mpec _ _ _ _ X](prednK M0) nil_V prednK //; cbn [fst].
have -> : xk M = 0 by rewrite /xk divff // subrr mulr0.
rewrite scale0r add0r /V; congr (_ *: _); rewrite /zk /pec_gap.
by move: mz (s6); move: (M%:R : R) => z' mz s; rewrite !exprS !expr0; toR; field.
Qed.

Lemma exact_nil (K : Type) (int : K -> 'cV[R]_d -> ('cV[R]_d -> R -> 'cV[R]_d) -> R -> 'cV[R]_d) k z a b :
  solves_affine int h ->
  int k z (fun z t => A *m z + S *m jacR (fun s => eval_parabola s h a b) t) h =
  (1%:M + h *: A) *m z + (U *m a + V 0 *m b).
Proof.
move=> ex; have hz : (h <> 0)%Re by apply/eqP.
pose y t := z + t *: (A *m z) + (S *m ((t / h) *: a + (s6 * (t / h - t ^+ 2 / h ^+ 2)) *: b) +
   (A *m S) *m ((t ^+ 2 / (2%:R * h)) *: a + (s6 * (t ^+ 2 / (2%:R * h) - t ^+ 3 / (3%:R * h ^+ 2))) *: b)).
rewrite (ex k z A _ y).
- rewrite /y !mulmxDr !mulmxDl mul1mx -!scalemxAr -!scalemxAl !addrA; move: (A *m z) (S *m a) (S *m b) (A *m S *m a) (A *m S *m b) => v1 v2 v3 v4 v5.
  by apply/matrixP=> i j; rewrite !(addmxE, scalemxE); move: (s6) => s; rewrite !exprS !expr0; toR; field.
- exact: slope_cont.
- by rewrite /y !mul0r !expr2 !exprS !mul0r !subr0 !mulr0 !scale0r !addr0 !mulmx0 !addr0.
move=> t.
have -> : A *m y t + S *m jacR (fun s => eval_parabola s h a b) t =
    A *m z + (t / h) *: (A *m S *m a) + (s6 * (t / h - t ^+ 2 / h ^+ 2)) *: (A *m S *m b) +
    (h^-1 *: (S *m a) + (h^-1 * (s6 * (1 - 2%:R * (t / h)))) *: (S *m b)).
  rewrite jacR_eval // /y !mulmxDr -!scalemxAr !mulmxDr -!scalemxAr !mulmxA A2 !mul0mx !scaler0 !addr0.
  by rewrite !addrA scalerDr scalerA !addrA.
move=> i j; pose f s := z i j + s * (A *m z) i j + ((s / h) * (S *m a) i j + (s6 * (s / h - s ^+ 2 / h ^+ 2)) * (S *m b) i j +
   ((s ^+ 2 / (2%:R * h)) * (A *m S *m a) i j + (s6 * (s ^+ 2 / (2%:R * h) - s ^+ 3 / (3%:R * h ^+ 2))) * (A *m S *m b) i j)).
apply: (@is_derive_ext _ _ f) => [s|].
  by rewrite /f /y !mulmxDr -!scalemxAr !(addmxE, scalemxE).
rewrite !(addmxE, scalemxE).
rewrite /f; move: ((S *m a) i j) ((S *m b) i j) ((A *m S *m a) i j) ((A *m S *m b) i j) ((A *m z) i j) (z i j) s6 => u1 u2 u3 u4 u5 u6 s.
apply: (@is_derive_ext _ _ (fun r : R => u6 + r * u5 + ((r / h) * u1 + (s * (r / h - r ^ 2 / h ^ 2)) * u2 +
   ((r ^ 2 / (2 * h)) * u3 + (s * (r ^ 2 / (2 * h) - r ^ 3 / (3 * h ^ 2))) * u4))))%Re => [r|].
  by rewrite !exprS !expr0; toR; field.
by rewrite !exprS !expr0; toR; auto_derive => //; field.
Qed.
End Nilpotent.

(** ** The runs *)
Section EkfRun.
Variables (lp : lapack) (g : prng) (d m : nat) (A : 'M[R]_d) (S : 'M[R]_(d, m)) (h : R) (M : nat) (sp : R) (sq : bool).
Hypotheses (d0 : (0 < d)%N) (h0 : 0 < h) (M0 : (0 < M)%N) (sp0 : sp != 0).
Let ekf_int (_ : key g) (x : res 'cV[R]_d) f T := let h := T / M%:R in
  let! x := x in ekf0 lp (None : option (key g)) x f h M sq (a_prior (ioup 0 sp 1 h d)) None.
Let pec_int (_ : key g) (x : 'cV[R]_d) f T := (pec f (T / M%:R) x M).1.
Variables (N : nat) (x0 : 'cV[R]_d).
Let fs := to_stratonovich (fun z _ => A *m z) (fun _ _ => S).

Lemma ekf_run_pec n k : (n <= N)%N ->
  nth (Val x0) (sde_solver fs.1 fs.2 (get_approx g m) h ekf_int k (Val x0) N).1.2 n =
  Val (nth x0 (sde_solver fs.1 fs.2 (get_approx g m) h pec_int k x0 N).1.2 n).
Proof.
elim: n => [|n IH] nN; first by rewrite !sde_solverE.
set r1 := sde_solver _ _ _ _ ekf_int _ _ _; set r2 := sde_solver _ _ _ _ pec_int _ _ _.
have [E1 E2] : nth (0, 0) r1.2 n = parabolas m (child (child k N n) 2 0) h /\
    nth (Val x0) r1.1.2 n.+1 = ekf_int (child (child k N n) 2 1) (nth (Val x0) r1.1.2 n) (fun z t => fs.1 z (t + n%:R * h) +
      fs.2 z (t + n%:R * h) *m jacR (fun s => eval_parabola s h (nth (0, 0) r1.2 n).1 (nth (0, 0) r1.2 n).2) t) h.
  exact: (@interval_ode g d m _ fs.1 fs.2 (get_approx g m) h ekf_int k (Val x0) N n (0, 0) nN).
have [E3 E4] : nth (0, 0) r2.2 n = parabolas m (child (child k N n) 2 0) h /\
    nth x0 r2.1.2 n.+1 = pec_int (child (child k N n) 2 1) (nth x0 r2.1.2 n) (fun z t => fs.1 z (t + n%:R * h) +
      fs.2 z (t + n%:R * h) *m jacR (fun s => eval_parabola s h (nth (0, 0) r2.2 n).1 (nth (0, 0) r2.2 n).2) t) h.
  exact: (@interval_ode g d m _ fs.1 fs.2 (get_approx g m) h pec_int k x0 N n (0, 0) nN).
rewrite E2 E4 E1 E3 /r1 IH ?(ltnW nN) // -/r2 /ekf_int rbind_val /pec_int.
have hm : 0 < h / M%:R by rewrite divr_gt0 // ltr0n.
by rewrite (@ekf0_pec lp d _ _ _ d0 hm sp0 g).
Qed.
End EkfRun.

Section NilRun.
Variables (g : prng) (d m : nat) (A : 'M[R]_d) (S : 'M[R]_(d, m)) (h : R) (M : nat).
Hypotheses (h0 : 0 < h) (M0 : (0 < M)%N) (A2 : A *m A = 0).
Let pec_int (_ : key g) (x : 'cV[R]_d) f T := (pec f (T / M%:R) x M).1.
Variables (N : nat) (x0 : 'cV[R]_d).
Let fs := to_stratonovich (fun z _ => A *m z) (fun _ _ => S).
Let run int (k : key g) n := nth x0 (sde_solver fs.1 fs.2 (get_approx g m) h int k x0 N).1.2 n.

Lemma nil_path int n k : solves_affine int h -> (n <= N)%N ->
  run pec_int k n - run int k n = (sqrt 6%:R * h * pec_gap M) *:
    (A *m (S *m \sum_(0 <= i < n) (parabolas m (child (child k N i) 2 0) h).2)).
Proof.
move=> ex; elim: n => [|n IH] nN.
  by rewrite big_nil !mulmx0 scaler0 /run !sde_solverE /= subrr.
pose ab := parabolas m (child (child k N n) 2 0) h.
have s1 : run pec_int k n.+1 = (1%:M + h *: A) *m run pec_int k n + ((S + (h / 2%:R) *: (A *m S)) *m ab.1 +
    ((sqrt 6%:R * h * (6%:R^-1 + pec_gap M)) *: (A *m S)) *m ab.2).
  exact: (@step_lin g d m A S h pec_int _ _ _ (fun _ => pec_nil S h0 M0 A2) N x0 n k nN).
have s2 : run int k n.+1 = (1%:M + h *: A) *m run int k n + ((S + (h / 2%:R) *: (A *m S)) *m ab.1 +
    ((sqrt 6%:R * h * (6%:R^-1 + 0)) *: (A *m S)) *m ab.2).
  exact: (@step_lin g d m A S h int _ _ _ (fun kk z a b => exact_nil S h0 A2 kk z a b ex) N x0 n k nN).
rewrite big_nat_recr //= -/ab s1 s2 !mulmxDr scalerDr -IH ?(ltnW nN) //.
have -> : run pec_int k n - run int k n = (1%:M + h *: A) *m (run pec_int k n - run int k n).
  by rewrite IH ?(ltnW nN) // mulmxDl mul1mx -!scalemxAl -!scalemxAr !mulmxA A2 !mul0mx !scaler0 addr0.
rewrite mulmxDr mulmxN -!scalemxAl !mulmxA; move: (_ *m run pec_int k n) (_ *m run int k n) (_ *m ab.1) (_ *m ab.2) => v1 v2 v3 v4.
apply/matrixP=> i j; rewrite !(addmxE, oppmxE, scalemxE); move: (sqrt _) (pec_gap M) (v1 i j) (v2 i j) (v3 i j) (v4 i j) => s c w1 w2 w3 w4.
by toR; field.
Qed.

Variables (E F : expectation (key g)).
Hypotheses (split_iid : forall G, F (fun k => G (split k N)) = iid E N G)
  (std : standard2 E (fun k => normal2 (child k 2 0) 2 m)).
Let x n k := run pec_int k n.
Let mean n := expm ((n%:R * h) *: A) *m x0.
Let cov n := Emx F (fun k => (x n k - mean n) *m (x n k - mean n)^T).

Lemma nil_law n (c := pec_gap M) : (n <= N)%N -> Emx F (x n) = mean n /\
  cov n = lin_sde_cov A S (n%:R * h) + (n%:R * h ^+ 3 * (c + 3%:R * c ^+ 2)) *: ((A *m S) *m (A *m S)^T).
Proof.
have ex := @affine_solver_exact (key g) d h.
have [M1 C0 CS] := @run_moments g d m A S h pec_int _ _ _ h0 (fun _ => pec_nil S h0 M0 A2) N x0 E F split_iid std.
have [M1' C0' CS'] := @run_moments g d m A S h _ _ _ _ h0 (fun kk z a b => exact_nil S h0 A2 kk z a b ex) N x0 E F split_iid std.
have mE q : (q <= N)%N -> mean q = mxpow (1%:M + h *: A) q *m x0.
  move=> qN; have [H _ _] := @linear_law g d m A S h _ N x0 E F h0 ex split_iid std q qN.
  by rewrite -M1' // -H.
have AAS : A *m (A *m S) = 0 by rewrite mulmxA A2 mul0mx.
have cE q : (q <= N)%N -> lin_sde_cov A S (q%:R * h) = Emx F (fun k => (run (@affine_solver (key g) d) k q - mean q) *m (run (@affine_solver (key g) d) k q - mean q)^T).
  by move=> qN; rewrite (@cov_exact g d m A S h _ h0 ex N x0 E F split_iid std q AAS qN).
move=> nN; split; first by rewrite M1 // mE.
have covE q : (q <= N)%N -> cov q = Emx F (fun k => (run pec_int k q - mxpow (1%:M + h *: A) q *m x0) *m (run pec_int k q - mxpow (1%:M + h *: A) q *m x0)^T).
  by move=> qN; rewrite /cov mE.
elim: n nN => [|n IH] nN.
  rewrite (cE 0%N) // -mulrA mul0r scale0r addr0 /cov /x.
  by apply: Emx_ext => k; rewrite /run !sde_solverE.
have c1 := CS n nN; have c2 := CS' n nN; rewrite -/fs in c1 c2.
rewrite covE // c1 -covE ?(ltnW nN) // IH ?(ltnW nN) // (cE n.+1 nN) (mE n.+1 nN) c2 -(mE n (ltnW nN)) -cE ?(ltnW nN) //.
set B := (A *m S) *m (A *m S)^T; set L := lin_sde_cov _ _ _; set P := 1%:M + h *: A.
have PB : P *m B *m P^T = B.
  have PS : P *m (A *m S) = A *m S by rewrite mulmxDl mul1mx -scalemxAl AAS scaler0 addr0.
  by rewrite /B mulmxA PS -mulmxA -trmx_mul PS.
have VV (u : R) : (u *: (A *m S)) *m (u *: (A *m S))^T = (u * u) *: B.
  have -> : (u *: (A *m S))^T = u *: (A *m S)^T by apply/matrixP=> i j; rewrite !mxE.
  by rewrite -scalemxAl -scalemxAr scalerA.
rewrite !VV mulmxDr mulmxDl -scalemxAr -scalemxAl PB.
move: (P *m L *m P^T) ((S + _) *m _) => X Y; apply/matrixP=> i j; rewrite !(addmxE, scalemxE).
have S6 := sqrt6_sq; move: S6; move: (sqrt _) (B i j) (X i j) (Y i j) => s b u v S6.
have nS : (n.+1%:R : R) = n%:R + 1 by rewrite -addn1 natrD.
rewrite nS -/c; move: (c) (n%:R : R) => cc z; rewrite !exprS !expr0.
have e (q : R) : h / 2%:R * (s * h * (6%:R^-1 + q) * (s * h * (6%:R^-1 + q)) * b) = (s * s) * (h * h * h / 2%:R * ((6%:R^-1 + q) * (6%:R^-1 + q))) * b.
  by toR; field.
rewrite !e S6; toR; field.
Qed.
End NilRun.

(** ** Euler on pure noise; integrated Brownian motion *)
Lemma sumw M : (0 < M)%N -> \sum_(0 <= j < M) (1 - 2%:R * (j%:R / M%:R)) = 1 :> R.
Proof.
move=> M0; have Mn : (M%:R : R) != 0 by rewrite pnatr_eq0 -lt0n.
have H k : \sum_(0 <= j < k) (1 - 2%:R * (j%:R / M%:R)) = k%:R - k%:R * (k%:R - 1) / M%:R :> R.
  elim: k => [|k IH]; first by rewrite big_nil !mul0r subr0.
  rewrite big_nat_recr //= IH -[k.+1]addn1 natrD.
  by move/eqP: Mn; move: (M%:R : R) (k%:R : R) => z q z0; toR; field.
rewrite H; move/eqP: Mn; move: (M%:R : R) => z z0; by toR; field.
Qed.

Lemma mxpow1 d k : mxpow (1%:M : 'M[R]_d) k = 1%:M.
Proof. by elim: k => [|k IH] //; rewrite mxpowS IH mul1mx. Qed.

Lemma ibm_cov t : lin_sde_cov (mx 2 2 [:: [:: 0; 1]; [:: 0; 0]]) (ibm_sigma 0 0) t = ibm_var t.
Proof.
have -> : mx 2 2 [:: [:: 0; 1]; [:: 0; 0]] = ioup_F 0 1.
  by apply/matrixP; apply: ord2P; apply: ord2P; rewrite !mxE /= ?oppr0.
have -> : ibm_sigma 0 0 = last_noise 1 1.
  by apply/matrixP; apply: ord2P => j; rewrite !mxE ?ord1.
rewrite -ioup_Q_cov; apply/matrixP; apply: ord2P; apply: ord2P; rewrite !mxE /= /ibm_sig !expr1n !mul1r ?fact0 ?mulr1 ?factS ?fact0 ?muln1 ?mulr1 ?expr1 ?divr1 //=.
Qed.

Lemma ibm_sq : mx 2 2 [:: [:: 0; 1]; [:: 0; 0]] *m mx 2 2 [:: [:: 0; 1]; [:: 0; 0]] = 0 :> 'M[R]_2.
Proof. by apply/matrixP; apply: ord2P; apply: ord2P; rewrite mulmxE sum2 !mxE /= ?mulr0 ?mul0r addr0. Qed.

Lemma euler_noise (g : prng) d m (S : 'M[R]_(d, m)) (h : R) (M : nat) (N : nat) (x0 : 'cV[R]_d) (E F : expectation (key g)) :
  0 < h -> (0 < M)%N ->
  (forall G, F (fun k => G (split k N)) = iid E N G) -> standard2 E (fun k => normal2 (child k 2 0) 2 m) ->
  let fs := to_stratonovich (fun _ _ => 0) (fun _ _ => S) in
  let x n k := nth x0 (sde_solver fs.1 fs.2 (get_approx g m) h (fun _ z f T => euler z f (T / M%:R) M) k x0 N).1.2 n in
  forall n, (n <= N)%N -> Emx F (x n) = x0 /\
  Emx F (fun k => (x n k - x0) *m (x n k - x0)^T) = (n%:R * h * (1 + 3%:R / M%:R ^+ 2)) *: (S *m S^T).
Proof.
move=> h0 M0 si std; cbv zeta.
have Mn : (M%:R : R) != 0 by rewrite pnatr_eq0 -lt0n.
have -> : (fun (_ : 'cV[R]_d) (_ : R) => (0 : 'cV[R]_d)) = (fun (z : 'cV[R]_d) (_ : R) => 0 *m z).
  by apply: functional_extensionality => z; apply: functional_extensionality => t; rewrite mul0mx.
have st (k : key g) z a b : (fun _ z f T => euler z f (T / M%:R) M) k z (fun z t => 0 *m z + S *m jacR (fun s => eval_parabola s h a b) t) h =
   1%:M *m z + (S *m a + ((sqrt 6%:R / M%:R) *: S) *m b).
  rewrite (euler_interval 0 S h0 M0) scaler0 addr0 mxpow1.
  rewrite (eq_bigr (fun _ => S)) => [|l _]; last by rewrite mxpow1 mul1mx.
  rewrite sumr_const_nat subn0 -scaler_nat scalerA mulVf // scale1r.
  rewrite (eq_bigr (fun l => (1 - 2%:R * (l%:R / M%:R)) *: S)) => [|l _]; last by rewrite mxpow1 mul1mx.
  by rewrite -scaler_suml sumw // scale1r.
have [M1 C0 CS] := @run_moments g d m 0 S h (fun _ z f T => euler z f (T / M%:R) M) 1%:M S ((sqrt 6%:R / M%:R) *: S) h0 st N x0 E F si std.
move=> n nN; split; first by rewrite M1 // mxpow1 mul1mx.
elim: n nN => [|n IH] nN; first by rewrite !mul0r scale0r -[RHS]C0 mxpow1 mul1mx.
have := CS n nN; rewrite !mxpow1 mul1mx => ->; rewrite trmx1 mulmx1 mul1mx IH ?(ltnW nN) //.
have -> : ((sqrt 6%:R / M%:R) *: S)^T = (sqrt 6%:R / M%:R) *: S^T by apply/matrixP=> i j; rewrite !mxE.
rewrite -scalemxAl -scalemxAr !scalerA -!scalerDl; congr (_ *: _).
have r2 : sqrt 6%:R / M%:R * (sqrt 6%:R / M%:R) = 6%:R / M%:R ^+ 2 by rewrite mulrACA sqrt6_sq -invfM expr2.
have -> : (n.+1%:R : R) = n%:R + 1 by rewrite -addn1 natrD.
move: r2; move: (sqrt 6%:R / M%:R) => r r2.
transitivity (n%:R * h * (1 + 3%:R / M%:R ^+ 2) + (h + h / 2%:R * (r * r))).
  by move: (3%:R / M%:R ^+ 2) (n%:R : R) => z q; toR; field.
rewrite r2 expr2.
by move/eqP: Mn; move: (M%:R : R) (n%:R : R) => z q z0; toR; field.
Qed.

Lemma mxpow_addn d (P : 'M[R]_d) a b : mxpow P (a + b) = mxpow P a *m mxpow P b.
Proof. by elim: a => [|a IH]; rewrite ?mul1mx // addSn !mxpowS IH mulmxA. Qed.

Lemma mxpow_muln d (P : 'M[R]_d) M n : mxpow (mxpow P M) n = mxpow P (n * M).
Proof. by elim: n => [|n IH] //; rewrite mxpowS IH mulSn mxpow_addn. Qed.

Section Laws.
Variables (g : prng) (d m : nat) (A : 'M[R]_d) (S : 'M[R]_(d, m)) (h : R) (M N : nat) (x0 : 'cV[R]_d).
Let fs := to_stratonovich (fun z _ => A *m z) (fun _ _ => S).
Let w j : R := 1 - 2%:R * (j%:R / M%:R).
Let ht := h / M%:R.

Section Euler.
Let x n (k : key g) := nth x0 (sde_solver fs.1 fs.2 (get_approx g m) h (fun _ z f T => euler z f (T / M%:R) M) k x0 N).1.2 n.
Let P := 1%:M + ht *: A.
Let mean n := mxpow P (n * M) *m x0.
Let U := M%:R^-1 *: \sum_(0 <= j < M) mxpow P (M - j.+1) *m S.
Let V := (sqrt 6%:R / M%:R) *: \sum_(0 <= j < M) w j *: (mxpow P (M - j.+1) *m S).

Lemma euler_law : 0 < h -> (0 < M)%N ->
  (forall n k, (n < N)%N -> let: (a, b) := parabolas m (child (child k N n) 2 0) h in
     x n.+1 k = mxpow P M *m x n k + (U *m a + V *m b)) /\
  forall E F : expectation (key g), (forall G, F (fun k => G (split k N)) = iid E N G) ->
  standard2 E (fun k => normal2 (child k 2 0) 2 m) ->
  let cov n := Emx F (fun k => (x n k - mean n) *m (x n k - mean n)^T) in
  [/\ forall n, (n <= N)%N -> Emx F (x n) = mean n, cov 0%N = 0 &
      forall n, (n < N)%N -> cov n.+1 = mxpow P M *m cov n *m (mxpow P M)^T +
        (h *: (U *m U^T) + (h / 2%:R) *: (V *m V^T))].
Proof.
move=> h0 M0.
have st (k : key g) z a b : (fun _ z f T => euler z f (T / M%:R) M) k z (fun z t => A *m z + S *m jacR (fun s => eval_parabola s h a b) t) h =
   mxpow P M *m z + (U *m a + V *m b) by exact: (euler_interval A S h0 M0).
split=> [n k nN|E F si std].
  exact: (@step_lin g d m A S h (fun _ z f T => euler z f (T / M%:R) M) _ _ _ st N x0 n k nN).
have := @run_moments g d m A S h (fun _ z f T => euler z f (T / M%:R) M) (mxpow P M) U V h0 st N x0 E F si std.
rewrite -/x -/fs; cbv beta; case=> M1 C0 CS cov.
have mE n : mean n = mxpow (mxpow P M) n *m x0 by rewrite mxpow_muln.
split=> [n nN||n nN]; rewrite /cov ?mE; [exact: M1 | exact: C0 | exact: CS].
Qed.
End Euler.

Section Ekf.
Variables (lp : lapack) (sp : R) (sq : bool).
Let ekf_int (_ : key g) (x : res 'cV[R]_d) f T := let h := T / M%:R in
  let! x := x in ekf0 lp (None : option (key g)) x f h M sq (a_prior (ioup 0 sp 1 h d)) None.
Let traj (k : key g) := (sde_solver fs.1 fs.2 (get_approx g m) h ekf_int k (Val x0) N).1.2.
Let P := (mpec A (fun _ => 0) ht 1%:M M).1.
Let U := (mpec A (fun _ => h^-1 *: S) ht 0 M).1.
Let V := (mpec A (fun j => (sqrt 6%:R / h * w j) *: S) ht 0 M).1.
Let mean n := mxpow P n *m x0.

Lemma ekf_law : (0 < d)%N -> 0 < h -> (0 < M)%N -> sp != 0 ->
  exists x : nat -> key g -> 'cV[R]_d,
  [/\ forall n k, (n <= N)%N -> nth (Val x0) (traj k) n = Val (x n k),
      forall n k, (n < N)%N -> let: (a, b) := parabolas m (child (child k N n) 2 0) h in
        x n.+1 k = P *m x n k + (U *m a + V *m b) &
  forall E F : expectation (key g), (forall G, F (fun k => G (split k N)) = iid E N G) ->
  standard2 E (fun k => normal2 (child k 2 0) 2 m) ->
  let cov n := Emx F (fun k => (x n k - mean n) *m (x n k - mean n)^T) in
  [/\ forall n, (n <= N)%N -> Emx F (x n) = mean n, cov 0%N = 0 &
      forall n, (n < N)%N -> cov n.+1 = P *m cov n *m P^T + (h *: (U *m U^T) + (h / 2%:R) *: (V *m V^T))]].
Proof.
move=> d0 h0 M0 sp0.
pose pint (_ : key g) (z : 'cV[R]_d) (f : 'cV[R]_d -> R -> 'cV[R]_d) (T : R) := (pec f (T / M%:R) z M).1.
have st (k : key g) z a b : pint k z (fun z t => A *m z + S *m jacR (fun s => eval_parabola s h a b) t) h =
   P *m z + (U *m a + V *m b) by rewrite /pint (pec_interval A S h0 M0 z a b M).
exists (fun n k => nth x0 (sde_solver fs.1 fs.2 (get_approx g m) h pint k x0 N).1.2 n); split=> [n k nN|n k nN|E F si std].
- exact: ekf_run_pec.
- exact: (@step_lin g d m A S h pint _ _ _ st N x0 n k nN).
exact: (@run_moments g d m A S h pint P U V h0 st N x0 E F si std).
Qed.

Lemma ekf_nilpotent : (0 < d)%N -> 0 < h -> (0 < M)%N -> sp != 0 -> A *m A = 0 ->
  let c : R := 5%:R / (6%:R * M%:R ^+ 2) - (2%:R * M%:R ^+ 3)^-1 in
  let mean n := expm ((n%:R * h) *: A) *m x0 in
  exists x : nat -> key g -> 'cV[R]_d,
  [/\ forall n k, (n <= N)%N -> nth (Val x0) (traj k) n = Val (x n k),
      forall int n k, solves_affine int h -> (n <= N)%N ->
        x n k - nth x0 (sde_solver fs.1 fs.2 (get_approx g m) h int k x0 N).1.2 n = (sqrt 6%:R * h * c) *:
        (A *m (S *m \sum_(0 <= i < n) (parabolas m (child (child k N i) 2 0) h).2)) &
  forall E F : expectation (key g), (forall G, F (fun k => G (split k N)) = iid E N G) ->
  standard2 E (fun k => normal2 (child k 2 0) 2 m) ->
  forall n, (n <= N)%N -> Emx F (x n) = mean n /\
    Emx F (fun k => (x n k - mean n) *m (x n k - mean n)^T) =
    lin_sde_cov A S (n%:R * h) + (n%:R * h ^+ 3 * (c + 3%:R * c ^+ 2)) *: ((A *m S) *m (A *m S)^T)].
Proof.
move=> d0 h0 M0 sp0 A2 c mean'.
pose pint (_ : key g) (z : 'cV[R]_d) (f : 'cV[R]_d -> R -> 'cV[R]_d) (T : R) := (pec f (T / M%:R) z M).1.
exists (fun n k => nth x0 (sde_solver fs.1 fs.2 (get_approx g m) h pint k x0 N).1.2 n); split=> [n k nN|int n k ex nN|E F si std n nN].
- exact: ekf_run_pec.
- exact: nil_path.
exact: (@nil_law g d m A S h M h0 M0 A2 N x0 E F si std n nN).
Qed.
End Ekf.
End Laws.

Lemma gap_pos (M : nat) : (0 < M)%N ->
  0 < (5%:R / (6%:R * M%:R ^+ 2) - (2%:R * M%:R ^+ 3)^-1 : R) <= 5%:R / (6%:R * M%:R ^+ 2).
Proof.
move=> M0; have m1 : 1 <= M%:R :> R by rewrite -[1]/(1%:R) ler_nat.
have m0 : 0 < M%:R :> R by rewrite ltr0n.
move: (M%:R : R) m1 m0 => x x1 x0.
have i0 : 0 < (2%:R * x ^+ 3)^-1 by rewrite invr_gt0 mulr_gt0 ?ltr0n ?exprn_gt0.
apply/andP; split; last by rewrite ler_subl_addr ler_addl ltW.
have -> : 5%:R / (6%:R * x ^+ 2) - (2%:R * x ^+ 3)^-1 = (5%:R * x - 3%:R) / (6%:R * x ^+ 3).
  have xn : x <> 0 by move=> e; rewrite e ltxx in x0.
  toR; field; exact: xn.
rewrite divr_gt0 ?mulr_gt0 ?ltr0n ?exprn_gt0 // subr_gt0.
apply: (@lt_le_trans _ _ (5%:R * 1)); first by rewrite mulr1 ltr_nat.
by rewrite ler_wpmul2l ?ler0n.
Qed.

Lemma ekf_ibm (g : prng) (lp : lapack) (sp h : R) (sq : bool) (M N : nat) (x0 : 'cV[R]_2) :
  0 < h -> (0 < M)%N -> sp != 0 ->
  let fs := to_stratonovich ibm_drift ibm_sigma in
  let int (_ : key g) (x : res 'cV[R]_2) f T := let h := T / M%:R in
    let! x := x in ekf0 lp (None : option (key g)) x f h M sq (a_prior (ioup 0 sp 1 h 2)) None in
  let traj (k : key g) := (sde_solver fs.1 fs.2 (get_approx g 1) h int k (Val x0) N).1.2 in
  let c : R := 5%:R / (6%:R * M%:R ^+ 2) - (2%:R * M%:R ^+ 3)^-1 in
  let mean n := \col_i (if i == 0 then x0 0 0 + n%:R * h * x0 1 0 else x0 1 0) in
  0 < c <= 5%:R / (6%:R * M%:R ^+ 2) /\
  exists x : nat -> key g -> 'cV[R]_2,
  (forall n k, (n <= N)%N -> nth (Val x0) (traj k) n = Val (x n k)) /\
  forall E F : expectation (key g), (forall G, F (fun k => G (split k N)) = iid E N G) ->
  standard2 E (fun k => normal2 (child k 2 0) 2 1) ->
  forall n, (n <= N)%N -> Emx F (x n) = mean n /\
    Emx F (fun k => (x n k - mean n) *m (x n k - mean n)^T) =
    ibm_var (n%:R * h) + \matrix_(i, j) (if (i == 0) && (j == 0) then n%:R * h ^+ 3 * (c + 3%:R * c ^+ 2) else 0).
Proof.
move=> h0 M0 sp0 fs int traj c mean; split; first exact: gap_pos.
have [x [X1 _ X3]] := @ekf_nilpotent g 2 1 (mx 2 2 [:: [:: 0; 1]; [:: 0; 0]]) (ibm_sigma 0 0) h M N x0 lp sp sq isT h0 M0 sp0 ibm_sq.
exists x; split; first exact: X1.
move=> E F si std n nN; have := X3 E F si std n nN; rewrite -/c ibm_cov.
have -> : expm ((n%:R * h) *: mx 2 2 [:: [:: 0; 1]; [:: 0; 0]]) *m x0 = mean n.
  rewrite (@expm_nilp _ _ 2); last first.
    by case=> [|[|k]] // _; rewrite !mxpowS mulmxA ibm_sq mul0mx.
  rewrite !big_ord_recl big_ord0 addr0 /= expr0 expr1 !divr1 scale1r mulmx1.
  apply/matrixP=> i j; rewrite ord1; move: i {j}; apply: ord2P; rewrite mulmxE sum2 !mxE /= ?divr1; toR; ring.
have -> : (mx 2 2 [:: [:: 0; 1]; [:: 0; 0]] *m ibm_sigma 0 0) *m (mx 2 2 [:: [:: 0; 1]; [:: 0; 0]] *m ibm_sigma 0 0)^T =
    \matrix_(i, j) (if (i == 0) && (j == 0) then 1 else 0) :> 'M[R]_2.
  apply/matrixP; apply: ord2P; apply: ord2P; rewrite mulmxE big_ord1 trmxE !mulmxE !sum2 !mxE /= /ibm_sig; toR; ring.
case=> -> ->; split=> //; congr (_ + _); apply/matrixP=> i j; rewrite scalemxE !mxE; case: ifP => _; by rewrite ?mulr1 ?mulr0.
Qed.
