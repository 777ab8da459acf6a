(** Properties C04 and C49 to C57: priors. *)
From Coq Require Import Reals Lra.
From Coquelicot Require Import Coquelicot.
From mathcomp Require Import all_ssreflect all_algebra mxtens.
From Verif Require Import Rstruct Base Linalg Calc Spec M_Filter M_Prior L_Prior.

Set Implicit Arguments.
Unset Strict Implicit.
Unset Printing Implicit Defensive.
Import Order.TTheory GRing.Theory Num.Theory.
Local Open Scope ring_scope.

(** C04 *)
Theorem C04_ioup (lp : lapack) theta sigma q dt d (m : 'cV[R]_(d * q.+1)) P k l :
  let tr d := ioup theta sigma q dt d in
  let p := predict lp (m, P) (tr d).2 (tr d).1.2 (tr d).1.1 false in
  [/\ coord k p.1 = (predict lp (coord k m, coord2 k k P) (tr 1%N).2 (tr 1%N).1.2 (tr 1%N).1.1 false).1,
      coord2 k l p.2 = (tr 1%N).2 *m coord2 k l P *m ((tr 1%N).2)^T + (k == l)%:R *: (tr 1%N).1.2 &
      k != l -> coord2 k l (tr d).1.2 = 0].
Proof. exact: ioup_coord. Qed.
Print Assumptions C04_ioup.

Theorem C04_matern (lp : lapack) K magn len dt mc d (m : 'cV[R]_(d * K.+1)) P k l :
  let tr d := matern K magn len dt d mc in
  let p := predict lp (m, P) (tr d).2 (tr d).1.2 (tr d).1.1 false in
  [/\ coord k p.1 = (predict lp (coord k m, coord2 k k P) (tr 1%N).2 (tr 1%N).1.2 (tr 1%N).1.1 false).1,
      coord2 k l p.2 = (tr 1%N).2 *m coord2 k l P *m ((tr 1%N).2)^T + (k == l)%:R *: (tr 1%N).1.2 &
      k != l -> coord2 k l (tr d).1.2 = 0].
Proof. exact: matern_coord. Qed.
Print Assumptions C04_matern.

(** C49 *)
Theorem C49_ibm_exact sigma q dt d (k l : 'I_d) (i j : 'I_q.+1) :
  let tr := ioup 0 sigma q dt d in
  [/\ tr.1.1 = 0,
      tr.2 (mxtens_index (k, i)) (mxtens_index (l, j)) =
        (k == l)%:R * (if (i <= j)%N then dt ^+ (j - i) / (j - i)`!%:R else 0) &
      tr.1.2 (mxtens_index (k, i)) (mxtens_index (l, j)) =
        (k == l)%:R * lin_sde_cov (companion q (fun _ => 0)) (last_noise q sigma) dt i j].
Proof. exact: ibm_exact. Qed.
Print Assumptions C49_ibm_exact.

(** C50 *)
Theorem C50_split sigma q d (s t : R) :
  consistent (fun t => (ioup 0 sigma q t d).2) (fun t => (ioup 0 sigma q t d).1.2) s t.
Proof. exact: ioup_consistent. Qed.
Print Assumptions C50_split.

(** C51 *)
Theorem C51_cholesky (lp : lapack) sigma q dt d : sigma != 0 -> 0 < dt ->
  let Q := (ioup 0 sigma q dt d).1.2 in
  pd Q /\ exists L, [/\ cholesky lp Q = Val L, lower_tri L & L *m L^T = Q].
Proof. exact: ioup_chol. Qed.
Print Assumptions C51_cholesky.

Example C51_ex : (2%:R : R) != 0 /\ (0 : R) < 3%:R.
Proof. by rewrite pnatr_eq0 ltr0n. Qed.

(** C52: A is exact for every theta ... *)
Theorem C52_A theta sigma q dt d (k l : 'I_d) (i j : 'I_q.+1) :
  (ioup theta sigma q dt d).2 (mxtens_index (k, i)) (mxtens_index (l, j)) =
  (k == l)%:R * expm (dt *: companion q (ou_row q theta)) i j.
Proof. exact: ioup_A. Qed.
Print Assumptions C52_A.

(** ... but Q is not ... *)
Theorem C52_Q_refuted : exists theta sigma q dt d,
  [/\ (0 < d)%N, sigma != 0, 0 < dt & exists (k l : 'I_d) (i j : 'I_q.+1),
     (ioup theta sigma q dt d).1.2 (mxtens_index (k, i)) (mxtens_index (l, j)) <>
     (k == l)%:R * lin_sde_cov (companion q (ou_row q theta)) (last_noise q sigma) dt i j].
Proof. exact: ioup_refuted. Qed.
Print Assumptions C52_Q_refuted.

(** ... it is the transition covariance exactly when theta = 0, ... *)
Theorem C52_Q_iff theta sigma q dt d : (0 < d)%N -> sigma != 0 -> dt != 0 ->
  (forall (k l : 'I_d) (i j : 'I_q.+1),
     (ioup theta sigma q dt d).1.2 (mxtens_index (k, i)) (mxtens_index (l, j)) =
     (k == l)%:R * lin_sde_cov (companion q (ou_row q theta)) (last_noise q sigma) dt i j) <-> theta = 0.
Proof. exact: ioup_Q_iff. Qed.
Print Assumptions C52_Q_iff.

(** ... and steps can be split exactly when theta = 0. *)
Theorem C52_split_iff theta sigma q d (s t : R) : (0 < d)%N -> sigma != 0 -> s != 0 -> t != 0 ->
  consistent (fun t => (ioup theta sigma q t d).2) (fun t => (ioup theta sigma q t d).1.2) s t <-> theta = 0.
Proof. exact: ioup_split_iff. Qed.
Print Assumptions C52_split_iff.

(** C53 *)
Theorem C53_exact magn len dt d (k l : 'I_d) (i j : 'I_2) : len != 0 ->
  let lam := sqrt 3%:R / len in
  let F := companion 1 (fun j => if j == 0%N then - lam ^+ 2 else - (2%:R * lam)) in
  let tr := matern 1 magn len dt d false in
  [/\ tr.1.1 = 0,
      tr.2 (mxtens_index (k, i)) (mxtens_index (l, j)) = (k == l)%:R * expm (dt *: F) i j &
      tr.1.2 (mxtens_index (k, i)) (mxtens_index (l, j)) =
        (k == l)%:R * lin_sde_cov F (last_noise 1 magn) dt i j].
Proof. move=> len0; exact: matern_exact. Qed.
Print Assumptions C53_exact.

Theorem C53_split magn len d (s t : R) : len != 0 ->
  consistent (fun t => (matern 1 magn len t d false).2) (fun t => (matern 1 magn len t d false).1.2) s t.
Proof. move=> len0; exact: matern_consistent. Qed.
Print Assumptions C53_split.

Theorem C53_psd magn len dt d : len != 0 ->
  (0 <= dt -> psd (matern 1 magn len dt d false).1.2) /\
  (0 < dt -> magn != 0 -> pd (matern 1 magn len dt d false).1.2).
Proof. move=> len0; exact: matern_psd. Qed.
Print Assumptions C53_psd.

Example C53_ex : (matern 1 2%:R 1 1 1 false).2 (mxtens_index (0, 0)) (mxtens_index (0, 1)) =
  exp (- sqrt 3%:R).
Proof.
rewrite mxE !mxtens_indexK /= !mxE /= mul1r mulr1 matern_lam1 divr1 mulN1r; reflexivity.
Qed.

(** C54: the characteristic polynomial of the general branch's drift is (z + 1/lam)^(k+1), ... *)
Theorem C54_char k lam : char_poly (matern_F k lam) = ('X + lam^-1%:P) ^+ k.+1.
Proof. exact: matern_F_char. Qed.
Print Assumptions C54_char.

(** ... not (z + lam)^(k+1), ... *)
Theorem C54_char_refuted : exists k lam, 0 < lam /\ char_poly (matern_F k lam) <> ('X + lam%:P) ^+ k.+1.
Proof. exact: matern_refuted. Qed.
Print Assumptions C54_char_refuted.

(** ... except for lam = 1, ... *)
Theorem C54_char_iff k lam : 0 < lam ->
  char_poly (matern_F k lam) = ('X + lam%:P) ^+ k.+1 <-> lam = 1.
Proof. exact: matern_char_iff. Qed.
Print Assumptions C54_char_iff.

(** ... so that for k = 1 the two branches agree only for length = sqrt 3. *)
Theorem C54_branches_iff magn len dt d : (0 < d)%N -> 0 < len -> dt != 0 ->
  (matern 1 magn len dt d true).2 = (matern 1 magn len dt d false).2 <-> len = sqrt 3%:R.
Proof. exact: matern_branches. Qed.
Print Assumptions C54_branches_iff.

Example C54_ex : (matern 1 1 1 1 1 true).2 <> (matern 1 1 1 1 1 false).2.
Proof.
move/(matern_branches _ (ltn0Sn 0) ltr01 (oner_neq0 _)) => E.
have := congr1 (fun x : R => Rmult x x) E; rewrite sqrt_sqrt; last by apply/RleP; rewrite ler0n.
rewrite Rmult_1_r => {}E; have : (3%:R : R) = 1 by rewrite -E.
by move/eqP; rewrite -subr_eq0 -[1]/(1%:R) -natrB // pnatr_eq0.
Qed.

(** C55 *)
Theorem C55_psd n m (F : 'M[R]_n) u (L : 'M[R]_(n, m)) (h : R) nodes : 0 <= h ->
  psd (transition_function F u L h nodes).1.2.
Proof. exact: tf_psd. Qed.
Print Assumptions C55_psd.

Theorem C55_xi n m (F : 'M[R]_n) (L : 'M[R]_(n, m)) (h : R) nodes :
  (transition_function F 0 L h nodes).1.1 = 0.
Proof. exact: tf_xi0. Qed.
Print Assumptions C55_xi.

Theorem C55_exact n m u (L : 'M[R]_(n, m)) (h : R) nodes : (2 <= nodes)%N ->
  transition_function 0 u L h nodes = (h *: u, h *: (L *m L^T), 1%:M).
Proof. exact: tf_exact0. Qed.
Print Assumptions C55_exact.

(** C56 *)
Theorem C56_predict (lp : lapack) ts r b c (m : 'cV[R]_(projT1 r)) P :
  factorized_prior ts = Val r -> (b < size ts)%N -> (c < size ts)%N ->
  let ns := [seq projT1 t | t <- ts] in
  let tb := nth empty_transition ts b in
  let tc := nth empty_transition ts c in
  let p := predict lp (m, P) (projT2 r).2 (projT2 r).1.2 (projT2 r).1.1 false in
  let pb := predict lp (vblock m (offset ns b) (projT1 tb), mblock P (offset ns b) (projT1 tb) (offset ns b) (projT1 tb))
    (projT2 tb).2 (projT2 tb).1.2 (projT2 tb).1.1 false in
  [/\ projT1 r = sumn ns,
      vblock p.1 (offset ns b) (projT1 tb) = pb.1,
      mblock p.2 (offset ns b) (projT1 tb) (offset ns b) (projT1 tb) = pb.2 &
      b != c -> mblock p.2 (offset ns b) (projT1 tb) (offset ns c) (projT1 tc) =
        (projT2 tb).2 *m mblock P (offset ns b) (projT1 tb) (offset ns c) (projT1 tc) *m ((projT2 tc).2)^T].
Proof. exact: fact_predict. Qed.
Print Assumptions C56_predict.

Theorem C56_uncorrelated (lp : lapack) ts r b c (m : 'cV[R]_(projT1 r)) P :
  factorized_prior ts = Val r -> (b < size ts)%N -> (c < size ts)%N -> b != c ->
  let ns := [seq projT1 t | t <- ts] in
  let nb := nth 0%N ns b in let nc := nth 0%N ns c in
  mblock P (offset ns b) nb (offset ns c) nc = 0 ->
  mblock (predict lp (m, P) (projT2 r).2 (projT2 r).1.2 (projT2 r).1.1 false).2
    (offset ns b) nb (offset ns c) nc = 0.
Proof. exact: fact_uncorr. Qed.
Print Assumptions C56_uncorrelated.

Theorem C56_copies n (t : transition n) d :
  factorized_prior (nseq d.+1 (existT transition n t)) =
  Val (existT transition (d.+1 * n)%N
    ((\col_p t.1.1 (mxtens_unindex p).2 0), (1%:M : 'M[R]_d.+1) *t t.1.2, (1%:M : 'M[R]_d.+1) *t t.2)).
Proof. exact: fact_copies'. Qed.
Print Assumptions C56_copies.

Theorem C56_matern K magn len dt mc d :
  factorized_prior (nseq d.+1 (existT transition _ (matern_one K magn len dt mc))) =
  Val (existT transition _ (matern K magn len dt d.+1 mc)).
Proof. exact: fact_matern. Qed.
Print Assumptions C56_matern.

(** It raises on an empty list only. *)
Theorem C56_returns (ts : seq (sigT transition)) :
  (factorized_prior ts = Raise ValueError <-> ts = [::]) /\ (ts <> [::] -> exists r, factorized_prior ts = Val r).
Proof. exact: fact_returns. Qed.
Print Assumptions C56_returns.

(** A block of size 2 and a block of size 3. *)
Example C56_ex : exists r, factorized_prior [:: existT transition _ (ioup 0 1 1 1 1);
  existT transition _ (ioup 0 1 2 1 1)] = Val r /\ projT1 r = 5%N.
Proof. by eexists; split; first reflexivity. Qed.

(** C57 *)
Theorem C57_predict (lp : lapack) n (xi : 'cV[R]_n) Q A q (m : 'cV[R]_q.+1) P : (n <= q)%N ->
  exists xi' Q' A', pad_prior (xi, Q, A) q = Val (xi', Q', A') /\
  let p := predict lp (m, P) A' Q' xi' false in
  let p0 := predict lp (vblock m 0 n, mblock P 0 n 0 n) A Q xi false in
  [/\ vblock p.1 0 n = p0.1, mblock p.2 0 n 0 n = p0.2 &
      forall i j : 'I_q.+1, (n <= i)%N -> [/\ p.1 i 0 = 0, p.2 i j = 0 & p.2 j i = 0]].
Proof. exact: pad_predict. Qed.
Print Assumptions C57_predict.

Theorem C57_rejected n (tr : transition n) q : (q < n)%N -> pad_prior tr q = Raise AssertionError.
Proof. exact: pad_rejected. Qed.
Print Assumptions C57_rejected.

Theorem C57_no_cholesky (lp : lapack) n (xi : 'cV[R]_n) Q A q : (n <= q)%N -> sym Q ->
  exists xi' Q' A', [/\ pad_prior (xi, Q, A) q = Val (xi', Q', A'), sym Q',
    cholesky lp Q' = Nan & forall L, L \in unitmx -> L *m L^T <> Q'].
Proof. exact: pad_nochol. Qed.
Print Assumptions C57_no_cholesky.

Example C57_ex : exists tr', pad_prior (0, 1%:M, 1%:M : 'M[R]_2) 2 = Val tr' /\
  tr'.2 (inord 1) (inord 1) = 1 /\ tr'.2 (inord 2) (inord 2) = 0.
Proof.
eexists; split; first reflexivity.
cbn [snd]; split; last by rewrite pad_mx0l // inordK.
have H : (val (inord 1 : 'I_3) < 2)%N by rewrite /= inordK.
by rewrite mxE (insubT (fun k => (k < 2)%N) H) mxE eqxx.
Qed.
