(** Proofs about ode_solvers/ekf.py, ekf0.py, ekf1.py, ekf0_2.py and ekf1_2.py. *)
From Coq Require Import Reals Lra FunctionalExtensionality.
From Coquelicot Require Import Coquelicot.
From mathcomp Require Import all_ssreflect all_algebra mxtens.
From Verif Require Import Rstruct Base Linalg Calc Prob Spec Expm M_Utils M_Foster M_SdeSolver M_Euler
  M_Filter M_Prior M_OdeSolvers L_Utils L_Foster L_SdeSolver L_Euler L_Ivp L_Filter L_Prior.

Set Implicit Arguments.
Unset Strict Implicit.
Unset Printing Implicit Defensive.
Import Order.TTheory GRing.Theory Num.Theory.
Local Open Scope ring_scope.

(** ** Arrays of matching shape *)
Lemma as_mx_id m n (M : 'M[R]_(m, n)) : as_mx m n M = M.
Proof. by apply/matrixP=> i j; rewrite mxE !valK. Qed.

Lemma as_transition_id m (tr : transition m) : as_transition m tr = tr.
Proof. by case: tr => [[xi Q] A]; rewrite /as_transition !as_mx_id. Qed.

Lemma get_noise_id d (M : 'M[R]_d) : get_noise d (a_noise M) = Val M.
Proof. by rewrite /get_noise /a_noise !eqxx /= as_mx_id. Qed.

Lemma get_prior_id d n h (tr : transition (d * n.+2)) : get_prior d n h (a_prior tr) = Val tr.
Proof. by rewrite /get_prior /a_prior eqxx as_transition_id. Qed.

(** ** Slices of vectors and matrices *)
Section Slices.
Variables (d n : nat).
Implicit Types (x : 'cV[R]_(d * n)) (P Q : 'M[R]_(d * n)) (i j : 'I_n).
Notation sel := (@selector d n).

Lemma sel_slice i x : sel i *m x = slice i x.
Proof.
apply/colP=> k; rewrite mulmxE mxE (bigD1 (mxtens_index (k, i))) //= mxE eqxx mul1r.
by rewrite big1 ?addr0 // => p /negPf pk; rewrite mxE pk mul0r.
Qed.

Lemma sel_mul c i (x : 'M[R]_(d * n, c)) k r : (sel i *m x) k r = x (mxtens_index (k, i)) r.
Proof.
rewrite mulmxE (bigD1 (mxtens_index (k, i))) //= mxE eqxx mul1r.
by rewrite big1 ?addr0 // => p /negPf pk; rewrite mxE pk mul0r.
Qed.

Lemma mul_selT c i (x : 'M[R]_(c, d * n)) k r : (x *m (sel i)^T) r k = x r (mxtens_index (k, i)).
Proof. by rewrite -[LHS]trmxE trmx_mul trmxK sel_mul trmxE. Qed.

Lemma sel_slice2 i j P : sel i *m P *m (sel j)^T = slice2 i j P.
Proof. by apply/matrixP=> k l; rewrite mul_selT sel_mul mxE. Qed.

Lemma selT_mul c i (y : 'M[R]_(d, c)) k j r : ((sel i)^T *m y) (mxtens_index (k, j)) r = (i == j)%:R * y k r.
Proof.
have E l : sel i l (mxtens_index (k, j)) = ((k == l) && (i == j))%:R.
  by rewrite mxE (can_eq (@mxtens_indexK _ _)) xpair_eqE [j == i]eq_sym.
rewrite mulmxE (bigD1 k) //= trmxE E eqxx /= big1 ?addr0 // => l /negPf lk.
by rewrite trmxE E eq_sym lk mul0r.
Qed.

Lemma sel_full : \sum_(i < n) (sel i)^T *m sel i = 1%:M.
Proof.
apply/matrixP=> p q; case: (mxtens_indexP p) => k i; case: (mxtens_indexP q) => l j.
rewrite summxE (bigD1 i) //= selT_mul eqxx mul1r big1 ?addr0 => [|i' /negPf ii]; last by rewrite selT_mul ii mul0r.
by rewrite idmxE mxE eq_sym.
Qed.

Lemma slice2_ext P Q : (forall i j, slice2 i j P = slice2 i j Q) -> P = Q.
Proof.
move=> E; apply/matrixP=> p q; case: (mxtens_indexP p) => k i; case: (mxtens_indexP q) => l j.
by have /matrixP/(_ k l) := E i j; rewrite !mxE.
Qed.

Lemma slice2D i j P Q : slice2 i j (P + Q) = slice2 i j P + slice2 i j Q.
Proof. by apply/matrixP=> k l; rewrite !mxE. Qed.
Lemma slice2N i j P : slice2 i j (- P) = - slice2 i j P.
Proof. by apply/matrixP=> k l; rewrite !mxE. Qed.
Lemma slice2B i j P Q : slice2 i j (P - Q) = slice2 i j P - slice2 i j Q.
Proof. by rewrite slice2D slice2N. Qed.
Lemma slice20 i j : slice2 i j (0 : 'M[R]_(d * n)) = 0.
Proof. by apply/matrixP=> k l; rewrite !mxE. Qed.
Lemma slice2T i j P : slice2 i j P^T = (slice2 j i P)^T.
Proof. by apply/matrixP=> k l; rewrite !mxE. Qed.

Lemma slice_mul i P x : slice i (P *m x) = \sum_j slice2 i j P *m slice j x.
Proof.
rewrite -sel_slice -[x in LHS]mul1mx -sel_full mulmx_suml !mulmx_sumr; apply: eq_bigr => j _.
by rewrite -sel_slice2 -sel_slice !mulmxA.
Qed.

Lemma slice2_mul i k P Q : slice2 i k (P *m Q) = \sum_j slice2 i j P *m slice2 j k Q.
Proof.
rewrite -sel_slice2 -[Q in LHS]mul1mx -sel_full mulmx_suml !mulmx_sumr mulmx_suml; apply: eq_bigr => j _.
by rewrite -!sel_slice2 !mulmxA.
Qed.

Lemma slice2_kron i j (M : 'M[R]_n) : slice2 i j (kron_eye d M) = (M i j)%:M.
Proof. by apply/matrixP=> k l; rewrite mxE kronE mxE mulr_natl. Qed.
End Slices.

(** ** The two linearisations *)
Section Observation.
Variables (d n : nat) (f : 'cV[R]_d -> R -> 'cV[R]_d).
Implicit Types (m : 'cV[R]_(d * n.+2)) (t : R).
Let i1 : 'I_n.+2 := 1.
Let i0 : 'I_n.+2 := 0.

Lemma obs_residual EKF0 m t :
  dprimal (fun x => @observation_function d EKF0 f n x t) m = slice 1 m - f (slice 0 m) t.
Proof. by case: EKF0. Qed.

Lemma obs_jac0 m t : jacfwd (fun x => @observation_function d true f n x t) m = selector d 1.
Proof.
apply/matrixP=> k p; rewrite mxE /observation_function /= subr0 -sel_slice mulmxE.
rewrite (bigD1 p) //= [delta_mx _ _ _ _]mxE !eqxx mulr1 big1 ?addr0 // => q /negPf qp.
by rewrite [delta_mx _ _ _ _]mxE qp mulr0.
Qed.

Lemma mul_delta (a b : nat) (M : 'M[R]_(a, b)) (j : 'I_b) i : (M *m delta_mx j (0 : 'I_1)) i 0 = M i j.
Proof.
rewrite mulmxE (bigD1 j) //= [delta_mx _ _ _ _]mxE !eqxx mulr1 big1 ?addr0 // => q /negPf qp.
by rewrite [delta_mx _ _ _ _]mxE qp mulr0.
Qed.

Lemma obs_jac1 m t : jacfwd (fun x => @observation_function d false f n x t) m =
  selector d 1 - jac (f^~ t) (slice 0 m) *m selector d 0.
Proof.
apply/matrixP=> k p; rewrite mxE /observation_function /= -!sel_slice mulmxA.
by rewrite submxE !mul_delta submxE.
Qed.
End Observation.

Lemma Derive_affine (a b c x : R) : Derive (fun s : R => (a + b * s - c)%Re) x = b.
Proof. by apply: is_derive_unique; auto_derive => //; ring. Qed.

(** The Jacobian of EKF1 is that of the observed quantity. *)
Lemma jac_obs d n (f : 'cV[R]_d -> R -> 'cV[R]_d) t (m : 'cV[R]_(d * n.+2)) : ex_jac (f^~ t) (slice 0 m) ->
  jac (fun x : 'cV[R]_(d * n.+2) => slice 1 x - f (slice 0 x) t) m =
  selector d 1 - jac (f^~ t) (slice 0 m) *m selector d 0.
Proof.
move=> ef; apply/matrixP=> k p; case: (mxtens_indexP p) => l i.
rewrite [LHS]mxE submxE /pderiv.
have sh (j : 'I_n.+2) s : slice j (vshift m (mxtens_index (l, i)) s) =
    if j == i then vshift (slice j m) l s else slice j m.
  apply/colP=> r; rewrite mxE vshiftE (can_eq (@mxtens_indexK _ _)) xpair_eqE.
  case: (j =P i) => _; last by rewrite andbF mul0r addr0 [RHS]mxE.
  by rewrite andbT vshiftE [slice _ _ _ _]mxE.
have S1 : (selector d (1 : 'I_n.+2)) k (mxtens_index (l, i)) = ((1 == i) && (k == l))%:R.
  by rewrite mxE (can_eq (@mxtens_indexK _ _)) xpair_eqE [l == k]eq_sym [i == _]eq_sym andbC.
have S0 (M : 'M[R]_d) : (M *m selector d (0 : 'I_n.+2)) k (mxtens_index (l, i)) = (0 == i)%:R * M k l.
  rewrite mulmxE (bigD1 l) //= [X in _ + X]big1 ?addr0.
    by rewrite mxE (can_eq (@mxtens_indexK _ _)) xpair_eqE eqxx /= mulrC eq_sym.
  move=> r rl; rewrite mxE (can_eq (@mxtens_indexK _ _)) xpair_eqE eq_sym.
  by rewrite (negPf rl) mulr0.
rewrite S1 S0; case: (i =P 0) sh => [->|/eqP i0] sh.
  rewrite /= mul1r sub0r [jac _ _ _ _]mxE.
  rewrite (@Derive_ext _ (fun s : R => Rminus (slice 1 m k 0) (f (vshift (slice 0 m) l s) t k 0))); last first.
    by move=> s; rewrite !sh /= submxE.
  by rewrite Derive_minus ?Derive_const; [rewrite /Rminus Rplus_0_l | exact: ex_derive_const | exact: ef].
have i0' : (0 == i) = false by rewrite eq_sym (negPf i0).
rewrite i0' mul0r subr0.
rewrite -[RHS](Derive_affine (slice 1 m k 0) _ (f (slice 0 m) t k 0) 0); apply: Derive_ext => s.
rewrite !sh i0' submxE; case: eqP => _ /=; first by rewrite vshiftE.
by rewrite [X in X - _](_ : _ = slice 1 m k 0 + 0 * s) // mul0r addr0.
Qed.

(** ** Noise-free updates along a run *)
Lemma ekf_exact (lp : lapack) nx ny (obs : dual nx -> R -> dual ny) A Q xi sq init ts t m' P' :
  (sq = false -> psd Q /\ psd init.2) ->
  ekf lp obs A Q xi 0 sq init (rcons ts t) = Val (m', P') ->
  exists m P, ekf lp obs A Q xi 0 sq init ts = Val (m, P) /\
    let mp := A *m m + xi in let H := jacfwd (obs^~ t) mp in
    let C := if sq then P' *m P'^T else P' in
    [/\ dprimal (obs^~ t) mp + H *m (m' - mp) = 0, H *m C = 0 & C *m H^T = 0].
Proof.
have plain Q' init' m1 P1 : psd Q' -> psd init'.2 ->
    ekf lp obs A Q' xi 0 false init' (rcons ts t) = Val (m1, P1) ->
    exists m P, ekf lp obs A Q' xi 0 false init' ts = Val (m, P) /\
    let mp := A *m m + xi in let H := jacfwd (obs^~ t) mp in
    [/\ dprimal (obs^~ t) mp + H *m (m1 - mp) = 0, H *m P1 = 0 & P1 *m H^T = 0].
  move=> pQ pI; rewrite ekf_rcons; case E: (ekf _ _ _ _ _ _ _ _ ts) => [[m P]||] //=.
  rewrite /ekf_body /predict; set mp := A *m m + xi; set H := jacfwd _ _; cbn [fst snd].
  have pP : psd (A *m P *m A^T + Q').
    apply: psdD => //; apply: psd_congr.
    by case: init' pI E => m0 P0 pI E; exact: (ekf_psd pI pQ (psd0 ny) E).
  case U: update => [r||] //= [Er]; exists m, P; split=> //.
  have pS : pd (H *m (A *m P *m A^T + Q') *m H^T).
    by have [] := update_val pP (psd0 _) U; rewrite addr0.
  have [m2 [C2 [U2 h1 h2 h3]]] := update_exact lp mp (dprimal (obs^~ t) mp) pP pS.
  move: U; rewrite U2 => -[U]; move: Er; rewrite -U => -[<- <-]; split=> //.
case: sq => [_|H]; last by have [pQ pI] := H erefl; exact: plain.
case: init => m0 L0 E.
have := ekf_sqrt_state lp obs A xi Q 0 m0 L0 (rcons ts t); rewrite E /= mul0mx => E'.
have [m [P [E1 H1]]] := plain _ (m0, L0 *m L0^T) _ _ (psd_gram Q) (psd_gram L0) E'.
have := ekf_sqrt_state lp obs A xi Q 0 m0 L0 ts; rewrite mul0mx E1.
case E2: (ekf _ _ _ _ _ _ _ _ ts) => [[m2 P2]||] //= [mE _]; exists m2, P2.
by rewrite -mE; split.
Qed.

Lemma sum2V (V : zmodType) (F : 'I_2 -> V) : \sum_i F i = F 0 + F 1.
Proof. by rewrite big_ord_recl big_ord1; congr (_ + F _); exact/val_inj. Qed.

(** ** One step with the integrated Brownian prior *)
Section Ibm.
Variables (lp : lapack) (d : nat) (f : 'cV[R]_d -> R -> 'cV[R]_d) (h sigma : R).
Hypotheses (h0 : 0 < h) (s0 : sigma != 0).
Let A := (ioup 0 sigma 1 h d).2.
Let Q := (ioup 0 sigma 1 h d).1.2.

Definition pos_cov (V : 'M[R]_d) : 'M[R]_(d * 2) := (selector d 0)^T *m V *m selector d 0.

Lemma sel_ortho (i j : 'I_2) : selector d i *m (selector d j)^T = (i == j)%:R%:M.
Proof.
apply/matrixP=> k l; rewrite mul_selT !mxE (can_eq (@mxtens_indexK _ _)) xpair_eqE.
by rewrite [l == k]eq_sym [j == i]eq_sym; case: (k == l); case: (i == j).
Qed.

Lemma slice2_pos_cov (i j : 'I_2) V : slice2 i j (pos_cov V) = ((i == 0) && (j == 0))%:R *: V.
Proof.
rewrite -sel_slice2 /pos_cov !mulmxA sel_ortho -(mulmxA _ (selector d 0)) sel_ortho.
rewrite [0 == j]eq_sym; case: (i == 0); case: (j == 0); rewrite /= ?mul0mx ?mulmx0 ?scale0r //.
- by rewrite mul1mx mulmx1 scale1r.
- by rewrite (_ : 0%:M = 0) ?mulmx0 //; apply/matrixP=> a b; rewrite !mxE mul0rn.
- by rewrite (_ : 0%:M = 0) ?mul0mx //; apply/matrixP=> a b; rewrite !mxE mul0rn.
- by rewrite (_ : 0%:M = 0) ?mul0mx //; apply/matrixP=> a b; rewrite !mxE mul0rn.
Qed.

Lemma pos_covP V P : (slice2 0 0 P = V /\ slice2 0 1 P = 0 /\ slice2 1 0 P = 0 /\ slice2 1 1 P = 0) <->
  P = pos_cov V.
Proof.
split=> [[E1 [E2 [E3 E4]]]|->]; last by rewrite !slice2_pos_cov /= scale1r !scale0r.
apply: slice2_ext => i j; rewrite slice2_pos_cov.
by elim/ord2P: i; elim/ord2P: j; rewrite ?E1 ?E2 ?E3 ?E4 /= ?scale1r ?scale0r.
Qed.

Lemma pos_cov_psd V : psd V -> psd (pos_cov V).
Proof. by move=> pV; rewrite /pos_cov -[X in _ *m X]trmxK; exact: psd_congr. Qed.

Lemma ibm_A : [/\ slice2 0 0 A = 1%:M, slice2 0 1 A = h%:M, slice2 1 0 A = 0 & slice2 1 1 A = 1%:M].
Proof.
rewrite /A /= !slice2_kron !ibm_exp /= subnn subn0 !expr0 expr1 divr1; split=> //.
  by rewrite modn_small // divr1.
by apply/matrixP=> i j; rewrite !mxE mul0rn.
Qed.

Lemma ibm_Q : let s2 := sigma ^+ 2 in
  [/\ slice2 0 0 Q = (s2 * h ^+ 3 / 3%:R)%:M, slice2 0 1 Q = (s2 * h ^+ 2 / 2%:R)%:M,
      slice2 1 0 Q = (s2 * h ^+ 2 / 2%:R)%:M & slice2 1 1 Q = (s2 * h)%:M].
Proof.
have q i j : ioup_Q sigma 1 h i j = sigma ^+ 2 * (h ^+ (3 - i - j) / ((3 - i - j)%:R * (1 - i)`!%:R * (1 - j)`!%:R)).
  by rewrite /ioup_Q scalemxE mxE.
rewrite /Q /= !slice2_kron !q; split; congr (_%:M); cbn [nat_of_ord subn] => /=; rewrite !mulr1 ?divr1 ?mulrA //.
Qed.

Lemma ibm_Am m : (slice 0 (A *m m) = slice 0 m + h *: slice 1 m) /\ slice 1 (A *m m) = slice 1 m.
Proof.
have [e1 e2 e3 e4] := ibm_A.
by rewrite !slice_mul !sum2V e1 e2 e3 e4 !mul_scalar_mx !scale1r mul0mx add0r.
Qed.

Lemma ibm_APA V (i j : 'I_2) : slice2 i j (A *m pos_cov V *m A^T) = ((i == 0) && (j == 0))%:R *: V.
Proof.
have [e1 e2 e3 e4] := ibm_A.
rewrite !slice2_mul !sum2V !slice2_mul !sum2V !slice2_pos_cov !slice2T /= !scale0r !mulmx0 !addr0 mul0mx addr0 scale1r.
elim/ord2P: i; elim/ord2P: j; rewrite ?e1 ?e3 /= ?trmx0 ?mulmx0 ?mul0mx ?scale0r //.
by rewrite mul1mx trmx1 mulmx1 scale1r.
Qed.

Let P' V := A *m pos_cov V *m A^T + Q.
Let s2 := sigma ^+ 2.

Lemma ibm_P' V : [/\ slice2 0 0 (P' V) = V + (s2 * h ^+ 3 / 3%:R)%:M, slice2 0 1 (P' V) = (s2 * h ^+ 2 / 2%:R)%:M,
  slice2 1 0 (P' V) = (s2 * h ^+ 2 / 2%:R)%:M & slice2 1 1 (P' V) = (s2 * h)%:M].
Proof.
have [q1 q2 q3 q4] := ibm_Q.
by rewrite !slice2D !ibm_APA q1 q2 q3 q4 /= scale1r !scale0r !add0r.
Qed.

Lemma s2h : 0 < s2 * h.
Proof. by rewrite mulr_gt0 // /s2 exprn_even_gt0. Qed.

Lemma scalar_pd (c : R) : 0 < c -> pd (c%:M : 'M[R]_d).
Proof.
by move=> c0; rewrite -scalemx1; apply: pdZ => //; exact: pd1.
Qed.

Lemma ibm_step m V t : psd V ->
  exists m', ekf_body lp (@observation_function d true f 0) A Q 0 0 false (m, pos_cov V) t =
    Val (m', pos_cov (V + (s2 * h ^+ 3 / 12%:R)%:M)) /\
    let v' := f (slice 0 m + h *: slice 1 m) t in
    slice 1 m' = v' /\ slice 0 m' = slice 0 m + (h / 2%:R) *: (slice 1 m + v').
Proof.
move=> pV; rewrite /ekf_body /predict; cbn [fst snd]; rewrite addr0 obs_jac0 obs_residual -/(P' V).
have [E1 E2] := ibm_Am m; rewrite E1 E2; set v' := f _ _; set c := _ - v'.
have pP : psd (P' V).
  by apply: psdD; [apply: psd_congr; exact: pos_cov_psd | apply: pd_psd; exact: ioup_pd].
have [p1 p2 p3 p4] := ibm_P' V.
have SE : selector d 1 *m P' V *m (selector d 1)^T + 0 = (s2 * h)%:M by rewrite addr0 sel_slice2.
have pS : pd (selector d 1 *m P' V *m (selector d 1)^T + 0) by rewrite SE; apply: scalar_pd; exact: s2h.
rewrite (updateE lp _ _ pP pS) SE /=.
have iS : invmx ((s2 * h)%:M : 'M[R]_d) = ((s2 * h)^-1)%:M by rewrite invmx_scalar.
have h1 : h != 0 by rewrite gt_eqF.
have sh1 : s2 * h != 0 by rewrite gt_eqF // s2h.
eexists; split.
  congr (Val (_, _)); apply/pos_covP.
  have E i j : slice2 i j (P' V - P' V *m (selector d 1)^T *m invmx (s2 * h)%:M *m selector d 1 *m P' V) =
      slice2 i j (P' V) - (s2 * h)^-1 *: (slice2 i 1 (P' V) *m slice2 1 j (P' V)).
    by rewrite iS slice2B -(@sel_slice2 _ _ _ _ (_ *m P' V)) -!sel_slice2 mul_mx_scalar -!scalemxAl -!scalemxAr -!scalemxAl !mulmxA.
  rewrite !E p1 p2 p3 p4 -!scalar_mxM !scale_scalar_mx -addrA; split; last split; last split.
  - congr (V + _); apply/matrixP=> a b; rewrite !mxE; case: (a == b); rewrite ?mulr1n ?mulr0n ?subr0 //.
    by rewrite /s2; move: s0 h1 => /eqP ? /eqP ?; rfield.
  - apply/matrixP=> a b; rewrite !mxE; case: (a == b); rewrite ?mulr1n ?mulr0n ?subr0 //.
    by rewrite /s2; move: s0 h1 => /eqP ? /eqP ?; rfield.
  - apply/matrixP=> a b; rewrite !mxE; case: (a == b); rewrite ?mulr1n ?mulr0n ?subr0 //.
    by rewrite /s2; move: s0 h1 => /eqP ? /eqP ?; rfield.
  - apply/matrixP=> a b; rewrite !mxE; case: (a == b); rewrite ?mulr1n ?mulr0n ?subr0 //.
    by rewrite /s2; move: s0 h1 => /eqP ? /eqP ?; rfield.
have E i : slice i (P' V *m (selector d 1)^T *m invmx (s2 * h)%:M *m c) = (s2 * h)^-1 *: (slice2 i 1 (P' V) *m c).
  by rewrite iS -sel_slice -sel_slice2 mul_mx_scalar -!scalemxAl -scalemxAr !mulmxA.
rewrite !sliceB E1 E2 !E p2 p4 !mul_scalar_mx !scalerA mulVf // scale1r /c; split; first by rewrite opprB addrC subrK.
have -> : (s2 * h)^-1 * (s2 * h ^+ 2 / 2%:R) = h / 2%:R.
  by rewrite /s2; move: s0 h1 => /eqP ? /eqP ?; rfield.
apply/colP=> k; rewrite !(addmxE, oppmxE, scalemxE); rfield.
Qed.
End Ibm.

(** ** Runs with the integrated Brownian prior *)
Section IbmRun.
Variables (lp : lapack) (d : nat) (f : 'cV[R]_d -> R -> 'cV[R]_d) (h sigma : R).
Hypotheses (h0 : 0 < h) (s0 : sigma != 0).
Let A := (ioup 0 sigma 1 h d).2.
Let Q := (ioup 0 sigma 1 h d).1.2.
Let cc := sigma ^+ 2 * h ^+ 3 / 12%:R.

Lemma cc_ge0 : 0 <= cc.
Proof.
have h3 : 0 <= h ^+ 3 by apply: exprn_ge0; exact: ltW.
by rewrite /cc divr_ge0 ?ler0n // mulr_ge0 // exprn_even_ge0.
Qed.

Lemma scalar_psd (n : nat) (c : R) : 0 <= c -> psd (c%:M : 'M[R]_n).
Proof. by move=> c0; rewrite -scalemx1; apply: psdZ => //; apply: pd_psd; exact: pd1. Qed.

Lemma ibm_run m0 V N : psd V -> slice 1 m0 = f (slice 0 m0) 0 ->
  exists m', ekf lp (@observation_function d true f 0) A Q 0 0 false (m0, pos_cov V)
    (mkseq (fun k => k.+1%:R * h) N) = Val (m', pos_cov (V + (N%:R * cc)%:M)) /\
  (slice 0 m', slice 1 m') = pec f h (slice 0 m0) N.
Proof.
move=> pV E0; elim: N => [|N [m1 [E1 E2]]].
  exists m0; rewrite ekf_nil mul0r /= -E0; split=> //; congr (Val (_, pos_cov _)).
  by apply/matrixP=> i j; rewrite !mxE mul0rn addr0.
have -> : mkseq (fun k : nat => k.+1%:R * h) N.+1 = rcons (mkseq (fun k => k.+1%:R * h) N) (N.+1%:R * h).
  by rewrite /mkseq -addn1 iotaD map_cat /= cats1 add0n addn1.
have pV' : psd (V + (N%:R * cc)%:M).
  by apply: psdD => //; apply: scalar_psd; rewrite mulr_ge0 ?ler0n // cc_ge0.
have [m2 [E3 [E4 E5]]] := @ibm_step lp d f h sigma h0 s0 m1 _ (N.+1%:R * h) pV'.
exists m2; rewrite ekf_rcons E1 /= E3 /= -E2 E4 E5; split=> //; congr (Val (_, pos_cov _)).
by rewrite -addrA -raddfD /= -/cc -[in RHS]addn1 natrD mulrDl mul1r.
Qed.

Lemma ibm_solver sq m0 W V N prior noise : get_prior d 0 h prior = Val (ioup 0 sigma 1 h d) ->
  get_noise d noise = Val 0 -> psd V -> slice 1 m0 = f (slice 0 m0) 0 ->
  (if sq then W *m W^T else W) = pos_cov V ->
  exists m' W', [/\ @_solver lp d 0 (m0, W) f h N sq true prior noise = Val (m', W'),
    (if sq then W' *m W'^T else W') = pos_cov (V + (N%:R * cc)%:M) &
    (slice 0 m', slice 1 m') = pec f h (slice 0 m0) N].
Proof.
move=> Ep En pV E0 EW; rewrite /_solver En Ep /=.
case: N => [|N].
  exists m0, W; rewrite /= -E0; split=> //; rewrite EW mul0r; congr (pos_cov _).
  by apply/matrixP=> i j; rewrite !mxE mul0rn addr0.
rewrite linspace_grid1; have [m1 [E1 E2]] := ibm_run N.+1 pV E0.
case: sq EW => EW /=; last by rewrite EW E1; exists m1; eexists; split.
have [_ [LQ [-> _ EQ]]] := @ioup_chol lp sigma 1 h d s0 h0.
have := ekf_sqrt_state lp (@observation_function d true f 0) A 0 LQ 0 m0 W (mkseq (fun k : nat => k.+1%:R * h) N.+1).
rewrite mul0mx EQ EW E1 /=.
case E3: (ekf _ _ _ _ _ _ _ _) => [[m2 W2]||] //= [Em EW2]; exists m2, W2; split=> //.
by rewrite -Em.
Qed.
End IbmRun.

(** ** The wrapper ekf0 with the integrated Brownian prior *)
Lemma slice_init_mean0 d (f : 'cV[R]_d -> R -> 'cV[R]_d) x0 n : slice 0 (init_mean f x0 n.+2) = x0.
Proof. by rewrite slice_interl. Qed.
Lemma slice_init_mean1 d (f : 'cV[R]_d -> R -> 'cV[R]_d) x0 n : slice 1 (init_mean f x0 n.+2) = f x0 0.
Proof. by rewrite slice_interl. Qed.

Lemma scalar0 n : (0%:M : 'M[R]_n) = 0.
Proof. by apply/matrixP=> i j; rewrite !mxE mul0rn. Qed.

Section Ekf0Ibm.
Variables (lp : lapack) (d : nat) (f : 'cV[R]_d -> R -> 'cV[R]_d) (h sigma : R).
Hypotheses (d0 : (0 < d)%N) (h0 : 0 < h) (s0 : sigma != 0).
Notation prior := (a_prior (ioup 0 sigma 1 h d)).

Lemma ekf0_filter x0 N sq : exists m P,
  [/\ @_solver lp d 0 (init_mean f x0 2, 0) f h N sq true prior None = Val (m, P),
      (if sq then P *m P^T else P) = pos_cov (N%:R * (sigma ^+ 2 * h ^+ 3 / 12%:R))%:M,
      (slice 0 m, slice 1 m) = pec f h x0 N &
      forall (g : prng) (k : option (key g)), ekf0 lp k x0 f h N sq prior None = Val (output lp k sq (m, P))].
Proof.
have E1 : slice 1 (init_mean f x0 2) = f (slice 0 (init_mean f x0 2)) 0.
  by rewrite slice_init_mean1 slice_init_mean0.
have EW : (if sq then (0 : 'M[R]_(d * 2)) *m 0^T else 0) = pos_cov (0 : 'M[R]_d).
  by rewrite /pos_cov mulmx0 mul0mx mul0mx; case: sq.
have [m [P [H1 H2 H3]]] := @ibm_solver lp d f h sigma h0 s0 sq (init_mean f x0 2) 0 0 N prior None
   (@get_prior_id d 0 h _) erefl (psd0 _) E1 EW.
exists m, P; split=> //; first by rewrite H2 add0r.
  by rewrite H3 slice_init_mean0.
move=> g k; rewrite /ekf0 /a_prior gtn_eqF // mulKn // H1 //.
Qed.

Lemma ekf0_pec (g : prng) x0 N sq :
  ekf0 lp (None : option (key g)) x0 f h N sq prior None = Val (pec f h x0 N).1.
Proof.
by have [m [P [_ _ H3 H4]]] := ekf0_filter x0 N sq; rewrite H4 /= -H3.
Qed.

Lemma ekf0_cov x0 N sq : exists m P,
  @_solver lp d 0 (init_mean f x0 2, 0) f h N sq true prior None = Val (m, P) /\
  let C := if sq then P *m P^T else P in
  [/\ slice2 0 0 C = (N%:R * (sigma ^+ 2 * h ^+ 3 / 12%:R))%:M, slice2 0 1 C = 0,
      slice2 1 0 C = 0 & slice2 1 1 C = 0].
Proof.
have [m [P [H1 H2 _ _]]] := ekf0_filter x0 N sq; exists m, P; split=> //; rewrite /= H2.
by set V := _%:M; have [-> [-> [-> ->]]] := proj2 (pos_covP V (pos_cov V)) erefl.
Qed.
End Ekf0Ibm.

Lemma pec1 d (f : 'cV[R]_d -> R -> 'cV[R]_d) h x0 : (pec f h x0 1).1 = heun f h x0.
Proof. by rewrite /= mul1r. Qed.

(** ** Samples *)
Section Samples.
Variables (lp : lapack) (d : nat) (g : prng) (E : expectation (key g)).
Let cov n (X : key g -> 'cV[R]_n) (m : 'cV[R]_n) := Emx E (fun k => (X k - m) *m (X k - m)^T).

Lemma sqrtm_gram n (P : 'M[R]_n) : psd P -> sqrtm lp P *m (sqrtm lp P)^T = P.
Proof. by move=> pP; have [[-> _] ->] := sqrtmP lp pP. Qed.

Lemma state_law n sq (m : 'cV[R]_n) P : standard E (fun k => normal k n) -> (sq = false -> psd P) ->
  let X k := m + (if sq then P else sqrtm lp P) *m mvn_std k n in
  Emx E X = m /\ cov X m = if sq then P *m P^T else P.
Proof.
move=> st pP X; have [H1 H2] := standard_affine m (if sq then P else sqrtm lp P) st.
split; first exact: H1.
by rewrite [LHS]H2; case: sq pP {X H1 H2} => // /(_ erefl); exact: sqrtm_gram.
Qed.

Lemma Emx_slice n (i : 'I_n) (X : key g -> 'cV[R]_(d * n)) : Emx E (fun k => slice i (X k)) = slice i (Emx E X).
Proof. by apply/colP=> r; rewrite !mxE; apply: E_ext => k; rewrite mxE. Qed.

Lemma cov_slice n (i : 'I_n) (X : key g -> 'cV[R]_(d * n)) m :
  cov (fun k => slice i (X k)) (slice i m) = slice2 i i (cov X m).
Proof.
rewrite -sel_slice2 /cov -Emx_mull -Emx_mulr; apply: Emx_ext => k.
by rewrite -!sel_slice -mulmxBr trmx_mul !mulmxA.
Qed.

Lemma output_law n sq (m : 'cV[R]_(d * n.+1)) P : standard E (fun k => normal k (d * n.+1)) ->
  (sq = false -> psd P) ->
  let X k := output lp (Some k) sq (m, P) in
  Emx E X = slice 0 m /\ cov X (slice 0 m) = slice2 0 0 (if sq then P *m P^T else P).
Proof.
move=> st pP X; have [H1 H2] := state_law m st pP.
by rewrite /X /output Emx_slice [Emx E _]H1 cov_slice [cov _ _]H2.
Qed.

Lemma output2_law sq (m : 'cV[R]_(d * 2)) P : standard E (fun k => normal k (d * 2)) ->
  (sq = false -> psd P) ->
  let C := if sq then P *m P^T else P in
  let X k := (output2 lp (Some k) sq (m, P)).2.1.1 in
  let X0 k := (output2 lp (Some k) sq (m, P)).1.1.1 in
  [/\ Emx E X = m, cov X m = C, Emx E X0 = slice 0 m & cov X0 (slice 0 m) = slice2 0 0 C] /\
  forall k : option (key g), let: (s, m', C', (_, m'', C'')) := (output2 lp k sq (m, P)) in
    [/\ m'' = m, C'' = C, m' = slice 0 m & C' = slice2 0 0 C].
Proof.
move=> st pP C X X0; have [H1 H2] := state_law m st pP.
split; last by move=> k; rewrite /output2 /= /C; case: (sq); split.
split=> //; first by rewrite [RHS](congr1 (slice 0) (esym H1)) -Emx_slice.
by rewrite cov_slice [cov _ _]H2.
Qed.
End Samples.

(** ** Convergence of order two *)
Ltac nonneg := repeat first [done | exact: ler0n | exact: ler01 | exact: ltW | apply: addr_ge0 |
  apply: divr_ge0 | apply: mulr_ge0 | apply: exprn_ge0].

Lemma pow_le_exp (h L : R) (N : nat) : 0 <= h -> 0 <= L -> (1 + h * L) ^+ N <= exp (L * (N%:R * h)).
Proof.
move=> h0 L0; have -> : L * (N%:R * h) = N%:R * (h * L) by rring.
have hL0 : 0 <= h * L by apply: mulr_ge0.
have p0 : 0 <= 1 + h * L by apply: addr_ge0 => //; exact: ler01.
elim: N => [|n IH]; first by rewrite mul0r exp_0 expr0.
have -> : n.+1%:R * (h * L) = h * L + n%:R * (h * L) by rewrite -addn1 natrD mulrDl mul1r addrC.
have -> : exp (h * L + n%:R * (h * L)) = exp (h * L) * exp (n%:R * (h * L)) by exact: exp_plus.
rewrite exprS; apply: ler_pmul => //; first exact: exprn_ge0.
by apply/RleP; exact: exp_ineq1_le.
Qed.

Section PecConv.
Variables (d : nat) (f : 'cV[R]_d -> R -> 'cV[R]_d) (h L K2 K3 : R) (N : nat).
Variables (y y2 y3 : R -> 'cV[R]_d).
Hypotheses (h0 : 0 <= h) (L0 : 0 < L) (Lf : lipschitz f L) (K20 : 0 <= K2) (K30 : 0 <= K3).
Hypothesis D1 : deriv_on (N%:R * h) y (fun t => f (y t) t).
Hypothesis D2 : deriv_on (N%:R * h) (fun t => f (y t) t) y2.
Hypothesis D3 : deriv_on (N%:R * h) y2 y3.
Hypothesis H2 : forall t : R, 0 <= t -> t <= N%:R * h -> sup_le (y2 t) K2.
Hypothesis H3 : forall t : R, 0 <= t -> t <= N%:R * h -> sup_le (y3 t) K3.
Let y1 t := f (y t) t.
Let T k := k%:R * h.

Lemma trapezoid_error k : (k < N)%N ->
  sup_le (y (T k.+1) - y (T k) - (h / 2%:R) *: (y1 (T k) + y1 (T k.+1))) (h ^+ 3 * K3 * (5%:R / 12%:R)).
Proof.
move=> kN i; have [a0 aN] := grid_in h0 (ltnW kN); have [b0 bN] := grid_in h0 kN.
have E : T k.+1 - T k = h by rewrite /T -addn1 natrD mulrDl mul1r addrC addKr.
have ab : T k <= T k.+1 by rewrite -subr_ge0 E.
have T2 := @taylor2 (fun t => y t i 0) (fun t => y1 t i 0) (fun t => y2 t i 0) (fun t => y3 t i 0)
   (T k) (T k.+1) K3 _ _ _ _ (T k.+1) ab (lexx _).
have T1 := @taylor1 (fun t => y1 t i 0) (fun t => y2 t i 0) (fun t => y3 t i 0)
   (T k) (T k.+1) K3 _ _ _ (T k.+1) ab (lexx _).
have in1 t : T k <= t -> 0 <= t by move=> H; apply: le_trans H.
have in2 t : t <= T k.+1 -> t <= N%:R * h by move=> H; apply: le_trans bN.
have {}T2 : `|y (T k.+1) i 0 - y (T k) i 0 - (T k.+1 - T k) * y1 (T k) i 0 - (T k.+1 - T k) ^+ 2 / 2%:R * y2 (T k) i 0|
    <= K3 * (T k.+1 - T k) ^+ 3 / 6%:R.
  by apply: T2 => t /in1 t1 /in2 t2; [exact: D1 | exact: D2 | exact: D3 | exact: H3].
have {}T1 : `|y1 (T k.+1) i 0 - y1 (T k) i 0 - (T k.+1 - T k) * y2 (T k) i 0| <= K3 * (T k.+1 - T k) ^+ 2 / 2%:R.
  by apply: T1 => t /in1 t1 /in2 t2; [exact: D2 | exact: D3 | exact: H3].
rewrite E in T1 T2; rewrite !(addmxE, oppmxE, scalemxE).
move: T1 T2; move: (y (T k.+1) i 0) (y (T k) i 0) (y1 (T k) i 0) (y1 (T k.+1) i 0) (y2 (T k) i 0) => a b u v w T1 T2.
have -> : a - b - h / 2%:R * (u + v) = (a - b - h * u - h ^+ 2 / 2%:R * w) - (h / 2%:R) * (v - u - h * w) by rfield.
apply: le_trans (ler_norm_sub _ _) _.
have -> : h ^+ 3 * K3 * (5%:R / 12%:R) = K3 * h ^+ 3 / 6%:R + (h / 2%:R) * (K3 * h ^+ 2 / 2%:R) by rfield.
apply: ler_add => //; rewrite normrM ger0_norm; last by rewrite divr_ge0 ?ler0n.
apply: ler_wpmul2l => //; by rewrite divr_ge0 ?ler0n.
Qed.

Let D := h ^+ 3 * (L * K2 / 2%:R + 5%:R / 12%:R * K3).

Lemma pec_error k : (k <= N)%N -> exists e w : R,
  [/\ 0 <= e, 0 <= w, sup_le ((pec f h (y 0) k).1 - y (T k)) e, sup_le ((pec f h (y 0) k).2 - y1 (T k)) w &
      e + h / 2%:R * w <= D * \sum_(0 <= i < k) (1 + h * (2%:R * L)) ^+ i].
Proof.
elim: k => [|k IH] kN.
  by exists 0, 0; rewrite /T /y1 /= !mul0r !subrr big_nil !mulr0 addr0; split=> //; exact: sup_le0.
have [e [w [e0 w0 He Hw Hs]]] := IH (ltnW kN).
have -> : \sum_(0 <= i < k.+1) (1 + h * (2%:R * L)) ^+ i =
    1 + (1 + h * (2%:R * L)) * \sum_(0 <= i < k) (1 + h * (2%:R * L)) ^+ i.
  rewrite big_nat_recl // expr0; congr (_ + _); rewrite big_distrr /=.
  by apply: eq_bigr => i _; rewrite exprS.
set S := \sum_(0 <= i < k) _ in Hs *.
have := He; have := Hw; rewrite /=; case: (pec f h (y 0) k) => x v /=.
move=> {}Hw {}He; set v' := f _ _.
have hh : 0 <= h / 2%:R by rewrite divr_ge0 ?ler0n.
have Hp : sup_le (x + h *: v - y (T k.+1)) (e + h * w + h ^+ 2 * K2 / 2%:R).
  have -> : x + h *: v - y (T k.+1) = (x - y (T k)) + h *: (v - y1 (T k)) - (y (T k.+1) - y (T k) - h *: y1 (T k)).
    by apply/colP=> i; rewrite !(addmxE, oppmxE, scalemxE); rring.
  apply: sup_leB; last exact: (local_error h0 D1 D2 H2 kN).
  by apply: sup_leD => //; apply: sup_leZ.
have Hv : sup_le (v' - y1 (T k.+1)) (L * (e + h * w + h ^+ 2 * K2 / 2%:R)) by exact: Lf.
have Hx : sup_le (x + (h / 2%:R) *: (v + v') - y (T k.+1))
    (e + h / 2%:R * (w + L * (e + h * w + h ^+ 2 * K2 / 2%:R)) + h ^+ 3 * K3 * (5%:R / 12%:R)).
  have -> : x + (h / 2%:R) *: (v + v') - y (T k.+1) =
     (x - y (T k)) + (h / 2%:R) *: ((v - y1 (T k)) + (v' - y1 (T k.+1))) -
     (y (T k.+1) - y (T k) - (h / 2%:R) *: (y1 (T k) + y1 (T k.+1))).
    by apply/colP=> i; rewrite !(addmxE, oppmxE, scalemxE); rring.
  apply: sup_leB; last exact: trapezoid_error.
  by apply: sup_leD => //; apply: sup_leZ => //; exact: sup_leD.
have w'0 : 0 <= L * (e + h * w + h ^+ 2 * K2 / 2%:R).
  apply: mulr_ge0; first exact: ltW.
  by nonneg.
do 2!eexists; split; [| |exact: Hx|exact: Hv|] => //.
  by nonneg.
have E2 : e + h * w <= 2%:R * (D * S).
  apply: le_trans (_ : 2%:R * (e + h / 2%:R * w) <= _); last by rewrite ler_pmul2l // ltr0n.
  have -> : 2%:R * (e + h / 2%:R * w) = e + (e + h * w) by rfield.
  by rewrite ler_addr.
have hL : 0 <= h * L by rewrite mulr_ge0 // ltW.
have := ler_add Hs (ler_wpmul2l hL E2).
rewrite -(ler_add2r D) => H.
have -> : D * (1 + (1 + h * (2%:R * L)) * S) = D * S + h * L * (2%:R * (D * S)) + D by rring.
apply: le_trans H; rewrite le_eqVlt; apply/orP; left; apply/eqP; rewrite /D; rfield.
Qed.

Lemma pec_order2 (C := h ^+ 2 * (L * K2 / 2%:R + 5%:R / 12%:R * K3) / (2%:R * L)) :
  sup_le ((pec f h (y 0) N).1 - y (N%:R * h)) (C * ((1 + h * (2%:R * L)) ^+ N - 1)) /\
  sup_le ((pec f h (y 0) N).1 - y (N%:R * h)) (C * (exp (2%:R * L * (N%:R * h)) - 1)).
Proof.
have C0 : 0 <= C.
  by rewrite /C; nonneg.
suff Hb : sup_le ((pec f h (y 0) N).1 - y (N%:R * h)) (C * ((1 + h * (2%:R * L)) ^+ N - 1)).
  split=> //; apply: sup_le_trans Hb _; apply: ler_wpmul2l => //; rewrite ler_add2r.
  by apply: pow_le_exp => //; nonneg.
have [e [w [e0 w0 He _ Hs]]] := pec_error (leqnn N).
apply: sup_le_trans He _; apply: le_trans (_ : e + h / 2%:R * w <= _).
  by rewrite ler_addl mulr_ge0 // divr_ge0 ?ler0n.
apply: le_trans Hs _.
have := subrX1 (1 + h * (2%:R * L)) N; rewrite -(big_mkord predT (fun i => (1 + h * (2%:R * L)) ^+ i)) => ->.
set S := \sum_(_ <= _ < _) _.
rewrite le_eqVlt; apply/orP; left; apply/eqP; rewrite /D /C.
have L1 : L <> 0 by apply/eqP; rewrite gt_eqF.
by toR; field.
Qed.
End PecConv.

Lemma ekf0_order2 (lp : lapack) (g : prng) d (f : 'cV[R]_d -> R -> 'cV[R]_d) (h sigma L K2 K3 : R) (N : nat) sq
  (y y2 y3 : R -> 'cV[R]_d) : (0 < d)%N -> 0 < h -> sigma != 0 -> 0 < L -> lipschitz f L ->
  deriv_on (N%:R * h) y (fun t => f (y t) t) ->
  deriv_on (N%:R * h) (fun t => f (y t) t) y2 -> deriv_on (N%:R * h) y2 y3 ->
  (forall t, 0 <= t -> t <= N%:R * h -> sup_le (y2 t) K2) ->
  (forall t, 0 <= t -> t <= N%:R * h -> sup_le (y3 t) K3) ->
  let C T := (L * K2 / 2%:R + 5%:R / 12%:R * K3) / (2%:R * L) * (exp (2%:R * L * T) - 1) in
  exists x, ekf0 lp (None : option (key g)) (y 0) f h N sq (a_prior (ioup 0 sigma 1 h d)) None = Val x /\
    sup_le (x - y (N%:R * h)) (C (N%:R * h) * h ^+ 2).
Proof.
move=> d0 h0 s0 L0 Lf D1 D2 D3 H2 H3 C.
have h0' : 0 <= h by exact: ltW.
have Nh : 0 <= N%:R * h by nonneg.
have pos (z : R -> 'cV[R]_d) (K : R) : (forall t, 0 <= t -> t <= N%:R * h -> sup_le (z t) K) -> 0 <= K.
  by move=> H; apply: le_trans (normr_ge0 _) (H 0 (lexx 0) Nh (Ordinal d0)).
exists (pec f h (y 0) N).1; split; first exact: ekf0_pec.
have [_] := pec_order2 h0' L0 Lf (pos _ _ H2) (pos _ _ H3) D1 D2 D3 H2 H3.
congr sup_le; rewrite /C; move: (exp _) => e.
have L1 : L <> 0 by apply/eqP; rewrite gt_eqF.
by toR; field.
Qed.

Lemma natS (k : nat) : k.+1%:R = k%:R + 1 :> R.
Proof. by rewrite -addn1 natrD. Qed.

Lemma driver_states (g : prng) d m X drift sigma (bm : path_approx g m) delta ode_int k (x0 : X) N c0 :
  let sol := @sde_solver g d m X drift sigma bm delta ode_int k x0 N in
  nth x0 sol.1.2 0 = x0 /\
  forall i, (i < N)%N -> nth c0 sol.2 i = get_coeffs bm (split2 (nth k (split k N) i)).1 delta /\
    nth x0 sol.1.2 i.+1 = ode_int (split2 (nth k (split k N) i)).2 (nth x0 sol.1.2 i)
      (fun z t => drift z (t + i%:R * delta) +
         sigma z (t + i%:R * delta) *m jacR (fun s => eval_fn s delta (nth c0 sol.2 i)) t) delta.
Proof.
move=> sol; split; first by case: (aligned_grids drift sigma bm delta ode_int k x0 N).
by move=> i iN; case: (@interval_ode g d m X drift sigma bm delta ode_int k x0 N i c0 iN).
Qed.

(** ** Pure noise through sde_solver *)
Lemma pec_affine d (c e : 'cV[R]_d) h x k :
  pec (fun _ t => c + t *: e) h x k = (x + (k%:R * h) *: c + ((k%:R * h) ^+ 2 / 2%:R) *: e, c + (k%:R * h) *: e).
Proof.
elim: k => [|k IH].
  by rewrite /= mul0r expr0n /= mul0r !scale0r !addr0.
rewrite [LHS]/= IH; congr (_, _); apply/colP=> i; rewrite !(addmxE, scalemxE) natS; rfield.
Qed.

Lemma euler_affine d (c e : 'cV[R]_d) h x k :
  euler x (fun _ t => c + t *: e) h k = x + (k%:R * h) *: c + (h ^+ 2 * (k%:R * (k%:R - 1) / 2%:R)) *: e.
Proof.
rewrite euler_quadrature; elim: k => [|k IH].
  by rewrite big_nil !mul0r !mulr0 !scale0r scaler0 !addr0.
rewrite big_nat_recr //= scalerDr addrA IH.
by apply/colP=> i; rewrite !(addmxE, scalemxE) natS; rfield.
Qed.

Section PureNoise.
Variables (lp : lapack) (g : prng) (d m : nat) (s : 'M[R]_(d, m)) (delta : R).
Hypotheses (d0 : (0 < d)%N) (del0 : 0 < delta).

Let field (ab : 'cV[R]_m * 'cV[R]_m) : 'cV[R]_d -> R -> 'cV[R]_d :=
  fun _ t => 0 + s *m jacR (fun r => eval_parabola r delta ab.1 ab.2) t.

Lemma noise_field ab : field ab =
  fun _ t => delta^-1 *: (s *m (ab.1 + sqrt 6%:R *: ab.2)) + t *: (- (2%:R * sqrt 6%:R / delta ^+ 2) *: (s *m ab.2)).
Proof.
apply: functional_extensionality => z; apply: functional_extensionality => t.
have d1 : delta != 0 by rewrite gt_eqF.
rewrite /field add0r jacR_eval // -scalemxAr !mulmxDr -!scalemxAr.
apply/colP=> i; rewrite !(addmxE, scalemxE, oppmxE); move: ((s *m ab.1) i 0) ((s *m ab.2) i 0) => u v.
by move/eqP: d1 => d1; rfield.
Qed.

Variables (M : nat).
Hypothesis M0 : (0 < M)%N.

Lemma M_neq0 : M%:R <> 0 :> R.
Proof. by apply/eqP; rewrite pnatr_eq0 -lt0n. Qed.

Lemma pure_noise_ekf0 (sp : R) sq (k : key g) (x0 : 'cV[R]_d) N c0 : sp != 0 ->
  let ode_int (_ : key g) (x : res 'cV[R]_d) f T := let h := T / M%:R in
    let! x := x in ekf0 lp (None : option (key g)) x f h M sq (a_prior (ioup 0 sp 1 h d)) None in
  let: (_, traj, cs) := sde_solver (fun _ _ => 0) (fun _ _ => s) (get_approx g m) delta ode_int k (Val x0) N in
  forall i, (i <= N)%N -> nth (Val x0) traj i = Val (x0 + s *m \sum_(0 <= j < i) (nth c0 cs j).1).
Proof.
move=> sp0 ode_int.
have [] := @driver_states g d m _ (fun _ _ => 0) (fun _ _ => s) (get_approx g m) delta ode_int k (Val x0) N c0.
case: (sde_solver _ _ _ _ _ _ _ _) => [[ts traj] cs] /= T0 H.
elim=> [|i IH] iN; first by rewrite T0 big_nil mulmx0 addr0.
have [_ ->] := H i iN; rewrite IH; last exact: ltnW.
rewrite /ode_int /rbind; cbv zeta; set ab := nth c0 cs i.
have h0 : 0 < delta / M%:R by rewrite divr_gt0 // ltr0n.
rewrite (@ekf0_pec lp d _ _ _ d0 h0 sp0 g) -/(field ab) noise_field pec_affine /=.
congr Val; rewrite big_nat_recr //= -/ab.
have -> : M%:R * (delta / M%:R) = delta by rewrite mulrC mulfVK //; apply/eqP; exact: M_neq0.
have d1 : delta <> 0 by apply/eqP; rewrite gt_eqF.
rewrite !mulmxDr -!scalemxAr.
apply/colP=> r; rewrite !(addmxE, scalemxE, oppmxE).
by move: ((s *m ab.1) r 0) ((s *m ab.2) r 0) ((s *m \sum_(_ <= _ < _) _) r 0) => u v w; rfield.
Qed.

Lemma pure_noise_euler (k : key g) (x0 : 'cV[R]_d) N c0 :
  let ode_int (_ : key g) (x : 'cV[R]_d) f T := euler x f (T / M%:R) M in
  let: (_, traj, cs) := sde_solver (fun _ _ => 0) (fun _ _ => s) (get_approx g m) delta ode_int k x0 N in
  forall i, (i <= N)%N -> nth x0 traj i =
    x0 + s *m \sum_(0 <= j < i) ((nth c0 cs j).1 + (sqrt 6%:R / M%:R) *: (nth c0 cs j).2).
Proof.
move=> ode_int.
have [] := @driver_states g d m _ (fun _ _ => 0) (fun _ _ => s) (get_approx g m) delta ode_int k x0 N c0.
case: (sde_solver _ _ _ _ _ _ _ _) => [[ts traj] cs] /= T0 H.
elim=> [|i IH] iN; first by rewrite T0 big_nil mulmx0 addr0.
have [_ ->] := H i iN; rewrite IH; last exact: ltnW.
rewrite /ode_int /=; set ab := nth c0 cs i.
rewrite -/(field ab) noise_field euler_affine /=.
rewrite big_nat_recr //= -/ab; move: (\sum_(0 <= j < i) _) => W; rewrite !mulmxDr -!scalemxAr.
have d1 : delta <> 0 by apply/eqP; rewrite gt_eqF.
have M1 := M_neq0.
apply/colP=> r; rewrite !(addmxE, scalemxE, oppmxE).
move: ((s *m ab.1) r 0) ((s *m ab.2) r 0) ((s *m W) r 0) (M%:R : R) M1 => u v w q q0.
by rfield.
Qed.
End PureNoise.
