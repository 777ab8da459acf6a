(** Algorithm 3 with EKF0 has the means of Algorithm 2 (ode_solvers/ekf0_2.py and ekf0.py in the driver). *)
From Coq Require Import Reals Lra FunctionalExtensionality.
From mathcomp Require Import all_ssreflect all_algebra mxtens.
From Verif Require Import Rstruct Base Linalg Expm Calc Prob Spec Spec3 M_Foster M_ItoStrat M_SdeSolver
  M_Prior M_OdeSolvers Lapack M_Utils M_Filter L_Utils L_Linear L_Filter L_OdeSolvers L_Alg3 L_Sym L_Init L_Ivp L_More L_Total L_Stab L_EndToEnd.

Set Implicit Arguments.
Unset Strict Implicit.
Unset Printing Implicit Defensive.
Import Order.TTheory GRing.Theory Num.Theory.
Local Open Scope ring_scope.

Lemma alg3_means (lp : lapack) (g g' : prng) d m (drift : 'cV[R]_d -> R -> 'cV[R]_d) (sigma : 'cV[R]_d -> R -> 'M[R]_(d, m))
  (bm : path_approx g m) (delta : R) (M N : nat) (sp sp' : R) (sq sq' : bool) (prior : prior_arg)
  (phi : key g -> option (key g')) (k : key g) (s m0 : 'cV[R]_d) (P00 : 'M[R]_d) :
  (0 < d)%N -> 0 < delta -> (0 < M)%N -> sp != 0 -> sp' != 0 -> psd P00 ->
  let h := delta / M%:R in
  (prior = None /\ sp = 1 \/ prior = a_prior (ioup 0 sp 1 h d)) ->
  let int3 kk (x : res (gauss d)) f T := let! x := x in ekf0_2 lp (phi kk) x f (T / M%:R) M sq prior None in
  let int2 (_ : key g) (y : res 'cV[R]_d) f T := let! y := y in
    ekf0 lp (None : option (key g)) y f (T / M%:R) M sq' (a_prior (ioup 0 sp' 1 (T / M%:R) d)) None in
  let sol3 := (sde_solver drift sigma bm delta int3 k (Val (s, m0, P00)) N).1.2 in
  let sol2 := (sde_solver drift sigma bm delta int2 k (Val m0) N).1.2 in
  forall n, (n <= N)%N -> exists s' m' P',
  [/\ nth (Val (s, m0, P00)) sol3 n = Val (s', m', P'), nth (Val m0) sol2 n = Val m',
      (forall kk, phi kk = None) -> (0 < n)%N -> s' = m' &
      P' = P00 + (n%:R * (M%:R * (sp ^+ 2 * h ^+ 3 / 12%:R)))%:M].
Proof.
move=> d0 del0 M0 sp0 sp0' pP h Hp int3 int2 sol3 sol2.
have h0 : 0 < h by rewrite divr_gt0 // ltr0n.
have Ep : get_prior d 0 h prior = Val (ioup 0 sp 1 h d) by case: Hp => [[-> ->]|->] //; exact: get_prior_id.
have c0 : coeffs bm := get_coeffs bm k delta.
have [A0 A] := @driver_states g d m _ drift sigma bm delta int3 k (Val (s, m0, P00)) N c0.
have [B0 B] := @driver_states g d m _ drift sigma bm delta int2 k (Val m0) N c0.
elim=> [_|n IH nN].
  exists s, m0, P00; split=> //; rewrite mul0r (_ : 0%:M = 0) ?addr0 //.
  by apply/matrixP=> a b; rewrite !mxE mul0rn.
have [s1 [m1 [P1 [E3 E2 _ EP]]]] := IH (ltnW nN).
have [kk [kk' [F [S3 S2]]]] : exists kk kk' F, nth (Val (s, m0, P00)) sol3 n.+1 = int3 kk (nth (Val (s, m0, P00)) sol3 n) F delta /\
    nth (Val m0) sol2 n.+1 = int2 kk' (nth (Val m0) sol2 n) F delta.
  have [c3 S3] := A n nN; have [c2 S2] := B n nN.
  by rewrite /sol3 /sol2 S3 S2 c2 c3; do 3 eexists; split; reflexivity.
rewrite S3 S2 E3 E2 /int3 /int2; cbn [rbind].
have pV : psd P1.
  rewrite EP; apply: psdD => //; apply: scalar_psd; apply: mulr_ge0; first exact: ler0n.
  by apply: mulr_ge0; [exact: ler0n | exact: cc_ge0].
have [s' [-> Hs]] := @ekf0_2_ibm lp d F h sp h0 sp0 prior Ep g' (phi kk) s1 m1 P1 M sq pV.
rewrite (@ekf0_pec lp d _ _ _ d0 h0 sp0' g).
do 3 eexists; split; [reflexivity|reflexivity|by move=> H _; apply: Hs|].
rewrite EP -addrA; congr (_ + _); apply/matrixP=> a b; rewrite !mxE -mulrnDl; congr (_ *+ _).
by rewrite -(natr1' n) mulrDl mul1r.
Qed.

(** ** The solver in terms of covariances, whatever the arithmetic mode *)
Section Plain.
Variables (lp : lapack) (d n : nat) (f : 'cV[R]_d -> R -> 'cV[R]_d) (h : R) (EKF0 : bool) (prior : prior_arg).
Variable tr : transition (d * n.+2).
Hypotheses (Ep : get_prior d n h prior = Val tr) (pQ : pd tr.1.2).

Definition gram k (sq : bool) (W : 'M[R]_k) := if sq then W *m W^T else W.

Lemma solver_gram sq m W N :
  @_solver lp d n (m, gram sq W) f h N false EKF0 prior None =
  rmap (fun x => (x.1, gram sq x.2)) (@_solver lp d n (m, W) f h N sq EKF0 prior None).
Proof.
move: Ep pQ; case: tr => [[xi Q] A] /= Ep' pQ'.
rewrite (@solver_run lp d n f h false EKF0 prior None (m, gram sq W) N xi Q A 0 Q Ep' erefl erefl).
case: sq; last first.
  by rewrite (@solver_run lp d n f h false EKF0 prior None (m, W) N xi Q A 0 Q Ep' erefl erefl) /gram; case: (ekf _ _ _ _ _ _ _ _) => [[]||].
have [L [E _ _ LL]] := cholP lp pQ'.
have EQ : (if true then cholesky lp Q else Val Q) = Val L by rewrite /cholesky E.
rewrite (@solver_run lp d n f h true EKF0 prior None (m, W) N xi Q A 0 L Ep' erefl EQ) /gram -LL.
by have := ekf_sqrt_state lp (@observation_function d EKF0 f n) A xi L 0 m W (mkseq (fun k => k.+1%:R * h) N);
  rewrite mul0mx.
Qed.
End Plain.

(** ** EKF1 on an autonomous affine field *)
Section OnePrior.
Variables (lp : lapack) (d : nat) (A : 'M[R]_d) (c : 'cV[R]_d) (h : R) (prior : prior_arg) (tr : transition (d * 2)).
Hypotheses (Ep : get_prior d 0 h prior = Val tr) (pQ : pd tr.1.2).
Let f (x : 'cV[R]_d) (t : R) := A *m x + c.
Let run N x := @_solver lp d 0 x f h N false false prior None.

Lemma joint_fix m P : psd P -> slice 1 m = f (slice 0 m) 0 ->
  (selector d 1 - A *m selector d 0) *m P = 0 -> P *m (selector d 1 - A *m selector d 0)^T = 0 ->
  init_joint lp A f (slice 0 m) (slice2 0 0 P) false = (m, P).
Proof.
move=> pP Em H1 H2; rewrite /init_joint; congr (_, _).
  by apply: slice_ext; elim/L_Ivp.ord2P; rewrite !slice_interl.
have [e1 e2 e3 e4] := interlace_matrix_slices (slice2 0 0 P) (slice2 0 0 P *m A^T) (A *m slice2 0 0 P) (A *m slice2 0 0 P *m A^T).
have r (i : 'I_2) : slice2 1 i P = A *m slice2 0 i P.
  by apply/eqP; rewrite -subr_eq0 -!sel_slice2 !mulmxA -!mulmxBl H1 mul0mx.
have l (i : 'I_2) : slice2 i 1 P = slice2 i 0 P *m A^T.
  by apply/eqP; rewrite -subr_eq0 -!sel_slice2 -!mulmxA -!mulmxBr -trmx_mul -linearB H2 mulmx0.
by apply: slice2_ext => i j; elim/L_Ivp.ord2P: i; elim/L_Ivp.ord2P: j; rewrite ?e1 ?e2 ?e3 ?e4 ?r ?l ?mulmxA.
Qed.

Lemma run_joint m0 P00 N : psd P00 -> exists m P,
  [/\ run N (init_joint lp A f m0 P00 false) = Val (m, P), psd P &
      init_joint lp A f (slice 0 m) (slice2 0 0 P) false = (m, P)].
Proof.
move=> pP.
pose mi := (init_joint lp A f m0 P00 false).1; pose Wi := (init_joint lp A f m0 P00 false).2.
have [i1 w1 pW] : [/\ slice 0 mi = m0, slice2 0 0 Wi = P00 & psd Wi].
  by have [[? _ ?] [? _ _ _]] := @init_joint_slices lp d f false A m0 P00 pP.
rewrite -[init_joint lp A f m0 P00 false]/(mi, Wi).
case: N => [|N].
  exists mi, Wi; rewrite i1 w1; split=> //; rewrite /run /_solver Ep; by case: (tr) => [[]].
have [[m P] E] := @solver_total lp d f h N.+1 false 0 false mi Wi prior None tr Ep pQ (fun=> pW) (or_introl erefl).
have [pP' J] : psd P /\ [/\ slice 1 m = f (slice 0 m) 0,
    (selector d 1 - A *m selector d 0) *m P = 0 & P *m (selector d 1 - A *m selector d 0)^T = 0].
  move: Ep pQ E; case: (tr) => [[xi Q] A'] /= Ep' pQ' E; have sQ := pd_psd pQ'.
  have same K : @_solver lp d 0 (mi, Wi) f h K false false prior None =
      @_solver lp d 0 (mi, Wi) f h K false false (a_prior (xi, Q, A')) None.
    by rewrite /_solver Ep' get_prior_id.
  split.
    move: E; rewrite (@solver_run lp d 0 f h false false prior None (mi, Wi) N.+1 xi Q A' 0 Q Ep' erefl erefl).
    by apply: ekf_psd => //; exact: psd0.
  have [||m1 [P1 [_ []]]] := @solver_exact lp d 0 f h false false xi Q A' (mi, Wi) N m P.
  - by [].
  - by rewrite -same.
  rewrite (_ : jac _ _ = A) ?jac_lin // => -> H1 H2; split=> //.
  by rewrite /f mulmxBr addrC addrA addrNK.
exists m, P; rewrite /run E; split=> //; case: J => *; exact: joint_fix.
Qed.

Lemma ekf1_2_run (g : prng) (k : option (key g)) s m0 P00 K sq m P : psd P00 ->
  run K (init_joint lp A f m0 P00 false) = Val (m, P) ->
  exists s', ekf1_2 lp k (s, m0, P00) f h K sq prior None = Val (s', slice 0 m, slice2 0 0 P).
Proof.
move=> pP E; rewrite /ekf1_2 -[(s, m0, P00).1.2]/m0 (_ : jac _ _ = A) ?jac_lin // /alg3.
pose W := (init_joint lp A f m0 P00 sq).2.
have EW : init_joint lp A f m0 P00 false = ((init_joint lp A f m0 P00 sq).1, gram sq W).
  rewrite /W /init_joint /gram; congr (_, _); case: (sq) => //; rewrite sqrtm_gram //; exact: joint_psd.
move: E; rewrite /run EW (@solver_gram lp d 0 f h false prior tr Ep pQ).
rewrite -[init_joint lp A f m0 P00 sq]/((init_joint lp A f m0 P00 sq).1, W).
case: (_solver _ _ _ _ _ _ _ _) => [[m1 P1]||] //= [<- <-].
by rewrite /gram; case: (sq); eexists; reflexivity.
Qed.
End OnePrior.

Lemma one_prior (lp : lapack) (g g' : prng) d m (A : 'M[R]_d) (c : 'cV[R]_d) (bm : path_approx g m) (delta : R) (M N : nat)
  (sq sq' : bool) (prior : prior_arg) (tr : transition (d * 2)) (phi : key g -> option (key g')) (k : key g)
  (s m0 : 'cV[R]_d) (P00 : 'M[R]_d) :
  let h := delta / M%:R in get_prior d 0 h prior = Val tr -> pd tr.1.2 -> psd P00 ->
  let f (x : 'cV[R]_d) (t : R) := A *m x + c in
  let int kk (x : res (gauss d)) f T := let! x := x in ekf1_2 lp (phi kk) x f (T / M%:R) M sq prior None in
  let sol := (sde_solver f (fun _ _ => 0 : 'M[R]_(d, m)) bm delta int k (Val (s, m0, P00)) N).1.2 in
  forall n, (n <= N)%N -> exists s' s'' m' P',
  nth (Val (s, m0, P00)) sol n = Val (s', m', P') /\
  ekf1_2 lp (None : option (key g)) (s, m0, P00) f h (n * M) sq' prior None = Val (s'', m', P').
Proof.
move=> h Ep pQ pP f int sol n nN.
suff [m1 [P1 [s' [E1 E2]]]] : exists m1 P1 s',
    @_solver lp d 0 (init_joint lp A f m0 P00 false) f h (n * M) false false prior None = Val (m1, P1) /\
    nth (Val (s, m0, P00)) sol n = Val (s', slice 0 m1, slice2 0 0 P1).
  have [s'' E3] := @ekf1_2_run lp d A c h prior tr Ep pQ g None s m0 P00 (n * M) sq' m1 P1 pP E1.
  by exists s', s'', (slice 0 m1), (slice2 0 0 P1).
have c0 : coeffs bm := get_coeffs bm k delta.
have [A0 S] := @driver_states g d m _ f (fun _ _ => 0) bm delta int k (Val (s, m0, P00)) N c0.
elim: n nN => [_|n IH nN].
  have [m1 [P1 [E _ J]]] := @run_joint lp d A c h prior tr Ep pQ m0 P00 0 pP.
  exists m1, P1, s; split=> //; rewrite [LHS]A0.
  have [[i1 _ _] [w1 _ _ _]] := @init_joint_slices lp d f false A m0 P00 pP.
  move: E; rewrite /_solver Ep; case: (tr) => [[xi Q] A'] [<- <-]; by rewrite i1 w1.
have [m1 [P1 [s1 [E1 E2]]]] := IH (ltnW nN).
have [m2 [P2 [E2' pP2 J]]] := @run_joint lp d A c h prior tr Ep pQ m0 P00 (n * M) pP.
move: (E2'); rewrite [LHS]E1 => -[e1 e2]; rewrite -e1 -e2 in pP2 J => {m2 P2 E2' e1 e2}.
have [kk [F [EF S2]]] : exists kk F, F = f /\
    nth (Val (s, m0, P00)) sol n.+1 = int kk (nth (Val (s, m0, P00)) sol n) F delta.
  have [_ Sn] := S n nN; do 2 eexists; split; last exact: Sn.
  by apply: functional_extensionality => z; apply: functional_extensionality => t; rewrite mul0mx addr0.
have pp : psd (slice2 0 0 P1) by rewrite -sel_slice2; exact: psd_congr.
have [m2 [P2 [E3 _ _]]] := @run_joint lp d A c h prior tr Ep pQ (slice 0 m1) (slice2 0 0 P1) M pp.
have [s2 E4] := @ekf1_2_run lp d A c h prior tr Ep pQ g' (phi kk) s1 _ _ M sq m2 P2 pp E3.
exists m2, P2, s2; split; last by rewrite S2 E2 EF.
by rewrite mulSn addnC solver_split E1; cbn [rbind]; rewrite -J.
Qed.

(** ** x' = x from 1, two intervals of length 1 with one step each *)
Section Restart.
Variables (lp : lapack) (g : prng) (sq : bool) (k : key g).
Let f (x : 'cV[R]_1) (t : R) := 1%:M *m x + 0.
Let sig (_ : 'cV[R]_1) (_ : R) := 0 : 'M[R]_(1, 1).
Let x0 : 'cV[R]_1 := const_mx 1.
Let prior := a_prior (ioup 0 1 1 1 1).

Let fE : f = fun x _ => 1 *: x.
Proof. by apply: functional_extensionality => x; apply: functional_extensionality => t; rewrite /f mul1mx addr0 scale1r. Qed.

Let two X (int : key g -> X -> ('cV[R]_1 -> R -> 'cV[R]_1) -> R -> X) (y : X) : exists k1 k2,
  nth y (sde_solver f sig (get_approx g 1) 1 int k y 2).1.2 2 = int k2 (int k1 y f 1) f 1.
Proof.
have c0 : coeffs (get_approx g 1) := get_coeffs (get_approx g 1) k 1.
have [A0 A] := @driver_states g 1 1 _ f sig (get_approx g 1) 1 int k y 2 c0.
have field F t1 (c : R -> 'cV[R]_1) : (fun z t => F z (t + t1) + sig z (t + t1) *m c t) = (fun z t => F z (t + t1)).
  by apply: functional_extensionality => z; apply: functional_extensionality => t; rewrite mul0mx addr0.
have [_ ->] := A 1%N isT; have [_ ->] := A 0%N isT; rewrite [nth y _ 0]A0.
do 2 eexists; rewrite !field; reflexivity.
Qed.

Let step1 r : ekf1 lp (None : option (key g)) (r *: x0) f 1 1 sq prior None = Val ((5%:R / 2%:R * r) *: x0).
Proof.
rewrite fE (@ekf1_lin_step lp 1 1 1 1 (r *: x0) sq g isT ltr01 (oner_neq0 _)) scalerA; congr (Val (_ * _ *: _)).
by rewrite !expr2; toR; field.
Qed.

Lemma ekf1_restart :
  let int2 (_ : key g) (y : res 'cV[R]_1) f T := let! y := y in ekf1 lp (None : option (key g)) y f (T / 1%:R) 1 sq prior None in
  let int3 (_ : key g) (x : res (gauss 1)) f T := let! x := x in ekf1_2 lp (None : option (key g)) x f (T / 1%:R) 1 sq prior None in
  nth (Val x0) (sde_solver f sig (get_approx g 1) 1 int2 k (Val x0) 2).1.2 2 = Val (const_mx (25%:R / 4%:R)) /\
  exists s P, nth (Val (x0, x0, 0)) (sde_solver f sig (get_approx g 1) 1 int3 k (Val (x0, x0, 0)) 2).1.2 2 =
    Val (s, const_mx (25%:R / 7%:R), P).
Proof.
move=> int2 int3; split.
  have [k1 [k2 ->]] := two int2 (Val x0); rewrite /int2; cbn [rbind].
  rewrite divr1 -[x0]scale1r step1; cbn [rbind]; rewrite step1; congr Val.
  by apply/matrixP=> i j; rewrite !mxE; toR; field.
have e1 : 1 / 1%:R = 1 :> R by rewrite divr1.
have pQ : pd (ioup 0 1 1 1 1).1.2 by apply: L_Prior.ioup_pd; rewrite ?oner_eq0 ?ltr01.
have [s' [s'' [m' [P' [E1 E2]]]]] := @one_prior lp g g 1 1 1%:M 0 (get_approx g 1) 1 1 2 sq sq prior (ioup 0 1 1 1 1)
  (fun=> None) k x0 x0 0 (etrans (congr1 (fun h => get_prior 1 0 h prior) e1) (get_prior_id _ _)) pQ (@psd0 1) 2 isT.
have Es : s'' = m' := alg3_nokey E2.
have E2' : ekf1_2 lp (None : option (key g)) (x0, x0, 0) f 1 2 sq prior None = Val (s'', m', P').
  by rewrite -[X in ekf1_2 _ _ _ _ X]e1; exact: E2.
have D := (@ekf1_dahlquist lp 1 1 1 1 x0 sq g isT ltr01 (oner_neq0 _) 2).1.
rewrite -fE (@point_ekf1 lp 1 f 1 2 sq (ioup 0 1 1 1 1) None g None x0 x0 isT) -/prior E2' in D.
have Em : m' = (dahlquist 1 1 (1 ^+ 2) 2).1 *: x0 by rewrite -Es; case: D.
exists s', P'; rewrite [LHS]E1 Em; congr (Val (_, _, _)); apply/matrixP=> i j; rewrite !mxE /= !expr2; toR; field.
Qed.

Lemma ekf0_restart :
  let int3 (_ : key g) (x : res (gauss 1)) f T := let! x := x in ekf0_2 lp (None : option (key g)) x f (T / 1%:R) 1 sq prior None in
  (exists s P, nth (Val (x0, x0, 0)) (sde_solver f sig (get_approx g 1) 1 int3 k (Val (x0, x0, 0)) 2).1.2 2 =
    Val (s, const_mx (25%:R / 4%:R), P)) /\
  exists s P, ekf0_2 lp (None : option (key g)) (x0, x0, 0) f 1 2 sq prior None = Val (s, const_mx (23%:R / 4%:R), P).
Proof.
move=> int3.
have E (s1 m1 : 'cV[R]_1) P1 K : psd P1 -> exists s', ekf0_2 lp (None : option (key g)) (s1, m1, P1) f 1 K sq prior None =
    Val (s', (pec f 1 m1 K).1, P1 + (K%:R * (1 ^+ 2 * 1 ^+ 3 / 12%:R))%:M).
  move=> pP; have [s' [E1 _]] := @ekf0_2_ibm lp 1 f 1 1 ltr01 (oner_neq0 _) prior (get_prior_id _ _) g None s1 m1 P1 K sq pP.
  by exists s'; rewrite E1.
split.
  have [k1 [k2 ->]] := two int3 (Val (x0, x0, 0)); rewrite /int3; cbn [rbind]; rewrite divr1.
  have [s1 ->] := E x0 x0 0 1%N (@psd0 1); cbn [rbind].
  have [|s2 ->] := E s1 (pec f 1 x0 1).1 (0 + (1%:R * (1 ^+ 2 * 1 ^+ 3 / 12%:R))%:M) 1%N.
    by rewrite add0r; apply: scalar_psd; rewrite !expr1n !mul1r invr_ge0 ler0n.
  do 2 eexists; congr (Val (_, _, _)); apply/matrixP=> i j; rewrite fE /= !mxE; toR; field.
have [s1 ->] := E x0 x0 0 2%N (@psd0 1).
do 2 eexists; congr (Val (_, _, _)); apply/matrixP=> i j; rewrite fE /= !mxE; toR; field.
Qed.
End Restart.

(** ** The ekf0_2 cases of tests/test_end_to_end.py *)
Lemma ekf0_2_test (lp : lapack) (g : prng) (sq : bool) :
  let h : R := 1 / 1000%:R in
  let fs := to_stratonovich (fun (y : 'cV[R]_1) _ => 1 *: y) (fun _ _ => const_mx 1 : 'M[R]_(1, 1)) in
  let x0 : gauss 1 := (const_mx 1, const_mx 1, 0) in
  let int (_ : key g) (x : res (gauss 1)) f T := let! x := x in
    ekf0_2 lp (None : option (key g)) x f (T / 5%:R) 5 sq None None in
  let traj (k : key g) := (sde_solver fs.1 fs.2 (get_approx g 1) h int k (Val x0) 1000).1.2 in
  exists (x : key g -> R) P,
  (forall k, nth (Val x0) (traj k) 1000 = Val (const_mx (x k), const_mx (x k), P)) /\
  forall E F : expectation (key g), (forall G, F (fun k => G (split k 1000)) = iid E 1000 G) ->
  standard2 E (fun k => normal2 (child k 2 0) 2 1) ->
  let mean := F x in let std := sqrt (F (fun k => (x k - mean) ^+ 2)) in
  let goal := sqrt (2%:R^-1 * (exp 2%:R - 1)) in
  `|mean - exp 1| <= exp 1 / 1000%:R /\ `|std - goal| <= goal / 1000%:R.
Proof.
move=> h fs x0 int traj.
have h0 : 0 < h by rewrite divr_gt0 ?ltr01 ?ltr0n.
have [x [X1 X2]] := @ekf0_test lp g sq.
exists x, (0 + (1000%:R * (5%:R * (1 ^+ 2 * (h / 5%:R) ^+ 3 / 12%:R)))%:M); split; last exact: X2.
move=> k; have [s' [m' [P' [E1 E2 Es EP]]]] := @alg3_means lp g g 1 1 fs.1 fs.2 (get_approx g 1) h 5 1000 1 1 sq sq None (fun=> None) k
  (const_mx 1) (const_mx 1) 0 isT h0 isT (oner_neq0 _) (oner_neq0 _) (@psd0 1) (or_introl (conj erefl erefl)) 1000%N (leqnn _).
move: (X1 k); rewrite [LHS]E2 => -[Em].
by rewrite [LHS]E1 (Es (fun=> erefl) isT) Em EP.
Qed.
