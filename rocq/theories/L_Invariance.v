(** What a run of the solver does not depend on: the key when there is no noise, the coordinates, the unit of time. *)
From Coq Require Import Reals Lra FunctionalExtensionality.
From Coquelicot Require Import Coquelicot.
From mathcomp Require Import all_ssreflect all_algebra mxtens.
From Verif Require Import Rstruct Base Linalg Calc Prob Spec M_Utils M_Foster M_SdeSolver M_Euler M_Prior M_Filter M_OdeSolvers M_Ivp
  L_Foster L_SdeSolver L_Euler L_OdeSolvers L_Sym L_Ivp.

Set Implicit Arguments.
Unset Strict Implicit.
Unset Printing Implicit Defensive.
Import Order.TTheory GRing.Theory Num.Theory.
Local Open Scope ring_scope.

(** ** Without noise *)
Lemma eseq_shift d (f : 'cV[R]_d -> R -> 'cV[R]_d) h x n M :
  eseq (fun z t => f z (t + n%:R * h)) h (eseq f h x n) M = eseq f h x (n + M).
Proof.
elim: M => [|M IH]; first by rewrite addn0.
by rewrite addnS /= IH /estep addnC natrD mulrDl.
Qed.

Lemma noise_free_euler (g : prng) d m (bm : path_approx g m) (f : 'cV[R]_d -> R -> 'cV[R]_d) (delta : R) (M N : nat)
  (int : key g -> 'cV[R]_d -> ('cV[R]_d -> R -> 'cV[R]_d) -> R -> 'cV[R]_d) (k : key g) x0 :
  (0 < M)%N -> (forall key z F T, int key z F T = euler z F (T / M%:R) M) ->
  forall n, (n <= N)%N ->
  nth x0 (sde_solver f (fun _ _ => 0) bm delta int k x0 N).1.2 n = euler x0 f (delta / M%:R) (n * M).
Proof.
move=> M0 intE; pose c0 := get_coeffs bm k delta.
have [A0 A] := @driver_states g d m _ f (fun _ _ => 0) bm delta int k x0 N c0.
have nz : M%:R != 0 :> R by rewrite pnatr_eq0 -lt0n.
elim=> [_|n IH nN]; first by rewrite A0.
rewrite (A n nN).2 intE (IH (ltnW nN)) !eulerE mulSnr -eseq_shift.
congr eseq; apply: functional_extensionality => z; apply: functional_extensionality => t.
by rewrite mul0mx addr0 natrM -mulrA [M%:R * _]mulrC divfK.
Qed.

(** ** Maps between equations *)
Lemma euler_map d d' (phi : 'cV[R]_d -> 'cV[R]_d') F G h h' x M :
  (forall z (k : nat), phi (z + h *: F z (k%:R * h)) = phi z + h' *: G (phi z) (k%:R * h')) ->
  euler (phi x) G h' M = phi (euler x F h M).
Proof.
move=> H; rewrite !eulerE; elim: M => [//|M IH].
by rewrite /= IH /estep H.
Qed.

Lemma driver_map (g : prng) d d' m X Y (bm : path_approx g m) f1 s1 f2 s2 (d1 d2 : R)
  (int1 : key g -> X -> ('cV[R]_d -> R -> 'cV[R]_d) -> R -> X)
  (int2 : key g -> Y -> ('cV[R]_d' -> R -> 'cV[R]_d') -> R -> Y) (rel : X -> Y -> Prop) k x0 y0 N :
  rel x0 y0 ->
  (forall i kb ks x y, rel x y ->
    rel (int1 ks x (fun z t => f1 z (t + i%:R * d1) +
           s1 z (t + i%:R * d1) *m jacR (fun s => eval_fn s d1 (get_coeffs bm kb d1)) t) d1)
        (int2 ks y (fun z t => f2 z (t + i%:R * d2) +
           s2 z (t + i%:R * d2) *m jacR (fun s => eval_fn s d2 (get_coeffs bm kb d2)) t) d2)) ->
  forall n, (n <= N)%N ->
  rel (nth x0 (sde_solver f1 s1 bm d1 int1 k x0 N).1.2 n) (nth y0 (sde_solver f2 s2 bm d2 int2 k y0 N).1.2 n).
Proof.
move=> r0 step; pose c0 := get_coeffs bm k d1.
have [A0 A] := @driver_states g d m _ f1 s1 bm d1 int1 k x0 N c0.
have [B0 B] := @driver_states g d' m _ f2 s2 bm d2 int2 k y0 N c0.
elim=> [_|n IH nN]; first by rewrite A0 B0.
have [A1 ->] := A n nN; have [B1 ->] := B n nN; rewrite A1 B1.
by apply: step; exact: IH (ltnW nN).
Qed.

Lemma euler_coordinates (g : prng) d d' m (bm : path_approx g m) (p : 'M[R]_(d', d)) (c : 'cV[R]_d')
  (f : 'cV[R]_d -> R -> 'cV[R]_d) (s : 'cV[R]_d -> R -> 'M[R]_(d, m)) f' s' (delta : R) (M N : nat) (k : key g) x0 :
  (forall x t, p *m f x t = f' (p *m x + c) t) -> (forall x t, p *m s x t = s' (p *m x + c) t) ->
  let int e (_ : key g) (x : 'cV[R]_e) F T := euler x F (T / M%:R) M in
  forall n, (n <= N)%N ->
  nth (p *m x0 + c) (sde_solver f' s' bm delta (@int d') k (p *m x0 + c) N).1.2 n =
  p *m nth x0 (sde_solver f s bm delta (@int d) k x0 N).1.2 n + c.
Proof.
move=> Hf Hs int n nN; pose phi (z : 'cV[R]_d) := p *m z + c.
apply: (@driver_map g d d' m _ _ bm f s f' s' delta delta (@int d) (@int d') (fun x y => y = phi x)) => //.
move=> i kb ks x _ ->; rewrite /int; apply: euler_map => z j.
by rewrite /phi mulmxDr -scalemxAr mulmxDr mulmxA Hf Hs addrAC.
Qed.

Lemma ekf0_coordinates (g : prng) d d' m (bm : path_approx g m) (p : 'M[R]_(d', d))
  (f : 'cV[R]_d -> R -> 'cV[R]_d) (s : 'cV[R]_d -> R -> 'M[R]_(d, m)) f' s' (delta : R) (M N : nat) (k : key g) x0
  (lp : lapack) (A Q : 'M[R]_2) (sq : bool) :
  (0 < d)%N -> (0 < d')%N -> pd Q -> p *m p^T = 1%:M ->
  (forall x t, p *m f x t = f' (p *m x) t) -> (forall x t, p *m s x t = s' (p *m x) t) ->
  let int e (_ : key g) (x : res 'cV[R]_e) F T := let! x := x in
    ekf0 lp (None : option (key g)) x F (T / M%:R) M sq (a_prior (0, kron_eye e Q, kron_eye e A)) None in
  forall n, (n <= N)%N -> exists x,
  nth (Val x0) (sde_solver f s bm delta (@int d) k (Val x0) N).1.2 n = Val x /\
  nth (Val (p *m x0)) (sde_solver f' s' bm delta (@int d') k (Val (p *m x0)) N).1.2 n = Val (p *m x).
Proof.
move=> d0 d0' pQ pp Hf Hs int n nN.
apply: (@driver_map g d d' m _ _ bm f s f' s' delta delta (@int d) (@int d')
  (fun a b => exists x, a = Val x /\ b = Val (p *m x))) => //; first by exists x0.
move=> i kb ks a b [x [-> ->]]; rewrite /int !rbind_val.
pose F z t := f z (t + i%:R * delta) + s z (t + i%:R * delta) *m jacR (fun s => eval_fn s delta (get_coeffs bm kb delta)) t.
pose G z t := f' z (t + i%:R * delta) + s' z (t + i%:R * delta) *m jacR (fun s => eval_fn s delta (get_coeffs bm kb delta)) t.
have FG z t : p *m F z t = G (p *m z) t by rewrite /F /G mulmxDr mulmxA Hf Hs.
have [y E1 E2] := @rel_ekf0 lp d d' p F G pp FG g (delta / M%:R) M d0 d0' 0 A Q pQ erefl x sq (or_introl erefl).
by exists y.
Qed.

(** ** The unit of time *)
Lemma parabola_time (g : prng) m (k : key g) (delta c t : R) : 0 < delta -> 0 < c ->
  let P dt s := let ab := parabolas m k dt in eval_parabola s dt ab.1 ab.2 in
  sqrt c *: jacR (P (delta / c)) t = c *: jacR (P delta) (c * t).
Proof.
move=> dl c0 P.
have dn : delta != 0 by rewrite gt_eqF.
have cn : c != 0 by rewrite gt_eqF.
have dc : delta / c != 0 by rewrite mulf_neq0 ?invr_eq0.
rewrite /P !jacR_eval // /parabolas /=.
have E : sqrt (delta / c) = sqrt delta / sqrt c.
  by toR; rewrite sqrt_div //; [apply: Rlt_le|]; apply/RltP.
have E2 : sqrt (2%:R^-1 * (delta / c)) = sqrt (2%:R^-1 * delta) / sqrt c.
  rewrite mulrA; toR; rewrite sqrt_div //; last exact/RltP.
  by apply: Rmult_le_pos; [lra | apply: Rlt_le; apply/RltP].
have sc : sqrt c != 0 by rewrite gt_eqF //; apply/RltP; apply: sqrt_lt_R0; apply/RltP.
rewrite E E2; apply/colP=> i; rewrite !mxE.
have -> : t / (delta / c) = c * t / delta by rewrite invf_div mulrA [t * c]mulrC.
move: (normal2 _ _ _ _ _) (normal2 _ _ _ _ _) (sqrt 6%:R) (c * t / delta) (sqrt delta) (sqrt (2%:R^-1 * delta)) => u v q w e1 e2.
rewrite invf_div; move/eqP: dn => dn; move/eqP: sc => sc.
by move: (sqrt c) sc => sc' scn; apply: (_ : @eq R _ _); toR; field.
Qed.

Lemma euler_time (g : prng) d m (f : 'cV[R]_d -> R -> 'cV[R]_d) (s : 'cV[R]_d -> R -> 'M[R]_(d, m))
  (delta c : R) (M N : nat) (k : key g) x0 : 0 < delta -> 0 < c ->
  let int (_ : key g) (x : 'cV[R]_d) F T := euler x F (T / M%:R) M in
  forall n, (n <= N)%N ->
  nth x0 (sde_solver (fun x t => c *: f x (c * t)) (fun x t => sqrt c *: s x (c * t)) (get_approx g m) (delta / c) int k x0 N).1.2 n =
  nth x0 (sde_solver f s (get_approx g m) delta int k x0 N).1.2 n.
Proof.
move=> dl c0 int n nN; have cn : c != 0 by rewrite gt_eqF.
apply: (@driver_map g d d m _ _ (get_approx g m) f s (fun x t => c *: f x (c * t)) (fun x t => sqrt c *: s x (c * t))
  delta (delta / c) int int (fun x y => y = x)) => //.
move=> i kb ks x _ ->; rewrite /int.
apply: (@euler_map d d id) => z j /=; congr (_ + _).
have H := parabola_time m kb (j%:R * (delta / c / M%:R)) dl c0; cbv zeta in H.
rewrite -scalemxAl scalemxAr H -scalemxAr -scalerDr scalerA.
have -> : delta / c / M%:R * c = delta / M%:R by rewrite mulrAC divfK.
have e1 : c * (j%:R * (delta / c / M%:R)) = j%:R * (delta / M%:R).
  by rewrite mulrCA; congr (_ * _); rewrite mulrC mulrAC divfK.
have e2 : c * (j%:R * (delta / c / M%:R) + i%:R * (delta / c)) = j%:R * (delta / M%:R) + i%:R * delta.
  by rewrite mulrDr e1 [c * (i%:R * _)]mulrCA [c * (delta / c)]mulrC divfK.
by rewrite e1 e2.
Qed.

(** ** EKF0 with an integrated Brownian prior *)
Lemma pec_affine d d' (p : 'M[R]_(d', d)) (c : 'cV[R]_d') (F : 'cV[R]_d -> R -> 'cV[R]_d) G h x k :
  (forall z t, p *m F z t = G (p *m z + c) t) ->
  pec G h (p *m x + c) k = (p *m (pec F h x k).1 + c, p *m (pec F h x k).2).
Proof.
move=> H; elim: k => [|k IH] /=; first by rewrite H.
rewrite IH; case: (pec F h x k) => y v; cbn [fst snd].
have -> : p *m y + c + h *: (p *m v) = p *m (y + h *: v) + c by rewrite mulmxDr -scalemxAr addrAC.
by rewrite -H mulmxDr -scalemxAr mulmxDr addrAC.
Qed.

Lemma pec_time d (F : 'cV[R]_d -> R -> 'cV[R]_d) G (c h : R) x k : c != 0 ->
  (forall z (j : nat), G z (j%:R * (h / c)) = c *: F z (j%:R * h)) ->
  pec G (h / c) x k = ((pec F h x k).1, c *: (pec F h x k).2).
Proof.
move=> cn H; elim: k => [|k IH] /=; first by have := H x 0%N; rewrite !mul0r => ->.
rewrite IH; case: (pec F h x k) => y v; cbn [fst snd].
rewrite scalerA divfK // H; congr (_, _).
by rewrite -scalerDr scalerA [h / c / _]mulrAC divfK.
Qed.

Section Ibm.
Variables (g : prng) (lp : lapack) (sq : bool) (M : nat).
Hypothesis M0 : (0 < M)%N.
Let int (sp : R) e (_ : key g) (x : res 'cV[R]_e) F T := let! x := x in
  ekf0 lp (None : option (key g)) x F (T / M%:R) M sq (a_prior (ioup 0 sp 1 (T / M%:R) e)) None.

Lemma ekf0_affine d d' m (bm : path_approx g m) (p : 'M[R]_(d', d)) (c : 'cV[R]_d')
  (f : 'cV[R]_d -> R -> 'cV[R]_d) (s : 'cV[R]_d -> R -> 'M[R]_(d, m)) f' s' (delta sp sp' : R) (N : nat) (k : key g) x0 :
  (0 < d)%N -> (0 < d')%N -> 0 < delta -> sp != 0 -> sp' != 0 ->
  (forall x t, p *m f x t = f' (p *m x + c) t) -> (forall x t, p *m s x t = s' (p *m x + c) t) ->
  forall n, (n <= N)%N -> exists x,
  nth (Val x0) (sde_solver f s bm delta (int sp (e := d)) k (Val x0) N).1.2 n = Val x /\
  nth (Val (p *m x0 + c)) (sde_solver f' s' bm delta (int sp' (e := d')) k (Val (p *m x0 + c)) N).1.2 n = Val (p *m x + c).
Proof.
move=> d0 d0' dl sp0 sp0' Hf Hs n nN.
have hm : 0 < delta / M%:R by rewrite divr_gt0 // ltr0n.
apply: (@driver_map g d d' m _ _ bm f s f' s' delta delta (int sp (e := d)) (int sp' (e := d'))
  (fun a b => exists x, a = Val x /\ b = Val (p *m x + c))) => //; first by exists x0.
move=> i kb ks a b [x [-> ->]]; rewrite /int !rbind_val.
rewrite (@ekf0_pec lp d _ _ _ d0 hm sp0 g) (@ekf0_pec lp d' _ _ _ d0' hm sp0' g).
eexists; split; first by reflexivity.
by rewrite (@pec_affine d d' p c (fun z t => f z (t + i%:R * delta) + s z (t + i%:R * delta) *m jacR (fun s => eval_fn s delta (get_coeffs bm kb delta)) t)) // => z t; rewrite mulmxDr mulmxA Hf Hs.
Qed.

Lemma ekf0_time d m (f : 'cV[R]_d -> R -> 'cV[R]_d) (s : 'cV[R]_d -> R -> 'M[R]_(d, m))
  (delta c sp sp' : R) (N : nat) (k : key g) x0 :
  (0 < d)%N -> 0 < delta -> 0 < c -> sp != 0 -> sp' != 0 ->
  forall n, (n <= N)%N -> exists x,
  nth (Val x0) (sde_solver f s (get_approx g m) delta (int sp (e := d)) k (Val x0) N).1.2 n = Val x /\
  nth (Val x0) (sde_solver (fun x t => c *: f x (c * t)) (fun x t => sqrt c *: s x (c * t)) (get_approx g m) (delta / c)
    (int sp' (e := d)) k (Val x0) N).1.2 n = Val x.
Proof.
move=> d0 dl c0 sp0 sp0' n nN; have cn : c != 0 by rewrite gt_eqF.
have hm : 0 < delta / M%:R by rewrite divr_gt0 // ltr0n.
have hc : 0 < delta / c / M%:R by rewrite !divr_gt0 // ltr0n.
apply: (@driver_map g d d m _ _ (get_approx g m) f s (fun x t => c *: f x (c * t)) (fun x t => sqrt c *: s x (c * t))
  delta (delta / c) (int sp (e := d)) (int sp' (e := d))
  (fun a b => exists x, a = Val x /\ b = Val x)) => //; first by exists x0.
move=> i kb ks a b [x [-> ->]]; rewrite /int !rbind_val.
rewrite (@ekf0_pec lp d _ _ _ d0 hm sp0 g) (@ekf0_pec lp d _ _ _ d0 hc sp0' g).
eexists; split; first by reflexivity.
have -> : delta / c / M%:R = delta / M%:R / c by rewrite mulrAC.
rewrite (@pec_time d (fun z t => f z (t + i%:R * delta) + s z (t + i%:R * delta) *m jacR (fun s => eval_fn s delta (get_coeffs (get_approx g m) kb delta)) t) _ c) // => z j.
have H := parabola_time m kb (j%:R * (delta / M%:R / c)) dl c0; cbv zeta in H.
rewrite -scalemxAl scalemxAr H -scalemxAr -scalerDr.
have e1 : c * (j%:R * (delta / M%:R / c)) = j%:R * (delta / M%:R).
  by rewrite mulrCA; congr (_ * _); rewrite mulrC divfK.
have e2 : c * (j%:R * (delta / M%:R / c) + i%:R * (delta / c)) = j%:R * (delta / M%:R) + i%:R * delta.
  by rewrite mulrDr e1 [c * (i%:R * _)]mulrCA [c * (delta / c)]mulrC divfK.
by rewrite e1 e2.
Qed.
End Ibm.

(** The same for Euler-Maruyama. *)
Lemma em_states_seq (g : prng) d m F S e (k : key g) (x0 : 'cV[R]_d) N :
  (euler_maruyama F S e k x0 N).2 = mkseq (@emseq d m F S e (dWs e true (key_draws m k N)) x0) N.+1.
Proof.
by have := congr1 (fun r => if r is Val y then y.2 else [::]) (em_agree F S e k x0 N); rewrite em_pathwiseE ?size_map ?size_split.
Qed.

Lemma em_coordinates (g : prng) d d' m (p : 'M[R]_(d', d)) (c : 'cV[R]_d')
  (f : 'cV[R]_d -> R -> 'cV[R]_d) (s : 'cV[R]_d -> R -> 'M[R]_(d, m)) f' s' (h : R) (N : nat) (k : key g) x0 :
  (forall x t, p *m f x t = f' (p *m x + c) t) -> (forall x t, p *m s x t = s' (p *m x + c) t) ->
  (euler_maruyama f' s' h k (p *m x0 + c) N).2 = [seq p *m x + c | x <- (euler_maruyama f s h k x0 N).2].
Proof.
move=> Hf Hs; rewrite !em_states_seq -map_comp; apply: eq_map; elim=> [//|n /= ->].
by rewrite /emstep -Hf -Hs !mulmxDr -!scalemxAr -mulmxA [RHS]addrAC; congr (_ + _); rewrite addrAC.
Qed.

Lemma em_time (g : prng) d m (f : 'cV[R]_d -> R -> 'cV[R]_d) (s : 'cV[R]_d -> R -> 'M[R]_(d, m))
  (h c : R) (N : nat) (k : key g) x0 : 0 <= h -> 0 < c ->
  (euler_maruyama (fun x t => c *: f x (c * t)) (fun x t => sqrt c *: s x (c * t)) (h / c) k x0 N).2 =
  (euler_maruyama f s h k x0 N).2.
Proof.
move=> h0 c0; have cn : c != 0 by rewrite gt_eqF.
rewrite !em_states_seq; apply: eq_mkseq; elim=> [//|n IH] /=; rewrite IH /emstep /dWs.
have -> : c * (n%:R * (h / c)) = n%:R * h by rewrite mulrCA [c * _]mulrC divfK.
rewrite scalerA divfK //; congr (_ + _).
have -> : sqrt (h / c) = sqrt h / sqrt c.
  by toR; rewrite sqrt_div //; [apply/RleP | apply/RltP].
have sc : sqrt c != 0 by rewrite gt_eqF //; apply/RltP; apply: sqrt_lt_R0; apply/RltP.
by rewrite -scalemxAl scalemxAr scalerA [sqrt c * _]mulrC divfK.
Qed.

(** ** Example: [ibm] is the lower part of [double_ibm] *)
Definition lower : 'M[R]_(2, 3) := mx 2 3 [:: [:: 0; 1; 0]; [:: 0; 0; 1]].

Lemma lower_props : [/\ lower *m lower^T = 1%:M,
  forall x t, lower *m dibm_drift x t = ibm_drift (lower *m x) t &
  forall x t, lower *m dibm_sigma x t = ibm_sigma (lower *m x) t].
Proof.
split.
- by apply/matrixP; apply: ord2P; apply: ord2P; rewrite mulmxE sum3 !mxE ?inordK //= ?mulr0 ?mul0r ?mulr1 ?addr0 ?add0r.
- move=> x t; rewrite /dibm_drift /ibm_drift !mulmxA; congr (_ *m _).
  by apply/matrixP; apply: ord2P; apply: ord3P; rewrite !mulmxE ?sum2 ?sum3 !mxE ?inordK //= ?mulr0 ?mul0r ?mulr1 ?addr0 ?add0r.
by move=> x t; apply/matrixP; apply: ord2P => j; rewrite (ord1 j) mulmxE sum3 !mxE ?inordK //= ?mulr0 ?mul0r ?mul1r ?addr0 ?add0r.
Qed.
