(** Lemmas about Algorithm 4. *)
From Coq Require Import Reals Lra FunctionalExtensionality.
From Coquelicot Require Import Coquelicot.
From mathcomp Require Import all_ssreflect all_algebra mxtens.
From Verif Require Import Rstruct Base Linalg Lapack Calc Prob Spec M_Utils L_Utils M_Foster L_Foster M_SdeSolver L_SdeSolver
  M_Filter L_Filter M_Prior L_Prior M_OdeSolvers L_OdeSolvers L_Alg3 M_Ssm.

Set Implicit Arguments.
Unset Strict Implicit.
Unset Printing Implicit Defensive.
Import Order.TTheory GRing.Theory Num.Theory.
Local Open Scope ring_scope.

Section Law.
Variable d : nat.
Notation sel := (@selector d 4).

Lemma sel4_ortho (i j : 'I_4) : sel i *m (sel j)^T = (i == j)%:R%:M.
Proof.
apply/matrixP=> k l; rewrite mul_selT !mxE (can_eq (@mxtens_indexK _ _)) xpair_eqE.
by rewrite [l == k]eq_sym [j == i]eq_sym; case: (k == l); case: (i == j).
Qed.

Definition La (delta : R) (D : 'M[R]_d) : 'M[R]_(d * 4, d) :=
  (sel 1)^T *m (delta^-1 *: D) + (sel (inord 2))^T.
Definition Lb (delta : R) (D : 'M[R]_d) : 'M[R]_(d * 4, d) :=
  (sel 1)^T *m ((sqrt 6%:R / delta) *: D) + (sel (inord 3))^T.

Lemma sel_La delta D (i : 'I_4) : sel i *m La delta D =
  match val i with 1 => delta^-1 *: D | 2 => 1%:M | _ => 0 end.
Proof.
rewrite mulmxDr mulmxA !sel4_ortho.
have -> : (i == 1) = (val i == 1%N) by [].
have -> : (i == inord 2) = (val i == 2%N) by rewrite -val_eqE /= inordK.
by case: i => [[|[|[|[|i]]]] Hi] //; rewrite ![val (Ordinal _)]/= ?eqxx ?mulr0n ?mulr1n ?scalar0 ?mul0mx ?mul1mx ?add0r ?addr0.
Qed.
Lemma sel_Lb delta D (i : 'I_4) : sel i *m Lb delta D =
  match val i with 1 => (sqrt 6%:R / delta) *: D | 3 => 1%:M | _ => 0 end.
Proof.
rewrite mulmxDr mulmxA !sel4_ortho.
have -> : (i == 1) = (val i == 1%N) by [].
have -> : (i == inord 3) = (val i == 3%N) by rewrite -val_eqE /= inordK.
by case: i => [[|[|[|[|i]]]] Hi] //; rewrite ![val (Ordinal _)]/= ?eqxx ?mulr0n ?mulr1n ?scalar0 ?mul0mx ?mul1mx ?add0r ?addr0.
Qed.

Lemma slice2_var (delta : R) (D : 'M[R]_d) (r c : 'I_4) : slice2 r c (ssm_var delta D) =
  match val r, val c with
  | 1, 1 => (4%:R / delta) *: (D *m D^T) | 1, 2 => D | 1, 3 => (sqrt 6%:R / 2%:R) *: D
  | 2, 1 => D^T | 2, 2 => delta%:M
  | 3, 1 => (sqrt 6%:R / 2%:R) *: D^T | 3, 3 => (delta / 2%:R)%:M
  | _, _ => 0
  end.
Proof.
apply/matrixP=> k l; rewrite mxE [LHS]mxE !mxtens_indexK mxE.
have dg (z : R) : (if k == l then z else 0) = (z%:M : 'M[R]_d) k l by rewrite mxE; case: (k == l); rewrite ?mulr1n ?mulr0n.
case: r => [[|[|[|[|r]]]] Hr] //; case: c => [[|[|[|[|c]]]] Hc] //; rewrite ![val (Ordinal _)]/=; rewrite ?zeromxE ?dg //.
- by rewrite /Evfvf -scalemxAl.
- by rewrite trmxE.
- by rewrite /Evfi !scalemxE trmxE.
Qed.

Lemma var_decomp (delta : R) (D : 'M[R]_d) : delta != 0 ->
  ssm_var delta D = delta *: (La delta D *m (La delta D)^T) + (delta / 2%:R) *: (Lb delta D *m (Lb delta D)^T).
Proof.
move=> d0; apply: slice2_ext => r c.
rewrite slice2D -[slice2 r c (_ *: _)]sel_slice2 -[slice2 r c ((_ / _) *: _)]sel_slice2.
rewrite -!(scalemxAr, scalemxAl) !mulmxA sel_La sel_Lb -!mulmxA -!trmx_mul sel_La sel_Lb slice2_var.
have s6 : sqrt 6%:R * sqrt 6%:R = 6%:R :> R by apply: sqrt_sqrt; apply/RleP; rewrite ler0n.
case: r => [[|[|[|[|r]]]] Hr] //; case: c => [[|[|[|[|c]]]] Hc] //; rewrite ![val (Ordinal _)]/=;
  rewrite ?trmx0 ?mul0mx ?mulmx0 ?scaler0 ?addr0 ?add0r ?trmx1 ?mulmx1 ?mul1mx ?scalemx1 //.
- rewrite !linearZ /= -!(scalemxAl, scalemxAr) !scalerA -scalerDl; congr (_ *: _).
  have d0' : delta <> 0 by apply/eqP.
  transitivity ((1 + (sqrt 6%:R * sqrt 6%:R) / 2%:R) / delta); first by rewrite s6; rfield.
  by set s := sqrt _; rfield.
- by rewrite scalerA divff // scale1r.
- by rewrite scalerA; congr (_ *: _); have d0' : delta <> 0 by [apply/eqP]; set s := sqrt _; rfield.
- by rewrite linearZ /= scalerA divff // scale1r.
- by rewrite linearZ /= scalerA; congr (_ *: _); have d0' : delta <> 0 by [apply/eqP]; set s := sqrt _; rfield.
Qed.

Lemma var_psd (delta : R) (D : 'M[R]_d) : 0 < delta -> psd (ssm_var delta D).
Proof.
move=> d0; rewrite var_decomp ?lt0r_neq0 //.
by apply: psdD; apply: psdZ; rewrite ?divr_ge0 ?ler0n ?ltW //; exact: psd_gram.
Qed.
End Law.

(** ** Law of the initial state *)
Lemma Emx_lin2 Om (E : expectation Om) n p q r (f1 : Om -> 'M[R]_(n, p)) (L1 : 'M[R]_(q, n)) (L2 : 'M[R]_(p, r)) :
  Emx E (fun w => L1 *m f1 w *m L2) = L1 *m Emx E f1 *m L2.
Proof. by rewrite Emx_mulr Emx_mull. Qed.

Lemma joint4_affine d (delta : R) (D : 'M[R]_d) (x f a b : 'cV[R]_d) : delta != 0 ->
  joint4 x (f + D *m jacR (fun s => eval_parabola s delta a b) 0) a b - joint4 x f 0 0 =
  La delta D *m a + Lb delta D *m b.
Proof.
move=> d0; apply: slice_ext => i; rewrite sliceB sliceD -!sel_slice !mulmxA sel_La sel_Lb !sel_slice !slice_interl.
rewrite jacR_eval // mul0r mulr0 subr0 mulr1.
case: i => [[|[|[|[|i]]]] Hi] //; rewrite ![val (Ordinal _)]/=.
- by rewrite subrr !mul0mx addr0.
- by rewrite addrC addKr -scalemxAr mulmxDr -!scalemxAl scalerDr -scalemxAr scalerA [_^-1 * _]mulrC.
- by rewrite subr0 mul1mx mul0mx addr0.
- by rewrite subr0 mul1mx mul0mx add0r.
Qed.

Lemma joint4_law Om (E : expectation Om) d (delta : R) (D : 'M[R]_d) (x f : 'cV[R]_d) (a b : Om -> 'cV[R]_d) :
  delta != 0 -> Emx E a = 0 -> Emx E b = 0 ->
  Emx E (fun w => a w *m (a w)^T) = delta%:M -> Emx E (fun w => b w *m (b w)^T) = (delta / 2%:R)%:M ->
  Emx E (fun w => a w *m (b w)^T) = 0 ->
  let X w := joint4 x (f + D *m jacR (fun s => eval_parabola s delta (a w) (b w)) 0) (a w) (b w) in
  let m := joint4 x f 0 0 in
  Emx E X = m /\ Emx E (fun w => (X w - m) *m (X w - m)^T) = ssm_var delta D.
Proof.
move=> d0 Ea Eb Eaa Ebb Eab /=; set m := joint4 x f 0 0.
have XE w : joint4 x (f + D *m jacR (fun s => eval_parabola s delta (a w) (b w)) 0) (a w) (b w) - m
   = La delta D *m a w + Lb delta D *m b w by exact: joint4_affine.
split.
  rewrite (@Emx_ext _ _ _ _ _ (fun w => m + (La delta D *m a w + Lb delta D *m b w))).
    by rewrite !EmxD Emx_const !Emx_mull Ea Eb !mulmx0 !addr0.
  by move=> w; rewrite -XE [m + _]addrC subrK.
have Eba : Emx E (fun w => b w *m (a w)^T) = 0.
  by apply/matrixP=> i j; have /matrixP/(_ j i) := Eab; rewrite !mxE => <-; apply: E_ext => w; rewrite !mxE; apply: eq_bigr => k _; rewrite !mxE mulrC.
rewrite (@Emx_ext _ _ _ _ _ (fun w =>
  (La delta D *m (a w *m (a w)^T) *m (La delta D)^T + La delta D *m (a w *m (b w)^T) *m (Lb delta D)^T) +
  (Lb delta D *m (b w *m (a w)^T) *m (La delta D)^T + Lb delta D *m (b w *m (b w)^T) *m (Lb delta D)^T))).
  rewrite !EmxD !Emx_lin2 Eaa Ebb Eab Eba !mulmx0 !mul0mx addr0 add0r var_decomp //.
  by rewrite !mul_mx_scalar -!scalemxAl.
move=> w; rewrite XE linearD /= mulmxDl !mulmxDr !trmx_mul !mulmxA.
by [].
Qed.

Lemma parabola_joint g d (E : expectation (key g)) (delta : R) (D : 'M[R]_d) (x f : 'cV[R]_d) :
  standard2 E (fun k => normal2 k 2 d) -> 0 < delta ->
  let X k := let: (a, b) := get_coeffs (get_approx g d) k delta in
    joint4 x (f + D *m jacR (fun s => eval_fn s delta ((a, b) : coeffs (get_approx g d))) 0) a b in
  let m := joint4 x f 0 0 in
  Emx E X = m /\ Emx E (fun w => (X w - m) *m (X w - m)^T) = ssm_var delta D.
Proof.
move=> H d0 /=.
have PE k : parabolas d k delta = ((parabolas d k delta).1, (parabolas d k delta).2) by case: (parabolas _ _ _).
have L i j := parabola_law H i j (ltW d0).
have outer (u v : key g -> 'cV[R]_d) i j : Emx E (fun k => u k *m (v k)^T) i j = E (fun k => u k i 0 * v k j 0).
  by rewrite mxE; apply: E_ext => k; rewrite mulmxE big_ord1 trmxE.
have [E1 E2] : let X k := joint4 x (f + D *m jacR (fun s => eval_parabola s delta (parabolas d k delta).1 (parabolas d k delta).2) 0)
    (parabolas d k delta).1 (parabolas d k delta).2 in
  let m := joint4 x f 0 0 in
  Emx E X = m /\ Emx E (fun w => (X w - m) *m (X w - m)^T) = ssm_var delta D.
  apply: joint4_law; first exact: lt0r_neq0.
  - by apply/colP=> i; rewrite !mxE; have [-> _ _ _ _] := L i i.
  - by apply/colP=> i; rewrite !mxE; have [_ -> _ _ _] := L i i.
  - by apply/matrixP=> i j; rewrite outer; have [_ _ -> _ _] := L i j; rewrite mxE mulr_natl.
  - by apply/matrixP=> i j; rewrite outer; have [_ _ _ _ ->] := L i j; rewrite mxE mulr_natl.
  - by apply/matrixP=> i j; rewrite outer mxE; have [_ _ _ -> _] := L i j.
split.
  by rewrite -[RHS]E1; apply: Emx_ext => k; rewrite PE.
by rewrite -[RHS]E2; apply: Emx_ext => k; rewrite PE.
Qed.

Lemma ssm_meanE d (x : 'cV[R]_d) drift : ssm_mean x drift = joint4 x (drift x 0) 0 0.
Proof.
apply/colP=> p; rewrite !mxE; set i := (mxtens_unindex p).2.
by case: i => [[|[|[|[|i]]]] Hi].
Qed.

(** ** The extended vector field *)
Lemma H23E d (i k : 'I_d) (c : 'I_4) : H23 d i (mxtens_index (k, c)) = (i == k)%:R * (2 <= c)%N%:R.
Proof. by rewrite [LHS]mxE tensmxE !mxE. Qed.

Lemma H23_mul d (y : 'cV[R]_(d * 4)) : H23 d *m y = slice (inord 2) y + slice (inord 3) y.
Proof.
apply/colP=> i; rewrite mulmxE addmxE sum_mxtens (bigD1 i) //= [X in _ + X]big1 => [|k ki].
  rewrite addr0 !big_ord_recl big_ord0 !H23E eqxx !mul1r !mul0r !add0r addr0.
  rewrite /slice [X in _ = X + _]mxE [X in _ = _ + X]mxE; congr (y (mxtens_index (i, _)) 0 + y (mxtens_index (i, _)) 0).
    by apply/val_inj; rewrite /= inordK.
  by apply/val_inj; rewrite /= inordK.
by rewrite big1 // => c _; rewrite H23E eq_sym (negPf ki) !mul0r.
Qed.

Lemma pol_slice d delta t (x : 'cV[R]_(d * 4)) (i : 'I_4) :
  slice i (pol d delta t *m x) = pol_block delta t i i *: slice i x.
Proof.
rewrite slice_mul (bigD1 i) //= slice2_kron mul_scalar_mx big1 ?addr0 // => j ji.
rewrite slice2_kron.
suff -> : pol_block delta t i j = 0 by rewrite scalar0 mul0mx.
rewrite mxE; move: ji; case: i => [[|[|[|[|i]]]] Hi] //; case: j => [[|[|[|[|j]]]] Hj] //.
Qed.

Lemma v2 : val (inord 2 : 'I_4) = 2%N. Proof. by rewrite /= inordK. Qed.
Lemma v3 : val (inord 3 : 'I_4) = 3%N. Proof. by rewrite /= inordK. Qed.
Lemma pol2 delta t : pol_block delta t (inord 2) (inord 2) = 1 / delta.
Proof. by rewrite mxE v2. Qed.
Lemma pol3 delta t : pol_block delta t (inord 3) (inord 3) = sqrt 6%:R * (1 - 2%:R * t / delta) / delta.
Proof. by rewrite mxE v3. Qed.

Lemma evf_parabola d (drift : 'cV[R]_d -> R -> 'cV[R]_d) (diffusion : 'cV[R]_d -> R -> 'M[R]_d) (delta t : R)
  (x v a b : 'cV[R]_d) : delta != 0 ->
  extended_vector_field drift diffusion delta (joint4 x v a b) t =
  drift x t + diffusion x t *m jacR (fun s => eval_parabola s delta a b) t.
Proof.
move=> d0; rewrite /extended_vector_field slice_interl /=; congr (_ + _).
rewrite -!mulmxA; congr (_ *m _); rewrite H23_mul !pol_slice !slice_interl jacR_eval //.
rewrite pol2 pol3 !v2 !v3.
rewrite scalerDr scalerA; congr (_ + _); first by rewrite mul1r.
by congr (_ *: _); rewrite mulrC !mulrA.
Qed.

(** ** What the shipped solvers do *)
Definition noise_fits d (noise : noise_arg) : bool :=
  if noise is Some (existT p (existT q _)) then (p == d) && (q == d) else true.

Lemma get_noise_fits d noise : noise_fits d noise -> exists M, get_noise d noise = Val M.
Proof. by case: noise => [[p [q M]]|] /= H; [rewrite H; eexists | eexists]. Qed.
Lemma get_noise_misfit d noise : ~~ noise_fits d noise -> get_noise d noise = Raise AssertionError.
Proof. by case: noise => [[p [q M]]|] //= /negPf ->. Qed.

Section Outcome.
Variables (EKF0 : bool) (lp : lapack) (g : prng) (d m : nat) (k : option (key g)) (init : 'cV[R]_d) (delta : R)
  (drift : 'cV[R]_d -> R -> 'cV[R]_d) (diffusion : 'cV[R]_d -> R -> 'M[R]_(d, m)) (h : R) (N : nat) (sqrt : bool)
  (prior : prior_arg) (noise : noise_arg).
Notation run := (marginal EKF0 lp k init delta drift diffusion h N sqrt prior noise).

Lemma marginal_outcome : run =
  Raise (if (d == m) && noise_fits d noise then if d == 0%N then ValueError else TypeError else AssertionError).
Proof.
rewrite /marginal /marginal_xi /ssm_solver_xi; case: (d =P m) => [dm|] //=.
case E: (noise_fits d noise); last by rewrite (get_noise_misfit (negbT E)).
have [M ->] := get_noise_fits E; rewrite /rbind; case: (d == 0%N) => //.
rewrite /ssm_prior; case: prior => [[n tr]|] //.
by case: (n == 2%N) => //; case: (as_transition 2 tr) => [[? ?] ?].
Qed.
End Outcome.

(** ** The driver *)
Section Driver.
Variables (g : prng) (d m : nat) (X C : Type).
Variables (drift : 'cV[R]_d -> R -> 'cV[R]_d) (sigma : 'cV[R]_d -> R -> 'M[R]_(d, m)) (delta : R).
Variable solver : key g -> X -> ('cV[R]_d -> R -> 'cV[R]_d) -> ('cV[R]_d -> R -> 'M[R]_(d, m)) -> R -> res (X * C).
Notation body := (ssm_body drift sigma delta solver).

Lemma ssm_body_diag s i : (body s i).2 = (body s i).1.
Proof. by case: i => i [k t]; rewrite /ssm_body; case: (split2 k). Qed.

Lemma ssm_scan_nth (s : res X) inps i0 j : (j < size inps)%N ->
  nth s (s :: (scan body s inps).2) j.+1 = (body (nth s (s :: (scan body s inps).2) j) (nth i0 inps j)).1.
Proof.
elim: inps s j => //= i inps IH s [|j] Hj; first by rewrite ssm_body_diag.
rewrite ssm_body_diag; set s' := (body s i).1.
have := IH s' j Hj; rewrite /= (set_nth_default s) ?scan_size // => ->.
by case: j Hj => //= j Hj; rewrite (set_nth_default s s') // scan_size; apply: ltnW.
Qed.

Definition trace (k : key g) (x0 : X) :=
  solver (split2 k).2 x0 (fun z t => drift z (t + 0)) (fun z t => sigma z (t + 0)) delta.

Lemma driver_raise k x0 N e : trace k x0 = Raise e ->
  ssm_parabola_ode_solver drift sigma delta solver k x0 N = Raise e.
Proof.
by rewrite /trace /ssm_parabola_ode_solver /ssm_body; case: (split2 k) => k1 k2 /= ->.
Qed.

Lemma driver_recursion k x0 N : (forall e, trace k x0 <> Raise e) ->
  exists traj, [/\ ssm_parabola_ode_solver drift sigma delta solver k x0 N =
                    Val (mkseq (fun i => i%:R * delta) N.+1, traj),
    size traj = N.+1, nth (Val x0) traj 0 = Val x0 &
    forall i, (i < N)%N -> nth (Val x0) traj i.+1 =
      let! x := nth (Val x0) traj i in
      let! r := solver (split2 (nth k (split k N) i)).2 x (fun z t => drift z (t + i%:R * delta))
        (fun z t => sigma z (t + i%:R * delta)) delta in Val r.1].
Proof.
move=> H.
set inps := zip (iota 0 N) (zip (split k N) (mkseq (fun i => i%:R * delta) N)).
have sz2 : size (zip (split k N) (mkseq (fun i => i%:R * delta) N)) = N.
  by rewrite size_zip size_split size_mkseq minnn.
have sz : size inps = N by rewrite size_zip size_iota sz2 minnn.
exists (Val x0 :: (scan body (Val x0) inps).2); split=> //.
- rewrite /ssm_parabola_ode_solver scan_ev_progress linspace_grid -linspace_grid but_last_grid.
  have -> : (body (Val x0) (0%N, (k, 0))).1 = rmap fst (trace k x0).
    by rewrite /trace /ssm_body; case: (split2 k).
  rewrite linspace_grid.
  by case E: (trace k x0) H => [r||e] H //=; rewrite /jnp_insert ?take0 ?drop0 //; case: (H e).
- by rewrite /= scan_size sz.
move=> i Hi; rewrite (@ssm_scan_nth _ _ (0%N, (k, 0))) ?sz //.
rewrite nth_zip ?size_iota ?sz2 // nth_zip ?size_split ?size_mkseq // nth_mkseq //.
Qed.
End Driver.

(** ** The two linearisations *)
Section Jacobians.
Variables (d : nat) (drift : 'cV[R]_d -> R -> 'cV[R]_d) (diffusion : 'cV[R]_d -> R -> 'M[R]_d) (delta t : R).
Notation sel := (@selector d 4).
Notation evf x := (extended_vector_field drift diffusion delta x t).

(** dW/dt as a matrix acting on the state *)
Definition slopes : 'M[R]_(d, d * 4) :=
  delta^-1 *: (sel (inord 2) + (sqrt 6%:R * (1 - 2%:R * (t / delta))) *: sel (inord 3)).

Lemma slopesE : H23 d *m pol d delta t = slopes.
Proof.
have ext (A B : 'M[R]_(d, d * 4)) : (forall y : 'cV[R]__, A *m y = B *m y) -> A = B.
  by move=> H; apply/matrixP=> i p; have /colP/(_ i) := H (delta_mx p 0); rewrite -!colE !mxE.
apply: ext => y.
rewrite -mulmxA H23_mul !pol_slice pol2 pol3 /slopes -scalemxAl mulmxDl -scalemxAl !sel_slice.
rewrite scalerDr scalerA mul1r; congr (_ + _ *: _).
by rewrite mulrC !mulrA.
Qed.

Lemma evfE x : evf x = drift (slice 0 x) t + diffusion (slice 0 x) t *m (slopes *m x).
Proof. by rewrite /extended_vector_field -!mulmxA -slopesE !mulmxA. Qed.

Lemma jac_evf x : jac (fun z => evf z) x =
  jac (fun z => drift z t + diffusion z t *m (slopes *m x)) (slice 0 x) *m sel 0 + diffusion (slice 0 x) t *m slopes.
Proof.
apply/matrixP=> i p; case: (mxtens_indexP p) => k j.
rewrite [LHS]mxE addmxE.
have sv i' s : slice i' (vshift x (mxtens_index (k, j)) s) = slice i' x + (s * (j == i')%:R) *: delta_mx k 0.
  apply/colP=> l; rewrite mxE /vshift addmxE scalemxE [X in _ = X]addmxE scalemxE !mxE.
  rewrite (can_eq (@mxtens_indexK _ _)) xpair_eqE [i' == j]eq_sym.
  by case: (l == k); case: (j == i'); rewrite /= ?mulr1 ?mulr0.
have mv (M : 'M[R]_(d, d * 4)) s : M *m vshift x (mxtens_index (k, j)) s = M *m x + s *: col (mxtens_index (k, j)) M.
  by rewrite mulmxDr -scalemxAr -colE.
have ms (M : 'M[R]_d) : (M *m sel 0) i (mxtens_index (k, j)) = (j == 0)%:R * M i k.
  rewrite mulmxE (bigD1 k) //= big1 ?addr0 => [|l lk]; rewrite mxE (can_eq (@mxtens_indexK _ _)) xpair_eqE.
    by rewrite eqxx mulrC.
  by rewrite eq_sym (negPf lk) mulr0.
have sc : (j == 0) -> col (mxtens_index (k, j)) slopes = 0.
  move=> /eqP ->; apply/colP=> l; rewrite !mxE !(can_eq (@mxtens_indexK _ _)) !xpair_eqE.
  have -> : (0 == inord 2 :> 'I_4) = false by rewrite -val_eqE v2.
  have -> : (0 == inord 3 :> 'I_4) = false by rewrite -val_eqE v3.
  by rewrite !andbF !mulr0n mulr0 addr0 mulr0.
have dc : (diffusion (slice 0 x) t *m slopes) i (mxtens_index (k, j)) =
    (diffusion (slice 0 x) t *m col (mxtens_index (k, j)) slopes) i 0 by rewrite [in RHS]colE mulmxA -colE [RHS]mxE.
rewrite ms; case j0: (j == 0).
  rewrite dc sc // mulmx0 zeromxE.
  rewrite mul1r addr0 [RHS]mxE; apply: Derive_ext => s.
  by rewrite evfE sv mv sc // scaler0 addr0 j0 mulr1.
rewrite mul0r add0r dc; set c : R := (_ *m col _ _) i 0; apply: is_derive_unique; set a : R := evf x i 0.
apply: (is_derive_ext (fun s : R => (a + s * c)%Re)) => [s|].
  by rewrite /a !evfE sv mv j0 mulr0 scale0r addr0 mulmxDr -scalemxAr addrA [RHS]addmxE scalemxE -/c.
by auto_derive => //; ring.
Qed.

Lemma entryE n q (M : 'M[R]_(n, q)) i p : M i p = (M *m (delta_mx p 0 : 'cV[R]_q)) i 0.
Proof. by rewrite -colE mxE. Qed.

Lemma jac_ssm1 x : jacfwd (fun z => ssm_observation false drift diffusion delta z t) x =
  sel 1 - diffusion (slice 0 x) t *m slopes
        - jac (fun z => drift z t + diffusion z t *m (slopes *m x)) (slice 0 x) *m sel 0.
Proof.
apply/matrixP=> i p; rewrite mxE [RHS]entryE; set e := delta_mx p 0.
rewrite /ssm_observation; cbn [fst snd dsub dslice dlift].
by rewrite jac_evf -sel_slice -mulmxBl opprD addrA addrAC.
Qed.

Lemma jac_ssm0 x : jacfwd (fun z => ssm_observation true drift diffusion delta z t) x =
  sel 1 - diffusion (slice 0 x) t *m slopes.
Proof.
apply/matrixP=> i p; rewrite mxE [RHS]entryE; set e := delta_mx p 0.
rewrite /ssm_observation /stop_positions; cbn [fst snd dsub dslice dlift stop_gradient].
set e0 := interl (fun i => if _ then 0 else _).
have -> : interl (fun i0 : 'I_4 => if i0 == 0 then slice 0 x else slice i0 x) = x.
  by apply: slice_ext => j; rewrite slice_interl; case: eqP => // ->.
rewrite jac_evf mulmxDl -mulmxA sel_slice slice_interl eqxx mulmx0 add0r -sel_slice.
rewrite mulmxBl -!mulmxA; congr ((_ - _ *m _) i 0).
rewrite /slopes -!scalemxAl !mulmxDl -!scalemxAl !sel_slice !slice_interl.
have -> : (inord 2 == 0 :> 'I_4) = false by rewrite -val_eqE v2.
by have -> : (inord 3 == 0 :> 'I_4) = false by rewrite -val_eqE v3.
Qed.

Lemma residual_ssm EKF0 x : dprimal (fun z => ssm_observation EKF0 drift diffusion delta z t) x = slice 1 x - evf x.
Proof.
rewrite /dprimal /ssm_observation /stop_positions; case: EKF0 => //.
cbn [fst snd dsub dslice dlift stop_gradient].
have -> // : interl (fun i0 : 'I_4 => if i0 == 0 then slice 0 x else slice i0 x) = x.
by apply: slice_ext => j; rewrite slice_interl; case: eqP => // ->.
Qed.
End Jacobians.

(** ** Statements in terms of the problem *)
Lemma slopes_joint4 d (delta t : R) (x v a b : 'cV[R]_d) : delta != 0 ->
  slopes d delta t *m joint4 x v a b = jacR (fun s => eval_parabola s delta a b) t.
Proof.
move=> d0; rewrite /slopes -scalemxAl mulmxDl -scalemxAl !sel_slice !slice_interl v2 v3.
by rewrite jacR_eval.
Qed.

Lemma joint4_slices d (x : 'cV[R]_(d * 4)) : x = joint4 (slice 0 x) (slice 1 x) (slice (inord 2) x) (slice (inord 3) x).
Proof.
apply: slice_ext => i; rewrite slice_interl.
case: i => [[|[|[|[|i]]]] Hi] //; rewrite ![val (Ordinal _)]/=; congr (slice _ x); apply/val_inj; rewrite ?v2 ?v3 //.
Qed.

Lemma initial_law Om (E : expectation Om) d (x : 'cV[R]_d) drift (diffusion : 'cV[R]_d -> R -> 'M[R]_d) (delta : R)
  (a b : Om -> 'cV[R]_d) :
  delta != 0 -> Emx E a = 0 -> Emx E b = 0 ->
  Emx E (fun w => a w *m (a w)^T) = delta%:M -> Emx E (fun w => b w *m (b w)^T) = (delta / 2%:R)%:M ->
  Emx E (fun w => a w *m (b w)^T) = 0 ->
  let v w := drift x 0 + diffusion x 0 *m jacR (fun s => eval_parabola s delta (a w) (b w)) 0 in
  let X w := joint4 x (v w) (a w) (b w) in let m := ssm_mean x drift in
  Emx E X = m /\ Emx E (fun w => (X w - m) *m (X w - m)^T) = ssm_var delta (diffusion x 0).
Proof. by move=> d0 Ea Eb Eaa Ebb Eab; rewrite ssm_meanE; exact: joint4_law. Qed.

Lemma initial_parabola_law g d (E : expectation (key g)) (x : 'cV[R]_d) drift (diffusion : 'cV[R]_d -> R -> 'M[R]_d) (delta : R) :
  standard2 E (fun k => normal2 k 2 d) -> 0 < delta ->
  let bm := get_approx g d in
  let X k := let c := get_coeffs bm k delta in
    joint4 x (drift x 0 + diffusion x 0 *m jacR (fun s => eval_fn s delta c) 0) c.1 c.2 in
  let m := ssm_mean x drift in
  Emx E X = m /\ Emx E (fun k => (X k - m) *m (X k - m)^T) = ssm_var delta (diffusion x 0).
Proof.
move=> H d0; rewrite ssm_meanE; have [E1 E2] := parabola_joint (diffusion x 0) x (drift x 0) H d0.
split; [rewrite -[RHS]E1 | rewrite -[RHS]E2]; apply: Emx_ext => k; by rewrite [LHS]/=; case: (parabolas d k delta).
Qed.

(** The field sde_solver integrates over the interval starting at [t_k]. *)
Lemma same_field d g (drift : 'cV[R]_d -> R -> 'cV[R]_d) (diffusion : 'cV[R]_d -> R -> 'M[R]_d) (delta t : R)
  (x : 'cV[R]_(d * 4)) : delta != 0 ->
  extended_vector_field drift diffusion delta x t =
  drift (slice 0 x) t + diffusion (slice 0 x) t *m
    jacR (fun s => eval_fn s delta ((slice (inord 2) x, slice (inord 3) x) : coeffs (get_approx g d))) t.
Proof.
move=> d0; rewrite {1}[x]joint4_slices evf_parabola //.
Qed.

Section Observation.
Variables (d : nat) (drift : 'cV[R]_d -> R -> 'cV[R]_d) (diffusion : 'cV[R]_d -> R -> 'M[R]_d) (delta t : R)
  (x v a b : 'cV[R]_d).
Hypothesis d0 : delta != 0.
Let X := joint4 x v a b.
Let dW := jacR (fun s => eval_parabola s delta a b) t.

(** derivative of the slope of the parabola along the coefficients *)
Lemma ssm_ekf0_jac (dx dv da db : 'cV[R]_d) :
  jacfwd (fun z => ssm_observation true drift diffusion delta z t) X *m joint4 dx dv da db =
  dv - diffusion x t *m jacR (fun s => eval_parabola s delta da db) t.
Proof.
rewrite jac_ssm0 mulmxBl -mulmxA slopes_joint4 // sel_slice /X !slice_interl //.
Qed.

Lemma ssm_ekf1_jac (dx dv da db : 'cV[R]_d) :
  jacfwd (fun z => ssm_observation false drift diffusion delta z t) X *m joint4 dx dv da db =
  dv - diffusion x t *m jacR (fun s => eval_parabola s delta da db) t
     - jac (fun z => drift z t + diffusion z t *m dW) x *m dx.
Proof.
rewrite jac_ssm1 !mulmxBl -!mulmxA !slopes_joint4 // !sel_slice /X !slice_interl //.
Qed.

Lemma ssm_residual EKF0 : dprimal (fun z => ssm_observation EKF0 drift diffusion delta z t) X =
  v - (drift x t + diffusion x t *m dW).
Proof. by rewrite residual_ssm evf_parabola // slice_interl. Qed.
End Observation.

(** Algorithm 4 as the driver's solver. *)
Lemma driver_outcome EKF0 lp g d m drift (sigma : 'cV[R]_d -> R -> 'M[R]_(d, m)) delta (M : nat) sq prior noise (k : key g) x0 N :
  ssm_parabola_ode_solver drift sigma delta
    (fun k x f s T => marginal EKF0 lp (Some k) x T f s (T / M%:R) M sq prior noise) k x0 N =
  Raise (if (d == m) && noise_fits d noise then if d == 0%N then ValueError else TypeError else AssertionError).
Proof. by apply: driver_raise; rewrite /trace marginal_outcome. Qed.

Lemma marginal_never EKF0 (lp : lapack) g (k : option (key g)) :
  exists (init : 'cV[R]_1) (drift : 'cV[R]_1 -> R -> 'cV[R]_1) (diffusion : 'cV[R]_1 -> R -> 'M[R]_1) (delta h : R) (N : nat),
    0 < delta /\ forall sqrt, marginal EKF0 lp k init delta drift diffusion h N sqrt None None = Raise TypeError.
Proof.
exists 0, (fun _ _ => 0), (fun _ _ => 1%:M), 1, 1, 1%N; split; first exact: ltr01.
by move=> sq; rewrite marginal_outcome.
Qed.

Lemma marginal_raises (lp : lapack) g d m (k : option (key g)) (init : 'cV[R]_d) (delta : R)
  (drift : 'cV[R]_d -> R -> 'cV[R]_d) (diffusion : 'cV[R]_d -> R -> 'M[R]_(d, m)) (h : R) (N : nat) (sqrt : bool)
  (prior : prior_arg) (noise : noise_arg) :
  let fits := if noise is Some (existT p (existT q _)) then p = d /\ q = d else True in
  let run0 := ekf0_marginal_parabola lp k init delta drift diffusion h N sqrt prior noise in
  let run1 := ekf1_marginal_parabola lp k init delta drift diffusion h N sqrt prior noise in
  [/\ run0 = run1,
      d = m -> fits -> (0 < d)%N -> run0 = Raise TypeError,
      d = m -> fits -> d = 0%N -> run0 = Raise ValueError &
      ~ (d = m /\ fits) -> run0 = Raise AssertionError].
Proof.
move=> fits; rewrite /ekf0_marginal_parabola /ekf1_marginal_parabola !marginal_outcome.
have H : reflect fits (noise_fits d noise).
  rewrite /fits; case: (noise) => [[p [q M]]|] /=; last by left.
  by apply: (iffP andP) => [[/eqP-> /eqP->]|[-> ->]].
split=> //.
- by move=> /eqP -> /H -> /prednK <-.
- by move=> /eqP -> /H -> /eqP ->.
by case: (d =P m) => [dm|//]; case: H => // f []; split.
Qed.

Lemma driver_marginal EKF0 (lp : lapack) g d (drift : 'cV[R]_d -> R -> 'cV[R]_d) (sigma : 'cV[R]_d -> R -> 'M[R]_d) (delta : R)
  (M : nat) sqrt prior (k : key g) (x0 : 'cV[R]_d) (N : nat) : (0 < d)%N ->
  ssm_parabola_ode_solver drift sigma delta
    (fun k x f s T => marginal EKF0 lp (Some k) x T f s (T / M%:R) M sqrt prior None) k x0 N = Raise TypeError.
Proof. by move=> d0; rewrite driver_outcome eqxx /= eqn0Ngt d0. Qed.
