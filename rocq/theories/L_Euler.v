(** Lemmas about the Euler and Euler-Maruyama schemes. *)
From Coq Require Import Reals Lra FunctionalExtensionality.
From Coquelicot Require Import Coquelicot.
From mathcomp Require Import all_ssreflect all_algebra mxtens.
From Verif Require Import Rstruct Base Linalg Calc Prob Spec M_Utils M_Euler M_Ivp.

Set Implicit Arguments.
Unset Strict Implicit.
Unset Printing Implicit Defensive.
Import Order.TTheory GRing.Theory Num.Theory.
Local Open Scope ring_scope.

(** ** The Euler scheme *)
Section Euler.
Variables (d : nat) (f : 'cV[R]_d -> R -> 'cV[R]_d) (h : R).

Definition estep (x : 'cV[R]_d) (t : R) := x + h *: f x t.
Fixpoint eseq (x : 'cV[R]_d) (k : nat) : 'cV[R]_d :=
  if k is k'.+1 then estep (eseq x k') (k'%:R * h) else x.

Lemma eulerE x N : euler x f h N = eseq x N.
Proof.
rewrite /euler linspace_grid0 scan_carry /=.
rewrite /mkseq; elim: N => [|N IH] //.
by rewrite -[in iota _ _]addn1 iotaD map_cat foldl_cat IH.
Qed.
End Euler.

Lemma euler_recursion d (f : 'cV[R]_d -> R -> 'cV[R]_d) h init :
  exists traj : nat -> 'cV[R]_d,
  [/\ traj 0%N = init, forall k, traj k.+1 = traj k + h *: f (traj k) (k%:R * h) &
      forall N, euler init f h N = traj N].
Proof. by exists (eseq f h init); split=> // N; rewrite eulerE. Qed.

Lemma euler_linear d (A : 'M[R]_d) h init N :
  euler init (fun x _ => A *m x) h N = mxpow (1%:M + h *: A) N *m init.
Proof.
rewrite eulerE; elim: N => [|N IH]; first by rewrite mul1mx.
by rewrite [LHS]/= /estep IH -mulmxA mulmxDl mul1mx -scalemxAl.
Qed.

Lemma euler_scalar (a h : R) init N :
  euler init (fun x _ => a *: x) h N = (1 + h * a) ^+ N *: (init : 'cV[R]_1).
Proof.
rewrite eulerE; elim: N => [|N IH]; first by rewrite expr0 scale1r.
by rewrite [LHS]/= /estep IH exprS mulrDl mul1r scalerDl !scalerA.
Qed.

Lemma euler_quadrature d (G : R -> 'cV[R]_d) h init N :
  euler init (fun _ t => G t) h N = init + h *: \sum_(0 <= k < N) G (k%:R * h).
Proof.
rewrite eulerE; elim: N => [|N IH]; first by rewrite big_nil scaler0 addr0.
by rewrite [LHS]/= /estep IH big_nat_recr //= scalerDr addrA.
Qed.

(** ** Comparison of functions by their derivatives *)
Lemma le_by_deriv (u v u' v' : R -> R) (a b : R) :
  (forall t : R, a <= t -> t <= b -> is_derive u t (u' t)) ->
  (forall t : R, a <= t -> t <= b -> is_derive v t (v' t)) ->
  (forall t : R, a <= t -> t <= b -> u' t <= v' t) -> u a <= v a ->
  forall t, a <= t -> t <= b -> u t <= v t.
Proof.
move=> Du Dv Hle Ha t at_ tb.
have at' : (a <= t)%Re by apply/RleP.
have tb' : (t <= b)%Re by apply/RleP.
have D s : (a <= s <= t)%Re -> is_derive (fun s => v s - u s)%Re s (v' s - u' s)%Re.
  move=> [s1 s2]; apply: is_derive_minus; [apply: Dv | apply: Du]; apply/RleP; lra.
have [c [Hc E]] : exists c, (Rmin a t <= c <= Rmax a t)%Re /\
    ((v t - u t) - (v a - u a) = (v' c - u' c) * (t - a))%Re.
  apply: (@MVT_gen (fun s => v s - u s)%Re a t (fun s => v' s - u' s)%Re).
    move=> s; rewrite Rmin_left // Rmax_right // => Hs; apply: D; lra.
  move=> s; rewrite Rmin_left // Rmax_right // => Hs.
  by apply: derivable_continuous_pt; exists (v' s - u' s)%Re; apply/is_derive_Reals; apply: D.
rewrite Rmin_left // Rmax_right // in Hc.
have Hcc : (u' c <= v' c)%Re by apply/RleP/Hle; apply/RleP; lra.
move/RleP: Ha => Ha; apply/RleP.
have : (0 <= (v' c - u' c) * (t - a))%Re by apply: Rmult_le_pos; lra.
lra.
Qed.

(** Taylor bounds, on closed intervals. *)
Lemma taylor1_up (g g1 g2 : R -> R) (a b K : R) :
  (forall t : R, a <= t -> t <= b -> is_derive g t (g1 t)) ->
  (forall t : R, a <= t -> t <= b -> is_derive g1 t (g2 t)) ->
  (forall t : R, a <= t -> t <= b -> g2 t <= K) ->
  forall t, a <= t -> t <= b -> g t <= g a + (t - a) * g1 a + K * (t - a) ^+ 2 / 2%:R.
Proof.
move=> D1 D2 HK.
have S1 : forall t, a <= t -> t <= b -> g1 t <= g1 a + K * (t - a).
  apply: (@le_by_deriv g1 (fun t => g1 a + K * (t - a))%Re g2 (fun _ => K) a b) => //.
    by move=> t _ _; auto_derive => //; ring.
  by apply/RleP; rewrite Rminus_eq_0 Rmult_0_r Rplus_0_r; right.
move=> t at_ tb.
have := @le_by_deriv g (fun t => g a + (t - a) * g1 a + K * (t - a) ^ 2 / 2)%Re g1
   (fun t => g1 a + K * (t - a))%Re a b D1 _ S1 _ t at_ tb.
rewrite /Rdiv; toR; apply.
  by move=> s _ _; auto_derive => //; field.
by apply/RleP; right; field.
Qed.

Lemma taylor1 (g g1 g2 : R -> R) (a b K : R) :
  (forall t : R, a <= t -> t <= b -> is_derive g t (g1 t)) ->
  (forall t : R, a <= t -> t <= b -> is_derive g1 t (g2 t)) ->
  (forall t : R, a <= t -> t <= b -> `|g2 t| <= K) ->
  forall t, a <= t -> t <= b -> `|g t - g a - (t - a) * g1 a| <= K * (t - a) ^+ 2 / 2%:R.
Proof.
move=> D1 D2 HK t at_ tb; rewrite ler_norml; apply/andP; split; last first.
  rewrite !ler_subl_addl addrA; apply: (@taylor1_up _ _ g2 a b) => // s s1 s2.
  by apply: le_trans (HK s s1 s2); exact: ler_norm.
have := @taylor1_up (fun s => - g s) (fun s => - g1 s) (fun s => - g2 s) a b K _ _ _ t at_ tb.
move=> H; have {}H := H _ _ _.
suff : - g t <= - g a + (t - a) * - g1 a + K * (t - a) ^+ 2 / 2%:R.
  by move=> /RleP H'; apply/RleP; move: H'; toR; lra.
apply: H => s s1 s2.
- by apply: is_derive_opp; exact: D1.
- by apply: is_derive_opp; exact: D2.
by apply: le_trans (HK s s1 s2); rewrite -normrN; exact: ler_norm.
Qed.

Lemma taylor2 (g g1 g2 g3 : R -> R) (a b K : R) :
  (forall t : R, a <= t -> t <= b -> is_derive g t (g1 t)) ->
  (forall t : R, a <= t -> t <= b -> is_derive g1 t (g2 t)) ->
  (forall t : R, a <= t -> t <= b -> is_derive g2 t (g3 t)) ->
  (forall t : R, a <= t -> t <= b -> `|g3 t| <= K) ->
  forall t, a <= t -> t <= b ->
  `|g t - g a - (t - a) * g1 a - (t - a) ^+ 2 / 2%:R * g2 a| <= K * (t - a) ^+ 3 / 6%:R.
Proof.
move=> D1 D2 D3 HK t at_ tb.
have S1 := @taylor1 g1 g2 g3 a b K D2 D3 HK.
have S1u s : a <= s -> s <= b -> g1 s <= g1 a + (s - a) * g2 a + K * (s - a) ^+ 2 / 2%:R.
  by move=> s1 s2; have := S1 s s1 s2; rewrite ler_norml => /andP [_]; rewrite !ler_subl_addl addrA.
have S1l s : a <= s -> s <= b -> g1 a + (s - a) * g2 a - K * (s - a) ^+ 2 / 2%:R <= g1 s.
  move=> s1 s2; have := S1 s s1 s2; rewrite ler_norml => /andP [/RleP H _].
  by apply/RleP; move: H; toR; lra.
rewrite ler_norml; apply/andP; split; last first.
  have := @le_by_deriv g
     (fun t => g a + (t - a) * g1 a + (t - a) ^ 2 / 2 * g2 a + K * (t - a) ^ 3 / 6)%Re g1
     (fun t => g1 a + (t - a) * g2 a + K * (t - a) ^ 2 / 2)%Re a b D1 _ _ _ t at_ tb.
  move=> H; apply/RleP.
  suff /RleP : g t <= (g a + (t - a) * g1 a + (t - a) ^ 2 / 2 * g2 a + K * (t - a) ^ 3 / 6)%Re by toR; lra.
  apply: H.
  - by move=> s _ _; auto_derive => //; field.
  - by move=> s s1 s2; move: (S1u s s1 s2); toR.
  by apply/RleP; right; field.
have := @le_by_deriv (fun t => g a + (t - a) * g1 a + (t - a) ^ 2 / 2 * g2 a - K * (t - a) ^ 3 / 6)%Re g
   (fun t => g1 a + (t - a) * g2 a - K * (t - a) ^ 2 / 2)%Re g1 a b _ D1 _ _ t at_ tb.
move=> H; apply/RleP.
suff /RleP : (g a + (t - a) * g1 a + (t - a) ^ 2 / 2 * g2 a - K * (t - a) ^ 3 / 6)%Re <= g t by toR; lra.
apply: H.
- by move=> s _ _; auto_derive => //; field.
- by move=> s s1 s2; move: (S1l s s1 s2); toR.
by apply/RleP; right; field.
Qed.

(** ** Convergence of the Euler scheme *)
Section Sup.
Variable n : nat.
Implicit Types (x y : 'cV[R]_n).
Lemma sup_leD x y (a b : R) : sup_le x a -> sup_le y b -> sup_le (x + y) (a + b).
Proof. by move=> Hx Hy i; rewrite mxE; apply: le_trans (ler_norm_add _ _) (ler_add (Hx i) (Hy i)). Qed.
Lemma sup_leN x (a : R) : sup_le x a -> sup_le (- x) a.
Proof. by move=> Hx i; rewrite mxE normrN; exact: Hx. Qed.
Lemma sup_leB x y (a b : R) : sup_le x a -> sup_le y b -> sup_le (x - y) (a + b).
Proof. by move=> Hx Hy; apply: sup_leD => //; apply: sup_leN. Qed.
Lemma sup_leZ (c : R) x (a : R) : 0 <= c -> sup_le x a -> sup_le (c *: x) (c * a).
Proof. by move=> c0 Hx i; rewrite mxE normrM ger0_norm //; apply: ler_wpmul2l => //; exact: Hx. Qed.
Lemma sup_le_trans x (a b : R) : sup_le x a -> a <= b -> sup_le x b.
Proof. by move=> Hx ab i; apply: le_trans (Hx i) ab. Qed.
Lemma sup_le0 : sup_le (0 : 'cV[R]_n) 0.
Proof. by move=> i; rewrite mxE normr0. Qed.
End Sup.

Section EulerConv.
Variables (d : nat) (f : 'cV[R]_d -> R -> 'cV[R]_d) (h L K : R) (N : nat).
Variables (y y2 : R -> 'cV[R]_d).
Hypotheses (h0 : 0 <= h) (L0 : 0 < L) (Lf : lipschitz f L).
Hypothesis D1 : deriv_on (N%:R * h) y (fun t => f (y t) t).
Hypothesis D2 : deriv_on (N%:R * h) (fun t => f (y t) t) y2.
Hypothesis HK : forall t : R, 0 <= t -> t <= N%:R * h -> sup_le (y2 t) K.

Lemma grid_in k : (k <= N)%N -> 0 <= k%:R * h /\ k%:R * h <= N%:R * h.
Proof. by move=> kN; split; [apply: mulr_ge0 => //; exact: ler0n | apply: ler_wpmul2r => //; rewrite ler_nat]. Qed.

Lemma local_error k : (k < N)%N ->
  sup_le (y (k.+1%:R * h) - y (k%:R * h) - h *: f (y (k%:R * h)) (k%:R * h)) (h ^+ 2 * K / 2%:R).
Proof.
move=> kN i; have [a0 aN] := grid_in (ltnW kN); have [b0 bN] := grid_in kN.
have E : k.+1%:R * h - k%:R * h = h by rewrite -addn1 natrD mulrDl mul1r addrC addKr.
have ab : k%:R * h <= k.+1%:R * h by rewrite -subr_ge0 E.
have := @taylor1 (fun t => y t i 0) (fun t => f (y t) t i 0) (fun t => y2 t i 0)
   (k%:R * h) (k.+1%:R * h) K _ _ _ (k.+1%:R * h) ab (lexx _).
rewrite !mxE E (mulrC (h ^+ 2)); apply=> t t1 t2.
- by apply: D1; [apply: le_trans t1 | apply: le_trans bN].
- by apply: D2; [apply: le_trans t1 | apply: le_trans bN].
by apply: HK; [apply: le_trans t1 | apply: le_trans bN].
Qed.

Lemma euler_error k : (k <= N)%N ->
  sup_le (eseq f h (y 0) k - y (k%:R * h))
         (h ^+ 2 * K / 2%:R * \sum_(0 <= i < k) (1 + h * L) ^+ i).
Proof.
elim: k => [|k IH] kN; first by rewrite mul0r big_nil mulr0 subrr; exact: sup_le0.
have {}IH := IH (ltnW kN).
have -> : \sum_(0 <= i < k.+1) (1 + h * L) ^+ i = 1 + (1 + h * L) * \sum_(0 <= i < k) (1 + h * L) ^+ i.
  rewrite big_nat_recl // expr0; congr (_ + _); rewrite big_distrr /=.
  by apply: eq_bigr => i _; rewrite exprS.
set S := \sum_(0 <= i < k) _ in IH *; set c := h ^+ 2 * K / 2%:R in IH *.
set x := eseq f h (y 0) k in IH *; set t := k%:R * h in IH *.
have -> : eseq f h (y 0) k.+1 - y (k.+1%:R * h) =
   (x - y t) + h *: (f x t - f (y t) t) - (y (k.+1%:R * h) - y t - h *: f (y t) t).
  rewrite [eseq _ _ _ _]/= -/x -/t /estep scalerBr; apply/colP=> i; rewrite !mxE; rring.
have -> : c * (1 + (1 + h * L) * S) = c * S + h * (L * (c * S)) + c by rring.
apply: sup_leB; last exact: local_error.
by apply: sup_leD => //; apply: sup_leZ => //; apply: Lf.
Qed.

Lemma euler_order1 :
  sup_le (euler (y 0) f h N - y (N%:R * h)) (h * K / 2%:R * (((1 + h * L) ^+ N - 1) / L)) /\
  sup_le (euler (y 0) f h N - y (N%:R * h)) (h * K / (2%:R * L) * (exp (L * (N%:R * h)) - 1)).
Proof.
have L0' : (0 < L)%Re by apply/RltP.
have h0' : (0 <= h)%Re by apply/RleP.
have Hb : sup_le (euler (y 0) f h N - y (N%:R * h)) (h * K / 2%:R * (((1 + h * L) ^+ N - 1) / L)).
  have := euler_error (leqnn N); rewrite -eulerE => H; apply: sup_le_trans H _.
  have := subrX1 (1 + h * L) N; rewrite -(big_mkord predT (fun i => (1 + h * L) ^+ i)) => ->.
  set S := \sum_(_ <= _ < _) _.
  have -> : h ^+ 2 * K / 2%:R * S = h * K / 2%:R * ((1 + h * L - 1) * S / L) by toR; field; lra.
  by [].
split=> // i; apply: le_trans (Hb i) _.
have K0 : (0 <= K)%Re.
  apply/RleP; apply: le_trans (normr_ge0 (y2 0 i 0)) _; apply: HK => //.
  by apply: mulr_ge0 => //; exact: ler0n.
have E : ((1 + h * L) ^+ N <= exp (L * (N%:R * h)))%R.
  have -> : L * (N%:R * h) = N%:R * (h * L) by rring.
  elim: N => [|n IH]; first by rewrite mul0r exp_0 expr0.
  have -> : n.+1%:R * (h * L) = n%:R * (h * L) + h * L by rewrite -addn1 natrD mulrDl mul1r.
  rewrite exprS.
  have -> : exp (n%:R * (h * L) + h * L) = (exp (h * L) * exp (n%:R * (h * L)))%Re by rewrite Rmult_comm; exact: exp_plus.
  have hL0 : (0 <= h * L)%Re by apply: Rmult_le_pos; lra.
  apply/RleP; rewrite RmultE; apply: Rmult_le_compat.
  - by rewrite RplusE RmultE; rewrite R1E; lra.
  - by apply/RleP; apply: exprn_ge0; apply/RleP; rewrite RplusE RmultE R1E R0E; lra.
  - by have := exp_ineq1_le (h * L)%Re; rewrite RplusE RmultE R1E.
  by apply/RleP.
have hKL : (0 <= h * K / (2 * L))%Re.
  apply: Rmult_le_pos; first exact: Rmult_le_pos.
  by apply/Rlt_le/Rinv_0_lt_compat; lra.
move/RleP: E => E; apply/RleP.
have -> : h * K / 2%:R * (((1 + h * L) ^+ N - 1) / L) = ((h * K / (2 * L)) * ((1 + h * L) ^+ N - 1))%Re.
  by toR; field; lra.
have -> : h * K / (2%:R * L) * (exp (L * (N%:R * h)) - 1) = ((h * K / (2 * L)) * (exp (L * (N%:R * h)) - 1))%Re.
  by toR; field; lra.
apply: Rmult_le_compat_l => //; move: E; toR; lra.
Qed.
End EulerConv.

(** ** Euler-Maruyama *)
Lemma scan_states S I (f : S -> I -> S * S) s xs : (forall s x, (f s x).2 = (f s x).1) ->
  s :: (scan f s xs).2 = mkseq (carry_at f s xs) (size xs).+1.
Proof.
move=> Hf; apply: (@eq_from_nth _ s); first by rewrite size_mkseq /= scan_size.
rewrite /= scan_size => -[|k] Hk; first by rewrite nth_mkseq // carry_at0.
by rewrite nth_mkseq //= scan_nth_carry.
Qed.

Section Em.
Variables (d m : nat).
Implicit Types (drift : 'cV[R]_d -> R -> 'cV[R]_d) (sigma : 'cV[R]_d -> R -> 'M[R]_(d, m)).

Definition emstep drift sigma (h : R) (x : 'cV[R]_d) (t : R) (w : 'cV[R]_m) :=
  x + h *: drift x t + sigma x t *m w.
Fixpoint emseq drift sigma (h : R) (w : nat -> 'cV[R]_m) (x : 'cV[R]_d) (k : nat) :=
  if k is k'.+1 then emstep drift sigma h (emseq drift sigma h w x k') (k'%:R * h) (w k') else x.

Definition dWs (h : R) (standard : bool) (incs : seq 'cV[R]_m) (k : nat) : 'cV[R]_m :=
  if standard then sqrt h *: nth 0 incs k else nth 0 incs k.

Lemma em_pathwiseE drift sigma h incs init N st : size incs = N ->
  em_pathwise drift sigma h incs init N st =
  Val (mkseq (fun k => k%:R * h) N.+1, mkseq (emseq drift sigma h (dWs h st incs) init) N.+1).
Proof.
move=> sN; rewrite /em_pathwise /em_pathwise_call but_last_grid linspace_grid size_mkseq.
set local := if st then _ else _.
have sl : size local = N by rewrite /local; case: (st); rewrite ?size_map.
rewrite sl eqxx /=; congr (Val (_, _)).
rewrite /jnp_insert take0 drop0 cat0s.
rewrite scan_states; last by move=> s -[].
have sz : size (zip local (mkseq (fun k : nat => k%:R * h) N)) = N by rewrite size_zip size_mkseq sl minnn.
rewrite sz; apply/eq_in_mkseq; elim=> [|k IH] Hk; first by rewrite carry_at0.
rewrite (@carry_atS _ _ _ _ _ _ _ (0, 0)) ?sz // IH ?(ltnW Hk) //.
rewrite nth_zip ?size_mkseq ?sl // nth_mkseq // /emseq -/emseq /emstep /=.
congr (_ + _ *m _); rewrite /local /dWs; case: (st) => //.
by rewrite (nth_map 0) // sN.
Qed.

Lemma em_length_error drift sigma h incs init N st : size incs <> N ->
  em_pathwise drift sigma h incs init N st = Raise ValueError.
Proof.
move=> /eqP sN; rewrite /em_pathwise /em_pathwise_call but_last_grid size_mkseq.
have -> : size (if st then [seq sqrt h *: w | w <- incs] else incs) = size incs.
  by case: st; rewrite ?size_map.
by rewrite (negPf sN).
Qed.

(** The standard draws behind a key. *)
Definition key_draws (g : prng) (k : key g) (N : nat) : seq 'cV[R]_m :=
  [seq normal (split2 ki).1 m | ki <- split k N].

Lemma em_agree (g : prng) drift sigma h (k : key g) init N :
  Val (euler_maruyama drift sigma h k init N) =
  em_pathwise drift sigma h (key_draws k N) init N true.
Proof.
rewrite em_pathwiseE ?size_map ?size_split // /euler_maruyama but_last_grid linspace_grid.
congr (Val (_, _)); rewrite /jnp_insert take0 drop0 cat0s.
rewrite scan_states; last by move=> s [k' t] //=.
have sz : size (zip (split k N) (mkseq (fun k : nat => k%:R * h) N)) = N.
  by rewrite size_zip size_mkseq size_split minnn.
rewrite sz; apply/eq_in_mkseq; elim=> [|i IH] Hi; first by rewrite carry_at0.
rewrite (@carry_atS _ _ _ _ _ _ _ (k, 0)) ?sz // IH ?(ltnW Hi) //.
rewrite nth_zip ?size_mkseq ?size_split // nth_mkseq // /emseq -/emseq /emstep /=.
rewrite /em_body /key_draws (nth_map k) ?size_split //.
Qed.

Lemma em_standard drift sigma h incs init N :
  em_pathwise drift sigma h incs init N true =
  em_pathwise drift sigma h [seq sqrt h *: w | w <- incs] init N false.
Proof.
have [sN|sN] := (size incs =P N); last by rewrite !em_length_error // size_map.
rewrite !em_pathwiseE ?size_map //; congr (Val (_, _)).
apply: eq_in_mkseq; elim=> [|k IH] Hk //=.
by rewrite IH ?(ltnW Hk) // (nth_map 0) // sN.
Qed.

Lemma emseq_ext drift sigma h w w' x k : (forall i, (i < k)%N -> w i = w' i) ->
  emseq drift sigma h w x k = emseq drift sigma h w' x k.
Proof.
elim: k => //= k IH E; rewrite IH ?E // => i Hi.
by apply: E; exact: leqW.
Qed.

(** Restarting after [n] steps with time-shifted coefficients. *)
Lemma emseq_shift drift sigma h w x n k :
  emseq drift sigma h w x (n + k) =
  emseq (fun z t => drift z (t + n%:R * h)) (fun z t => sigma z (t + n%:R * h)) h
        (fun i => w (n + i)%N) (emseq drift sigma h w x n) k.
Proof.
elim: k => [|k IH]; first by rewrite addn0.
rewrite addnS /= IH /emstep.
by have -> : (n + k)%:R * h = k%:R * h + n%:R * h by rewrite natrD mulrDl addrC.
Qed.

(** What the pathwise scheme adds to a trajectory. *)
Definition em_run drift sigma (h : R) (st : bool) (n : nat) (c : seq 'cV[R]_m) (x : 'cV[R]_d)
  : seq 'cV[R]_d :=
  if em_pathwise (fun z t => drift z (t + n%:R * h)) (fun z t => sigma z (t + n%:R * h)) h
       c x (size c) st is Val (_, traj) then behead traj else [::].

Lemma em_chunked drift sigma h st chunks init :
  let N := size (flatten chunks) in
  em_pathwise drift sigma h (flatten chunks) init N st =
  Val (mkseq (fun k => k%:R * h) N.+1, init :: chunked (em_run drift sigma h st) 0 init chunks).
Proof.
move=> N; rewrite em_pathwiseE //; rewrite {}/N; congr (Val (_, _)).
have H w0 n x cs : (forall i, (i < size (flatten cs))%N -> w0 (n + i)%N = dWs h st (flatten cs) i) ->
  x = emseq drift sigma h w0 init n ->
  chunked (em_run drift sigma h st) n x cs =
  mkseq (fun k => emseq drift sigma h w0 init (n + k.+1)) (size (flatten cs)).
  elim: cs n x => [|c cs IH] n x //= Hw Hx.
  set out := em_run _ _ _ _ _ _ _.
  have Eo : out = mkseq (fun k => emseq drift sigma h w0 init (n + k.+1)) (size c).
    rewrite /out /em_run em_pathwiseE //.
    have -> (f : nat -> 'cV[R]_d) a : behead (mkseq f a.+1) = mkseq (fun k => f k.+1) a.
      by rewrite /mkseq /= -[iota 1 a]/(iota (1 + 0) a) iotaDl -map_comp.
    apply: eq_in_mkseq => k Hk; rewrite emseq_shift Hx.
    apply: emseq_ext => i Hi.
    have Hic : (i < size c)%N by exact: leq_trans Hi Hk.
    rewrite Hw; last by rewrite size_cat ltn_addr.
    by rewrite /dWs !nth_cat Hic.
  rewrite (IH (n + size c)%N).
  - rewrite size_cat Eo /mkseq iotaD map_cat add0n; congr (_ ++ _).
    rewrite -[in RHS](addn0 (size c)) iotaDl -map_comp; apply: eq_map => i /=.
    by rewrite -addnA addnS.
  - move=> i Hi; rewrite -addnA Hw; last by rewrite size_cat ltn_add2l.
    by rewrite /dWs !nth_cat ltnNge leq_addr /= addKn.
  rewrite Eo /mkseq; case: (size c) => [|s]; first by rewrite addn0.
  rewrite -[in iota _ _]addn1 iotaD map_cat last_cat /=.
  by rewrite add0n.
rewrite (H (dWs h st (flatten chunks))) //.
by rewrite /mkseq /= -[iota 1 _]/(iota (1 + 0) _) iotaDl -map_comp.
Qed.
End Em.

Lemma em_euler d m (drift : 'cV[R]_d -> R -> 'cV[R]_d) h (incs : seq 'cV[R]_m) init st :
  exists ts traj, em_pathwise drift (fun _ _ => 0) h incs init (size incs) st = Val (ts, traj) /\
    last init traj = euler init drift h (size incs).
Proof.
rewrite em_pathwiseE //; eexists _, _; split; first reflexivity.
rewrite eulerE /mkseq -[(size incs).+1]addn1 iotaD map_cat last_cat /= add0n.
by elim: (size incs) => //= n ->; rewrite /emstep mul0mx addr0.
Qed.

(** Integrated Brownian motion *)
Lemma em_ibm (w : nat -> 'cV[R]_1) h init n :
  let B k := \sum_(0 <= j < k) w j 0 0 in
  emseq ibm_drift ibm_sigma h w init n 1 0 = init 1 0 + B n /\
  emseq ibm_drift ibm_sigma h w init n 0 0 =
    init 0 0 + n%:R * h * init 1 0 + h * \sum_(0 <= k < n) B k.
Proof.
move=> B; elim: n => [|n [IH1 IH0]].
  by rewrite /B !big_nil /= !mul0r mulr0 !addr0.
rewrite [emseq _ _ _ _ _ _]/= /emstep.
set x := emseq _ _ _ _ _ n in IH0 IH1 *.
rewrite !(addmxE, scalemxE, mulmxE) !big_ord_recl !big_ord0 !mxE /= /bump /=.
split.
  rewrite /B big_nat_recr //= -/(B n) IH1 /ibm_sig.
  have -> : lift ord0 ord0 = 1 :> 'I_2 by apply/val_inj.
  have -> : ord0 = 0 :> 'I_1 by apply/val_inj.
  rring.
have -> : lift ord0 ord0 = 1 :> 'I_2 by apply/val_inj.
have -> : ord0 = 0 :> 'I_2 by apply/val_inj.
rewrite IH0 IH1 big_nat_recr //= -[n.+1]addn1 natrD; rring.
Qed.

(** The caller's array *)
Lemma em_call_value d m (drift : 'cV[R]_d -> R -> 'cV[R]_d) (sigma : 'cV[R]_d -> R -> 'M[R]_(d, m))
  h kind incs init N st :
  (em_pathwise_call drift sigma h kind incs init N st).1 = em_pathwise drift sigma h incs init N st.
Proof. by rewrite /em_pathwise /em_pathwise_call; case: ifP. Qed.

Lemma em_call_array d m (drift : 'cV[R]_d -> R -> 'cV[R]_d) (sigma : 'cV[R]_d -> R -> 'M[R]_(d, m))
  h kind incs init N st :
  (em_pathwise_call drift sigma h kind incs init N st).2 =
  (if kind is NumpyArray then if st then [seq sqrt h *: w | w <- incs] else incs else incs).
Proof. by rewrite /em_pathwise_call; case: ifP. Qed.

(** ** Moments *)
Section Moments.
Variables (d m : nat) (g : prng) (E : expectation (key g)) (F : expectation (key g)) (N : nat).
Variables (drift : 'cV[R]_d -> R -> 'cV[R]_d) (sigma : 'cV[R]_d -> R -> 'M[R]_(d, m)).
Variables (h : R) (init : 'cV[R]_d).
Hypothesis split_iid : forall G, F (fun k => G (split k N)) = iid E N G.

(** The state after [n] steps. *)
Definition em_state (n : nat) (k : key g) : 'cV[R]_d :=
  nth 0 (euler_maruyama drift sigma h k init N).2 n.

Let xi (k : key g) : 'cV[R]_m := normal (split2 k).1 m.
Let X (ws : seq (key g)) : 'cV[R]_d :=
  emseq drift sigma h (fun i => sqrt h *: nth 0 [seq xi w | w <- ws] i) init (size ws).

Lemma em_stateE n k : (n <= N)%N -> em_state n k = X (take n (split k N)).
Proof.
move=> nN; rewrite /em_state.
have V A (a b : A) : Val a = Val b -> a = b by case.
rewrite (V _ _ _ (etrans (em_agree drift sigma h k init N) (em_pathwiseE _ _ _ _ _ _))); last first.
  by rewrite size_map size_split.
rewrite nth_mkseq // /X size_takel ?size_split //.
by apply: emseq_ext => i Hi; rewrite /dWs map_take nth_take.
Qed.

Lemma em_expect (f : 'cV[R]_d -> R) n : (n <= N)%N ->
  F (fun k => f (em_state n k)) = iid E n (fun ws => f (X ws)).
Proof.
move=> nN; rewrite -(iid_take E n (N - n)) subnKC // -split_iid.
by apply: E_ext => k; rewrite em_stateE.
Qed.

Lemma em_state0 k : em_state 0 k = init.
Proof. by rewrite em_stateE // take0. Qed.

Lemma X_rcons ws w :
  X (rcons ws w) = emstep drift sigma h (X ws) ((size ws)%:R * h) (sqrt h *: xi w).
Proof.
rewrite /X size_rcons /= map_rcons nth_rcons size_map ltnn eqxx.
by congr emstep; apply: emseq_ext => i Hi; rewrite nth_rcons size_map Hi.
Qed.

(** One step: the last draw is integrated out with the state kept fixed. *)
Lemma em_expectS (f : 'cV[R]_d -> R) n : (n < N)%N ->
  F (fun k => f (em_state n.+1 k)) =
  F (fun k => E (fun w => f (emstep drift sigma h (em_state n k) (n%:R * h) (sqrt h *: xi w)))).
Proof.
move=> nN; rewrite em_expect // iid_rcons.
rewrite (em_expect (fun x => E (fun w => f (emstep drift sigma h x (n%:R * h) (sqrt h *: xi w)))) (ltnW nN)).
by apply: iid_ext => ws Hs; apply: E_ext => w; rewrite X_rcons Hs.
Qed.

Lemma em_EmxS p q (f : 'cV[R]_d -> 'M[R]_(p, q)) n : (n < N)%N ->
  Emx F (fun k => f (em_state n.+1 k)) =
  Emx F (fun k => Emx E (fun w => f (emstep drift sigma h (em_state n k) (n%:R * h) (sqrt h *: xi w)))).
Proof.
move=> nN; apply/matrixP=> i j; rewrite !mxE.
rewrite (em_expectS (fun x => f x i j) nN); apply: E_ext => k.
by rewrite mxE.
Qed.

Hypothesis std : standard E xi.
Hypothesis h0 : 0 <= h.

Lemma em_mean n : (n < N)%N -> 
  Emx F (em_state n.+1) =
  Emx F (fun k => em_state n k + h *: drift (em_state n k) (n%:R * h)).
Proof.
move=> nN; rewrite (em_EmxS id nN); apply: Emx_ext => k.
rewrite EmxD Emx_const Emx_mull EmxZ.
by case: std => -> _; rewrite scaler0 mulmx0 addr0.
Qed.

Lemma sqrt_sqr : sqrt h * sqrt h = h.
Proof. by have := sqrt_sqrt h; apply; move/RleP: h0. Qed.

Lemma em_second n (c : 'cV[R]_d) : (n < N)%N ->
  Emx F (fun k => (em_state n.+1 k - c) *m (em_state n.+1 k - c)^T) =
  Emx F (fun k => let x := em_state n k in let y := x + h *: drift x (n%:R * h) - c in
    y *m y^T + h *: (sigma x (n%:R * h) *m (sigma x (n%:R * h))^T)).
Proof.
move=> nN; rewrite (em_EmxS (fun x => (x - c) *m (x - c)^T) nN); apply: Emx_ext => k /=.
set x := em_state n k; set y := x + _ - c; set s := sigma x _.
rewrite (@Emx_ext _ _ _ _ _ (fun w => y *m y^T + (sqrt h *: s) *m xi w *m y^T +
  (y *m (xi w)^T *m (sqrt h *: s)^T + (sqrt h *: s) *m (xi w *m (xi w)^T) *m (sqrt h *: s)^T))).
  case: std => S1 S2.
  rewrite EmxD [X in X + _]EmxD Emx_const Emx_mulr Emx_mull S1 mulmx0 mul0mx addr0.
  rewrite EmxD !Emx_mulr !Emx_mull EmxT S1 trmx0 mulmx0 mul0mx add0r S2 mulmx1.
  by rewrite linearZ /= -scalemxAl -scalemxAr scalerA sqrt_sqr.
move=> w; rewrite /emstep -/x -/s.
have -> : x + h *: drift x (n%:R * h) + s *m (sqrt h *: xi w) - c = y + (sqrt h *: s) *m xi w.
  by rewrite /y addrAC -scalemxAr scalemxAl.
by rewrite linearD /= mulmxDl !mulmxDr trmx_mul !mulmxA addrACA [X in _ = X + _]addrC -!addrA;
   rewrite [in RHS]addrCA !addrA.
Qed.
End Moments.

Section LinearMoments.
Variables (d m : nat) (g : prng) (E : expectation (key g)) (F : expectation (key g)) (N : nat).
Hypothesis split_iid : forall G, F (fun k => G (split k N)) = iid E N G.
Hypothesis std : standard E (fun k => normal (split2 k).1 m).

Lemma em_linear_moments (M : 'M[R]_d) (s : 'M[R]_(d, m)) (h : R) init : 0 <= h ->
  let A := 1%:M + h *: M in
  let x n k := em_state N (fun x _ => M *m x) (fun _ _ => s) h init n (k : key g) in
  let mean n := mxpow A n *m init in
  let cov n := Emx F (fun k => (x n k - mean n) *m (x n k - mean n)^T) in
  [/\ forall n, (n <= N)%N -> Emx F (x n) = mean n, cov 0%N = 0 &
      forall n, (n < N)%N -> cov n.+1 = A *m cov n *m A^T + h *: (s *m s^T)].
Proof.
move=> h0 A x mean cov.
have St (z : 'cV[R]_d) : z + h *: (M *m z) = A *m z by rewrite mulmxDl mul1mx scalemxAl.
have H : forall n, (n <= N)%N -> Emx F (x n) = mean n.
  elim=> [|n IH] nN.
    rewrite (@Emx_ext _ _ _ _ _ (fun _ => init)) ?Emx_const /mean ?mul1mx // => k.
    exact: em_state0.
  rewrite (em_mean _ _ _ _ split_iid std nN) (@Emx_ext _ _ _ _ _ (fun k => A *m x n k)).
    by rewrite Emx_mull IH ?(ltnW nN) // /mean /mxpow iterS mulmxA.
  by move=> k; rewrite St.
split=> // [|n nN].
  rewrite /cov (@Emx_ext _ _ _ _ _ (fun _ => 0)) ?Emx_const // => k.
  by rewrite /x em_state0 /mean mul1mx subrr mul0mx.
rewrite /cov (em_second _ _ _ split_iid std h0 _ nN) /=.
rewrite (@Emx_ext _ _ _ _ _ (fun k => A *m ((x n k - mean n) *m (x n k - mean n)^T) *m A^T + h *: (s *m s^T))).
  by rewrite EmxD Emx_const Emx_mulr Emx_mull.
move=> k; rewrite St.
have -> : A *m x n k - mean n.+1 = A *m (x n k - mean n).
  by rewrite mulmxBr /mean /mxpow iterS mulmxA.
by rewrite trmx_mul !mulmxA.
Qed.
End LinearMoments.

Section GbmMoments.
Variables (d : nat) (g : prng) (E : expectation (key g)) (F : expectation (key g)) (N : nat).
Hypothesis split_iid : forall G, F (fun k => G (split k N)) = iid E N G.
Hypothesis std : standard E (fun k => normal (split2 k).1 d).

Lemma em_gbm_moments (a b : R) (h : R) (init : 'cV[R]_d) : 0 <= h ->
  let x n k := em_state N (@gbm_drift_ a d) (@gbm_sigma_ b d) h init n (k : key g) in
  forall n, (n <= N)%N ->
  Emx F (x n) = (1 + a * h) ^+ n *: init /\
  forall i j, F (fun k => x n k i 0 * x n k j 0) =
    ((1 + a * h) ^+ 2 + (i == j)%:R * b ^+ 2 * h) ^+ n * (init i 0 * init j 0).
Proof.
move=> h0 x; elim=> [|n IH] nN.
  split=> [|i j].
    rewrite (@Emx_ext _ _ _ _ _ (fun _ => init)) ?Emx_const /= ?expr0 ?scale1r // => k.
    exact: em_state0.
  rewrite (@E_ext _ _ _ (fun _ => init i 0 * init j 0)) ?E_const ?expr0 ?mul1r // => k.
  by rewrite /x em_state0.
have [IH1 IH2] := IH (ltnW nN); split=> [|i j].
  rewrite (em_mean _ _ _ _ split_iid std nN) (@Emx_ext _ _ _ _ _ (fun k => (1 + a * h) *: x n k)).
    by rewrite EmxZ IH1 scalerA exprS.
  by move=> k; rewrite scalerDl scale1r [a * h]mulrC -scalerA.
have := em_second (@gbm_drift_ a d) (@gbm_sigma_ b d) init split_iid std h0 0 nN => /matrixP/(_ i j).
rewrite !mxE /=.
rewrite (@E_ext _ _ _ (fun k => x n.+1 k i 0 * x n.+1 k j 0)); last first.
  by move=> k; rewrite subr0 mxE big_ord1 trmxE.
move=> ->; rewrite exprS -mulrA -IH2 -E_scale; apply: E_ext => k.
rewrite subr0 -/(x n k) addmxE mulmxE big_ord1 !(addmxE, scalemxE, trmxE).
rewrite /gbm_sigma_ linearZ /= -scalemxAl -scalemxAr tr_diag_mx mulmx_diag scalerA scalemxE.
rewrite !mxE; case: (eqVneq i j) => [->|_]; rewrite ?mulr1n ?mulr0n ?mul1r ?mul0r ?mulr0 ?addr0; rring.
Qed.
End GbmMoments.

(** ** Statements in terms of the returned arrays *)
Lemma em_pathwise_rec d m (drift : 'cV[R]_d -> R -> 'cV[R]_d) (sigma : 'cV[R]_d -> R -> 'M[R]_(d, m))
  h incs init st : let N := size incs in
  exists traj, [/\ em_pathwise drift sigma h incs init N st = Val (mkseq (fun k => k%:R * h) N.+1, traj),
    size traj = N.+1, nth 0 traj 0 = init &
    forall k, (k < N)%N -> let x := nth 0 traj k in let t := k%:R * h in
      let dW := (if st then sqrt h else 1) *: nth 0 incs k in
      nth 0 traj k.+1 = x + h *: drift x t + sigma x t *m dW].
Proof.
move=> N; rewrite em_pathwiseE //; eexists; split; [reflexivity|by rewrite size_mkseq|by []|].
move=> k Hk; set w := dWs h st incs.
have -> : nth 0 (mkseq (emseq drift sigma h w init) N.+1) k.+1 = emseq drift sigma h w init k.+1.
  by rewrite nth_mkseq.
have -> : nth 0 (mkseq (emseq drift sigma h w init) N.+1) k = emseq drift sigma h w init k.
  by rewrite nth_mkseq // ltnS ltnW.
by rewrite [emseq _ _ _ _ _ k.+1]/= /emstep /w /dWs /=; case: (st); rewrite ?scale1r.
Qed.

Lemma em_key_rec d m (drift : 'cV[R]_d -> R -> 'cV[R]_d) (sigma : 'cV[R]_d -> R -> 'M[R]_(d, m))
  h (g : prng) (k : key g) init N :
  let: (ts, traj) := euler_maruyama drift sigma h k init N in
  [/\ ts = mkseq (fun i => i%:R * h) N.+1, size traj = N.+1, nth 0 traj 0 = init &
    forall i, (i < N)%N -> let x := nth 0 traj i in let t := i%:R * h in
      let dW := sqrt h *: normal (split2 (nth k (split k N) i)).1 m in
      nth 0 traj i.+1 = x + h *: drift x t + sigma x t *m dW].
Proof.
have := em_agree drift sigma h k init N.
have := em_pathwise_rec drift sigma h (key_draws m k N) init true.
rewrite size_map size_split => -[traj [-> H1 H2 H3]].
case: euler_maruyama => ts tr [-> ->]; split=> // i Hi.
by rewrite H3 // (nth_map k) ?size_split.
Qed.

Lemma em_ibm_traj h st (incs : seq 'cV[R]_1) init :
  let N := size incs in
  let B k := \sum_(0 <= j < k) (if st then sqrt h else 1) * nth 0 incs j 0 0 in
  exists traj,
  em_pathwise ibm_drift ibm_sigma h incs init N st = Val (mkseq (fun k => k%:R * h) N.+1, traj) /\
  forall n, (n <= N)%N ->
    nth 0 traj n 1 0 = init 1 0 + B n /\
    nth 0 traj n 0 0 = init 0 0 + n%:R * h * init 1 0 + h * \sum_(0 <= k < n) B k.
Proof.
move=> N B; rewrite em_pathwiseE //; eexists; split; first reflexivity.
move=> n nN; rewrite nth_mkseq //; have /= := em_ibm (dWs h st incs) h init n.
have E k : \sum_(0 <= j < k) dWs h st incs j 0 0 = B k.
  by apply: eq_bigr => j _; rewrite /dWs; case: (st); rewrite ?scalemxE ?mul1r.
by case=> -> ->; rewrite E; split=> //; congr (_ + h * _); apply: eq_bigr => k _; rewrite E.
Qed.

Section Caller.
Variables (d m : nat) (drift : 'cV[R]_d -> R -> 'cV[R]_d) (sigma : 'cV[R]_d -> R -> 'M[R]_(d, m)).
Variables (h : R) (incs : seq 'cV[R]_m) (init : 'cV[R]_d) (N : nat).
Notation call kind incs st := (em_pathwise_call drift sigma h kind incs init N st).

Lemma em_call_pure kind st : kind = JaxArray \/ st = false -> (call kind incs st).2 = incs.
Proof. by rewrite em_call_array; case=> ->; case: kind. Qed.

Lemma em_call_numpy : 0 <= h ->
  (call NumpyArray incs true).2 = [seq sqrt h *: w | w <- incs] /\
  (call NumpyArray (call NumpyArray incs true).2 true).1 =
    (call JaxArray [seq h *: w | w <- incs] false).1.
Proof.
move=> h0; rewrite em_call_array; split=> //.
rewrite !em_call_value em_standard -map_comp; congr em_pathwise.
by apply: eq_map => w /=; rewrite scalerA sqrt_sqr.
Qed.
End Caller.

Lemma em_call_differs :
  let drift (x : 'cV[R]_1) (t : R) : 'cV[R]_1 := 0 in
  let sigma (x : 'cV[R]_1) (t : R) : 'M[R]_1 := 1%:M in
  let call incs := em_pathwise_call drift sigma 4%:R NumpyArray incs 0 1 true in
  let incs := [:: const_mx 1] in
  (call incs).2 <> incs /\ (call (call incs).2).1 <> (call incs).1.
Proof.
move=> drift sigma call incs.
have s4 : sqrt 4%:R = 2%:R.
  have -> : 4%:R = (2 * 2)%Re by toR; lra.
  by rewrite sqrt_square; toR; lra.
have E c : (call c).1 = em_pathwise drift sigma 4%:R c 0 1 true by rewrite /call em_call_value.
rewrite !E /call em_call_array /=; split.
  case=> /matrixP/(_ 0 0); rewrite !mxE s4 => H.
  have : (2 * 1 = 1)%Re by move: H; toR.
  lra.
rewrite !em_pathwiseE // => H; injection H => /matrixP/(_ 0 0) {}H; move: H.
rewrite /drift /sigma /emstep !mul1mx !scaler0 !addr0 !add0r /= !mxE s4 => H.
have : (2 * (2 * 1) = 2 * 1)%Re by move: H; toR.
lra.
Qed.

Lemma euler_exp_example (h : R) (N : nat) : 0 <= h ->
  let f (x : 'cV[R]_1) (t : R) := x in let y (t : R) : 'cV[R]_1 := const_mx (exp t) in
  [/\ lipschitz f 1, deriv_on (N%:R * h) y (fun t => f (y t) t) &
     forall t, 0 <= t -> t <= N%:R * h -> sup_le (y t) (exp (N%:R * h))].
Proof.
move=> h0 f y; split.
- by move=> x z t e H; rewrite mul1r.
- move=> t i _ _; rewrite /f /y !mxE.
  apply: (is_derive_ext exp); first by move=> s; rewrite mxE.
  by apply/is_derive_Reals; exact: derivable_pt_lim_exp.
move=> t t0 tT i; rewrite /y mxE ger0_norm; last by apply/RleP; exact: Rlt_le (exp_pos _).
apply/RleP; case: (Rle_lt_or_eq_dec t (N%:R * h)); first by apply/RleP.
  by move=> H; exact: Rlt_le (exp_increasing _ _ H).
by move=> ->; lra.
Qed.
