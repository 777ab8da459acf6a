(** Lemmas on the law of the parabola read off a sampled Brownian path. *)
From Coq Require Import Reals Lra.
From Coquelicot Require Import Coquelicot.
From mathcomp Require Import all_ssreflect all_algebra mxtens.
From Verif Require Import Rstruct Base Linalg Calc Prob Spec M_Foster L_Foster.

Set Implicit Arguments.
Unset Strict Implicit.
Unset Printing Implicit Defensive.
Import Order.TTheory GRing.Theory Num.Theory.
Local Open Scope ring_scope.

(** ** Linear combinations of uncorrelated draws *)
Lemma E_comb (Om : Type) (E : expectation Om) m n (X : Om -> 'M[R]_(m, n)) (u : nat -> R) (i : 'I_n) :
  standard2 E X -> E (fun w => \sum_(k < m) u k * X w k i) = 0.
Proof.
move=> [H1 _]; rewrite E_sum big1 // => k _; by rewrite E_scale H1 mulr0.
Qed.
Lemma E_comb2 (Om : Type) (E : expectation Om) m n (X : Om -> 'M[R]_(m, n)) (u v : nat -> R) (i j : 'I_n) :
  standard2 E X ->
  E (fun w => (\sum_(k < m) u k * X w k i) * (\sum_(k < m) v k * X w k j)) =
  (i == j)%:R * \sum_(k < m) u k * v k.
Proof.
move=> [_ H2].
rewrite (@E_ext _ _ _ (fun w => \sum_(k < m) \sum_(l < m) u k * v l * (X w k i * X w l j))).
  rewrite E_sum mulr_sumr; apply: eq_bigr => k _; rewrite E_sum (bigD1 k) //= big1.
    by rewrite addr0 E_scale H2 eqxx /= mulrC.
  by move=> l lk; rewrite E_scale H2 eq_sym (negbTE lk) mulr0.
move=> w; rewrite mulr_suml; apply: eq_bigr => k _; rewrite mulr_sumr.
by apply: eq_bigr => l _; rewrite mulrACA.
Qed.

(** ** The two coefficients as combinations of the increments *)
Section Weights.
Variables (g : prng) (dim M : nat) (k : key g) (dt : R).
Hypothesis dt0 : dt != 0.
Let N := M.+2.
Let xi (l : 'I_N) i := normal2 k N dim l i.
Let c := parabolas_bm dim N k dt.
Let h := dt / N%:R.
Let W := bm_at h c.2.

Definition wb (l : nat) : R :=
  if (l < 2)%N then M%:R / (2%:R * M.+2%:R) else (M.+2%:R + 1 - 2%:R * l%:R) / (2%:R * M.+2%:R).

Lemma W_comb n i : (n <= N)%N -> W n i 0 = \sum_(l < N) (sqrt h * (l < n)%:R) * xi l i.
Proof.
move=> nN; rewrite /W /bm_at mxE summxE.
rewrite (big_nat_widen _ _ _ _ _ nN) big_mkord mulr_sumr big_mkcond /=; apply: eq_bigr => l _.
rewrite -mulrA; case: ifP => ln; last by rewrite mul0r mulr0.
by rewrite mul1r nth_rows !mxE.
Qed.

Lemma count_lt (l : nat) n : (l <= n)%N -> \sum_(0 <= j < n) ((l < j.+1)%:R : R) = n%:R - l%:R.
Proof.
elim: n => [|n IH]; first by rewrite leqn0 => /eqP ->; rewrite big_geq // subrr.
rewrite big_nat_recr //= leq_eqVlt => /orP [/eqP -> | ln].
  rewrite ltnn big_nat big1 ?addr0 ?subrr // => j /andP [_ jn].
  by rewrite ltnS leqNgt ltnS (ltnW jn).
by rewrite ln IH ?(ltnSE ln) // -[n.+1]addn1 natrD addrAC.
Qed.

Lemma trap_comb i :
  trapezoid h W N i 0 = \sum_(l < N) (sqrt h * h * (N%:R - l%:R - 2%:R^-1)) * xi l i.
Proof.
rewrite /trapezoid summxE.
transitivity (\sum_(0 <= j < N) \sum_(l < N) (sqrt h * h * (2%:R^-1 * ((l < j)%:R + (l < j.+1)%:R))) * xi l i).
  apply: eq_big_nat => j /andP [_ jN]; rewrite mxE [X in _ * X]mxE !W_comb //; last exact: ltnW.
  rewrite -big_split /= mulr_sumr; apply: eq_bigr => l _.
  by move: (xi l i) ((_ < _)%:R) ((_ < _)%:R) => x a b; toR; field.
rewrite exchange_big /=; apply: eq_bigr => l _.
rewrite -mulr_suml -mulr_sumr -mulr_sumr big_split /= count_lt; last exact: ltnW.
have -> : \sum_(0 <= j < N) ((l < j)%:R : R) = N%:R - l%:R - 1.
  rewrite big_nat_recl // ltn0 add0r count_lt; last by rewrite -ltnS.
  have -> : (N%:R : R) = M.+1%:R + 1 by rewrite /N -[M.+2]addn1 natrD.
  by rewrite [RHS]addrAC addrK.
by congr (_ * _ * _); rewrite -[N%:R]/(N%:R); move: (N%:R) (l%:R) => a b; toR; field.
Qed.

Lemma bm_a_comb i : c.1.1 i 0 = \sum_(l < N) sqrt h * xi l i.
Proof.
have [-> _] := parabolas_bmE dim k (isT : 0 < N)%N dt0.
rewrite -/W W_comb //; apply: eq_bigr => l _; by rewrite ltn_ord mulr1.
Qed.

Lemma bm_b_comb i : c.1.2 i 0 = \sum_(l < N) (sqrt 6%:R * sqrt h * wb l) * xi l i.
Proof.
have gen (r q d : R) (T A B C : 'cV[R]_dim) :
    (r *: (d *: T - 2%:R^-1 *: A) + q *: (A - B - 2%:R^-1 *: C)) i 0 =
    r * (d * T i 0 - 2%:R^-1 * A i 0) + q * (A i 0 - B i 0 - 2%:R^-1 * C i 0) by rewrite !mxE.
have [_ ->] := parabolas_bmE dim k (isT : 0 < N)%N dt0.
rewrite -/h -/c -/W (minn_idPl (isT : (2 <= N)%N)) gen trap_comb !W_comb //.
rewrite !mulr_sumr -!sumrN -!big_split /= !mulr_sumr -big_split /=; apply: eq_bigr => l _.
rewrite ltn_ord -[nat_of_bool true]/1%N -[N]/(M.+2) /wb.
have -> : (if (l < 2)%N then M%:R / (2%:R * M.+2%:R) else (M.+2%:R + 1 - 2%:R * l%:R) / (2%:R * M.+2%:R))
   = ((N%:R + 1 - 2%:R * l%:R) / (2%:R * N%:R) - (l < 1)%:R / N%:R - (l < 2)%:R / (2%:R * N%:R)) :> R.
  have NN : (N%:R : R) != 0 by rewrite pnatr_eq0.
  have EN : (M%:R : R) = N%:R - 2%:R by rewrite -[N]addn2 natrD addrK.
  rewrite EN -[M.+2]/N; move/eqP: NN; move: (N%:R : R) => n; toR => NN.
  case: (nat_of_ord l) => [|[|l']] /=; toR; try (by apply: (_ : @eq R _ _); field).
rewrite /h -/h; move: (xi l i) ((l < 1)%:R) ((l < 2)%:R) (l%:R) => x p q y.
have NN : (N%:R : R) != 0 by rewrite pnatr_eq0.
rewrite {2}/h; move: dt0 NN => /eqP D /eqP; move: (sqrt h) (sqrt 6%:R) (N%:R : R) => s r n; toR => NN.
by apply: (_ : @eq R _ _); field.
Qed.
End Weights.

(** Sums of the weights. *)
Lemma sum_lin (a : R) n : \sum_(0 <= l < n) (a - 2%:R * l%:R) = n%:R * a - n%:R * (n%:R - 1).
Proof.
elim: n => [|n IH]; first by rewrite big_geq // !mul0r subrr.
rewrite big_nat_recr //= IH -[n.+1]addn1 natrD; move: (n%:R : R) => x; rring.
Qed.
Lemma sum_sq (a : R) n : \sum_(0 <= l < n) (a - 2%:R * l%:R) * (a - 2%:R * l%:R) =
  n%:R * a * a - 2%:R * a * n%:R * (n%:R - 1) + 4%:R * ((n%:R - 1) * n%:R * (2%:R * n%:R - 1) / 6%:R).
Proof.
elim: n => [|n IH]; first by rewrite big_geq // ; toR; field.
rewrite big_nat_recr //= IH -[n.+1]addn1 natrD; move: (n%:R : R) => x; toR; field.
Qed.

Section Sums.
Variable M : nat.
Let N : R := M.+2%:R.

Let wb0 l : wb M l.+2 = (2%:R * N)^-1 * (N - 3%:R - 2%:R * l%:R).
Proof.
rewrite /wb /= -/N mulrC; congr (_ * _).
by rewrite -[l.+2]addn2 natrD; move: (l%:R : R) N => x n; rring.
Qed.
Let NE : (M%:R : R) = N - 2%:R. Proof. by rewrite /N -[M.+2]addn2 natrD addrK. Qed.
Let N0 : N != 0. Proof. by rewrite pnatr_eq0. Qed.

Lemma sum_wb : \sum_(l < M.+2) wb M l = (N - 2%:R) / N.
Proof.
rewrite -(big_mkord predT) !big_nat_recl //=.
under eq_bigr => l _ do rewrite wb0.
rewrite -mulr_sumr sum_lin /wb /= NE -/N; move/eqP: N0; move: N => n; toR => n0; by apply: (_ : @eq R _ _); field.
Qed.

Lemma sum_wb2 : \sum_(l < M.+2) wb M l * wb M l = (N ^+ 3 - 13%:R * N + 18%:R) / (12%:R * N ^+ 2).
Proof.
rewrite -(big_mkord predT (fun l => wb M l * wb M l)) !big_nat_recl //=.
under eq_bigr => l _ do rewrite wb0 mulrACA.
rewrite -mulr_sumr sum_sq /wb /= NE -/N !exprS expr0; move/eqP: N0; move: N => n; toR => n0; by apply: (_ : @eq R _ _); field.
Qed.
End Sums.

(** ** The law of the pair *)
Section Law.
Variables (g : prng) (E : expectation (key g)) (dim N : nat) (dt : R).
Hypotheses (N2 : (1 < N)%N) (dt0 : 0 < dt).
Hypothesis Hstd : standard2 E (fun k => normal2 k N dim).
Let a k := (get_coeffs (get_approx_and_brownian g dim N) k dt).1.1.
Let b k := (get_coeffs (get_approx_and_brownian g dim N) k dt).1.2.

Lemma bm_law i j :
  [/\ E (fun k => a k i 0) = 0, E (fun k => b k i 0) = 0,
      E (fun k => a k i 0 * a k j 0) = (i == j)%:R * dt,
      E (fun k => a k i 0 * b k j 0) = (i == j)%:R * (sqrt 6%:R * dt * (N%:R - 2%:R) / N%:R ^+ 2) &
      E (fun k => b k i 0 * b k j 0) =
        (i == j)%:R * (dt / 2%:R * ((N%:R ^+ 3 - 13%:R * N%:R + 18%:R) / N%:R ^+ 3))].
Proof.
have [M EN] : exists M, N = M.+2 by case: N N2 => [|[|M]] // _; exists M.
move: Hstd; rewrite /a /b EN => H.
pose a' k := (get_coeffs (get_approx_and_brownian g dim M.+2) k dt).1.1; rewrite -/a'.
pose b' k := (get_coeffs (get_approx_and_brownian g dim M.+2) k dt).1.2; rewrite -/b'.
have dN : dt != 0 by rewrite gt_eqF.
have NN : (M.+2%:R : R) != 0 by rewrite pnatr_eq0.
pose h := dt / M.+2%:R.
have hh : sqrt h * sqrt h = h.
  by toR; apply: sqrt_sqrt; apply/RleP; apply: divr_ge0; [exact: ltW | exact: ler0n].
have Ea k l : a' k l 0 = \sum_(q < M.+2) sqrt h * normal2 k M.+2 dim q l by exact: bm_a_comb.
have Eb k l : b' k l 0 = \sum_(q < M.+2) (sqrt 6%:R * sqrt h * wb M q) * normal2 k M.+2 dim q l by exact: bm_b_comb.
split.
- by rewrite (E_ext _ (fun k => Ea k i)) (E_comb (fun=> sqrt h) i H).
- by rewrite (E_ext _ (fun k => Eb k i)) (E_comb (fun q => sqrt 6%:R * sqrt h * wb M q) i H).
- rewrite (E_ext _ (fun k => congr2 *%R (Ea k i) (Ea k j))) (E_comb2 (fun=> sqrt h) (fun=> sqrt h) i j H).
  by rewrite sumr_const card_ord hh -[h *+ _]mulr_natr /h divfK.
- rewrite (E_ext _ (fun k => congr2 *%R (Ea k i) (Eb k j))).
  rewrite (E_comb2 (fun=> sqrt h) (fun q => sqrt 6%:R * sqrt h * wb M q) i j H); congr (_ * _).
  transitivity (\sum_(q < M.+2) (sqrt 6%:R * h) * wb M q).
    apply: eq_bigr => q _; rewrite -[in RHS]hh; move: (sqrt 6%:R) (sqrt h) (wb _ _) => x y z; rring.
  rewrite -mulr_sumr sum_wb /h exprS expr1; move/eqP: NN; move: (M.+2%:R : R) (sqrt 6%:R) => n r; toR => n0.
  by apply: (_ : @eq R _ _); field.
- rewrite (E_ext _ (fun k => congr2 *%R (Eb k i) (Eb k j))).
  rewrite (E_comb2 (fun q => sqrt 6%:R * sqrt h * wb M q) (fun q => sqrt 6%:R * sqrt h * wb M q) i j H); congr (_ * _).
  transitivity (\sum_(q < M.+2) (6%:R * h) * (wb M q * wb M q)).
    apply: eq_bigr => q _; rewrite -[in RHS]hh -[in RHS]sqrt6_sq; move: (sqrt 6%:R) (sqrt h) (wb _ _) => x y z; rring.
  rewrite -mulr_sumr sum_wb2 /h !exprS expr0; move/eqP: NN; move: (M.+2%:R : R) => n; toR => n0.
  by apply: (_ : @eq R _ _); field.
Qed.
End Law.

(** With a single sample the area coefficient is a multiple of the increment. *)
Lemma bm_one (g : prng) dim (k : key g) dt : dt != 0 ->
  let c := get_coeffs (get_approx_and_brownian g dim 1) k dt in
  c.1.2 = - (sqrt 6%:R / 2%:R) *: c.1.1.
Proof.
move=> dN c.
have [Ea Eb] := parabolas_bmE dim k (isT : 0 < 1)%N dN.
move: Ea Eb; rewrite -[parabolas_bm dim 1 k dt]/c => Ea Eb.
rewrite Eb (minn_idPr (isT : (1 <= 2)%N)) -Ea /trapezoid big_nat1 -Ea divr1.
have -> : bm_at dt c.2 0 = 0 by rewrite /bm_at big_geq // scaler0.
rewrite add0r.
apply/colP=> i; rewrite !mxE; move: (c.1.1 i 0) (sqrt _) => x r; move/eqP: dN; toR => dN; by apply: (_ : @eq R _ _); field.
Qed.

Section Consequences.
Variables (g : prng) (E : expectation (key g)) (dim N : nat) (dt : R).
Hypotheses (N1 : (0 < N)%N) (dt0 : 0 < dt).
Hypothesis Hstd : standard2 E (fun k => normal2 k N dim).
Let a k := (get_coeffs (get_approx_and_brownian g dim N) k dt).1.1.
Let b k := (get_coeffs (get_approx_and_brownian g dim N) k dt).1.2.

(** The documented law never holds. *)
Lemma bm_law_wrong i :
  ~ (E (fun k => a k i 0 * b k i 0) = 0 /\ E (fun k => b k i 0 * b k i 0) = dt / 2%:R).
Proof.
have s6 := sqrt6_gt0; have d0 : dt != 0 by rewrite gt_eqF.
case: (ltnP 1 N) => [N2 | NL].
  have [_ _ _ -> ->] := bm_law N2 dt0 Hstd i i; rewrite eqxx !mul1r => -[H1 H2].
  have NN : (N%:R : R) != 0 by rewrite pnatr_eq0 -lt0n.
  have E2 : N = 2%N.
    apply/eqP; rewrite -(eqr_nat [numDomainType of R]) -subr_eq0.
    have := H1 => /eqP; rewrite mulf_eq0 invr_eq0 expf_eq0 (negbTE NN) /= orbF mulf_eq0.
    by rewrite mulf_eq0 (gt_eqF s6) (gt_eqF dt0).
  move: H2; rewrite E2 !exprS expr0 => /eqP; apply/negP; apply/eqP.
  by toR; move/RltP: dt0; toR; lra.
have E1 : N = 1%N by apply/eqP; rewrite eqn_leq NL.
move: Hstd; rewrite /a /b E1 => -[H1 H2] [H _].
have Ew k : (get_coeffs (get_approx_and_brownian g dim 1) k dt).1.1 i 0 = sqrt dt * normal2 k 1 dim 0 i.
  have [-> _] := parabolas_bmE dim k (isT : 0 < 1)%N d0.
  rewrite /bm_at !mxE big_nat1 divr1; congr (_ * _).
  by rewrite -[0%N]/(nat_of_ord (0 : 'I_1)) nth_rows !mxE.
move: H; rewrite (@E_ext _ _ _ (fun k => (- (sqrt 6%:R / 2%:R) * dt) * (normal2 k 1 dim 0 i * normal2 k 1 dim 0 i))).
  rewrite E_scale H2 !eqxx mulr1 => /eqP; rewrite mulf_eq0 (gt_eqF dt0) orbF oppr_eq0.
  by rewrite mulf_eq0 (gt_eqF s6) invr_eq0 pnatr_eq0.
move=> k; rewrite (bm_one dim k d0) mxE Ew.
have sd : sqrt dt * sqrt dt = dt by toR; apply: sqrt_sqrt; apply/RleP; exact: ltW.
by rewrite -[in RHS]sd; move: (sqrt dt) (normal2 _ _ _ _ _) (sqrt 6%:R) => x y z; toR; field.
Qed.

(** The area under the returned path. *)
Hypothesis N2 : (1 < N)%N.
Let area k i := RInt (fun t => eval_fn t dt (get_coeffs (get_approx_and_brownian g dim N) k dt) i 0) 0 dt.

Lemma areaE k i : area k i = dt * (a k i 0 / 2%:R + b k i 0 / sqrt 6%:R).
Proof.
have d0 : dt != 0 by rewrite gt_eqF.
by apply: is_RInt_unique; have [_ _ _ _ H] := parab_path 0 (a k) (b k) i d0; exact: H.
Qed.

Lemma bm_area_law i j :
  [/\ E (fun k => area k i) = 0,
      E (fun k => a k i 0 * area k j) = (i == j)%:R * (dt ^+ 2 / 2%:R * (1 + 2%:R * (N%:R - 2%:R) / N%:R ^+ 2)) &
      E (fun k => area k i * area k j) =
      (i == j)%:R * (dt ^+ 3 / 3%:R * (1 + 3%:R / N%:R - 37%:R / (4%:R * N%:R ^+ 2) + 9%:R / (2%:R * N%:R ^+ 3)))].
Proof.
have [Ma Mb Caa Cab Cbb] := bm_law N2 dt0 Hstd i j.
have [_ _ _ Cba _] := bm_law N2 dt0 Hstd j i.
have NN : (N%:R : R) != 0 by rewrite pnatr_eq0 -lt0n.
have s6 : sqrt 6%:R != 0 := sqrt6_neq0; have s6s := sqrt6_sq.
split.
- transitivity (E (fun k => (dt / 2%:R) * a k i 0 + (dt / sqrt 6%:R) * b k i 0)).
    by apply: E_ext => k; rewrite areaE mulrDr; congr (_ + _); rewrite mulrA mulrAC.
  by rewrite E_add !E_scale Ma Mb !mulr0 addr0.
- transitivity (E (fun k => (dt / 2%:R) * (a k i 0 * a k j 0) + (dt / sqrt 6%:R) * (a k i 0 * b k j 0))).
    apply: E_ext => k; rewrite areaE; move: (a k i 0) (a k j 0) (b k j 0) => x y z.
    move/eqP: s6; move: (sqrt _) => r; toR => r0; by apply: (_ : @eq R _ _); field.
  rewrite E_add !E_scale Caa Cab; move/eqP: s6; move/eqP: NN; move: (sqrt _) s6s (N%:R : R) ((i == j)%:R) => r _ n e.
  rewrite !exprS !expr0; toR => n0 r0; by apply: (_ : @eq R _ _); field.
- transitivity (E (fun k => (dt * dt / 4%:R) * (a k i 0 * a k j 0)
      + (dt * dt / (2%:R * sqrt 6%:R)) * (a k i 0 * b k j 0 + a k j 0 * b k i 0)
      + (dt * dt / (sqrt 6%:R * sqrt 6%:R)) * (b k i 0 * b k j 0))).
    apply: E_ext => k; rewrite !areaE; move: (a k i 0) (a k j 0) (b k j 0) (b k i 0) => x y z t.
    move/eqP: s6; move: (sqrt _) => r; toR => r0; by apply: (_ : @eq R _ _); field.
  rewrite !E_add !E_scale !E_add Caa Cab Cba Cbb [j == i]eq_sym s6s.
  move/eqP: s6; move/eqP: NN; move: (sqrt _) s6s (N%:R : R) ((i == j)%:R) => r _ n e.
  rewrite !exprS !expr0; toR => n0 r0; by apply: (_ : @eq R _ _); field.
Qed.
End Consequences.

Lemma bm_law_refuted N (dt : R) : (0 < N)%N -> 0 < dt ->
  exists (g : prng) (E : expectation (key g)),
  let a k := (get_coeffs (get_approx_and_brownian g 1 N) k dt).1.1 in
  let b k := (get_coeffs (get_approx_and_brownian g 1 N) k dt).1.2 in
  standard2 E (fun k => normal2 k N 1) /\
  ~ (E (fun k => a k 0 0 * b k 0 0) = 0 /\ E (fun k => b k 0 0 * b k 0 0) = dt / 2%:R).
Proof.
move=> N0 dt0; exists tree_prng, (signkeyE N 1) => a b; split; first exact: signkey_standard.
by apply: bm_law_wrong => //; exact: signkey_standard.
Qed.
