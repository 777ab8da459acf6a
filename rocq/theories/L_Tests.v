(** Lemmas about the quantities measured by the tests. *)
From Coq Require Import Reals Lra FunctionalExtensionality.
From Coquelicot Require Import Coquelicot.
From mathcomp Require Import all_ssreflect all_algebra mxtens.
From Verif Require Import Rstruct Base Linalg Calc Prob Spec Spec3 M_Foster L_Foster L_BmLaw M_Euler L_Euler M_Tests.

Set Implicit Arguments.
Unset Strict Implicit.
Unset Printing Implicit Defensive.
Import Order.TTheory GRing.Theory Num.Theory.
Local Open Scope ring_scope.

(** The weight of the second coefficient. *)
Definition piw (K : nat) : R := 6%:R^-1 + (3%:R * K%:R ^+ 2)^-1.

Lemma int_quad (h u v : R) : h <> 0 ->
  is_RInt (fun t : R => (t * (u + v - 2 * v * (t / h)) / h)%Re) 0 h (h * (u / 2 - v / 6))%Re.
Proof.
move=> hn; pose G (t : R) := (t * t * (u + v) / (2 * h) - 2 * v * (t * t * t) / (3 * h * h))%Re.
pose f (t : R) := (t * (u + v - 2 * v * (t / h)) / h)%Re.
have D t : is_derive G t (f t).
  by rewrite /G /f; move: hn; toR => hn; auto_derive => //; field.
have C t : continuous f t.
  by apply: (@ex_derive_continuous R_AbsRing R_NormedModule); rewrite /f; move: hn; toR => hn; auto_derive.
have := is_RInt_derive G f 0 h (fun t _ => D t) (fun t _ => C t).
congr is_RInt; rewrite /G /minus /plus /opp /=.
by move: hn; toR => hn; apply: (_ : @eq R _ _); toR; field.
Qed.

Section Value.
Variables (dim : nat) (h : R) (K : nat) (a b : 'cV[R]_dim).
Hypotheses (h0 : h != 0) (K0 : (0 < K)%N).

Let ys := [seq t *: jacR (fun z => eval_parabola z h a b) t | t <- linspace 0 h K.+1].

Let node i (l : 'I_dim) : (i < K.+1)%N -> nth 0 ys i l 0 =
  (i%:R / K%:R) * (a l 0 + sqrt 6%:R * (1 - 2%:R * (i%:R / K%:R)) * b l 0).
Proof.
move=> iK; rewrite /ys (nth_map 0) ?size_linspace // nth_linspace // add0r subr0 /=.
have [_ _ -> _ _] := parab_path (i%:R * (h / K%:R)) a b l h0.
rewrite !scalemxE addmxE scalemxE.
have -> : i%:R * (h / K%:R) / h = i%:R / K%:R by rewrite (mulrC h) mulrA mulfK.
rewrite mulrA; congr (_ * _).
by rewrite (mulrC h) mulrA mulfK.
Qed.

Lemma trapz_value (l : 'I_dim) : trapz_x ys (linspace 0 h K.+1) l 0 =
  h * (a l 0 / 2%:R - sqrt 6%:R * piw K * b l 0).
Proof.
have KN : (K%:R : R) != 0 by rewrite pnatr_eq0 -lt0n.
rewrite /trapz_x {1}/ys size_map size_linspace summxE.
pose F (n : nat) : R := h / K%:R ^+ 2 * (n%:R ^+ 2 / 2%:R * (a l 0 + sqrt 6%:R * b l 0)
  - sqrt 6%:R * b l 0 * (2%:R * n%:R ^+ 3 + n%:R) / (3%:R * K%:R)).
have S n : (n <= K)%N -> \sum_(0 <= i < n) (((nth 0 (linspace 0 h K.+1) i.+1 - nth 0 (linspace 0 h K.+1) i) / 2%:R) *: (nth 0 ys i + nth 0 ys i.+1)) l 0 = F n.
  elim: n => [|n IH] nK; first by rewrite big_geq // /F !expr0n /= !mul0r !(mulr0, addr0, mul0r, subr0).
  rewrite big_nat_recr // -[LHS]/(_ + _) IH ?(ltnW nK) // scalemxE addmxE !node ?ltnS // ?(ltnW nK) //.
  rewrite !nth_linspace ?ltnS // ?(ltnW nK) // !add0r subr0 [K.+1.-1]/= /F -[n.+1]addn1 natrD !exprS !expr0.
  move/eqP: KN; move: (a l 0) (b l 0) (sqrt 6%:R) (n%:R : R) (K%:R : R) => u v q x y; toR => y0.
  by apply: (_ : @eq R _ _); toR; field.
rewrite S // /F /piw !exprS !expr0.
move/eqP: KN; move: (a l 0) (b l 0) (sqrt 6%:R) (K%:R : R) => u v q y; toR => y0.
by apply: (_ : @eq R _ _); toR; field.
Qed.

(** The integral that the trapezoidal rule approximates. *)
Lemma exact_value (l : 'I_dim) :
  is_RInt (fun t => (t *: jacR (fun z => eval_parabola z h a b) t) l 0) 0 h
    (h * (a l 0 / 2%:R - sqrt 6%:R / 6%:R * b l 0)).
Proof.
move/eqP: (h0) => hn.
have := @int_quad h (a l 0) (sqrt 6%:R * b l 0) hn.
have -> : (h * (a l 0%R / 2 - (sqrt 6%:R * b l 0)%R / 6))%Re = h * (a l 0 / 2%:R - sqrt 6%:R / 6%:R * b l 0).
  by move: (a l 0) (b l 0) (sqrt 6%:R) => x y q; apply: (_ : @eq R _ _); toR; field.
apply: is_RInt_ext => t _.
have [_ _ -> _ _] := parab_path t a b l h0.
rewrite !scalemxE addmxE scalemxE.
by move: hn; move: (a l 0) (b l 0) (sqrt 6%:R) => x y q; toR => hn; apply: (_ : @eq R _ _); toR; field.
Qed.
End Value.

(** Moments of a combination [h (a/2 - sqrt 6 c b)]. *)
Section Moments.
Variables (T : Type) (E : expectation T) (dim : nat) (a b : T -> 'cV[R]_dim) (A C B h c : R).
Hypothesis law : forall i j, [/\ E (fun k => a k i 0) = 0, E (fun k => b k i 0) = 0,
  E (fun k => a k i 0 * a k j 0) = (i == j)%:R * A,
  E (fun k => a k i 0 * b k j 0) = (i == j)%:R * C &
  E (fun k => b k i 0 * b k j 0) = (i == j)%:R * B].
Let z k i := h * (a k i 0 / 2%:R - sqrt 6%:R * c * b k i 0).

Lemma comb_mean i : E (fun k => z k i) = 0.
Proof.
have [m1 m2 _ _ _] := law i i.
rewrite (@E_ext _ E _ (fun k => (h / 2%:R) * a k i 0 + (- (h * sqrt 6%:R * c)) * b k i 0)); last first.
  by move=> k; rewrite /z; move: (a k i 0) (b k i 0) (sqrt 6%:R) => x y q; toR; apply: (_ : @eq R _ _); field.
by rewrite E_add !E_scale m1 m2 !mulr0 addr0.
Qed.

Lemma comb_cov i j : E (fun k => z k i * z k j) =
  (i == j)%:R * (h ^+ 2 * (A / 4%:R - sqrt 6%:R * c * C + 6%:R * c ^+ 2 * B)).
Proof.
have [_ _ aa ab bb] := law i j; have [_ _ _ ba _] := law j i.
have s6 : sqrt 6%:R * sqrt 6%:R = 6%:R by toR; rewrite sqrt_sqrt //; lra.
rewrite (@E_ext _ E _ (fun k => ((h ^+ 2 / 4%:R) * (a k i 0 * a k j 0) + (- (h ^+ 2 / 2%:R * sqrt 6%:R * c)) * (a k i 0 * b k j 0))
   + ((- (h ^+ 2 / 2%:R * sqrt 6%:R * c)) * (a k j 0 * b k i 0) + (h ^+ 2 * (sqrt 6%:R * sqrt 6%:R) * c ^+ 2) * (b k i 0 * b k j 0)))); last first.
  move=> k; rewrite /z !exprS !expr0; move: (a k i 0) (b k i 0) (a k j 0) (b k j 0) (sqrt 6%:R) => x y x' y' q.
  by toR; apply: (_ : @eq R _ _); field.
rewrite !(E_add, E_scale) s6 aa ab ba bb [j == i]eq_sym !exprS !expr0.
by move: ((i == j)%:R : R) (sqrt 6%:R) => x q; toR; apply: (_ : @eq R _ _); field.
Qed.
End Moments.

Section PathIntegral.
Variables (g : prng) (dim : nat) (h : R) (K : nat).
Hypotheses (h0 : 0 < h) (K0 : (0 < K)%N).
Let hn : h != 0. Proof. by rewrite gt_eqF. Qed.
Let KN : (K%:R : R) != 0. Proof. by rewrite pnatr_eq0 -lt0n. Qed.

Lemma pi_foster k i : path_integral (get_approx g dim) h K k i 0 =
  h * ((parabolas dim k h).1 i 0 / 2%:R - sqrt 6%:R * piw K * (parabolas dim k h).2 i 0).
Proof. exact: trapz_value. Qed.

Lemma pi_fine N k i : path_integral (get_approx_fine g dim N) h K k i 0 =
  h * ((get_coeffs (get_approx_fine g dim N) k h).1.1.1 i 0 / 2%:R
       - sqrt 6%:R * piw K * (get_coeffs (get_approx_fine g dim N) k h).1.1.2 i 0).
Proof. exact: trapz_value. Qed.

Lemma pi_bm N k i : path_integral (get_approx_and_brownian g dim N) h K k i 0 =
  h * ((get_coeffs (get_approx_and_brownian g dim N) k h).1.1 i 0 / 2%:R
       - sqrt 6%:R * piw K * (get_coeffs (get_approx_and_brownian g dim N) k h).1.2 i 0).
Proof. exact: trapz_value. Qed.

Lemma law_value : h ^+ 2 * (h / 4%:R - sqrt 6%:R * piw K * 0 + 6%:R * piw K ^+ 2 * (h / 2%:R)) =
  h ^+ 3 / 3%:R * (1 + (K%:R ^+ 2)^-1 + (K%:R ^+ 4)^-1).
Proof.
rewrite /piw !exprS !expr0; move/eqP: KN; move: (K%:R : R) (sqrt 6%:R) => y q; toR => y0.
by apply: (_ : @eq R _ _); toR; field.
Qed.

Lemma pi_law (E : expectation (key g)) : standard2 E (fun k => normal2 k 2 dim) -> forall i j,
  E (fun k => path_integral (get_approx g dim) h K k i 0) = 0 /\
  E (fun k => path_integral (get_approx g dim) h K k i 0 * path_integral (get_approx g dim) h K k j 0) =
    (i == j)%:R * (h ^+ 3 / 3%:R * (1 + (K%:R ^+ 2)^-1 + (K%:R ^+ 4)^-1)).
Proof.
move=> H i j.
have L i' j' : [/\ E (fun k => (parabolas dim k h).1 i' 0) = 0, E (fun k => (parabolas dim k h).2 i' 0) = 0,
  E (fun k => (parabolas dim k h).1 i' 0 * (parabolas dim k h).1 j' 0) = (i' == j')%:R * h,
  E (fun k => (parabolas dim k h).1 i' 0 * (parabolas dim k h).2 j' 0) = (i' == j')%:R * 0 &
  E (fun k => (parabolas dim k h).2 i' 0 * (parabolas dim k h).2 j' 0) = (i' == j')%:R * (h / 2%:R)].
  by have := parabola_law H i' j' (ltW h0); rewrite mulr0.
split.
  by rewrite -(comb_mean h (piw K) L i); apply: E_ext => k; exact: pi_foster.
rewrite -law_value -(comb_cov h (piw K) L i j); apply: E_ext => k; by rewrite !pi_foster.
Qed.

Lemma pi_law_fine N (E F : expectation (key g)) : standard2 E (fun k => normal2 k 2 dim) ->
  (forall G, F (fun k => G (split k N)) = iid E N G) -> (0 < N)%N -> forall i j,
  F (fun k => path_integral (get_approx_fine g dim N) h K k i 0) = 0 /\
  F (fun k => path_integral (get_approx_fine g dim N) h K k i 0 * path_integral (get_approx_fine g dim N) h K k j 0) =
    (i == j)%:R * (h ^+ 3 / 3%:R * (1 + (K%:R ^+ 2)^-1 + (K%:R ^+ 4)^-1)).
Proof.
move=> H HF N0 i j.
pose a k := (get_coeffs (get_approx_fine g dim N) k h).1.1.1.
pose b k := (get_coeffs (get_approx_fine g dim N) k h).1.1.2.
have L i' j' : [/\ F (fun k => a k i' 0) = 0, F (fun k => b k i' 0) = 0,
  F (fun k => a k i' 0 * a k j' 0) = (i' == j')%:R * h,
  F (fun k => a k i' 0 * b k j' 0) = (i' == j')%:R * 0 &
  F (fun k => b k i' 0 * b k j' 0) = (i' == j')%:R * (h / 2%:R)].
  by have := aggregated_law i' j' H HF N0 h0; rewrite mulr0.
split.
  by rewrite -(comb_mean h (piw K) L i); apply: E_ext => k; exact: pi_fine.
rewrite -law_value -(comb_cov h (piw K) L i j); apply: E_ext => k; by rewrite !pi_fine.
Qed.

Definition bm_var (N : nat) : R :=
  4%:R^-1 - 6%:R * piw K * ((N%:R - 2%:R) / N%:R ^+ 2)
  + 3%:R * piw K ^+ 2 * ((N%:R ^+ 3 - 13%:R * N%:R + 18%:R) / N%:R ^+ 3).

Lemma pi_law_bm N (E : expectation (key g)) : standard2 E (fun k => normal2 k N dim) -> (1 < N)%N -> forall i j,
  E (fun k => path_integral (get_approx_and_brownian g dim N) h K k i 0) = 0 /\
  E (fun k => path_integral (get_approx_and_brownian g dim N) h K k i 0 * path_integral (get_approx_and_brownian g dim N) h K k j 0) =
    (i == j)%:R * (h ^+ 3 * (4%:R^-1 - 6%:R * (6%:R^-1 + (3%:R * K%:R ^+ 2)^-1) * ((N%:R - 2%:R) / N%:R ^+ 2)
  + 3%:R * (6%:R^-1 + (3%:R * K%:R ^+ 2)^-1) ^+ 2 * ((N%:R ^+ 3 - 13%:R * N%:R + 18%:R) / N%:R ^+ 3))).
Proof.
move=> H N0 i j; have L := bm_law N0 h0 H; rewrite -/(piw K) -/(bm_var N).
split.
  by rewrite -(comb_mean h (piw K) L i); apply: E_ext => k; exact: pi_bm.
have -> : h ^+ 3 * bm_var N = h ^+ 2 * (h / 4%:R - sqrt 6%:R * piw K * (sqrt 6%:R * h * (N%:R - 2%:R) / N%:R ^+ 2)
   + 6%:R * piw K ^+ 2 * (h / 2%:R * ((N%:R ^+ 3 - 13%:R * N%:R + 18%:R) / N%:R ^+ 3))).
  have s6 : sqrt 6%:R * sqrt 6%:R = 6%:R by toR; rewrite sqrt_sqrt //; lra.
  have NN : (N%:R : R) != 0 by rewrite pnatr_eq0 -lt0n (ltn_trans _ N0).
  rewrite /bm_var (_ : 6%:R * piw K * _ = sqrt 6%:R * sqrt 6%:R * piw K * ((N%:R - 2%:R) / N%:R ^+ 2)); last by rewrite s6.
  rewrite !exprS !expr0; move/eqP: NN; move: (piw K) (N%:R : R) (sqrt 6%:R) => w y q; toR => y0.
  by apply: (_ : @eq R _ _); toR; field.
rewrite -(comb_cov h (piw K) L i j); apply: E_ext => k; by rewrite !pi_bm.
Qed.
End PathIntegral.

(** The deviations from [h^3/3] at the parameters of the test. *)
Lemma natr500 : (500%:R : R) = 500%Re. Proof. by rewrite RnatE INR_IZR_INZ. Qed.
Lemma natr1000 : (1000%:R : R) = 1000%Re. Proof. by rewrite RnatE INR_IZR_INZ. Qed.
Lemma natr2000 : (2000%:R : R) = 2000%Re. Proof. by rewrite RnatE INR_IZR_INZ. Qed.

Lemma scaled_dev (b : bool) (x y e : R) : `|x - y| < e -> `|b%:R * x - b%:R * y| < e.
Proof.
move=> H; case: b; rewrite ?mul1r // !mul0r subrr normr0.
exact: le_lt_trans (normr_ge0 _) H.
Qed.

Lemma dev_foster : `|(2%:R^-1) ^+ 3 / 3%:R * (1 + (500%:R ^+ 2)^-1 + (500%:R ^+ 4)^-1)
    - (2%:R^-1) ^+ 3 / 3%:R| < 3%:R / 2000%:R :> R.
Proof.
rewrite natr500 natr2000 !exprS !expr0; apply/RltP; toR.
match goal with |- (Rabs ?x < _)%Re => have -> : x = (250001 / 1500000000000)%Re by field end.
by rewrite Rabs_pos_eq; lra.
Qed.

Lemma dev_bm : `|(2%:R^-1) ^+ 3 * (4%:R^-1 - 6%:R * (6%:R^-1 + (3%:R * 500%:R ^+ 2)^-1) * ((1000%:R - 2%:R) / 1000%:R ^+ 2)
  + 3%:R * (6%:R^-1 + (3%:R * 500%:R ^+ 2)^-1) ^+ 2 * ((1000%:R ^+ 3 - 13%:R * 1000%:R + 18%:R) / 1000%:R ^+ 3))
    - (2%:R^-1) ^+ 3 / 3%:R| < 3%:R / 2000%:R :> R.
Proof.
rewrite natr500 natr1000 natr2000 !exprS !expr0; apply/RltP; toR.
by apply: Rabs_def1; lra.
Qed.

Lemma natr7900 : (7900%:R : R) = 7900%Re. Proof. by rewrite RnatE INR_IZR_INZ. Qed.
Lemma natr8100 : (8100%:R : R) = 8100%Re. Proof. by rewrite RnatE INR_IZR_INZ. Qed.

Lemma dev_bm2 : let v : R := (2%:R^-1) ^+ 3 * (4%:R^-1 - 6%:R * (6%:R^-1 + (3%:R * 500%:R ^+ 2)^-1) * ((1000%:R - 2%:R) / 1000%:R ^+ 2)
  + 3%:R * (6%:R^-1 + (3%:R * 500%:R ^+ 2)^-1) ^+ 2 * ((1000%:R ^+ 3 - 13%:R * 1000%:R + 18%:R) / 1000%:R ^+ 3)) in
  (2%:R^-1) ^+ 3 / 3%:R - 7900%:R^-1 < v < (2%:R^-1) ^+ 3 / 3%:R - 8100%:R^-1.
Proof.
rewrite /= natr500 natr1000 natr7900 natr8100 !exprS !expr0; apply/andP; split; apply/RltP; toR; lra.
Qed.

Lemma pi_value (g : prng) dim (h : R) K (k : key g) (i : 'I_dim) : 0 < h -> (0 < K)%N ->
  let a := (get_coeffs (get_approx g dim) k h).1 in
  let b := (get_coeffs (get_approx g dim) k h).2 in
  path_integral (get_approx g dim) h K k i 0 =
    h * (a i 0 / 2%:R - sqrt 6%:R * (6%:R^-1 + (3%:R * K%:R ^+ 2)^-1) * b i 0) /\
  is_RInt (fun t => t * jacR (fun z => eval_fn z h (get_coeffs (get_approx g dim) k h)) t i 0) 0 h
    (h * (a i 0 / 2%:R - sqrt 6%:R / 6%:R * b i 0)).
Proof.
move=> h0 K0 a b; split; first exact: pi_foster.
by have := @exact_value dim h a b (lt0r_neq0 h0) i; apply: is_RInt_ext => t _; rewrite scalemxE.
Qed.

Lemma pi_tolerance (g : prng) (i j : 'I_2) :
  let h : R := 2%:R^-1 in let goal : R := (i == j)%:R * (h ^+ 3 / 3%:R) in
  let cov (bm : path_approx g 2) (E : expectation (key g)) :=
    E (fun k => path_integral bm h 500 k i 0 * path_integral bm h 500 k j 0) in
  [/\ forall E : expectation (key g), standard2 E (fun k => normal2 k 2 2) ->
        `|cov (get_approx g 2) E - goal| < 3%:R / 2000%:R,
      forall E F : expectation (key g), standard2 E (fun k => normal2 k 2 2) ->
        (forall G, F (fun k => G (split k 100)) = iid E 100 G) ->
        `|cov (get_approx_fine g 2 100) F - goal| < 3%:R / 2000%:R &
      forall E : expectation (key g), standard2 E (fun k => normal2 k 1000 2) ->
        `|cov (get_approx_and_brownian g 2 1000) E - goal| < 3%:R / 2000%:R /\
        (i = j -> goal - 7900%:R^-1 < cov (get_approx_and_brownian g 2 1000) E < goal - 8100%:R^-1)].
Proof.
move=> h goal cov; have h0 : 0 < h by rewrite invr_gt0 ltr0n.
have K0 : (0 < 500)%N by [].
split=> [E H|E F H HF|E H].
- rewrite /cov (pi_law h0 K0 H i j).2; exact: scaled_dev dev_foster.
- rewrite /cov (pi_law_fine h0 K0 H HF isT i j).2; exact: scaled_dev dev_foster.
rewrite /cov (pi_law_bm h0 K0 H isT i j).2; split; first exact: scaled_dev dev_bm.
move=> ij; rewrite /goal ij eqxx !mul1r; exact: dev_bm2.
Qed.

(** ** tests/test_euler.py *)
Lemma exp_quad_le (x : R) : (0 <= x)%Re -> (exp (x - x * x / 2)%Re <= 1 + x)%Re.
Proof.
move=> x0.
pose f (t : R) := ((1 + t) * exp (- (t - t * t / 2))%Re)%Re.
pose f' (t : R) := (t * t * exp (- (t - t * t / 2))%Re)%Re.
have D t : is_derive f t (f' t).
  by rewrite /f /f'; auto_derive => //; rewrite -!/(Rminus _ _) -!/(Rdiv _ _); set e := exp _; clearbody e; field.
have Cf t : continuity_pt f t.
  by apply/continuity_pt_filterlim; exact: (@ex_derive_continuous R_AbsRing R_NormedModule f t (ex_intro _ _ (D t))).
have [c [_ Hc]] := MVT_gen f 0%Re x f' (fun t _ => D t) (fun t _ => Cf t).
have p : (0 <= f' c)%Re by apply: Rmult_le_pos; [nra | left; exact: exp_pos].
have f0 : f 0%Re = 1%Re by rewrite /f (_ : (- (0 - 0 * 0 / 2))%Re = 0%Re) ?exp_0; field.
have : (1 <= f x)%Re by move: Hc; rewrite f0; nra.
rewrite /f exp_Ropp => H; have e0 := exp_pos (x - x * x / 2)%Re.
have -> : (1 + x)%Re = ((1 + x) * / exp (x - x * x / 2)%Re * exp (x - x * x / 2)%Re)%Re by field; lra.
by nra.
Qed.

Lemma exp_lin_le (x : R) : (1 + x <= exp x)%Re.
Proof. by case: (Req_dec x 0%Re) => [->|n]; [rewrite exp_0; lra | left; exact: exp_ineq1]. Qed.

Lemma exp_powr (x : R) n : (exp x ^ n)%Re = exp (INR n * x)%Re.
Proof.
elim: n => [|n IH]; first by rewrite /= Rmult_0_l exp_0.
by rewrite S_INR Rmult_plus_distr_r Rmult_1_l exp_plus -IH /=; ring.
Qed.

Lemma exp1_lt3 : (exp 1%Re < 3)%Re.
Proof.
have H := exp_lin_le (- (1 / 8))%Re; have e0 := exp_pos (1 / 8)%Re.
have I : (exp (1 / 8)%Re * exp (- (1 / 8))%Re = 1)%Re by rewrite -exp_plus (_ : (1 / 8 + - (1 / 8))%Re = 0%Re) ?exp_0; field.
have B : (exp (1 / 8)%Re <= 8 / 7)%Re.
  by move: H I e0; move: (exp (1 / 8)%Re) (exp (- (1 / 8))%Re) => u v H I e0; have := Rmult_le_compat_l u _ _ (Rlt_le _ _ e0) H; lra.
have -> : exp 1%Re = (exp (1 / 8)%Re ^ 8)%Re by rewrite exp_powr; congr exp; rewrite INR_IZR_INZ /=; field.
apply: (Rle_lt_trans _ ((8 / 7) ^ 8)%Re); last by lra.
by apply: pow_incr; lra.
Qed.

Lemma euler_exp_bounds N : (0 < N)%N ->
  0 <= exp 1 - euler (const_mx 1 : 'cV[R]_1) (fun x _ => x) (1 / N%:R) N 0 0 <= exp 1 / (2%:R * N%:R).
Proof.
move=> N0; set x := euler _ _ _ _ _ _.
have NN : (N%:R : R) != 0 by rewrite pnatr_eq0 -lt0n.
have Nn : INR N <> 0%Re by move/eqP: NN; rewrite RnatE.
have Np : (0 < INR N)%Re by apply: lt_0_INR; exact/ssrnat.ltP.
have -> : x = ((1 + / INR N) ^ N)%Re.
  have E : x = euler (const_mx 1 : 'cV[R]_1) (fun x _ => 1 *: x) (1 / N%:R) N 0 0.
    by congr (euler _ _ _ _ _ _); apply: functional_extensionality => z; rewrite scale1r.
  by rewrite E euler_scalar scalemxE mxE mulr1 mulr1 mul1r RpowE RinvE RnatE.
have lo : ((1 + / INR N) ^ N <= exp 1%Re)%Re.
  have -> : exp 1%Re = (exp (/ INR N)%Re ^ N)%Re by rewrite exp_powr Rinv_r.
  apply: pow_incr; split; last exact: exp_lin_le.
  by have := Rinv_0_lt_compat _ Np; lra.
have hi : (exp 1%Re * (1 - / (2 * INR N)) <= (1 + / INR N) ^ N)%Re.
  have ip := Rinv_0_lt_compat _ Np.
  have Q := exp_quad_le (Rlt_le _ _ ip).
  apply: (Rle_trans _ (exp (/ INR N - / INR N * / INR N / 2)%Re ^ N)%Re); last first.
    by apply: pow_incr; split; [left; exact: exp_pos | exact: Q].
  rewrite exp_powr (_ : (INR N * (/ INR N - / INR N * / INR N / 2))%Re = (1 + - / (2 * INR N))%Re); last by field.
  rewrite exp_plus; apply: Rmult_le_compat_l; first by left; exact: exp_pos.
  by have := exp_lin_le (- / (2 * INR N))%Re; lra.
apply/andP; split; apply/RleP; rewrite ?RnatE; toR; rewrite -?INR_IZR_INZ; first by move: lo; lra.
by move: hi; rewrite /Rdiv; lra.
Qed.

Lemma sin_slope (u v : R) : (0 <= u)%Re -> (u <= v)%Re -> (v <= 1)%Re ->
  ((v - u) * sin u <= cos u - cos v <= (v - u) * sin v)%Re.
Proof.
move=> u0 uv v1; have pi3 := PI2_3_2; have pi2 : (1 <= PI / 2)%Re by lra.
have D t : is_derive (fun t => - cos t)%Re t (sin t) by auto_derive => //; ring.
have Cf t : continuity_pt (fun t => - cos t)%Re t.
  by apply/continuity_pt_filterlim; exact: (@ex_derive_continuous R_AbsRing R_NormedModule _ t (ex_intro _ _ (D t))).
have [c []] := MVT_gen (fun t => - cos t)%Re u v sin (fun t _ => D t) (fun t _ => Cf t).
rewrite Rmin_left // Rmax_right // => cuv Hc.
have s1 : (sin u <= sin c)%Re by apply: sin_incr_1; lra.
have s2 : (sin c <= sin v)%Re by apply: sin_incr_1; lra.
have -> : (cos u - cos v = (v - u) * sin c)%Re by move: Hc => /=; lra.
by split; apply: Rmult_le_compat_l; lra.
Qed.

Lemma euler_sin_bounds N : (0 < N)%N ->
  0 <= 2%:R - cos 1 - euler (const_mx 1 : 'cV[R]_1) (fun _ t => const_mx (sin t)) (1 / N%:R) N 0 0
    <= sin 1 / N%:R.
Proof.
move=> N0; rewrite euler_quadrature addmxE scalemxE mxE summxE.
have NN : (N%:R : R) != 0 by rewrite pnatr_eq0 -lt0n.
pose h : R := N%:R^-1; have h0 : 0 <= h by rewrite invr_ge0 ler0n.
under eq_bigr => k _ do rewrite mxE div1r -/h.
rewrite div1r -/h.
have S n : (n <= N)%N -> 0 <= 1 - cos (n%:R * h) - h * (\sum_(0 <= k < n) sin (k%:R * h)) <= h * sin (n%:R * h).
  elim: n => [|n IH] nN.
    by rewrite big_geq // mul0r; toR; rewrite cos_0 sin_0; apply/andP; split; apply/RleP; toR; lra.
  have /andP[/RleP l /RleP u] := IH (ltnW nN).
  have nh0 : (0 <= n%:R * h)%Re by apply/RleP; rewrite mulr_ge0 ?ler0n.
  have nh1 : (n.+1%:R * h <= 1)%Re by apply/RleP; rewrite ler_pdivr_mulr ?ltr0n // mul1r ler_nat.
  have E : n.+1%:R * h - n%:R * h = h by rewrite -mulrBl -natrB // subSnn mul1r.
  have nn : (n%:R * h <= n.+1%:R * h)%Re by apply/RleP; rewrite -subr_ge0 E.
  have [l' u'] := sin_slope nh0 nn nh1; move: l' u'; rewrite -RminusE E => l' u'.
  rewrite big_nat_recr // -[X in h * X]/(_ + _); move: l u l' u'.
  move: (cos (n%:R * h)) (cos (n.+1%:R * h)) (sin (n%:R * h)) (sin (n.+1%:R * h)) (\sum_(0 <= k < n) _) => c c' s s' z.
  toR => l u l' u'; apply/andP; split; apply/RleP; toR; lra.
have := S N (leqnn N); rewrite /h mulfV // -/h.
have -> : 2%:R - cos 1 - (1 + h * \sum_(0 <= k < N) sin (k%:R * h)) = 1 - cos 1 - h * \sum_(0 <= k < N) sin (k%:R * h).
  by move: (\sum_(0 <= k < N) _) (cos 1) => z c; toR; ring.
by rewrite [h * sin 1]mulrC.
Qed.

Lemma euler_tolerance :
  `|euler (const_mx 1 : 'cV[R]_1) (fun x _ => x) (1 / 1000%:R) 1000 0 0 - exp 1| < 3%:R / 2000%:R /\
  `|euler (const_mx 1 : 'cV[R]_1) (fun _ t => const_mx (sin t)) (1 / 1000%:R) 1000 0 0 - (2%:R - cos 1)| < 3%:R / 2000%:R.
Proof.
have /andP[l1 u1] := @euler_exp_bounds 1000 isT.
have /andP[l2 u2] := @euler_sin_bounds 1000 isT.
rewrite !(distrC (euler _ _ _ _ _ _)) !ger0_norm //; split.
- apply: le_lt_trans u1 _; rewrite natr1000 natr2000; apply/RltP; have := exp1_lt3; toR; lra.
- apply: le_lt_trans u2 _; rewrite natr1000 natr2000; apply/RltP; have := SIN_bound 1%Re; toR; lra.
Qed.
