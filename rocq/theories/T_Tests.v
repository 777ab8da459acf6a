(** C106, C107: the quantities that tests/test_foster.py and tests/test_euler.py measure. *)
From Coq Require Import Reals Lra.
From Coquelicot Require Import Coquelicot.
From mathcomp Require Import all_ssreflect all_algebra mxtens.
From Verif Require Import Rstruct Base Linalg Calc Prob Spec Spec3 M_Foster L_Foster L_BmLaw M_Euler L_Euler M_Tests L_Tests.

Set Implicit Arguments.
Unset Strict Implicit.
Unset Printing Implicit Defensive.
Import Order.TTheory GRing.Theory Num.Theory.
Local Open Scope ring_scope.

(** The trapezoidal sum over [K] intervals of [t dW(t)] along the parabola, and the integral it
    stands for. *)
Theorem C106_value (g : prng) dim (h : R) K (k : key g) (i : 'I_dim) : 0 < h -> (0 < K)%N ->
  let a := (get_coeffs (get_approx g dim) k h).1 in
  let b := (get_coeffs (get_approx g dim) k h).2 in
  path_integral (get_approx g dim) h K k i 0 =
    h * (a i 0 / 2%:R - sqrt 6%:R * (6%:R^-1 + (3%:R * K%:R ^+ 2)^-1) * b i 0) /\
  is_RInt (fun t => t * jacR (fun z => eval_fn z h (get_coeffs (get_approx g dim) k h)) t i 0) 0 h
    (h * (a i 0 / 2%:R - sqrt 6%:R / 6%:R * b i 0)).
Proof. exact: pi_value. Qed.
Print Assumptions C106_value.

(** Mean zero and covariance [h^3/3] times the identity, up to the factor of the quadrature; both for
    the one-parabola path and for the path aggregated from [N] fine ones. *)
Theorem C106_law (g : prng) dim (h : R) K : 0 < h -> (0 < K)%N -> forall E : expectation (key g),
  standard2 E (fun k => normal2 k 2 dim) -> forall i j : 'I_dim,
  let z k i := path_integral (get_approx g dim) h K k i 0 in
  E (fun k => z k i) = 0 /\
  E (fun k => z k i * z k j) = (i == j)%:R * (h ^+ 3 / 3%:R * (1 + (K%:R ^+ 2)^-1 + (K%:R ^+ 4)^-1)).
Proof. exact: pi_law. Qed.
Print Assumptions C106_law.

Theorem C106_law_fine (g : prng) dim (h : R) K : 0 < h -> (0 < K)%N ->
  forall N (E F : expectation (key g)),
  standard2 E (fun k => normal2 k 2 dim) ->
  (forall G, F (fun k => G (split k N)) = iid E N G) -> (0 < N)%N -> forall i j : 'I_dim,
  let z k i := path_integral (get_approx_fine g dim N) h K k i 0 in
  F (fun k => z k i) = 0 /\
  F (fun k => z k i * z k j) = (i == j)%:R * (h ^+ 3 / 3%:R * (1 + (K%:R ^+ 2)^-1 + (K%:R ^+ 4)^-1)).
Proof. exact: pi_law_fine. Qed.
Print Assumptions C106_law_fine.

(** The same for the parabola of a sampled Brownian path: the bias of C102 shows. *)
Theorem C106_law_brownian (g : prng) dim (h : R) K : 0 < h -> (0 < K)%N ->
  forall N (E : expectation (key g)),
  standard2 E (fun k => normal2 k N dim) -> (1 < N)%N -> forall i j : 'I_dim,
  let z k i := path_integral (get_approx_and_brownian g dim N) h K k i 0 in
  E (fun k => z k i) = 0 /\
  E (fun k => z k i * z k j) =
    (i == j)%:R * (h ^+ 3 *
      (4%:R^-1 - 6%:R * (6%:R^-1 + (3%:R * K%:R ^+ 2)^-1) * ((N%:R - 2%:R) / N%:R ^+ 2)
       + 3%:R * (6%:R^-1 + (3%:R * K%:R ^+ 2)^-1) ^+ 2 * ((N%:R ^+ 3 - 13%:R * N%:R + 18%:R) / N%:R ^+ 3))).
Proof. exact: pi_law_bm. Qed.
Print Assumptions C106_law_brownian.

(** At the parameters of the test ([h = 1/2], 500 intervals, dimension 2, default numbers of samples)
    every entry of the three covariance matrices lies within the tolerance of [h^3/3] times the
    identity, so the exact law passes the test in all three cases; in the last one the diagonal is
    too small by between [1/8100] and [1/7900]. *)
Theorem C106_tolerance (g : prng) (i j : 'I_2) :
  let h : R := 2%:R^-1 in let goal : R := (i == j)%:R * (h ^+ 3 / 3%:R) in
  let cov (bm : path_approx g 2) (E : expectation (key g)) :=
    E (fun k => path_integral bm h 500 k i 0 * path_integral bm h 500 k j 0) in
  [/\ forall E : expectation (key g), standard2 E (fun k => normal2 k 2 2) ->
        `|cov (get_approx g 2) E - goal| < 3%:R / 2000%:R,
      forall E F : expectation (key g), standard2 E (fun k => normal2 k 2 2) ->
        (forall G, F (fun k => G (split k 100)) = iid E 100 G) ->
        `|cov (get_approx_fine g 2 100) F - goal| < 3%:R / 2000%:R &
      forall E : expectation (key g), standard2 E (fun k => normal2 k 1000 2) ->
        `|cov (get_approx_and_brownian g 2 1000) E - goal| < 3%:R / 2000%:R /\
        (i = j -> goal - 7900%:R^-1 < cov (get_approx_and_brownian g 2 1000) E < goal - 8100%:R^-1)].
Proof. exact: pi_tolerance. Qed.
Print Assumptions C106_tolerance.

(** Independent fair signs meet the hypotheses; with ten intervals and unit step the variance is
    [(1 + 1/100 + 1/10000) / 3 = 3367/10000]. *)
Example C106_ex :
  [/\ standard2 (signkeyE 2 2) (fun k => normal2 (k : key tree_prng) 2 2),
      (forall G, nodeE (signkeyE 2 2) 100 (fun k => G (split (k : key tree_prng) 100)) = iid (signkeyE 2 2) 100 G),
      standard2 (signkeyE 1000 2) (fun k => normal2 (k : key tree_prng) 1000 2) &
      signkeyE 2 2 (fun k => path_integral (get_approx tree_prng 2) 1 10 k 1 0 ^+ 2) = 3367%:R / 10000%:R].
Proof.
split; [exact: signkey_standard | exact: nodeE_split | exact: signkey_standard|].
have [_] := @C106_law tree_prng 2 1 10 ltr01 isT _ (signkey_standard 2 2) 1 1.
have -> : 3367%:R / 10000%:R = 1 * (1 ^+ 3 / 3%:R * (1 + (10%:R ^+ 2)^-1 + (10%:R ^+ 4)^-1)) :> R.
  have e1 : (3367%:R : R) = 3367%Re by rewrite RnatE INR_IZR_INZ.
  have e2 : (10000%:R : R) = 10000%Re by rewrite RnatE INR_IZR_INZ.
  by rewrite e1 e2 !exprS !expr0; toR; field.
by rewrite eqxx => <-; apply: E_ext => k; rewrite expr2.
Qed.

(** C107: Euler with [N] steps on the two problems of tests/test_euler.py falls short of the exact
    value by at most the displayed amount. *)
Theorem C107_exponential N : (0 < N)%N ->
  0 <= exp 1 - euler (const_mx 1 : 'cV[R]_1) (fun x _ => x) (1 / N%:R) N 0 0 <= exp 1 / (2%:R * N%:R).
Proof. exact: euler_exp_bounds. Qed.
Print Assumptions C107_exponential.

Theorem C107_sin N : (0 < N)%N ->
  0 <= 2%:R - cos 1 - euler (const_mx 1 : 'cV[R]_1) (fun _ t => const_mx (sin t)) (1 / N%:R) N 0 0
    <= sin 1 / N%:R.
Proof. exact: euler_sin_bounds. Qed.
Print Assumptions C107_sin.

(** With the 1000 steps of the tests both comparisons succeed. *)
Theorem C107_tolerance :
  `|euler (const_mx 1 : 'cV[R]_1) (fun x _ => x) (1 / 1000%:R) 1000 0 0 - exp 1| < 3%:R / 2000%:R /\
  `|euler (const_mx 1 : 'cV[R]_1) (fun _ t => const_mx (sin t)) (1 / 1000%:R) 1000 0 0 - (2%:R - cos 1)| < 3%:R / 2000%:R.
Proof. exact: euler_tolerance. Qed.
Print Assumptions C107_tolerance.

(** Four steps: [(5/4)^4 = 625/256], which is [e] up to [e/8]. *)
Example C107_ex :
  euler (const_mx 1 : 'cV[R]_1) (fun x _ => x) (1 / 4%:R) 4 0 0 = 625%:R / 256%:R /\
  exp 1 * (7%:R / 8%:R) <= 625%:R / 256%:R <= exp 1.
Proof.
have E : euler (const_mx 1 : 'cV[R]_1) (fun x _ => x) (1 / 4%:R) 4 0 0 = 625%:R / 256%:R.
  rewrite (_ : (fun x _ => x) = (fun (x : 'cV[R]_1) (_ : R) => 1 *: x)); last first.
    by apply: FunctionalExtensionality.functional_extensionality => z; rewrite scale1r.
  by rewrite euler_scalar scalemxE mxE mulr1 !exprS expr0; toR; field.
split=> //; have := @C107_exponential 4 isT; rewrite E.
by case/andP=> /RleP l /RleP u; apply/andP; split; apply/RleP; move: l u; toR; lra.
Qed.
