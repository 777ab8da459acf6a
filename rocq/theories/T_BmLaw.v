(** C102: the law of the coefficients returned by [get_approx_and_brownian]. *)
From Coq Require Import Reals Lra.
From Coquelicot Require Import Coquelicot.
From mathcomp Require Import all_ssreflect all_algebra mxtens.
From Verif Require Import Rstruct Base Linalg Calc Prob Spec M_Foster L_Foster L_BmLaw.

Set Implicit Arguments.
Unset Strict Implicit.
Unset Printing Implicit Defensive.
Import Order.TTheory GRing.Theory Num.Theory.
Local Open Scope ring_scope.

(** The pair should be uncorrelated with variances [dt] and [dt / 2] (as in C06); it is for no
    number of samples. *)
Theorem C102_law_refuted N (dt : R) : (0 < N)%N -> 0 < dt ->
  exists (g : prng) (E : expectation (key g)),
  let a k := (get_coeffs (get_approx_and_brownian g 1 N) k dt).1.1 in
  let b k := (get_coeffs (get_approx_and_brownian g 1 N) k dt).1.2 in
  standard2 E (fun k => normal2 k N 1) /\
  ~ (E (fun k => a k 0 0 * b k 0 0) = 0 /\ E (fun k => b k 0 0 * b k 0 0) = dt / 2%:R).
Proof. exact: bm_law_refuted. Qed.
Print Assumptions C102_law_refuted.

(** The exact first and second moments, for two samples or more. *)
Theorem C102_law (g : prng) (E : expectation (key g)) dim N (dt : R) : (1 < N)%N -> 0 < dt ->
  standard2 E (fun k => normal2 k N dim) -> forall i j : 'I_dim,
  let a k := (get_coeffs (get_approx_and_brownian g dim N) k dt).1.1 in
  let b k := (get_coeffs (get_approx_and_brownian g dim N) k dt).1.2 in
  [/\ E (fun k => a k i 0) = 0, E (fun k => b k i 0) = 0,
      E (fun k => a k i 0 * a k j 0) = (i == j)%:R * dt,
      E (fun k => a k i 0 * b k j 0) = (i == j)%:R * (sqrt 6%:R * dt * (N%:R - 2%:R) / N%:R ^+ 2) &
      E (fun k => b k i 0 * b k j 0) =
        (i == j)%:R * (dt / 2%:R * ((N%:R ^+ 3 - 13%:R * N%:R + 18%:R) / N%:R ^+ 3))].
Proof. exact: bm_law. Qed.
Print Assumptions C102_law.

(** ... with one sample the second coefficient is a multiple of the first. *)
Theorem C102_one (g : prng) dim (k : key g) dt : dt != 0 ->
  let c := get_coeffs (get_approx_and_brownian g dim 1) k dt in
  c.1.2 = - (sqrt 6%:R / 2%:R) *: c.1.1.
Proof. exact: bm_one. Qed.
Print Assumptions C102_one.

(** The area under the returned path: the variance is [dt^3/3] and the covariance with the increment
    [dt^2/2] up to the factors displayed. *)
Theorem C102_area (g : prng) (E : expectation (key g)) dim N (dt : R) : (0 < N)%N -> 0 < dt ->
  standard2 E (fun k => normal2 k N dim) -> (1 < N)%N -> forall i j : 'I_dim,
  let a k := (get_coeffs (get_approx_and_brownian g dim N) k dt).1.1 in
  let area k i := RInt (fun t => eval_fn t dt (get_coeffs (get_approx_and_brownian g dim N) k dt) i 0) 0 dt in
  [/\ E (fun k => area k i) = 0,
      E (fun k => a k i 0 * area k j) = (i == j)%:R * (dt ^+ 2 / 2%:R * (1 + 2%:R * (N%:R - 2%:R) / N%:R ^+ 2)) &
      E (fun k => area k i * area k j) =
      (i == j)%:R * (dt ^+ 3 / 3%:R * (1 + 3%:R / N%:R - 37%:R / (4%:R * N%:R ^+ 2) + 9%:R / (2%:R * N%:R ^+ 3)))].
Proof. exact: bm_area_law. Qed.
Print Assumptions C102_area.

(** The hypotheses hold of independent fair signs; with the default of 1000 samples and unit step
    the covariance of the pair is [sqrt 6 * 998 / 10^6], not zero. *)
Example C102_ex : standard2 (signkeyE 1000 2) (fun k => normal2 (k : key tree_prng) 1000 2) /\
  signkeyE 1000 2 (fun k =>
    let c := get_coeffs (get_approx_and_brownian tree_prng 2 1000) k 1 in c.1.1 0 0 * c.1.2 0 0)
  = sqrt 6%:R * (998%:R / 1000%:R ^+ 2).
Proof.
have H : standard2 (signkeyE 1000 2) (fun k => normal2 (k : key tree_prng) 1000 2) by exact: signkey_standard.
split=> //.
have [_ _ _ C _] := @C102_law tree_prng (signkeyE 1000 2) 2 1000 1 isT ltr01 H 0 0.
rewrite [LHS]C eqxx mul1r mulr1 -mulrA; congr (_ * (_ / _)).
by rewrite -natrB.
Qed.
