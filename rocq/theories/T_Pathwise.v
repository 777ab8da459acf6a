(** Property C101: pathwise error of the driver for additive noise, against the solution driven by any path
    whose increments are the drawn ones. *)
From Coq Require Import Reals Lra.
From Coquelicot Require Import Coquelicot.
From mathcomp Require Import all_ssreflect all_algebra mxtens.
From Verif Require Import Rstruct Base Linalg Calc Prob Lapack Spec Spec3 M_Foster M_ItoStrat M_SdeSolver M_Euler M_Prior
  M_OdeSolvers M_Ivp L_Euler L_Pathwise L_Gronwall.

Set Implicit Arguments.
Unset Strict Implicit.
Unset Printing Implicit Defensive.
Import Order.TTheory GRing.Theory Num.Theory.
Local Open Scope ring_scope.

(** W is a driving path and X solves dX = f(X, t) dt + S dW along it.  On interval i the drawn pair (a, b) has
    a = the increment of W, and the parabola stays within eta of W (measured through S).  If the ODE integrator
    is within eps of a solution of the random ODE over every interval, then after n intervals the state is
    within (eta + eps / (e^(L delta) - 1)) (e^(L n delta) - 1) of X(n delta). *)
Theorem C101_any (g : prng) (d m : nat) (f : 'cV[R]_d -> R -> 'cV[R]_d) (S : 'M[R]_(d, m)) (L delta : R) (N : nat)
  (W : R -> 'cV[R]_m) (X : R -> 'cV[R]_d) (eta eps : R) (k : key g)
  (int : key g -> 'cV[R]_d -> ('cV[R]_d -> R -> 'cV[R]_d) -> R -> 'cV[R]_d) :
  let fs := to_stratonovich f (fun _ _ => S) in
  let x n := nth (X 0) (sde_solver fs.1 fs.2 (get_approx g m) delta int k (X 0) N).1.2 n in
  0 < delta -> 0 < L -> lipschitz f L -> 0 <= eta -> 0 <= eps ->
  solves_additive f S (N%:R * delta) W X ->
  (forall i a b, (i < N)%N -> parabolas m (child (child k N i) 2 0) delta = (a, b) ->
     a = W (i.+1%:R * delta) - W (i%:R * delta) /\
     (forall s, 0 <= s -> s <= delta ->
        sup_le (S *m (W (i%:R * delta + s) - W (i%:R * delta) - eval_parabola s delta a b)) eta)) ->
  (forall i a b, (i < N)%N -> parabolas m (child (child k N i) 2 0) delta = (a, b) ->
     exists y, [/\ y 0 = x i,
       deriv_on delta y (fun t => f (y t) (t + i%:R * delta) + S *m jacR (fun s => eval_parabola s delta a b) t) &
       sup_le (x i.+1 - y delta) eps]) ->
  forall n, (n <= N)%N ->
  sup_le (x n - X (n%:R * delta)) ((eta + eps / (exp (L * delta) - 1)) * (exp (L * (n%:R * delta)) - 1)).
Proof. exact: any_run. Qed.
Print Assumptions C101_any.

(** M Euler sub-steps: omega bounds the change of the drift along X over one sub-step and beta bounds S b. *)
Theorem C101_euler (g : prng) (d m : nat) (f : 'cV[R]_d -> R -> 'cV[R]_d) (S : 'M[R]_(d, m)) (L delta : R) (M N : nat)
  (W : R -> 'cV[R]_m) (X : R -> 'cV[R]_d) (eta omega beta : R) (k : key g) :
  let fs := to_stratonovich f (fun _ _ => S) in
  let x n := nth (X 0) (sde_solver fs.1 fs.2 (get_approx g m) delta (fun _ z F T => euler z F (T / M%:R) M) k (X 0) N).1.2 n in
  0 < delta -> (0 < M)%N -> 0 < L -> lipschitz f L -> 0 <= eta -> 0 <= omega -> 0 <= beta ->
  solves_additive f S (N%:R * delta) W X ->
  (forall i a b, (i < N)%N -> parabolas m (child (child k N i) 2 0) delta = (a, b) ->
     [/\ a = W (i.+1%:R * delta) - W (i%:R * delta), sup_le (S *m b) beta &
     forall s, 0 <= s -> s <= delta ->
       sup_le (S *m (W (i%:R * delta + s) - W (i%:R * delta) - eval_parabola s delta a b)) eta]) ->
  (forall s t, 0 <= s -> s <= t -> t <= N%:R * delta -> t - s <= delta / M%:R -> sup_le (f (X t) t - f (X s) s) omega) ->
  forall n, (n <= N)%N ->
  sup_le (x n - X (n%:R * delta))
    ((eta + (omega + sqrt 6%:R * beta / (M%:R * delta)) / L) * (exp (L * (n%:R * delta)) - 1)).
Proof. exact: path_euler. Qed.
Print Assumptions C101_euler.

(** M EKF0 sub-steps with the integrated Brownian prior: the term of the Brownian bridge coefficient b falls
    like 1/M^2 and is not divided by delta. *)
Theorem C101_ekf0 (g : prng) (d m : nat) (f : 'cV[R]_d -> R -> 'cV[R]_d) (S : 'M[R]_(d, m)) (L delta : R) (M N : nat)
  (W : R -> 'cV[R]_m) (X : R -> 'cV[R]_d) (eta omega beta : R) (k : key g) (lp : lapack) (sp : R) (sq : bool) :
  let fs := to_stratonovich f (fun _ _ => S) in
  0 < delta -> (0 < M)%N -> 0 < L -> lipschitz f L -> 0 <= eta -> 0 <= omega -> 0 <= beta ->
  solves_additive f S (N%:R * delta) W X ->
  (forall i a b, (i < N)%N -> parabolas m (child (child k N i) 2 0) delta = (a, b) ->
     [/\ a = W (i.+1%:R * delta) - W (i%:R * delta), sup_le (S *m b) beta &
     forall s, 0 <= s -> s <= delta ->
       sup_le (S *m (W (i%:R * delta + s) - W (i%:R * delta) - eval_parabola s delta a b)) eta]) ->
  (forall s t, 0 <= s -> s <= t -> t <= N%:R * delta -> t - s <= delta / M%:R -> sup_le (f (X t) t - f (X s) s) omega) ->
  (0 < d)%N -> sp != 0 ->
  forall n, (n <= N)%N ->
  exists x, nth (Val (X 0)) (sde_solver fs.1 fs.2 (get_approx g m) delta (fun _ (x : res 'cV[R]_d) F T => let h := T / M%:R in
    let! x := x in ekf0 lp (None : option (key g)) x F h M sq (a_prior (ioup 0 sp 1 h d)) None) k (Val (X 0)) N).1.2 n = Val x /\
  sup_le (x - X (n%:R * delta))
    ((eta + omega / L + sqrt 6%:R * beta / M%:R ^+ 2) * (exp (L * (n%:R * delta)) - 1)).
Proof. exact: path_ekf0. Qed.
Print Assumptions C101_ekf0.

(** Example: one interval of length 1, W = the drawn parabola + t (1 - t), f(z, t) = W(t) - z, S = 1 and
    X = W + e^(-t).  The hypotheses hold with L = 1, eta = 1/4, omega = 1/M and beta = |b|. *)
Example C101_ex (g : prng) (k : key g) (M : nat) (a b : 'cV[R]_1) : (0 < M)%N ->
  parabolas 1 (child (child k 1 0) 2 0) 1 = (a, b) ->
  let W (t : R) : 'cV[R]_1 := eval_parabola t 1 a b + const_mx (t * (1 - t)) in
  let X (t : R) : 'cV[R]_1 := W t + const_mx (exp (- t)) in
  let fs := to_stratonovich (fun z t => W t - z) (fun _ _ => 1%:M) in
  sup_le (nth (X 0) (sde_solver fs.1 fs.2 (get_approx g 1) 1 (fun _ z F T => euler z F (T / M%:R) M) k (X 0) 1).1.2 1 - X (1%:R * 1))
    ((1 / 4%:R + (1 / M%:R + sqrt 6%:R * `|b 0 0| / (M%:R * 1)) / 1) * (exp (1 * (1%:R * 1)) - 1)).
Proof.
move=> M0 Eab W X fs.
have [H1 H2 H3 H4] : [/\ (0 : R) < 1, (0 : R) <= 1 / 4%:R, (0 : R) <= 1 / M%:R & 0 <= `|b 0 0|].
  by split; rewrite ?ltr01 ?normr_ge0 ?divr_ge0 ?ler0n ?ler01.
apply: (@C101_euler g 1 1 (exf a b) 1%:M 1 1 M 1 (exW a b) (exX a b) _ _ _ k H1 M0 H1 (exf_lip a b) H2 H3 H4) => //.
- exact: exX_solves.
- case=> [|//] a' b' _; rewrite Eab => -[<- <-]; rewrite mul0r; split.
  + by rewrite exW0 subr0 mulr1 /exW parab_end ?oner_neq0 // subrr mulr0; apply/colP=> i; rewrite !mxE addr0.
  + by move=> i; rewrite mul1mx ord1.
  + by move=> s s0 s1; rewrite add0r; exact: exW_near.
- by move=> s t s0 st _; exact: exW_mod.
Qed.

(** For the same data the random ODE from X(0) has the solution y below, so that the hypotheses of [C101_any]
    hold with eps = 0 for an integrator that returns y(1). *)
Example C101_ex_any (g : prng) (k : key g) (a b : 'cV[R]_1) (int : key g -> 'cV[R]_1 -> ('cV[R]_1 -> R -> 'cV[R]_1) -> R -> 'cV[R]_1) :
  parabolas 1 (child (child k 1 0) 2 0) 1 = (a, b) ->
  let W (t : R) : 'cV[R]_1 := eval_parabola t 1 a b + const_mx (t * (1 - t)) in
  let X (t : R) : 'cV[R]_1 := W t + const_mx (exp (- t)) in
  let y (t : R) : 'cV[R]_1 := eval_parabola t 1 a b + const_mx (4%:R * exp (- t) - t ^+ 2 + 3%:R * t - 3%:R) in
  let fs := to_stratonovich (fun z t => W t - z) (fun _ _ => 1%:M) in
  let x n := nth (X 0) (sde_solver fs.1 fs.2 (get_approx g 1) 1 int k (X 0) 1).1.2 n in
  x 1%N = y 1 ->
  sup_le (x 1%N - X (1%:R * 1)) ((1 / 4%:R + 0 / (exp (1 * 1) - 1)) * (exp (1 * (1%:R * 1)) - 1)).
Proof.
move=> Eab W X y fs x x1.
have [H1 H2] : (0 : R) < 1 /\ (0 : R) <= 1 / 4%:R by split; rewrite ?ltr01 ?divr_ge0 ?ler0n ?ler01.
apply: (@C101_any g 1 1 (exf a b) 1%:M 1 1 1 (exW a b) (exX a b) _ _ k int H1 H1 (exf_lip a b) H2 (lexx _)) => //.
- exact: exX_solves.
- case=> [|//] a' b' _; rewrite Eab => -[<- <-]; rewrite mul0r; split.
  + by rewrite exW0 subr0 mulr1 /exW parab_end ?oner_neq0 // subrr mulr0; apply/colP=> i; rewrite !mxE addr0.
  + by move=> s s0 s1; rewrite add0r; exact: exW_near.
- case=> [|//] a' b' _; rewrite Eab => -[<- <-]; exists y; split.
  + rewrite start_state /y /exX /exW !parab_start !add0r; apply/colP=> i; rewrite !mxE oppr0 exp_0; rring.
  + exact: exy_deriv.
  + change (sup_le (x 1%N - y 1) 0).
    by rewrite x1 subrr; exact: sup_le0.
Qed.
