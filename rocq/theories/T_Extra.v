(** Properties C82 to C84: the parabola as best predictor, splitting a run, related fields. *)
From Coq Require Import Reals Lra.
From Coquelicot Require Import Coquelicot.
From mathcomp Require Import all_ssreflect all_algebra fingroup perm mxtens.
From Verif Require Import Rstruct Base Linalg Lapack Calc Prob Spec Spec2 M_Utils M_Foster M_Filter M_Prior M_OdeSolvers
  L_Foster L_Scheme15 L_OdeSolvers L_Prior L_Total L_Path L_Sym.

Set Implicit Arguments.
Unset Strict Implicit.
Unset Printing Implicit Defensive.
Import Order.TTheory GRing.Theory Num.Theory.
Local Open Scope ring_scope.

(** C82: with the increment A and the coefficient b = sqrt 6 (I/h - A/2) of a Brownian path, the
    parabola has the moments drawn by the code (variances h and h/2, uncorrelated), its error at
    time s is orthogonal to A and I, has variance h (u(1-u) - 3 u^2(1-u)^2), u = s/h, and every other
    linear predictor from A and I is worse by the given amount. *)
Theorem C82_best_parabola (Om : Type) (E : expectation Om) (X A I : Om -> R) (s h : R) :
  0 < h -> 0 <= s -> s <= h -> brownian_triple E s h X A I ->
  let b w := sqrt 6%:R * (I w / h - A w / 2%:R) in
  let P w := eval_parabola1 s h (A w) (b w) in
  let u := s / h in
  [/\ E (fun w => A w * A w) = h, E (fun w => A w * b w) = 0 & E (fun w => b w * b w) = h / 2%:R] /\
  [/\ E (fun w => (X w - P w) * A w) = 0, E (fun w => (X w - P w) * I w) = 0,
      E (fun w => (X w - P w) ^+ 2) = h * (u * (1 - u) - 3%:R * (u * (1 - u)) ^+ 2) &
      forall alpha beta, let Y w := alpha * A w + beta * I w in
      E (fun w => (X w - Y w) ^+ 2) = E (fun w => (X w - P w) ^+ 2) +
        h * (alpha + beta * h / 2%:R - u) ^+ 2 + h / 12%:R * (beta * h - 6%:R * u * (1 - u)) ^+ 2].
Proof. exact: best_parabola. Qed.
Print Assumptions C82_best_parabola.

(** Three fair signs carry such a triple at s = 1/2, h = 1. *)
Example C82_ex : let E := signsE 3 in let r i w := rademacher (w : signs 3) i 0 in
  let c : R := sqrt (1 / 12%:R) in
  let A w := r 0 w in let I w := 1 / 2%:R * r 0 w + c * r 1 w in
  let X w := 1 / 2%:R * r 0 w + 1 / (8%:R * c) * r 1 w + 1 / 4%:R * r 2%:R w in
  brownian_triple E (1 / 2%:R) 1 X A I.
Proof.
move=> E r c A I X.
have cc : c * c = 1 / 12%:R by apply: sqrt_sqrt; apply/RleP; rewrite divr_ge0 ?ler01 ?ler0n.
have c0 : c != 0 by apply/eqP => z; move: cc; rewrite z mul0r; toR; lra.
have [_ /matrixP S] := rademacher_standard 3.
have rr i j : E (fun w => r i w * r j w) = (i == j)%:R.
  by rewrite -idmxE -S [RHS]mxE; apply: E_ext => w; rewrite mulmxE big_ord1 trmxE.
have Q x1 x2 x3 y1 y2 y3 F : (forall w, F w = (x1 * r 0 w + x2 * r 1 w + x3 * r 2%:R w) *
    (y1 * r 0 w + y2 * r 1 w + y3 * r 2%:R w)) -> E F = x1 * y1 + x2 * y2 + x3 * y3.
  move=> H; rewrite (@E_quad _ E (r 0) (r 1) (r 2%:R) x1 x2 x3 y1 y2 y3 F H) !rr /=; rring.
have h1 : 0 <= 1 / 2%:R :> R by rewrite divr_ge0 ?ler01 ?ler0n.
have h2 : 1 / 2%:R <= 1 :> R by apply/RleP; toR; lra.
have cV : (8%:R * c)^-1 = 12%:R / 8%:R * c.
  have e : c * (12%:R / 8%:R * c) = 8%:R^-1 by rewrite mulrCA cc; toR; field.
  by apply: (mulfI c0); rewrite e; toR; field; apply/eqP.
have h3 : 0 <= 1 :> R by exact: ler01.
split; split.
- rewrite (Q (1 / 2%:R) (1 / (8%:R * c)) (1 / 4%:R) (1 / 2%:R) (1 / (8%:R * c)) (1 / 4%:R)) //.
  rewrite Rmin_left; last by apply/RleP.
  have -> : 1 / (8%:R * c) * (1 / (8%:R * c)) = (12%:R / 8%:R) ^+ 2 * (c * c) by rewrite cV; move: (12%:R / 8%:R) => k; rring.
  by rewrite cc; toR; field.
- rewrite (Q (1 / 2%:R) (1 / (8%:R * c)) (1 / 4%:R) 1 0 0) // => [|w]; last by rewrite /X /A /I ?mul1r !mul0r !addr0.
  by rewrite Rmin_left; [rring | apply/RleP].
- rewrite (Q 1 0 0 1 0 0) // => [|w]; last by rewrite /X /A /I ?mul1r !mul0r !addr0.
  by rewrite Rmin_left; [rring | apply/RleP].
- rewrite (Q (1 / 2%:R) (1 / (8%:R * c)) (1 / 4%:R) (1 / 2%:R) c 0) // => [|w]; last by rewrite /X /A /I ?mul1r !mul0r !addr0.
  rewrite RInt_min //; [|by apply/RleP|by apply/RleP].
  have -> : 1 / (8%:R * c) * c = (12%:R / 8%:R) * (c * c) by rewrite cV; move: (12%:R / 8%:R) => k; rring.
  by rewrite cc; toR; field.
- rewrite (Q 1 0 0 (1 / 2%:R) c 0) // => [|w]; last by rewrite /X /A /I ?mul1r !mul0r !addr0.
  by rewrite RInt_min //; [toR; field | apply/RleP | apply/RleP].
- rewrite (Q (1 / 2%:R) c 0 (1 / 2%:R) c 0) // => [|w]; last by rewrite /X /A /I ?mul1r !mul0r !addr0.
  rewrite [RHS](_ : _ = 1 ^+ 3 / 3%:R); last exact: cov_I_IE.
  by rewrite cc; toR; field.
Qed.

(** C83: N + M steps are N steps followed by M steps from the state reached, with the clock of the
    field advanced by N h; this holds for errors and NaN too, in both modes and both variants. *)
Theorem C83_split (lp : lapack) d n init (f : 'cV[R]_d -> R -> 'cV[R]_d) h N M sq (EKF0 : bool) prior noise :
  @_solver lp d n init f h (N + M) sq EKF0 prior noise =
  let! x := @_solver lp d n init f h N sq EKF0 prior noise in
  @_solver lp d n x (fun z t => f z (t + N%:R * h)) h M sq EKF0 prior noise.
Proof. exact: solver_split. Qed.
Print Assumptions C83_split.

(** A run in which both sides are values. *)
Example C83_ex (lp : lapack) (sq EKF0 : bool) : exists r,
  @_solver lp 1 0 (0, 0) (fun z t => t *: z) 1 (2 + 3) sq EKF0 None None = Val r.
Proof.
apply: (@solver_total lp 1 _ 1 5 sq 0 EKF0 0 0 None None (ioup 0 1 1 1 1)) => //.
- by apply: ioup_pd; rewrite ?oner_eq0 ?ltr01.
- by move=> _; exact: psd0.
- by left.
Qed.

(** C84: let p have orthonormal rows and p f(x,t) = g(p x,t).  Then EKF0 on f, read through p, is
    EKF0 on g, for any prior that treats the coordinates alike. *)
Theorem C84_ekf0_subsystem (lp : lapack) (d d' : nat) (p : 'M[R]_(d', d))
  (f : 'cV[R]_d -> R -> 'cV[R]_d) (g : 'cV[R]_d' -> R -> 'cV[R]_d') :
  p *m p^T = 1%:M -> (forall x t, p *m f x t = g (p *m x) t) ->
  forall (gen : prng) (h : R) (N : nat), (0 < d)%N -> (0 < d')%N ->
  forall (A Q : 'M[R]_2), pd Q -> forall (x0 : 'cV[R]_d) (sq : bool),
  exists2 y, ekf0 lp (None : option (key gen)) x0 f h N sq (a_prior (0, kron_eye d Q, kron_eye d A)) None = Val y &
    ekf0 lp (None : option (key gen)) (p *m x0) g h N sq (a_prior (0, kron_eye d' Q, kron_eye d' A)) None
    = Val (p *m y).
Proof.
move=> pp pf gen h N d0 d0' A Q pQ x0 sq.
exact: (@rel_ekf0 lp d d' p f g pp pf gen h N d0 d0' 0 A Q pQ erefl x0 sq (or_introl erefl)).
Qed.
Print Assumptions C84_ekf0_subsystem.

(** EKF1, and EKF0 with three states, need the Jacobians to be related as well. *)
Theorem C84_related (lp : lapack) (d d' : nat) (p : 'M[R]_(d', d))
  (f : 'cV[R]_d -> R -> 'cV[R]_d) (g : 'cV[R]_d' -> R -> 'cV[R]_d') :
  p *m p^T = 1%:M -> (forall x t, p *m f x t = g (p *m x) t) ->
  (forall x t, p *m jac (f^~ t) x = jac (g^~ t) (p *m x) *m p /\
               p *m (jac (f^~ t) x)^T = (jac (g^~ t) (p *m x))^T *m p) ->
  forall (gen : prng) (h : R) (N : nat), (0 < d)%N -> (0 < d')%N ->
  forall n (A Q : 'M[R]_n.+2), pd Q -> (n < 2)%N -> forall (x0 : 'cV[R]_d) (sq : bool),
  let pr e := a_prior ((0, kron_eye e Q, kron_eye e A) : transition (e * n.+2)) in
  (exists2 y, ekf0 lp (None : option (key gen)) x0 f h N sq (pr d) None = Val y &
    ekf0 lp (None : option (key gen)) (p *m x0) g h N sq (pr d') None = Val (p *m y)) /\
  (exists2 y, ekf1 lp (None : option (key gen)) x0 f h N sq (pr d) None = Val y &
    ekf1 lp (None : option (key gen)) (p *m x0) g h N sq (pr d') None = Val (p *m y)).
Proof.
move=> pp pf J gen h N d0 d0' n A Q pQ n2 x0 sq pr.
exact: (conj (rel_ekf0 lp pp pf gen h N d0 d0' A pQ n2 x0 sq (or_intror J))
             (rel_ekf1 lp pp pf gen h N d0 d0' A pQ n2 x0 sq J)).
Qed.
Print Assumptions C84_related.

(** Product fields: every coordinate is solved as if it were alone. *)
Theorem C84_product (lp : lapack) d (phi : 'I_d -> R -> R -> R) (i : 'I_d) (gen : prng) (h : R) (N : nat)
  n (A Q : 'M[R]_n.+2) (x0 : 'cV[R]_d) (sq : bool) : pd Q -> (n < 2)%N ->
  let f (x : 'cV[R]_d) t := \col_k phi k (x k 0) t in
  let g (x : 'cV[R]_1) t := (phi i (x 0 0) t)%:M : 'cV[R]_1 in
  let pr e := a_prior ((0, kron_eye e Q, kron_eye e A) : transition (e * n.+2)) in
  (exists2 y, ekf0 lp (None : option (key gen)) x0 f h N sq (pr d) None = Val y &
    ekf0 lp (None : option (key gen)) (x0 i 0)%:M g h N sq (pr 1%N) None = Val (y i 0)%:M) /\
  (exists2 y, ekf1 lp (None : option (key gen)) x0 f h N sq (pr d) None = Val y &
    ekf1 lp (None : option (key gen)) (x0 i 0)%:M g h N sq (pr 1%N) None = Val (y i 0)%:M).
Proof. exact: product_run. Qed.
Print Assumptions C84_product.

(** Renaming the coordinates. *)
Theorem C84_permutation (lp : lapack) d (s : 'S_d) (f : 'cV[R]_d -> R -> 'cV[R]_d) (gen : prng) (h : R) (N : nat)
  n (A Q : 'M[R]_n.+2) (x0 : 'cV[R]_d) (sq : bool) : (0 < d)%N -> pd Q -> (n < 2)%N ->
  let g x t := row_perm s (f (row_perm s^-1 x) t) in
  let pr := a_prior ((0, kron_eye d Q, kron_eye d A) : transition (d * n.+2)) in
  (exists2 y, ekf0 lp (None : option (key gen)) x0 f h N sq pr None = Val y &
    ekf0 lp (None : option (key gen)) (row_perm s x0) g h N sq pr None = Val (row_perm s y)) /\
  (exists2 y, ekf1 lp (None : option (key gen)) x0 f h N sq pr None = Val y &
    ekf1 lp (None : option (key gen)) (row_perm s x0) g h N sq pr None = Val (row_perm s y)).
Proof. exact: perm_run. Qed.
Print Assumptions C84_permutation.

(** The priors of the code have this form with a positive definite covariance; and the field
    (x, y) |-> (x, x y) meets the hypotheses of [C84_ekf0_subsystem] for the first coordinate
    though it is not a product. *)
Example C84_prior_ex (h : R) d : 0 < h ->
  ioup 0 1 1 h d = (0, kron_eye d (ioup_Q 1 1 h), kron_eye d (expm (h *: ioup_F 0 1))) /\ pd (ioup_Q 1 1 h).
Proof. by move=> h0; split=> //; exact: ioup_Q_pd. Qed.
Example C84_ex : let p := row 0 (1%:M : 'M[R]_2) in
  let f (x : 'cV[R]_2) (t : R) : 'cV[R]_2 := \col_k (if k == 0 then x 0 0 else x 0 0 * x 1 0) in
  p *m p^T = 1%:M /\ forall x t, p *m f x t = p *m x.
Proof.
move=> p f; have pE e (x : 'M[R]_(2, e)) : p *m x = row 0 x by rewrite -row_mul mul1mx.
by split=> [|x t]; rewrite !pE; apply/matrixP=> k l; rewrite ?ord1 !mxE.
Qed.
