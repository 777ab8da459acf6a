(** Property C100: EKF1 with the integrated Brownian prior converges with order two. *)
From Coq Require Import Reals Lra.
From mathcomp Require Import all_ssreflect all_algebra mxtens.
From Verif Require Import Rstruct Base Linalg Calc Prob Spec M_Prior M_OdeSolvers Lapack M_Ivp L_Ekf1.

Set Implicit Arguments.
Unset Strict Implicit.
Unset Printing Implicit Defensive.
Import Order.TTheory GRing.Theory Num.Theory.
Local Open Scope ring_scope.

(** One step of EKF1 in closed form, for every vector field: with p the Euler step and J the Jacobian at p,
    the linear system that is solved has the positive definite matrix
    G = I - (h/2)(J + J^T) + (h^2/3) J J^T whatever h and J, and the scale of the prior plays no role. *)
Theorem C100_one_step (lp : lapack) (g : prng) d (f : 'cV[R]_d -> R -> 'cV[R]_d) (h sigma : R) (x0 : 'cV[R]_d) (sq : bool) :
  (0 < d)%N -> 0 < h -> sigma != 0 ->
  let p := x0 + h *: f x0 0 in
  let J := jac (f^~ h) p in
  let G := 1%:M - (h / 2%:R) *: (J + J^T) + (h ^+ 2 / 3%:R) *: (J *m J^T) in
  pd G /\
  ekf1 lp (None : option (key g)) x0 f h 1 sq (a_prior (ioup 0 sigma 1 h d)) None =
    Val (p + (h / 2%:R) *: (invmx G *m (f p h - f x0 0)) - (h ^+ 2 / 3%:R) *: (J^T *m (invmx G *m (f p h - f x0 0)))).
Proof. exact: ekf1_one_step. Qed.
Print Assumptions C100_one_step.

(** The global error is at most C h^2 and the trace of the covariance attached to the returned point is at
    most sigma^2 c h^2, with constants fixed before the vector field, the step, the number of steps,
    the scale of the prior and the arithmetic mode. *)
Theorem C100_order2 d (L K K1 K2 K3 T : R) : 0 <= L -> 0 <= K -> 0 <= K1 -> 0 <= K2 -> 0 <= K3 -> 0 <= T ->
  exists C c, [/\ 0 <= C, 0 <= c & forall (lp : lapack) (g : prng) (f : 'cV[R]_d -> R -> 'cV[R]_d) (h sigma : R) (N : nat)
     (y y2 y3 : R -> 'cV[R]_d) (sq : bool),
   (0 < d)%N -> 0 < h -> sigma != 0 -> N%:R * h <= T -> lipschitz f L ->
   (forall x t i j, `|jac (f^~ t) x i j| <= L) ->
   (forall x t x' t' e i j, sup_le (x - x') e -> `|jac (f^~ t) x i j - jac (f^~ t') x' i j| <= K * (e + `|t - t'|)) ->
   deriv_on (N%:R * h) y (fun t => f (y t) t) -> deriv_on (N%:R * h) (fun t => f (y t) t) y2 -> deriv_on (N%:R * h) y2 y3 ->
   (forall t : R, 0 <= t -> t <= N%:R * h -> [/\ sup_le (f (y t) t) K1, sup_le (y2 t) K2 & sup_le (y3 t) K3]) ->
   exists x m P, [/\ ekf1 lp (None : option (key g)) (y 0) f h N sq (a_prior (ioup 0 sigma 1 h d)) None = Val x,
     sup_le (x - y (N%:R * h)) (C * h ^+ 2),
     @_solver lp d 0 (init_mean f (y 0) 2, 0) f h N sq false (a_prior (ioup 0 sigma 1 h d)) None = Val (m, P),
     slice 0 m = x & \tr (slice2 0 0 (if sq then P *m P^T else P)) <= sigma ^+ 2 * (c * h ^+ 2)]].
Proof. exact: ekf1_order2. Qed.
Print Assumptions C100_order2.

(** The hypotheses hold for x' = cos(x)^2 from 0 on [0, 1], whose solution is atan, with
    L = 1, K = 2, K1 = 1, K2 = 2, K3 = 4. *)
Example C100_ex (h : R) (N : nat) : N%:R * h <= 1 ->
  let f (x : 'cV[R]_1) (t : R) : 'cV[R]_1 := const_mx (cos (x 0 0) ^+ 2) in
  let y (t : R) : 'cV[R]_1 := const_mx (atan t) in
  let y2 (t : R) : 'cV[R]_1 := const_mx (- 2%:R * t / (1 + t ^+ 2) ^+ 2) in
  let y3 (t : R) : 'cV[R]_1 := const_mx ((6%:R * t ^+ 2 - 2%:R) / (1 + t ^+ 2) ^+ 3) in
  [/\ lipschitz f 1, forall x t i j, `|jac (f^~ t) x i j| <= 1,
      forall x t x' t' e i j, sup_le (x - x') e -> `|jac (f^~ t) x i j - jac (f^~ t') x' i j| <= 2%:R * (e + `|t - t'|),
      [/\ deriv_on (N%:R * h) y (fun t => f (y t) t), deriv_on (N%:R * h) (fun t => f (y t) t) y2 & deriv_on (N%:R * h) y2 y3] &
      forall t : R, 0 <= t -> t <= N%:R * h -> [/\ sup_le (f (y t) t) 1, sup_le (y2 t) 2%:R & sup_le (y3 t) 4%:R]].
Proof. exact: atan_example. Qed.

(** So EKF1 approximates atan: with n steps of length 1/n the answer is atan 1 = pi/4 up to C/n^2. *)
Example C100_pi (lp : lapack) (g : prng) (sq : bool) : exists C : R, forall n : nat, (0 < n)%N ->
  exists x : 'cV[R]_1, ekf1 lp (None : option (key g)) (0 : 'cV[R]_1) (fun z _ => const_mx (cos (z 0 0) ^+ 2)) (n%:R^-1) n sq
    (a_prior (ioup 0 1 1 (n%:R^-1) 1)) None = Val x /\ `|x 0 0 - PI / 4%:R| <= C / n%:R ^+ 2.
Proof. exact: atan_pi. Qed.
