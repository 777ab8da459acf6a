(** Model of ode_solvers/probnum/IOUP.py, matern.py and transition_function.py. *)
From Coq Require Import Reals.
From mathcomp Require Import all_ssreflect all_algebra mxtens.
From Verif Require Import Rstruct Base Linalg Calc.

Set Implicit Arguments.
Unset Strict Implicit.
Unset Printing Implicit Defensive.
Import Order.TTheory GRing.Theory Num.Theory.
Local Open Scope ring_scope.

(** A transition, in the order the package returns it: (xi, Q, A). *)
Definition transition n := ('cV[R]_n * 'M[R]_n * 'M[R]_n)%type.

(** [jnp.kron(jnp.eye(dim), M)] *)
Definition kron_eye dim n (M : 'M[R]_n) : 'M[R]_(dim * n) := (1%:M : 'M[R]_dim) *t M.

(** ** IOUP.py *)

(** [F], lines 15-18: ones above the diagonal, -theta in the last corner. *)
Definition ioup_F (theta : R) (q : nat) : 'M[R]_q.+1 :=
  \matrix_(i, j) if (i < q)%N then (val j == i.+1)%:R else if val j == q then - theta else 0.

(** The one-coordinate covariance, lines 23-25. *)
Definition ioup_Q (sigma : R) (q : nat) (dt : R) : 'M[R]_q.+1 :=
  sigma ^+ 2 *: \matrix_(i, j)
    (dt ^+ (2 * q + 1 - i - j) / ((2 * q + 1 - i - j)%:R * (q - i)`!%:R * (q - j)`!%:R)).

(** [transition_function], lines 9-29. *)
Definition ioup (theta sigma : R) (q : nat) (dt : R) (dim : nat) : transition (dim * q.+1) :=
  let F := ioup_F theta q in
  let A := expm (dt *: F) in
  let A := kron_eye dim A in
  let Q := ioup_Q sigma q dt in
  let Q := kron_eye dim Q in
  (0, Q, A).

(** ** transition_function.py *)

(** [transition_function], lines 9-40. *)
Definition transition_function n m (F : 'M[R]_n) (u : 'cV[R]_n) (L : 'M[R]_(n, m)) (h : R)
  (n_linspace : nat) : transition n :=
  let ls := linspace 0 h n_linspace in
  let A := expm (h *: F) in
  let integrand_xi s := expm (s *: F) *m u in
  let xi := trapz_x [seq integrand_xi s | s <- ls] ls in
  let integrand_Q s := let B := expm (s *: F) *m L in B *m B^T in
  let Q := trapz_x [seq integrand_Q s | s <- ls] ls in
  (xi, Q, A).

(** [jnp.pad(M, ((0, q - n), (0, q - n)))] and [jnp.concatenate([xi, zeros])]. *)
Definition pad_mx n q (M : 'M[R]_n) : 'M[R]_q :=
  \matrix_(i, j) if insub (val i) is Some i' then
                   if insub (val j) is Some j' then M i' j' else 0 else 0.
Definition pad_cv n q (x : 'cV[R]_n) : 'cV[R]_q :=
  \col_i if insub (val i) is Some i' then x i' 0 else 0.

(** [pad_prior], lines 43-54. *)
Definition pad_prior n (tr : transition n) (q : nat) : res (transition q.+1) :=
  let: (xi, Q, A) := tr in
  if (n < q.+1)%N then Val (pad_cv q.+1 xi, pad_mx q.+1 Q, pad_mx q.+1 A)
  else Raise AssertionError.

(** [get_independently_factorized_prior], lines 57-66, on transitions of any sizes;
    [jnp.concatenate] of no arrays raises ValueError. *)
Definition any_transition := {n : nat & transition n}.
Definition stack_transition (t r : any_transition) : any_transition :=
  let: (xi1, Q1, A1) := projT2 t in
  let: (xi2, Q2, A2) := projT2 r in
  existT _ (projT1 t + projT1 r)%N (col_mx xi1 xi2, block_mx Q1 0 0 Q2, block_mx A1 0 0 A2).
Definition empty_transition : any_transition := existT transition 0%N (0, 0, 0).
Definition factorized_prior (ts : seq any_transition) : res any_transition :=
  if ts is [::] then Raise ValueError else Val (foldr stack_transition empty_transition ts).

(** ** matern.py *)

(** [lambda_param], lines 45-46: sqrt(2 nu)/length with nu = k + 0.5. *)
Definition matern_lam (k : nat) (length : R) : R := sqrt (2%:R * k%:R + 1) / length.

(** Closed form for nu = 3/2, lines 48-50 and 53-59. *)
Definition matern1_A (lam dt : R) : 'M[R]_2 := \matrix_(i, j)
  if i == 0 then if j == 0 then exp (- dt * lam) * (1 + dt * lam) else exp (- dt * lam) * dt
  else if j == 0 then - exp (- dt * lam) * dt * lam ^+ 2 else exp (- dt * lam) * (1 - lam * dt).
Definition matern1_Q (magnitude lam dt : R) : 'M[R]_2 := magnitude ^+ 2 *: \matrix_(i, j)
  if i == 0 then
    if j == 0 then (1 + exp (- 2%:R * dt * lam) * (- 1 - 2%:R * dt * lam * (1 + dt * lam))) / (4%:R * lam ^+ 3)
    else 2%:R^-1 * exp (- 2%:R * dt * lam) * dt ^+ 2
  else if j == 0 then 2%:R^-1 * exp (- 2%:R * dt * lam) * dt ^+ 2
  else exp (- 2%:R * dt * lam) *
    (- 1 + exp (2%:R * dt * lam) - 2%:R * dt * lam * (- 1 + dt * lam)) / (4%:R * lam).

(** [F] and [L] of the general branch, lines 63-67.  [lam ** (i - (k+1))] has a negative
    exponent, i.e. it is the inverse of [lam ** (k+1-i)]. *)
Definition matern_F (k : nat) (lam : R) : 'M[R]_k.+1 := \matrix_(i, j)
  if (i < k)%N then (val j == i.+1)%:R else - ('C(k.+1, j)%:R * lam ^- (k.+1 - j)).
Definition matern_L (k : nat) (magnitude : R) : 'cV[R]_k.+1 := \col_i if val i == k then magnitude else 0.

Definition default_nodes : nat := (10 ^ 4)%N.
(** [transition_function], lines 45-73.  The default number of quadrature nodes is 10000.
    [jnp.kron(jnp.ones(dim), m)] repeats [m]. *)
Definition matern_one (k : nat) (magnitude length dt : R) (mc : bool) : transition k.+1 :=
  match k as k0 return transition k0.+1 with
  | 1 => if mc then transition_function (matern_F 1 (matern_lam 1 length)) 0 (matern_L 1 magnitude) dt default_nodes
         else (0, matern1_Q magnitude (matern_lam 1 length) dt, matern1_A (matern_lam 1 length) dt)
  | k0 => transition_function (matern_F k0 (matern_lam k0 length)) 0 (matern_L k0 magnitude) dt default_nodes
  end.
Definition matern (k : nat) (magnitude length dt : R) (dim : nat) (mc : bool) : transition (dim * k.+1) :=
  let: (m, Q, A) := matern_one k magnitude length dt mc in
  ((\col_p m (mxtens_unindex p).2 0), kron_eye dim Q, kron_eye dim A).
