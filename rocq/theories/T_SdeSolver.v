(** Properties C13, C14, C15: the driver sde_solver. *)
From Coq Require Import Reals.
From mathcomp Require Import all_ssreflect all_algebra mxtens.
From Verif Require Import Rstruct Base Linalg Calc Prob Spec M_Utils M_Foster M_SdeSolver L_Foster L_SdeSolver.

Set Implicit Arguments.
Unset Strict Implicit.
Unset Printing Implicit Defensive.
Import Order.TTheory GRing.Theory Num.Theory.
Local Open Scope ring_scope.

Section SdeSolver.
Variables (g : prng) (d m : nat) (X : Type).
Variables (drift : 'cV[R]_d -> R -> 'cV[R]_d) (sigma : 'cV[R]_d -> R -> 'M[R]_(d, m)).
Variables (bm : path_approx g m) (delta : R).
Variable ode_int : key g -> X -> ('cV[R]_d -> R -> 'cV[R]_d) -> R -> X.
Notation solve := (sde_solver drift sigma bm delta ode_int).

(** C13 *)
Theorem C13_aligned_grids k x0 N :
  let: (ts, traj, cs) := solve k x0 N in
  [/\ ts = mkseq (fun i => i%:R * delta) N.+1, size traj = N.+1, head x0 traj = x0,
      nth x0 traj 0 = x0 & size cs = N].
Proof. exact: aligned_grids. Qed.

(** C14: interval [i] runs the integrator on the parabola ODE of that interval. *)
Theorem C14_interval_ode k x0 N i c0 : (i < N)%N ->
  let: (ts, traj, cs) := solve k x0 N in
  let bm_key := child (child k N i) 2 0 in let sample_key := child (child k N i) 2 1 in
  let c := nth c0 cs i in
  [/\ c = get_coeffs bm bm_key delta &
    nth x0 traj i.+1 = ode_int sample_key (nth x0 traj i)
      (fun z t => drift z (t + i%:R * delta) +
         sigma z (t + i%:R * delta) *m jacR (fun s => eval_fn s delta c) t) delta].
Proof. exact: interval_ode. Qed.

(** C15: states and coefficients up to [n] are determined by the first [n] keys ... *)
Theorem C15_causal k k' x0 N N' n : (n <= N)%N -> (n <= N')%N ->
  take n (split k N) = take n (split k' N') ->
  take n.+1 (solve k x0 N).1.2 = take n.+1 (solve k' x0 N').1.2 /\
  take n (solve k x0 N).2 = take n (solve k' x0 N').2.
Proof. exact: causal. Qed.

(** ... and a run can be interrupted and resumed with time-shifted coefficients. *)
Theorem C15_restart k k1 k2 x0 n p : split k (n + p) = split k1 n ++ split k2 p ->
  let: (_, traj, cs) := solve k x0 (n + p) in
  let: (_, traj1, cs1) := solve k1 x0 n in
  let: (_, traj2, cs2) := sde_solver (fun z t => drift z (t + n%:R * delta))
       (fun z t => sigma z (t + n%:R * delta)) bm delta ode_int k2 (last x0 traj1) p in
  traj = traj1 ++ behead traj2 /\ cs = cs1 ++ cs2.
Proof. exact: restart. Qed.
End SdeSolver.
Print Assumptions C13_aligned_grids.
Print Assumptions C14_interval_ode.
Print Assumptions C15_causal.
Print Assumptions C15_restart.

(** Keys as required by [C15_restart] exist: a key that splits into two given lists. *)
Example C15_ex (ks1 ks2 : seq ktree) :
  split (Node (ks1 ++ ks2) : key tree_prng) (size ks1 + size ks2) =
  split (Node ks1 : key tree_prng) (size ks1) ++ split (Node ks2 : key tree_prng) (size ks2).
Proof. by rewrite /= -size_cat !ksplit_node. Qed.

(** A run of two intervals with an integrator that adds delta * field(x, 0). *)
Example C14_ex :
  let: (ts, traj, cs) := sde_solver (g := table_prng (fun _ _ => 1)) (d := 1) (m := 1)
     (fun _ _ => 0) (fun _ _ => 1%:M) (get_approx _ 1) 1
     (fun _ x f T => x + T *: f x 0) tt 0 2 in
  nth 0 traj 2 = 2%:R *: const_mx (1 + sqrt 6%:R * sqrt (2%:R^-1)).
Proof. exact: two_intervals. Qed.
