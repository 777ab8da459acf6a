(** C115: Euler-Maruyama on linear problems and on the damped oscillators, for all times. *)
From Coq Require Import Reals Lra.
From Coquelicot Require Import Coquelicot.
From mathcomp Require Import all_ssreflect all_algebra mxtens.
From Verif Require Import Rstruct Base Linalg Calc Prob Spec M_Utils M_Euler M_Ivp L_Euler L_Ivp L_RefVar L_EmOsc.

Set Implicit Arguments.
Unset Strict Implicit.
Unset Printing Implicit Defensive.
Import Order.TTheory GRing.Theory Num.Theory.
Local Open Scope ring_scope.

(** dX = M X dt + s dW: once a covariance S is left unchanged by a step, the covariance after n steps is S - A^n S A^nT. *)
Theorem C115_covariance (g : prng) (E F : expectation (key g)) (N d m : nat) :
  (forall G, F (fun k => G (split k N)) = iid E N G) -> standard E (fun k => normal (child k 2 0) m) ->
  forall (M : 'M[R]_d) (s : 'M[R]_(d, m)) (h : R) init S, 0 <= h ->
  let A := 1%:M + h *: M in A *m S *m A^T + h *: (s *m s^T) = S ->
  let x n (k : key g) := nth 0 (euler_maruyama (fun x _ => M *m x) (fun _ _ => s) h k init N).2 n in
  forall n, (n <= N)%N ->
  Emx F (fun k => (x n k - Emx F (x n)) *m (x n k - Emx F (x n))^T) = S - mxpow A n *m S *m (mxpow A n)^T.
Proof. exact: em_cov. Qed.
Print Assumptions C115_covariance.

(** The oscillators: S in closed form; it is a covariance and bounds that of every state of the run. *)
Theorem C115_oscillator (g : prng) (E F : expectation (key g)) (N m : nat) :
  (forall G, F (fun k => G (split k N)) = iid E N G) -> standard E (fun k => normal (child k 2 0) m) ->
  forall (gamma D sig h : R) (C : 'M[R]_(2, m)) init, C *m C^T = mx 2 2 [:: [:: 0; 0]; [:: 0; sig ^+ 2]] ->
  0 < D -> 0 <= h -> D * h < gamma -> 0 < 4%:R - 2%:R * gamma * h + D * h ^+ 2 ->
  let x n (k : key g) := nth 0 (euler_maruyama (fun x _ => harm_drift gamma D x) (fun x _ => harm_sigma C x) h k init N).2 n in
  let A := 1%:M + h *: harm_M gamma D in
  let r := 2%:R * sig ^+ 2 / ((gamma - D * h) * (4%:R - 2%:R * gamma * h + D * h ^+ 2)) in
  let S := r *: mx 2 2 [:: [:: (1 - gamma * h / 2%:R + D * h ^+ 2 / 2%:R) / D; - h / 2%:R]; [:: - h / 2%:R; 1]] in
  forall n, (n <= N)%N ->
  let cov := Emx F (fun k => (x n k - Emx F (x n)) *m (x n k - Emx F (x n))^T) in
  [/\ cov = S - mxpow A n *m S *m (mxpow A n)^T, psd S & psd (S - cov)].
Proof. exact: osc_law. Qed.
Print Assumptions C115_oscillator.

(** At h = 0 it is the stationary covariance of the equation; for every h > 0 the variance of the velocity is larger. *)
Theorem C115_equation (gamma D sig : R) m (C : 'M[R]_(2, m)) : C *m C^T = mx 2 2 [:: [:: 0; 0]; [:: 0; sig ^+ 2]] ->
  0 < D -> 0 < gamma ->
  let S := mx 2 2 [:: [:: sig ^+ 2 / (2%:R * gamma * D); 0]; [:: 0; sig ^+ 2 / (2%:R * gamma)]] in
  harm_M gamma D *m S + S *m (harm_M gamma D)^T + C *m C^T = 0 /\
  forall h, 0 < h -> D * h < gamma -> 0 < 4%:R - 2%:R * gamma * h + D * h ^+ 2 -> sig != 0 ->
  S 1 1 < 2%:R * sig ^+ 2 / ((gamma - D * h) * (4%:R - 2%:R * gamma * h + D * h ^+ 2)).
Proof. exact: osc_exact. Qed.
Print Assumptions C115_equation.

(** The two conditions are exactly those under which a stationary covariance exists, and it is then the one above. *)
Theorem C115_stationary_iff (gamma D sig h : R) m (C : 'M[R]_(2, m)) :
  C *m C^T = mx 2 2 [:: [:: 0; 0]; [:: 0; sig ^+ 2]] -> 0 < D -> 0 < h -> sig != 0 ->
  let A := 1%:M + h *: harm_M gamma D in
  let stationary S := psd S /\ A *m S *m A^T + h *: (C *m C^T) = S in
  let r := 2%:R * sig ^+ 2 / ((gamma - D * h) * (4%:R - 2%:R * gamma * h + D * h ^+ 2)) in
  ((exists S, stationary S) <-> D * h < gamma /\ 0 < 4%:R - 2%:R * gamma * h + D * h ^+ 2) /\
  forall S, stationary S ->
  S = r *: mx 2 2 [:: [:: (1 - gamma * h / 2%:R + D * h ^+ 2 / 2%:R) / D; - h / 2%:R]; [:: - h / 2%:R; 1]].
Proof. exact: osc_iff. Qed.
Print Assumptions C115_stationary_iff.

(** [harmonic_oscillator] with steps of 1/10 and independent fair
    signs: every velocity has variance below 5.6, the stationary one being 5. *)
Example C115_ex (n : nat) (F := nodeE (stepkeyE 1) n)
  (x := fun k : key tree_prng => nth 0 (euler_maruyama (fun x _ => harm_drift harm_gamma harm_D x)
    (fun x _ => harm_sigma harm_C x) (1 / 10%:R) k harm_x0 n).2 n) :
  Emx F (fun k => (x k - Emx F x) *m (x k - Emx F x)^T) 1 1 <= 56%:R / 10%:R.
Proof.
have e10 : (10%:R : R) = 10%Re by rewrite RnatE INR_IZR_INZ.
have e56 : (56%:R : R) = 56%Re by rewrite RnatE INR_IZR_INZ.
have CC : harm_C *m harm_C^T = mx 2 2 [:: [:: 0; 0]; [:: 0; 1 ^+ 2]] by have [_ ->] := harm_noise; rewrite expr1n.
have sp G : F (fun k : key tree_prng => G (split k n)) = iid (stepkeyE 1) n G by exact: nodeE_split.
have dr : standard (stepkeyE 1) (fun k : key tree_prng => normal (child k 2 0) 1) by exact: stepkey_standard.
have D0 : 0 < harm_D by apply/RltP; rewrite /harm_D e10; toR; lra.
have h0 : 0 <= 1 / 10%:R :> R by apply/RleP; rewrite e10; toR; lra.
have g0 : harm_D * (1 / 10%:R) < harm_gamma by apply/RltP; rewrite /harm_D /harm_gamma e10; toR; lra.
have q0 : 0 < 4%:R - 2%:R * harm_gamma * (1 / 10%:R) + harm_D * (1 / 10%:R) ^+ 2.
  by apply/RltP; rewrite /harm_D /harm_gamma e10 expr2; toR; lra.
have [_ _ P] := C115_oscillator sp dr harm_x0 CC D0 h0 g0 q0 (leqnn n).
have := psd_entry 1 P.
rewrite addmxE oppmxE subr_ge0 => /le_trans; apply; rewrite !mxE /= mulr1 ler_pdivr_mulr ?mulr_gt0 ?subr_gt0 // /harm_D /harm_gamma e10 e56 !expr2.
by apply/RleP; toR; lra.
Qed.

(** Both shipped oscillators with steps of 1: no stationary law, although the equations have one (C115_equation). *)
Example C115_unstable_ex :
  (~ exists S, psd S /\ (1%:M + 1 *: harm_M harm_gamma harm_D) *m S *m (1%:M + 1 *: harm_M harm_gamma harm_D)^T +
    1 *: (harm_C *m harm_C^T) = S) /\
  (~ exists S, psd S /\ (1%:M + 1 *: harm_M harm_sq_gamma harm_sq_D) *m S *m (1%:M + 1 *: harm_M harm_sq_gamma harm_sq_D)^T +
    1 *: (harm_sq_C *m harm_sq_C^T) = S).
Proof.
have [N1 N2] := harm_noise.
have C1 : harm_C *m harm_C^T = mx 2 2 [:: [:: 0; 0]; [:: 0; 1 ^+ 2]] by rewrite N2 expr1n.
have C2 : harm_sq_C *m harm_sq_C^T = mx 2 2 [:: [:: 0; 0]; [:: 0; (2%:R : R) ^+ 2]] by rewrite N1 -natrX.
have D1 : 0 < harm_D by rewrite divr_gt0 ?ltr01 ?ltr0n.
have [[H1 _] _] := C115_stationary_iff harm_gamma C1 D1 ltr01 (oner_neq0 _).
have [[H2 _] _] := C115_stationary_iff harm_sq_gamma C2 (ltr01 : 0 < harm_sq_D) ltr01 (lt0r_neq0 (ltr0n _ 2)).
by split=> [/H1|/H2] []; rewrite mulr1 ltxx.
Qed.
