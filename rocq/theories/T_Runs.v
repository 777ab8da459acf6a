(** Properties C85 to C87: whole runs of the order 1.5 schemes, samples of Algorithm 4. *)
From Coq Require Import Reals Lra.
From Coquelicot Require Import Coquelicot.
From mathcomp Require Import all_ssreflect all_algebra mxtens.
From Verif Require Import Rstruct Base Linalg Lapack Calc Prob Spec M_Utils M_Foster M_Filter M_Prior M_OdeSolvers
  M_Scheme15 M_Ssm L_Scheme15 L_Prior L_Chain L_Alg4.

Set Implicit Arguments.
Unset Strict Implicit.
Unset Printing Implicit Defensive.
Import Order.TTheory GRing.Theory Num.Theory.
Local Open Scope ring_scope.

(** C85: the runs, step by step, for all drifts and diffusions ... *)
Theorem C85_diag_run (lp : lapack) (g : prng) d (a : 'cV[R]_d -> 'cV[R]_d) (s : 'cV[R]_d -> 'M[R]_d) (h : R)
  (k : key g) init N :
  let r := diag15 lp a s h k init N in let xs := r.2 in
  [/\ r.1 = mkseq (fun i => i%:R * h) N.+1, size xs = N.+1, nth Nan xs 0 = Val init &
    forall i, (i < N)%N -> let ki := nth k (split k N) i in
      nth Nan xs i.+1 = let! x := nth Nan xs i in
                        let! z := mvn lp (nth ki (split ki 1) 0) (0 : 'cV[R]_(d + d)) (diag15_cov d h) in
                        Val (diag15_step a s h x (usubmx z) (dsubmx z))].
Proof. exact: diag15_run. Qed.
Print Assumptions C85_diag_run.

Theorem C85_hypo_run (lp : lapack) (g : prng) d m (a : 'cV[R]_(1 + d) -> 'cV[R]_(1 + d))
  (s : 'cV[R]_(1 + d) -> 'M[R]_(1 + d, m)) (h : R) (k : key g) init N :
  let r := hypo15 lp a s h k init N in let xs := r.2 in
  [/\ r.1 = mkseq (fun i => i%:R * h) N.+1, size xs = N.+1, nth Nan xs 0 = Val init &
    forall i, (i < N)%N -> let ki := nth k (split k N) i in
      nth Nan xs i.+1 = let! x := nth Nan xs i in
                        let! e := mvn lp (nth ki (split ki 1) 0) (0 : 'cV[R]_(1 + d)) (hypo_cov a s h x) in
                        Val (x + h *: a x + (h ^+ 2 / 2%:R) *: generator a s a x + e)].
Proof. exact: hypo15_run. Qed.
Print Assumptions C85_hypo_run.

(** ... and the first two moments of every state for linear drift and constant diffusion. *)
Theorem C85_diag_moments (lp : lapack) (g : prng) (E F : expectation (key g)) (N : nat) :
  (forall G, F (fun k => G (split k N)) = iid E N G) ->
  forall d (M s : 'M[R]_d) (h : R) (init : 'cV[R]_d),
  standard E (fun k => normal (nth k (split k 1) 0) (d + d)) ->
  0 < h -> (forall i j, i != j -> (s *m s^T) i j = 0) ->
  let A := 1%:M + h *: M + (h ^+ 2 / 2%:R) *: (M *m M) in
  let B := row_mx (M *m s) s in
  let mean n := mxpow A n *m init in
  exists2 x : nat -> key g -> 'cV[R]_d,
    forall n k, (n <= N)%N -> nth Nan (diag15 lp (fun z => M *m z) (fun _ => s) h k init N).2 n = Val (x n k) &
  let cov n := Emx F (fun k => (x n k - mean n) *m (x n k - mean n)^T) in
  [/\ forall n, (n <= N)%N -> Emx F (x n) = mean n, cov 0%N = 0 &
      forall n, (n < N)%N -> cov n.+1 = A *m cov n *m A^T + B *m brownian_cov d h *m B^T].
Proof. exact: diag15_law. Qed.
Print Assumptions C85_diag_moments.

Theorem C85_hypo_moments (lp : lapack) (g : prng) (E F : expectation (key g)) (N : nat) :
  (forall G, F (fun k => G (split k N)) = iid E N G) ->
  forall d m (M : 'M[R]_(1 + d)) (s : 'M[R]_(1 + d, m)) (h : R) (init : 'cV[R]_(1 + d)),
  standard E (fun k => normal (nth k (split k 1) 0) (1 + d)) ->
  let p : 'rV[R]_d := \row_j M 0 (rshift 1 j) in let G : 'M[R]_(d, m) := dsubmx s in
  0 < h -> row_free G -> p != 0 ->
  let A := 1%:M + h *: M + (h ^+ 2 / 2%:R) *: (M *m M) in
  let B : 'M[R]_(1 + d, m + m) := block_mx (p *m G) 0 0 G in
  let mean n := mxpow A n *m init in
  exists2 x : nat -> key g -> 'cV[R]_(1 + d),
    forall n k, (n <= N)%N -> nth Nan (hypo15 lp (fun z => M *m z) (fun _ => s) h k init N).2 n = Val (x n k) &
  let cov n := Emx F (fun k => (x n k - mean n) *m (x n k - mean n)^T) in
  [/\ forall n, (n <= N)%N -> Emx F (x n) = mean n, cov 0%N = 0 &
      forall n, (n < N)%N -> cov n.+1 = A *m cov n *m A^T + B *m brownian_cov m h *m B^T].
Proof. exact: hypo15_law. Qed.
Print Assumptions C85_hypo_moments.

(** A generator whose runs of 7 steps meet the hypotheses, with the diffusion 2 I and the
    hypoelliptic system x' = y, y' = noise. *)
Example C85_ex d :
  [/\ forall G, nodeE (stepkeyE (d + d)) 7 (fun k => G (split (k : key tree_prng) 7)) = iid (stepkeyE (d + d)) 7 G,
      standard (stepkeyE (d + d)) (fun k => normal (nth k (split (k : key tree_prng) 1) 0 : key tree_prng) (d + d)),
      forall i j : 'I_d, i != j -> ((2%:R%:M : 'M[R]_d) *m (2%:R%:M)^T) i j = 0 &
      let M : 'M[R]_(1 + 1) := block_mx 0 1%:M 0 0 in let s : 'M[R]_(1 + 1, 1) := col_mx 0 1%:M in
      row_free (dsubmx s) /\ (\row_(j < 1) M 0 (rshift 1 j) : 'rV[R]_1) != 0].
Proof.
split; [by move=> G; exact: nodeE_split | exact: stepkey_split1 | |].
  by move=> i j /negPf ij; rewrite tr_scalar_mx -scalar_mxM mxE ij mulr0n.
move=> M s; split; first by rewrite col_mxKd row_free_unit unitmx1.
apply/eqP=> /rowP/(_ 0)/eqP; rewrite mxE [X in _ == X]mxE.
have -> : (0 : 'I_(1 + 1)) = lshift 1 (0 : 'I_1) by apply/val_inj.
by rewrite /M block_mxEur mxE oner_eq0.
Qed.

(** C86: the sampled output of Algorithm 4 with xi = 0 supplied: state, slope and coefficients
    are drawn jointly from the filter's Gaussian; without a key the mean is returned. *)
Theorem C86_output_law (lp : lapack) (g : prng) (E : expectation (key g)) d (drift : 'cV[R]_d -> R -> 'cV[R]_d)
  (diffusion : 'cV[R]_d -> R -> 'M[R]_d) (delta h : R) (sq EKF0 : bool) (N : nat) (x0 : 'cV[R]_d) prior noise :
  let run (k : option (key g)) := marginal_xi (fun _ => Some 0) EKF0 lp k x0 delta drift diffusion h N sq prior noise in
  (0 < d)%N -> 0 < delta ->
  (prior = None /\ 0 < h) \/ (exists2 tr : transition 2, prior = a_prior tr & pd tr.1.2) ->
  noise = None \/ (exists2 V : 'M[R]_d, noise = a_noise V & (sq = false -> psd V)) ->
  standard E (fun k => normal k (d * 4)) ->
  exists m P, ssm_solver_xi lp x0 drift diffusion delta h N sq EKF0 prior noise (Some 0) = Val (m, P) /\
  let C := if sq then P *m P^T else P in
  [/\ psd C, run None = Val (slice 0 m, (slice (inord 2) m, slice (inord 3) m)) &
  exists Y : key g -> 'cV[R]_(d * 4),
  [/\ forall k, run (Some k) = Val (slice 0 (Y k), (slice (inord 2) (Y k), slice (inord 3) (Y k))),
      Emx E Y = m & Emx E (fun k => (Y k - m) *m (Y k - m)^T) = C]].
Proof. exact: marginal_law. Qed.
Print Assumptions C86_output_law.

Example C86_ex d : standard (signkeyE 1 (d * 4)) (fun k => normal (k : key tree_prng) (d * 4)) /\
  pd (ioup 0 3%:R 1 2%:R^-1 1 : transition 2).1.2.
Proof.
split; first exact: signkey_standard1.
by apply: (@ioup_pd 3%:R 1 2%:R^-1 1); rewrite ?pnatr_eq0 // invr_gt0 ltr0n.
Qed.

(** C87: the coefficients Algorithm 4 returns are not those of a Brownian motion: b has
    variance 1/26 instead of 1/2 on the unit interval, drift 0, diffusion 1, one step. *)
Theorem C87_brownian_refuted (lp : lapack) (g : prng) (E : expectation (key g)) (sq EKF0 : bool) :
  standard E (fun k => normal k (1 * 4)) ->
  exists X : key g -> 'cV[R]_1 * ('cV[R]_1 * 'cV[R]_1),
  (forall k, marginal_xi (fun _ => Some 0) EKF0 lp (Some k) 0 1 (fun _ _ => 0) (fun _ _ => 1%:M) 1 1 sq None None = Val (X k)) /\
  Emx E (fun k => (X k).2.2 *m ((X k).2.2)^T) = (26%:R^-1)%:M.
Proof. exact: alg4_not_brownian. Qed.
Print Assumptions C87_brownian_refuted.

(** The whole law for constant diffusion D, N steps of size h, prior scale sg: the increment a is
    right; the precision of b is 2/delta + 24 N h/(delta^4 sg^2) D^T D instead of 2/delta; the state
    is D times the returned path plus an error of covariance N sg^2 h^3/12, uncorrelated with it. *)
Theorem C87_law (lp : lapack) (g : prng) (E : expectation (key g)) d (drift : 'cV[R]_d -> R -> 'cV[R]_d) (D : 'M[R]_d)
  (delta h sg : R) (sq EKF0 : bool) (N : nat) (x0 : 'cV[R]_d) (prior : prior_arg) :
  (0 < d)%N -> 0 < delta -> 0 < h -> sg != 0 ->
  (prior = None /\ sg = 1) \/ prior = a_prior (ioup 0 sg 1 h 1 : transition 2) ->
  EKF0 \/ (forall x y t, drift x t = drift y t) ->
  standard E (fun k => normal k (d * 4)) ->
  exists X : key g -> 'cV[R]_d * ('cV[R]_d * 'cV[R]_d),
  (forall k, marginal_xi (fun _ => Some 0) EKF0 lp (Some k) x0 delta drift (fun _ _ => D) h N sq prior None = Val (X k)) /\
  exists mb me : 'cV[R]_d,
  let a k := (X k).2.1 in let b k := (X k).2.2 in
  let e k := (X k).1 - D *m eval_parabola (N%:R * h) delta (a k) (b k) in
  let cov (Y Z : key g -> 'cV[R]_d) mY mZ := Emx E (fun k => (Y k - mY) *m (Z k - mZ)^T) in
  [/\ Emx E a = 0, Emx E b = mb & Emx E e = me] /\
  [/\ cov a a 0 0 = delta%:M, cov a b 0 mb = 0,
      ((2%:R / delta)%:M + (N%:R * (24%:R * h / (delta ^+ 4 * sg ^+ 2))) *: (D^T *m D)) *m cov b b mb mb = 1%:M,
      [/\ cov e e me me = (N%:R * (sg ^+ 2 * h ^+ 3 / 12%:R))%:M, cov e a me 0 = 0 & cov e b me mb = 0] &
      forall mu, (forall x t, drift x t = mu) -> mb = 0 /\ me = x0 + (N%:R * h) *: mu].
Proof. exact: alg4_law. Qed.
Print Assumptions C87_law.

Example C87_ex : standard (signkeyE 1 (1 * 4)) (fun k => normal (k : key tree_prng) (1 * 4)) /\
  let f (x : 'cV[R]_1) (t : R) : 'cV[R]_1 := const_mx t in forall x y t, f x t = f y t.
Proof. by split; [exact: signkey_standard1 | move=> x y t]. Qed.
