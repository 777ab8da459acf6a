(** Properties C43 to C48: calibration outputs, noise, defaults, samples and initial states
    of the probabilistic ODE solvers. *)
From Coq Require Import Reals Lra.
From Coquelicot Require Import Coquelicot.
From mathcomp Require Import all_ssreflect all_algebra mxtens.
From Verif Require Import Rstruct Base Linalg Lapack Calc Prob Spec M_Utils M_Foster M_SdeSolver M_Euler
  M_Filter M_Prior M_OdeSolvers L_OdeSolvers L_Alg3 L_Init.

Set Implicit Arguments.
Unset Strict Implicit.
Unset Printing Implicit Defensive.
Import Order.TTheory GRing.Theory Num.Theory.
Local Open Scope ring_scope.

(** C43: the fourth output is a matrix, the fifth a vector: the covariance comes first ... *)
Theorem C43_shapes (lp : lapack) d (f : 'cV[R]_d -> R -> 'cV[R]_d) h N EKF0 H (g : prng) (k : option (key g))
  x sq prior noise o s m' P' a b :
  alg3_all lp EKF0 H k x f h N.+1 sq prior noise = Val (o, (s, m', P', a, b)) ->
  (exists C : 'M[R]_d, a = Arr2 C) /\ (exists r : 'cV[R]_d, b = Arr1 r) /\
  alg3 lp EKF0 H k x f h N.+1 sq prior noise = Val o.
Proof. exact: alg3_all_out. Qed.
Print Assumptions C43_shapes.

(** ... namely innovation covariance and residual of the last step. *)
Theorem C43_values (lp : lapack) d (f : 'cV[R]_d -> R -> 'cV[R]_d) h N EKF0 H (g : prng) (k : option (key g))
  s0 m0 P00 sq prior noise o s m' P' a b :
  alg3_all lp EKF0 H k (s0, m0, P00) f h N.+1 sq prior noise = Val (o, (s, m', P', a, b)) ->
  exists xi Q A Rn Q' m P,
  [/\ get_prior d 0 h prior = Val (xi, Q, A), get_noise d noise = Val Rn,
      (if sq then cholesky lp Q else Val Q) = Val Q' &
      ekf lp (@observation_function d EKF0 f 0) A Q' xi Rn sq (init_joint lp H f m0 P00 sq)
        (mkseq (fun k => k.+1%:R * h) N) = Val (m, P)] /\
  let t := N.+1%:R * h in let mp := A *m m + xi in
  let J := selector d 1 - if EKF0 then 0 else jac (f^~ t) (slice 0 mp) *m selector d 0 in
  a = Arr2 (if sq then J *m (A *m (P *m P^T) *m A^T + Q' *m Q'^T) *m J^T + Rn *m Rn^T
            else J *m (A *m P *m A^T + Q') *m J^T + Rn) /\
  b = Arr1 (slice 1 mp - f (slice 0 mp) t).
Proof. exact: alg3_all_values. Qed.
Print Assumptions C43_values.

(** With the integrated Brownian prior, for every field: the expected (residual, covariance)
    is returned as (covariance, residual). *)
Theorem C43_ibm_refuted (lp : lapack) d (f : 'cV[R]_d -> R -> 'cV[R]_d) h sigma prior
  (g : prng) (k : option (key g)) s m0 P00 N sq :
  0 < h -> sigma != 0 -> get_prior d 0 h prior = Val (ioup 0 sigma 1 h d) -> psd P00 ->
  exists o x, let: (p, v) := pec f h m0 N in
  ekf0_2_all lp k (s, m0, P00) f h N.+1 sq prior None =
    Val (o, (x, Arr2 (sigma ^+ 2 * h)%:M, Arr1 (v - f (p + h *: v) (N.+1%:R * h)))).
Proof. exact: ekf0_2_all_ibm. Qed.
Print Assumptions C43_ibm_refuted.

(** In particular with the default prior. *)
Example C43_ex (lp : lapack) (g : prng) (f : 'cV[R]_2 -> R -> 'cV[R]_2) (m0 : 'cV[R]_2) : exists o x r,
  ekf0_2_all lp (None : option (key g)) (m0, m0, 1%:M) f 2%:R 1 false None None = Val (o, (x, Arr2 2%:R%:M, Arr1 r)).
Proof.
have [o [x H]] := @ekf0_2_all_ibm lp 2 f 2%:R 1 None g None m0 m0 1%:M 0 false (ltr0Sn _ _) (oner_neq0 _) erefl
  (pd_psd (@pd1 2)).
by exists o, x; eexists; move: H => /=; rewrite expr1n mul1r => ->; reflexivity.
Qed.

(** C44: in sqrt mode the noise acts as a factor: *)
Theorem C44_ekf0_factor (lp : lapack) (g : prng) d (f : 'cV[R]_d -> R -> 'cV[R]_d) h N n
  (tr : transition (d * n.+2)) x0 V : (0 < d)%N -> pd tr.1.2 ->
  ekf0 lp (None : option (key g)) x0 f h N true (a_prior tr) (a_noise (V : 'M[R]_d)) =
  ekf0 lp (None : option (key g)) x0 f h N false (a_prior tr) (a_noise (V *m V^T)).
Proof. by move=> d0 pQ; exact: ekf0_noise. Qed.
Print Assumptions C44_ekf0_factor.

Theorem C44_ekf1_factor (lp : lapack) (g : prng) d (f : 'cV[R]_d -> R -> 'cV[R]_d) h N n
  (tr : transition (d * n.+2)) x0 V : (0 < d)%N -> pd tr.1.2 ->
  ekf1 lp (None : option (key g)) x0 f h N true (a_prior tr) (a_noise (V : 'M[R]_d)) =
  ekf1 lp (None : option (key g)) x0 f h N false (a_prior tr) (a_noise (V *m V^T)).
Proof. by move=> d0 pQ; exact: ekf1_noise. Qed.
Print Assumptions C44_ekf1_factor.

Theorem C44_alg3_factor (lp : lapack) d (f : 'cV[R]_d -> R -> 'cV[R]_d) h N EKF0 H (g : prng) s m0 P00
  (tr : transition (d * 2)) V : psd P00 -> pd tr.1.2 ->
  alg3 lp EKF0 H (None : option (key g)) (s, m0, P00) f h N true (a_prior tr) (a_noise (V : 'M[R]_d)) =
  alg3 lp EKF0 H (None : option (key g)) (s, m0, P00) f h N false (a_prior tr) (a_noise (V *m V^T)).
Proof. exact: alg3_noise. Qed.
Print Assumptions C44_alg3_factor.

(** ... so that the modes agree when noise noise^T = noise, in particular without noise; *)
Theorem C44_agree (lp : lapack) (g : prng) d (f : 'cV[R]_d -> R -> 'cV[R]_d) h N n
  (tr : transition (d * n.+2)) x0 noise : (0 < d)%N -> pd tr.1.2 ->
  noise = None \/ (exists2 V : 'M[R]_d, noise = a_noise V & V *m V^T = V) ->
  ekf0 lp (None : option (key g)) x0 f h N true (a_prior tr) noise =
  ekf0 lp (None : option (key g)) x0 f h N false (a_prior tr) noise /\
  ekf1 lp (None : option (key g)) x0 f h N true (a_prior tr) noise =
  ekf1 lp (None : option (key g)) x0 f h N false (a_prior tr) noise.
Proof. exact: modes_agree. Qed.
Print Assumptions C44_agree.

(** they differ in general: the same noise 4 gives 1/10 in one mode and 1/34 in the other. *)
Theorem C44_same_noise_refuted (lp : lapack) (g : prng) :
  let f (x : 'cV[R]_1) (t : R) : 'cV[R]_1 := const_mx t in
  let run sq := ekf0 lp (None : option (key g)) 0 f 1 1 sq (a_prior (ioup 0 1 1 1 1)) (a_noise (4%:R%:M : 'M[R]_1)) in
  run false = Val (const_mx (1 / 10%:R)) /\ run true = Val (const_mx (1 / 34%:R)).
Proof. exact: noise_differs. Qed.
Print Assumptions C44_same_noise_refuted.

(** One plain step with noise r. *)
Theorem C44_one_step (lp : lapack) (g : prng) d (f : 'cV[R]_d -> R -> 'cV[R]_d) (h sigma : R) (r : R) x0 :
  (0 < d)%N -> 0 < h -> sigma != 0 -> 0 <= r ->
  ekf0 lp (None : option (key g)) x0 f h 1 false (a_prior (ioup 0 sigma 1 h d)) (a_noise (r%:M : 'M[R]_d)) =
  let v := f x0 0 in
  Val (x0 + h *: v - (sigma ^+ 2 * h ^+ 2 / 2%:R / (sigma ^+ 2 * h + r)) *: (v - f (x0 + h *: v) h)).
Proof. by move=> d0 h0 s0; exact: ekf0_one_step. Qed.
Print Assumptions C44_one_step.

Example C44_ex d : pd (ioup 0 1 1 1 d).1.2 /\ (1%:M : 'M[R]_d) *m 1%:M^T = 1%:M.
Proof. by split; [apply: L_Prior.ioup_pd; [exact: oner_neq0 | exact: ltr01] | rewrite trmx1 mulmx1]. Qed.

(** C45: one call ... *)
Theorem C45_sample_ignored (lp : lapack) d (f : 'cV[R]_d -> R -> 'cV[R]_d) h N sq prior noise EKF0 H
  (g : prng) (k : option (key g)) s s' m0 P00 :
  alg3 lp EKF0 H k (s, m0, P00) f h N sq prior noise = alg3 lp EKF0 H k (s', m0, P00) f h N sq prior noise.
Proof. exact: alg3_sample. Qed.
Print Assumptions C45_sample_ignored.

Theorem C45_no_key (lp : lapack) d (f : 'cV[R]_d -> R -> 'cV[R]_d) h N sq prior noise EKF0 H (g : prng) x r :
  alg3 lp EKF0 H (None : option (key g)) x f h N sq prior noise = Val r -> r.1.1 = r.1.2.
Proof. exact: alg3_nokey. Qed.
Print Assumptions C45_no_key.

(** ... and a whole run of sde_solver: whatever sampling keys are used ([phi] or [psi], none at
    all included), means, covariances and coefficients are the same. *)
Theorem C45_law_of_run (lp : lapack) (g : prng) d m drift sigma (bm : path_approx g m) delta M sq
  EKF0 prior noise (g1 g2 : prng) (phi : key g -> option (key g1)) (psi : key g -> option (key g2))
  k (s s' m0 : 'cV[R]_d) P00 N c0 :
  let int g' (phi : key g -> option (key g')) kk (x : res (gauss d)) f T := let! x := x in
    if EKF0 then ekf0_2 lp (phi kk) x f (T / M%:R) M sq prior noise
    else ekf1_2 lp (phi kk) x f (T / M%:R) M sq prior noise in
  let law (x : gauss d) := (x.1.2, x.2) in
  let sol1 := sde_solver drift sigma bm delta (int _ phi) k (Val (s, m0, P00)) N in
  let sol2 := sde_solver drift sigma bm delta (int _ psi) k (Val (s', m0, P00)) N in
  (forall i, (i <= N)%N -> rmap law (nth (Val (s, m0, P00)) sol1.1.2 i) =
                           rmap law (nth (Val (s', m0, P00)) sol2.1.2 i)) /\
  (forall i, (i < N)%N -> nth c0 sol1.2 i = nth c0 sol2.2 i).
Proof. exact: alg3_keys. Qed.
Print Assumptions C45_law_of_run.

(** With the integrated Brownian prior the covariance grows by M sigma^2 h^3 / 12 per interval. *)
Theorem C45_ibm_run (lp : lapack) (g : prng) d m drift sigma (bm : path_approx g m) delta M sq
  (sp : R) (phi : key g -> option (key g)) k (s m0 : 'cV[R]_d) P00 N :
  0 < delta -> (0 < M)%N -> sp != 0 -> psd P00 ->
  let h := delta / M%:R in
  let int kk (x : res (gauss d)) f T := let! x := x in
    ekf0_2 lp (phi kk) x f (T / M%:R) M sq (a_prior (ioup 0 sp 1 h d)) None in
  let sol := sde_solver drift sigma bm delta int k (Val (s, m0, P00)) N in
  forall i, (i <= N)%N -> exists s' m',
    nth (Val (s, m0, P00)) sol.1.2 i = Val (s', m', P00 + (i%:R * (M%:R * (sp ^+ 2 * h ^+ 3 / 12%:R)))%:M).
Proof. exact: alg3_ibm_driver. Qed.
Print Assumptions C45_ibm_run.

(** One call. *)
Theorem C45_ibm_call (lp : lapack) d (f : 'cV[R]_d -> R -> 'cV[R]_d) h sigma prior
  (g : prng) (k : option (key g)) s m0 P00 N sq :
  0 < h -> sigma != 0 -> get_prior d 0 h prior = Val (ioup 0 sigma 1 h d) -> psd P00 -> exists s',
  ekf0_2 lp k (s, m0, P00) f h N sq prior None =
    Val (s', (pec f h m0 N).1, P00 + (N%:R * (sigma ^+ 2 * h ^+ 3 / 12%:R))%:M) /\
  (k = None -> s' = (pec f h m0 N).1).
Proof. by move=> h0 s0 Ep; exact: ekf0_2_ibm. Qed.
Print Assumptions C45_ibm_call.

Example C45_ex d : get_prior d 0 1 None = Val (ioup 0 1 1 1 d) /\ psd (1%:M : 'M[R]_d).
Proof. by split=> //; exact: pd_psd (@pd1 d). Qed.

(** C46: the law of the output of ekf0 and ekf1 given the filter's state, ... *)
Theorem C46_output_law (lp : lapack) d (g : prng) (E : expectation (key g)) n sq (m : 'cV[R]_(d * n.+1)) P :
  standard E (fun k => normal k (d * n.+1)) -> (sq = false -> psd P) ->
  let X k := output lp (Some k) sq (m, P) in
  Emx E X = slice 0 m /\
  Emx E (fun k => (X k - slice 0 m) *m (X k - slice 0 m)^T) = slice2 0 0 (if sq then P *m P^T else P).
Proof. exact: output_law. Qed.
Print Assumptions C46_output_law.

(** ... of Algorithm 3 (full state and position), ... *)
Theorem C46_output2_law (lp : lapack) d (g : prng) (E : expectation (key g)) sq (m : 'cV[R]_(d * 2)) P :
  standard E (fun k => normal k (d * 2)) -> (sq = false -> psd P) ->
  let cov n (X : key g -> 'cV[R]_n) (m : 'cV[R]_n) := Emx E (fun k => (X k - m) *m (X k - m)^T) in
  let C := if sq then P *m P^T else P in
  let X k := (output2 lp (Some k) sq (m, P)).2.1.1 in
  let X0 k := (output2 lp (Some k) sq (m, P)).1.1.1 in
  [/\ Emx E X = m, cov _ X m = C, Emx E X0 = slice 0 m & cov _ X0 (slice 0 m) = slice2 0 0 C] /\
  forall k : option (key g), let: (s, m', C', (_, m'', C'')) := (output2 lp k sq (m, P)) in
    [/\ m'' = m, C'' = C, m' = slice 0 m & C' = slice2 0 0 C].
Proof. exact: output2_law. Qed.
Print Assumptions C46_output2_law.

(** ... and, the filter covariance being psd on every run, of ekf0 and ekf1 themselves: samples
    are defined when the mean is, and have it as their mean. *)
Theorem C46_ekf0 (lp : lapack) d n (g : prng) (E : expectation (key g)) (f : 'cV[R]_d -> R -> 'cV[R]_d)
  h N sq (tr : transition (d * n.+2)) (V : 'M[R]_d) x0 m' : (0 < d)%N ->
  (sq = false -> psd tr.1.2) -> (sq = false -> psd V) -> standard E (fun k => normal k (d * n.+2)) ->
  ekf0 lp (None : option (key g)) x0 f h N sq (a_prior tr) (a_noise V) = Val m' ->
  exists X : key g -> 'cV[R]_d, exists C,
    [/\ forall k, ekf0 lp (Some k) x0 f h N sq (a_prior tr) (a_noise V) = Val (X k), psd C, Emx E X = m' &
        Emx E (fun k => (X k - m') *m (X k - m')^T) = C].
Proof. exact: ekf0_samples. Qed.
Print Assumptions C46_ekf0.

Theorem C46_ekf1 (lp : lapack) d n (g : prng) (E : expectation (key g)) (f : 'cV[R]_d -> R -> 'cV[R]_d)
  h N sq (tr : transition (d * n.+2)) (V : 'M[R]_d) x0 m' : (0 < d)%N ->
  (sq = false -> psd tr.1.2) -> (sq = false -> psd V) -> standard E (fun k => normal k (d * n.+2)) ->
  ekf1 lp (None : option (key g)) x0 f h N sq (a_prior tr) (a_noise V) = Val m' ->
  exists X : key g -> 'cV[R]_d, exists C,
    [/\ forall k, ekf1 lp (Some k) x0 f h N sq (a_prior tr) (a_noise V) = Val (X k), psd C, Emx E X = m' &
        Emx E (fun k => (X k - m') *m (X k - m')^T) = C].
Proof. exact: ekf1_samples. Qed.
Print Assumptions C46_ekf1.

Example C46_ex (lp : lapack) d (f : 'cV[R]_d -> R -> 'cV[R]_d) x0 : (0 < d)%N ->
  standard (signkeyE 1 (d * 2)) (fun k => normal (k : key tree_prng) (d * 2)) /\
  exists m', ekf0 lp (None : option (key tree_prng)) x0 f 1 3 false (a_prior (ioup 0 1 1 1 d)) (a_noise (0 : 'M[R]_d)) = Val m'.
Proof.
move=> d0; split; first exact: signkey_standard1.
exists (pec f 1 x0 3).1; rewrite -(@ekf0_none lp tree_prng d f 1 3 0) //.
by apply: ekf0_pec => //; [exact: ltr01 | exact: oner_neq0].
Qed.

(** C47: without prior ekf0 and ekf1 always raise, ... *)
Theorem C47_no_prior_refuted (lp : lapack) (g : prng) d (k : option (key g)) x (f : 'cV[R]_d -> R -> 'cV[R]_d)
  h N sq noise :
  ekf0 lp k x f h N sq None noise = Raise TypeError /\ ekf1 lp k x f h N sq None noise = Raise TypeError.
Proof. exact: ekf_noprior. Qed.
Print Assumptions C47_no_prior_refuted.

(** ... while ekf0_2 and ekf1_2 use the integrated Brownian prior. *)
Theorem C47_alg3_default (lp : lapack) (g : prng) d (k : option (key g)) x (f : 'cV[R]_d -> R -> 'cV[R]_d)
  h N sq noise :
  ekf0_2 lp k x f h N sq None noise = ekf0_2 lp k x f h N sq (a_prior (ioup 0 1 1 h d)) noise /\
  ekf1_2 lp k x f h N sq None noise = ekf1_2 lp k x f h N sq (a_prior (ioup 0 1 1 h d)) noise.
Proof. exact: alg3_noprior. Qed.
Print Assumptions C47_alg3_default.

(** With that prior made explicit ekf0 does return a value; without it, it raises. *)
Example C47_ex (lp : lapack) (g : prng) :
  let run prior := ekf0 lp (None : option (key g)) (const_mx 1 : 'cV[R]_1) (fun x _ => x) 1 2 false prior None in
  run (a_prior (ioup 0 1 1 1 1)) = Val (const_mx (23%:R / 4%:R)) /\ run None = Raise TypeError.
Proof. by split; [exact: ekf0_ex |]. Qed.

(** C48: the initial mean against the solution's derivatives y(0), y'(0), y''(0) = [y2], for a field
    with time derivative [ft]: the third state is y'' - ft, ... *)
Theorem C48_initial_mean d n (f : 'cV[R]_d -> R -> 'cV[R]_d) x (J : 'M[R]_d) (ft : 'cV[R]_d) (y : R -> 'cV[R]_d) (y2 : 'cV[R]_d) (i : 'I_n) :
  frechet f x 0 J ft -> y 0 = x -> (forall i, is_derive (fun s => y s i 0) 0 (f x 0 i 0)) ->
  (forall i, is_derive (fun s => f (y s) s i 0) 0 (y2 i 0)) ->
  slice i (init_mean f x n) = match val i with 0 => x | 1 => f x 0 | 2 => y2 - ft | _ => 0 end.
Proof. by move=> H1 H2 H3 H4; exact: init_mean_slices H1 H2 H3 H4 i. Qed.
Print Assumptions C48_initial_mean.

(** ... exact if and only if the field does not depend on time at first order. *)
Theorem C48_exact_iff d n (f : 'cV[R]_d -> R -> 'cV[R]_d) x (J : 'M[R]_d) (ft : 'cV[R]_d) (y : R -> 'cV[R]_d) (y2 : 'cV[R]_d) (i : 'I_n) :
  frechet f x 0 J ft -> y 0 = x -> (forall i, is_derive (fun s => y s i 0) 0 (f x 0 i 0)) ->
  (forall i, is_derive (fun s => f (y s) s i 0) 0 (y2 i 0)) -> val i = 2%N ->
  slice i (init_mean f x n) = y2 <-> ft = 0.
Proof. exact (fun H1 H2 H3 H4 => init_mean_exact H1 H2 H3 H4 (i := i)). Qed.
Print Assumptions C48_exact_iff.

(** The ODE of an interval of the parabola method: exact if and only if sigma b = 0. *)
Theorem C48_parabola d m n (a : 'cV[R]_d -> 'cV[R]_d) (s : 'M[R]_(d, m)) (delta : R) (u v : 'cV[R]_m) x J
  (y : R -> 'cV[R]_d) (y2 : 'cV[R]_d) (i : 'I_n) : delta != 0 ->
  frechet (fun z (_ : R) => a z) x 0 J 0 ->
  let f z t := a z + s *m jacR (fun r => eval_parabola r delta u v) t in
  y 0 = x -> (forall i, is_derive (fun r => y r i 0) 0 (f x 0 i 0)) ->
  (forall i, is_derive (fun r => f (y r) r i 0) 0 (y2 i 0)) -> val i = 2%N ->
  slice i (init_mean f x n) = y2 + (2%:R * sqrt 6%:R / delta ^+ 2) *: (s *m v) /\
  (slice i (init_mean f x n) = y2 <-> s *m v = 0).
Proof. exact: parabola_init. Qed.
Print Assumptions C48_parabola.

(** For y' = t, y = t^2/2: y'' = 1, initialised at 0. *)
Theorem C48_time_dependent_refuted n (i : 'I_n) : val i = 2%N ->
  let f (x : 'cV[R]_1) (t : R) : 'cV[R]_1 := const_mx t in
  let y (t : R) : 'cV[R]_1 := const_mx (t ^+ 2 / 2%:R) in
  [/\ frechet f 0 0 0 (const_mx 1), y 0 = 0, forall t i, is_derive (fun s => y s i 0) t (f (y t) t i 0),
      forall t i, is_derive (fun s => f (y s) s i 0) t 1 & slice i (init_mean f 0 n) = 0].
Proof. exact: init_time_ex. Qed.
Print Assumptions C48_time_dependent_refuted.

(** ekf1's initial covariance with four or more states is the announced one for dimension 1 only; *)
Theorem C48_initial_cov d n : (3 < n)%N -> (0 < d)%N -> init_var1 d n = free_states d n 3 <-> d = 1%N.
Proof. exact: init_var1_ok. Qed.
Print Assumptions C48_initial_cov.

(** otherwise a free state is pinned and an exact one is freed. *)
Theorem C48_initial_cov_refuted d n : (1 < d)%N -> (3 < n)%N ->
  exists (k l : 'I_d) (i j : 'I_n),
    [/\ val i = 3%N, val j = 2%N,
        init_var1 d n (mxtens_index (k, i)) (mxtens_index (k, i)) = 0 &
        init_var1 d n (mxtens_index (l, j)) (mxtens_index (l, j)) = 1].
Proof. exact: init_var1_wrong. Qed.
Print Assumptions C48_initial_cov_refuted.

(** These are the initial states of the runs; ekf0 raises from four states on. *)
Theorem C48_ekf1_runs (lp : lapack) d (f : 'cV[R]_d -> R -> 'cV[R]_d) h N sq (g : prng) (k : option (key g)) n
  (tr : transition (d * n.+2)) x0 noise : (0 < d)%N ->
  ekf1 lp k x0 f h N sq (a_prior tr) noise =
  let! filtered := @_solver lp d n (init_mean f x0 n.+2, if (n < 2)%N then 0 else init_var1 d n.+2) f h N sq false
    (a_prior tr) noise in
  Val (output lp k sq filtered).
Proof. by move=> d0; exact: ekf1_run. Qed.
Print Assumptions C48_ekf1_runs.

Theorem C48_ekf0_runs (lp : lapack) d (f : 'cV[R]_d -> R -> 'cV[R]_d) h N sq (g : prng) (k : option (key g)) n
  (tr : transition (d * n.+2)) x0 noise : (0 < d)%N ->
  ekf0 lp k x0 f h N sq (a_prior tr) noise =
  if (n < 2)%N then
    let! filtered := @_solver lp d n (init_mean f x0 n.+2, 0) f h N sq true (a_prior tr) noise in
    Val (output lp k sq filtered)
  else Raise TypeError.
Proof. by move=> d0; exact: ekf0_run. Qed.
Print Assumptions C48_ekf0_runs.

(** Two coordinates, four states. *)
Example C48_ex : init_var1 2 4 <> free_states 2 4 3.
Proof. by move/(@init_var1_ok 2 4 isT isT). Qed.
