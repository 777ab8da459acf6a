(** Properties C17 to C24: the explicit Euler and Euler-Maruyama schemes. *)
From Coq Require Import Reals Lra.
From mathcomp Require Import all_ssreflect all_algebra mxtens.
From Verif Require Import Rstruct Base Linalg Calc Prob Spec M_Utils M_Euler M_Ivp L_Euler.

Set Implicit Arguments.
Unset Strict Implicit.
Unset Printing Implicit Defensive.
Import Order.TTheory GRing.Theory Num.Theory.
Local Open Scope ring_scope.

(** C17 *)
Theorem C17_euler_recursion d (f : 'cV[R]_d -> R -> 'cV[R]_d) h init :
  exists traj : nat -> 'cV[R]_d,
  [/\ traj 0%N = init, forall k, traj k.+1 = traj k + h *: f (traj k) (k%:R * h) &
      forall N, euler init f h N = traj N].
Proof. exact: euler_recursion. Qed.
Print Assumptions C17_euler_recursion.

Theorem C17_euler_linear d (A : 'M[R]_d) h init N :
  euler init (fun x _ => A *m x) h N = mxpow (1%:M + h *: A) N *m init.
Proof. exact: euler_linear. Qed.
Print Assumptions C17_euler_linear.

Theorem C17_euler_scalar (a h : R) init N :
  euler init (fun x _ => a *: x) h N = (1 + h * a) ^+ N *: (init : 'cV[R]_1).
Proof. exact: euler_scalar. Qed.
Print Assumptions C17_euler_scalar.

Theorem C17_euler_quadrature d (G : R -> 'cV[R]_d) h init N :
  euler init (fun _ t => G t) h N = init + h *: \sum_(0 <= k < N) G (k%:R * h).
Proof. exact: euler_quadrature. Qed.
Print Assumptions C17_euler_quadrature.

(** Two steps of x' = x with h = 1 from 1: 4. *)
Example C17_ex : euler (const_mx 1 : 'cV[R]_1) (fun x _ => 1 *: x) 1 2 = const_mx 4%:R.
Proof.
by rewrite euler_scalar; apply/matrixP=> i j; rewrite !mxE !mulr1 -[1]/(1%:R) -natrD -natrX.
Qed.

(** C18 *)
Theorem C18_euler_order1 d (f : 'cV[R]_d -> R -> 'cV[R]_d) (L K : R) (h : R) (N : nat)
  (y y2 : R -> 'cV[R]_d) :
  0 <= h -> 0 < L -> lipschitz f L ->
  deriv_on (N%:R * h) y (fun t => f (y t) t) ->
  deriv_on (N%:R * h) (fun t => f (y t) t) y2 ->
  (forall t, 0 <= t -> t <= N%:R * h -> sup_le (y2 t) K) ->
  sup_le (euler (y 0) f h N - y (N%:R * h)) (h * K / 2%:R * (((1 + h * L) ^+ N - 1) / L)) /\
  sup_le (euler (y 0) f h N - y (N%:R * h)) (h * K / (2%:R * L) * (exp (L * (N%:R * h)) - 1)).
Proof. exact: euler_order1. Qed.
Print Assumptions C18_euler_order1.

(** The hypotheses hold for x' = x, whose solution is exp, with L = 1 and K = exp(N h). *)
Example C18_ex (h : R) (N : nat) : 0 <= h ->
  let f (x : 'cV[R]_1) (t : R) := x in let y (t : R) : 'cV[R]_1 := const_mx (exp t) in
  [/\ lipschitz f 1, deriv_on (N%:R * h) y (fun t => f (y t) t) &
     forall t, 0 <= t -> t <= N%:R * h -> sup_le (y t) (exp (N%:R * h))].
Proof. exact: euler_exp_example. Qed.

(** C19 *)
Theorem C19_pathwise_recursion d m (drift : 'cV[R]_d -> R -> 'cV[R]_d)
  (sigma : 'cV[R]_d -> R -> 'M[R]_(d, m)) h incs init st : let N := size incs in
  exists traj, [/\ em_pathwise drift sigma h incs init N st = Val (mkseq (fun k => k%:R * h) N.+1, traj),
    size traj = N.+1, nth 0 traj 0 = init &
    forall k, (k < N)%N -> let x := nth 0 traj k in let t := k%:R * h in
      let dW := (if st then sqrt h else 1) *: nth 0 incs k in
      nth 0 traj k.+1 = x + h *: drift x t + sigma x t *m dW].
Proof. exact: em_pathwise_rec. Qed.
Print Assumptions C19_pathwise_recursion.

(** A number of increments different from N is refused. *)
Theorem C19_pathwise_length d m (drift : 'cV[R]_d -> R -> 'cV[R]_d)
  (sigma : 'cV[R]_d -> R -> 'M[R]_(d, m)) h incs init N st : size incs <> N ->
  em_pathwise drift sigma h incs init N st = Raise ValueError.
Proof. exact: em_length_error. Qed.
Print Assumptions C19_pathwise_length.

Theorem C19_key_recursion d m (drift : 'cV[R]_d -> R -> 'cV[R]_d)
  (sigma : 'cV[R]_d -> R -> 'M[R]_(d, m)) h (g : prng) (k : key g) init N :
  let: (ts, traj) := euler_maruyama drift sigma h k init N in
  [/\ ts = mkseq (fun i => i%:R * h) N.+1, size traj = N.+1, nth 0 traj 0 = init &
    forall i, (i < N)%N -> let x := nth 0 traj i in let t := i%:R * h in
      let dW := sqrt h *: normal (child (child k N i) 2 0) m in
      nth 0 traj i.+1 = x + h *: drift x t + sigma x t *m dW].
Proof. exact: em_key_rec. Qed.
Print Assumptions C19_key_recursion.

(** C20 *)
Theorem C20_key_is_pathwise d m (drift : 'cV[R]_d -> R -> 'cV[R]_d)
  (sigma : 'cV[R]_d -> R -> 'M[R]_(d, m)) (g : prng) h (k : key g) init N :
  Val (euler_maruyama drift sigma h k init N) =
  em_pathwise drift sigma h [seq normal (child ki 2 0) m | ki <- split k N] init N true.
Proof. exact: em_agree. Qed.
Print Assumptions C20_key_is_pathwise.

Theorem C20_standard_flag d m (drift : 'cV[R]_d -> R -> 'cV[R]_d)
  (sigma : 'cV[R]_d -> R -> 'M[R]_(d, m)) h incs init N :
  em_pathwise drift sigma h incs init N true =
  em_pathwise drift sigma h [seq sqrt h *: w | w <- incs] init N false.
Proof. exact: em_standard. Qed.
Print Assumptions C20_standard_flag.

Theorem C20_noise_free_is_euler d m (drift : 'cV[R]_d -> R -> 'cV[R]_d) h (incs : seq 'cV[R]_m) init st :
  exists ts traj, em_pathwise drift (fun _ _ => 0) h incs init (size incs) st = Val (ts, traj) /\
    last init traj = euler init drift h (size incs).
Proof. exact: em_euler. Qed.
Print Assumptions C20_noise_free_is_euler.

(** C21 *)
Theorem C21_chunked d m (drift : 'cV[R]_d -> R -> 'cV[R]_d)
  (sigma : 'cV[R]_d -> R -> 'M[R]_(d, m)) h st chunks init :
  let run n (c : seq 'cV[R]_m) x :=
    if em_pathwise (fun z t => drift z (t + n%:R * h)) (fun z t => sigma z (t + n%:R * h)) h
         c x (size c) st is Val (_, traj) then behead traj else [::] in
  let N := size (flatten chunks) in
  em_pathwise drift sigma h (flatten chunks) init N st =
  Val (mkseq (fun k => k%:R * h) N.+1, init :: chunked run 0 init chunks).
Proof. exact: em_chunked. Qed.
Print Assumptions C21_chunked.

(** C22 *)
Theorem C22_ibm_closed_form h st (incs : seq 'cV[R]_1) init :
  let N := size incs in
  let B k := \sum_(0 <= j < k) (if st then sqrt h else 1) * nth 0 incs j 0 0 in
  exists traj,
  em_pathwise ibm_drift ibm_sigma h incs init N st = Val (mkseq (fun k => k%:R * h) N.+1, traj) /\
  forall n, (n <= N)%N ->
    nth 0 traj n 1 0 = init 1 0 + B n /\
    nth 0 traj n 0 0 = init 0 0 + n%:R * h * init 1 0 + h * \sum_(0 <= k < n) B k.
Proof. exact: em_ibm_traj. Qed.
Print Assumptions C22_ibm_closed_form.

(** C23 *)
Section C23.
Variables (g : prng) (E F : expectation (key g)) (N : nat).
(** The keys obtained by splitting are independent ... *)
Definition independent_split : Prop := forall G, F (fun k => G (split k N)) = iid E N G.
(** ... and the draws standard. *)
Definition standard_draws (m : nat) : Prop := standard E (fun k => normal (child k 2 0) m).

Theorem C23_linear_moments d m : independent_split -> standard_draws m ->
  forall (M : 'M[R]_d) (s : 'M[R]_(d, m)) (h : R) init, 0 <= h ->
  let A := 1%:M + h *: M in
  let x n (k : key g) := nth 0 (euler_maruyama (fun x _ => M *m x) (fun _ _ => s) h k init N).2 n in
  let mean n := mxpow A n *m init in
  let cov n := Emx F (fun k => (x n k - mean n) *m (x n k - mean n)^T) in
  [/\ forall n, (n <= N)%N -> Emx F (x n) = mean n, cov 0%N = 0 &
      forall n, (n < N)%N -> cov n.+1 = A *m cov n *m A^T + h *: (s *m s^T)].
Proof. exact: em_linear_moments. Qed.

Theorem C23_gbm_moments d : independent_split -> standard_draws d ->
  forall (a b : R) (h : R) (init : 'cV[R]_d), 0 <= h ->
  let x n (k : key g) := nth 0 (euler_maruyama (@gbm_drift_ a d) (@gbm_sigma_ b d) h k init N).2 n in
  forall n, (n <= N)%N ->
  Emx F (x n) = (1 + a * h) ^+ n *: init /\
  forall i j, F (fun k => x n k i 0 * x n k j 0) =
    ((1 + a * h) ^+ 2 + (i == j)%:R * b ^+ 2 * h) ^+ n * (init i 0 * init j 0).
Proof. exact: em_gbm_moments. Qed.
End C23.
Print Assumptions C23_linear_moments.
Print Assumptions C23_gbm_moments.

(** Independent fair signs satisfy the hypotheses. *)
Example C23_ex m N :
  @independent_split tree_prng (stepkeyE m) (nodeE (stepkeyE m) N) N /\
  @standard_draws tree_prng (stepkeyE m) m.
Proof. by split; [move=> G; exact: nodeE_split | exact: stepkey_standard]. Qed.

(** C24: true for immutable arrays and for standard = False, ... *)
Theorem C24_caller_array_kept d m (drift : 'cV[R]_d -> R -> 'cV[R]_d)
  (sigma : 'cV[R]_d -> R -> 'M[R]_(d, m)) h incs init N kind st :
  kind = JaxArray \/ st = false ->
  (em_pathwise_call drift sigma h kind incs init N st).2 = incs.
Proof. exact: em_call_pure. Qed.
Print Assumptions C24_caller_array_kept.

(** ... false for NumPy arrays with standard = True: the array is rescaled, and a second
    identical call computes with increments scaled twice. *)
Theorem C24_caller_array_refuted :
  let drift (x : 'cV[R]_1) (t : R) : 'cV[R]_1 := 0 in
  let sigma (x : 'cV[R]_1) (t : R) : 'M[R]_1 := 1%:M in
  let call incs := em_pathwise_call drift sigma 4%:R NumpyArray incs 0 1 true in
  exists incs, (call incs).2 <> incs /\ (call (call incs).2).1 <> (call incs).1.
Proof. exact: ex_intro em_call_differs. Qed.
Print Assumptions C24_caller_array_refuted.

Theorem C24_caller_array_exact d m (drift : 'cV[R]_d -> R -> 'cV[R]_d)
  (sigma : 'cV[R]_d -> R -> 'M[R]_(d, m)) h incs init N : 0 <= h ->
  let call kind incs st := em_pathwise_call drift sigma h kind incs init N st in
  (call NumpyArray incs true).2 = [seq sqrt h *: w | w <- incs] /\
  (call NumpyArray (call NumpyArray incs true).2 true).1 =
    (call JaxArray [seq h *: w | w <- incs] false).1.
Proof. exact: em_call_numpy. Qed.
Print Assumptions C24_caller_array_exact.
