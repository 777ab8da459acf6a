(** Model of bayesian_sde_solver/utils/ivp.py.
    Numerical constants of the code are exact rationals here.  Each problem is first
    modelled with its constants as parameters, then with the values in the code. *)
From Coq Require Import Reals.
From mathcomp Require Import all_ssreflect all_algebra mxtens.
From Verif Require Import Rstruct Base Linalg Calc Prob.

Set Implicit Arguments.
Unset Strict Implicit.
Unset Printing Implicit Defensive.
Import Order.TTheory GRing.Theory Num.Theory.
Local Open Scope ring_scope.

(** [jnp.array] of a list of numbers, of a list of rows. *)
Definition cv n (s : seq R) : 'cV[R]_n := \col_i nth 0 s i.
Definition mx m n (s : seq (seq R)) : 'M[R]_(m, n) := \matrix_(i, j) nth 0 (nth [::] s i) j.
(** [x[i]] for a JAX array: out of bounds reads are clamped to the last entry. *)
Definition vget n (x : 'cV[R]_n.+1) (i : nat) : R := x (inord (minn i n)) 0.

(** ** FitzHugh-Nagumo, lines 21-54 *)
Section Fhn.
Variables (gamma sig eps alpha s : R) (x0 : 'cV[R]_2).

(** lines 32-34 *)
Definition fhn_drift_ (x : 'cV[R]_2) (t : R) : 'cV[R]_2 :=
  mx 2 2 [:: [:: 1 / eps; -1 / eps]; [:: gamma; -1]] *m x +
  cv 2 [:: s / eps - vget x 0 ^+ 3 / eps; alpha].
(** lines 36-37 *)
Definition fhn_sigma_ (x : 'cV[R]_2) (t : R) : 'M[R]_(2, 1) := mx 2 1 [:: [:: 0]; [:: sig]].
(** lines 39-45 *)
Definition fhn_mean_ (t : R) : 'cV[R]_2 :=
  let x00 := vget x0 0 in let x01 := vget x0 1 in
  x0 + t *: cv 2
    [:: 1 / eps * (x00 - x00 ^+ 3 - x01 + s) + t / 2%:R * 1 / eps * (
          1 / eps * (1 - 3%:R * x00 ^+ 2) * (x00 - x00 ^+ 3 - x01 + s)
          - (gamma * x00 - x01 - alpha));
        gamma * x00 - x01 + alpha + t / 2%:R * (
          gamma / eps * (x00 - x00 ^+ 3 - x01 + s) - (gamma * x00 - x01 + alpha))].
(** lines 47-52 *)
Definition fhn_variance_ (t : R) : 'M[R]_2 :=
  sig ^+ 2 *: mx 2 2
    [:: [:: 1 / 3%:R * t ^+ 3 * 1 / eps ^+ 2; - 1 / 2%:R * t ^+ 2 * 1 / eps];
        [:: - 1 / 2%:R * t ^+ 2 * 1 / eps; t - t ^+ 2]].
(** lines 65-66: the square variant *)
Definition square_fhn_sigma_ (x : 'cV[R]_2) (t : R) : 'M[R]_2 :=
  mx 2 2 [:: [:: 0; 0]; [:: fhn_sigma_ x t (inord 1) (inord 0); 0]].
End Fhn.

(** lines 25-30 *)
Definition fhn_gamma : R := 3%:R / 2%:R.
Definition fhn_sig : R := 3%:R / 10%:R.
Definition fhn_eps : R := 1 / 10%:R.
Definition fhn_alpha : R := 8%:R / 10%:R.
Definition fhn_s : R := 0.
Definition fhn_x0 : 'cV[R]_2 := 0.
Definition fhn_drift := fhn_drift_ fhn_gamma fhn_eps fhn_alpha fhn_s.
Definition fhn_sigma := fhn_sigma_ fhn_sig.
Definition fhn_mean := fhn_mean_ fhn_gamma fhn_eps fhn_alpha fhn_s fhn_x0.
Definition fhn_variance := fhn_variance_ fhn_sig fhn_eps.
(** [square_matrix_fhn], lines 57-68 *)
Definition square_fhn_sigma := square_fhn_sigma_ fhn_sig.

(** ** Integrated Brownian motion, lines 71-88 *)
Definition ibm_sig : R := 1.
Definition ibm_x0 : 'cV[R]_2 := const_mx 1.
Definition ibm_drift (x : 'cV[R]_2) (t : R) : 'cV[R]_2 := mx 2 2 [:: [:: 0; 1]; [:: 0; 0]] *m x.
Definition ibm_sigma (x : 'cV[R]_2) (t : R) : 'M[R]_(2, 1) := mx 2 1 [:: [:: 0]; [:: ibm_sig]].
Definition ibm_var (t : R) : 'M[R]_2 :=
  ibm_sig ^+ 2 *: mx 2 2 [:: [:: t ^+ 3 / 3%:R; t ^+ 2 / 2%:R]; [:: t ^+ 2 / 2%:R; t]].

(** ** [double_ibm], lines 91-109 *)
Definition dibm_sig : R := 1.
Definition dibm_x0 : 'cV[R]_3 := cv 3 [:: 0; 0; 1].
Definition dibm_drift (x : 'cV[R]_3) (t : R) : 'cV[R]_3 :=
  mx 3 3 [:: [:: 0; 1; 0]; [:: 0; 0; 1]; [:: 0; 0; 0]] *m x.
Definition dibm_sigma (x : 'cV[R]_3) (t : R) : 'M[R]_(3, 1) :=
  mx 3 1 [:: [:: 0]; [:: 0]; [:: dibm_sig]].
Definition dibm_var (t : R) : 'M[R]_3 :=
  dibm_sig ^+ 2 *: mx 3 3
    [:: [:: t ^+ 5 / 20%:R; t ^+ 4 / 8%:R; t ^+ 3 / 6%:R];
        [:: t ^+ 4 / 8%:R; t ^+ 3 / 3%:R; t ^+ 2 / 2%:R];
        [:: t ^+ 3 / 6%:R; t ^+ 2 / 2%:R; t]].

(** ** [square_matrix_ibm], lines 112-118 *)
Definition square_ibm_sigma (x : 'cV[R]_2) (t : R) : 'M[R]_2 :=
  mx 2 2 [:: [:: 0; 0]; [:: ibm_sigma x t (inord 1) (inord 0); 0]].

(** ** [random_linear_sde], lines 121-144: (x0, drift, sigma) *)
Definition random_linear_sde (g : prng) (k : key g) (dim : nat) (std1 std2 : option 'M[R]_dim)
  : 'cV[R]_dim * ('cV[R]_dim -> R -> 'cV[R]_dim) * ('cV[R]_dim -> R -> 'M[R]_dim) :=
  let std1 := if std1 is Some s then s else 1%:M in
  let std2 := if std2 is Some s then s else 1%:M in
  let x0 := const_mx 1 in
  let drift_matrix := normal2 k dim dim in
  let sigma_matrix := normal2 k dim dim in
  (x0, fun x _ => std1 *m drift_matrix *m x, fun _ _ => std2 *m sigma_matrix).

(** ** [synaptic_conductance_reduced], lines 147-177 *)
Section SynRed.
Variables (tau_E tau_I gbar_E gbar_I sig_I sig_E : R) (x0 : 'cV[R]_2).
(** lines 164-167 *)
Definition synred_drift_ (x : 'cV[R]_2) : 'cV[R]_2 :=
  cv 2 [:: - 1 / tau_E * (vget x 1 - gbar_E); - 1 / tau_I * (vget x 2 - gbar_I)].
(** lines 169-172 (NaN in the code for negative entries) *)
Definition synred_sigma_ (x : 'cV[R]_2) : 'M[R]_2 :=
  mx 2 2 [:: [:: sig_E * sqrt (vget x 1); 0]; [:: 0; sig_I * sqrt (vget x 2)]].
(** lines 174-175 *)
Definition synred_mean_ (t : R) : 'cV[R]_2 :=
  x0 + t *: synred_drift_ x0 + (t ^+ 2 / 2%:R) *:
    cv 2 [:: - 1 / tau_E * vget (synred_drift_ x0) 1; - 1 / tau_I * vget (synred_drift_ x0) 2].
End SynRed.
(** lines 153-162, the same values in lines 292-297 *)
Definition syn_tau_E : R := 1 / 2%:R.
Definition syn_tau_I : R := 1.
Definition syn_gbar_E : R := 178%:R / 10%:R.
Definition syn_gbar_I : R := 94%:R / 10%:R.
Definition syn_sig_I : R := 1 / 10%:R.
Definition syn_sig_E : R := 1 / 10%:R.
Definition syn_G_E0 : R := 10%:R.
Definition syn_G_I0 : R := 10%:R.
Definition synred_x0 : 'cV[R]_2 := cv 2 [:: syn_G_E0; syn_G_I0].
Definition synred_drift := synred_drift_ syn_tau_E syn_tau_I syn_gbar_E syn_gbar_I.
Definition synred_sigma := synred_sigma_ syn_sig_I syn_sig_E.
Definition synred_mean := synred_mean_ syn_tau_E syn_tau_I syn_gbar_E syn_gbar_I synred_x0.

(** ** [harmonic_oscillator_square] and [harmonic_oscillator], lines 180-259.
    [theoretical_variance] integrates on [linspace(0, t, 1000)]; the node count is a
    parameter here. *)
Section Harmonic.
Variables (gamma D sig : R) (m : nat) (C : 'M[R]_(2, m)).
(** lines 192, 234 *)
Definition harm_M : 'M[R]_2 := mx 2 2 [:: [:: 0; 1]; [:: - D; - gamma]].
(** lines 194-197, 237-243 *)
Definition harm_drift (x : 'cV[R]_2) : 'cV[R]_2 := harm_M *m x.
Definition harm_sigma (x : 'cV[R]_2) : 'M[R]_(2, m) := C.
Definition harm_x0 : 'cV[R]_2 := const_mx 1.
(** lines 199-204 *)
Definition harm_variance3 (t : R) : 'M[R]_2 :=
  sig ^+ 2 *: mx 2 2
    [:: [:: 1 / 3%:R * t ^+ 3; 1 / 2%:R * t ^+ 2 - 1 / 2%:R * t ^+ 3 * gamma];
        [:: 1 / 2%:R * t ^+ 2 - 1 / 2%:R * t ^+ 3 * gamma;
            t - gamma * t ^+ 2 + 1 / 3%:R * t ^+ 3 * (2%:R * gamma ^+ 2 - D)]].
(** lines 206-208, 245-247 *)
Definition harm_mean (t : R) : 'cV[R]_2 := expm (t *: harm_M) *m harm_x0.
(** lines 210-218, 249-257 *)
Definition harm_variance (nodes : nat) (t : R) : 'M[R]_2 :=
  let integrand_var s := let B := expm (s *: harm_M) *m C in B *m B^T in
  let linspace_int := linspace 0 t nodes in
  trapz_x [seq integrand_var s | s <- linspace_int] linspace_int.
End Harmonic.
(** lines 187-191 *)
Definition harm_sq_gamma : R := 1.
Definition harm_sq_D : R := 1.
Definition harm_sq_sig : R := 2%:R.
Definition harm_sq_C : 'M[R]_2 := mx 2 2 [:: [:: 0; 0]; [:: harm_sq_sig; 0]].
(** lines 230-235 *)
Definition harm_gamma : R := 1 / 10%:R.
Definition harm_D : R := 1 / 10%:R.
Definition harm_sig : R := 1.
Definition harm_C : 'M[R]_(2, 1) := mx 2 1 [:: [:: 0]; [:: harm_sig]].

(** ** [gbm], lines 262-284.  [x0] is a 1-vector; [x0 ** 2] and products act entrywise. *)
Section Gbm.
Variables (a b : R).
Definition gbm_drift_ n (x : 'cV[R]_n) (t : R) : 'cV[R]_n := a *: x.
Definition gbm_sigma_ n (x : 'cV[R]_n) (t : R) : 'M[R]_n := b *: diag_mx x^T.
Definition gbm_x0 : 'cV[R]_1 := const_mx 1.
Definition gbm_mean_ (t : R) : 'cV[R]_1 := exp (a * t) *: gbm_x0.
Definition gbm_variance_ (t : R) : 'cV[R]_1 :=
  \col_i ((gbm_x0 i 0) ^+ 2 * (exp (b ^+ 2 * t) - 1) * exp (2%:R * a * t)).
End Gbm.
Definition gbm_drift := @gbm_drift_ 1 1.
Definition gbm_sigma := @gbm_sigma_ 1 1.
Definition gbm_mean := gbm_mean_ 1.
Definition gbm_variance := gbm_variance_ 1 1.

(** ** [synaptic_conductance], lines 287-343 *)
Section Syn.
Variables (tau_E tau_I gbar_E gbar_I sig_I sig_E V_L V_E V_I I_inj C G_L : R) (x0 : 'cV[R]_3).
(** lines 310-319 *)
Definition syn_drift_ (x : 'cV[R]_3) : 'cV[R]_3 :=
  cv 3 [:: 1 / C * (- G_L * (vget x 0 - V_L) - vget x 1 * (vget x 0 - V_E)
                    - vget x 2 * (vget x 0 - V_I) + I_inj);
           - 1 / tau_E * (vget x 1 - gbar_E);
           - 1 / tau_I * (vget x 2 - gbar_I)].
(** lines 321-328 *)
Definition syn_sigma_ (x : 'cV[R]_3) : 'M[R]_3 :=
  mx 3 3 [:: [:: 0; 0; 0]; [:: sig_E * sqrt (vget x 1); 0; 0];
             [:: 0; sig_I * sqrt (vget x 2); 0]].
(** lines 330-336 *)
Definition syn_mean_ (t : R) : 'cV[R]_3 :=
  let D := syn_drift_ x0 in
  x0 + t *: D + (t ^+ 2 / 2%:R) *: cv 3
    [:: - 1 / C * (vget D 0 * (G_L + vget x0 1 + vget x0 2) + vget D 1 * (vget x0 1 - V_E)
                   + vget D 2 * (vget x0 0 - V_I));
        - 1 / tau_E * vget D 1; - 1 / tau_I * vget D 2].
(** lines 338-341 *)
Definition syn_variance_ (t : R) : R :=
  t ^+ 3 / (3%:R * C ^+ 2) * (
    (vget x0 0 - V_E) ^+ 2 * sig_E ^+ 2 * vget x0 2
    + (vget x0 0 - V_I) ^+ 2 * sig_I ^+ 2 * vget x0 2).
End Syn.
(** lines 298-308 *)
Definition syn_V_L : R := - 70%:R.
Definition syn_V_E : R := 0.
Definition syn_V_I : R := - 80%:R.
Definition syn_I_inj : R := - 6%:R / 10%:R.
Definition syn_V0 : R := - 60%:R.
Definition syn_C : R := syn_G_E0 + syn_G_I0.
Definition syn_G_L : R := 50%:R.
Definition syn_x0 : 'cV[R]_3 := cv 3 [:: syn_V0; syn_G_E0; syn_G_I0].
Definition syn_drift := syn_drift_ syn_tau_E syn_tau_I syn_gbar_E syn_gbar_I
  syn_V_L syn_V_E syn_V_I syn_I_inj syn_C syn_G_L.
Definition syn_sigma := syn_sigma_ syn_sig_I syn_sig_E.
Definition syn_mean := syn_mean_ syn_tau_E syn_tau_I syn_gbar_E syn_gbar_I
  syn_V_L syn_V_E syn_V_I syn_I_inj syn_C syn_G_L syn_x0.
Definition syn_variance := syn_variance_ syn_sig_I syn_sig_E syn_V_E syn_V_I syn_C syn_x0.
