(** Properties C64 to C68, C71, C72: the test problems and their reference moments. *)
From Coq Require Import Reals Lra.
From Coquelicot Require Import Coquelicot.
From mathcomp Require Import all_ssreflect all_algebra mxtens.
From Verif Require Import Rstruct Base Linalg Calc Prob Spec M_Utils M_Ivp L_Ivp L_RefVar.

Set Implicit Arguments.
Unset Strict Implicit.
Unset Printing Implicit Defensive.
Import Order.TTheory GRing.Theory Num.Theory.
Local Open Scope ring_scope.

(** C64: linear drift [M x] and V' = M V + V M^T + sigma sigma^T, V(0) = 0 *)
Theorem C64_ibm : exists M : 'M[R]_2,
  [/\ forall x t, ibm_drift x t = M *m x, ibm_var 0 = 0 &
      forall x t, mx_deriv ibm_var t
        (M *m ibm_var t + ibm_var t *m M^T + ibm_sigma x t *m (ibm_sigma x t)^T)].
Proof. exact: ibm_moments. Qed.
Print Assumptions C64_ibm.

Theorem C64_double_ibm : exists M : 'M[R]_3,
  [/\ forall x t, dibm_drift x t = M *m x, dibm_var 0 = 0 &
      forall x t, mx_deriv dibm_var t
        (M *m dibm_var t + dibm_var t *m M^T + dibm_sigma x t *m (dibm_sigma x t)^T)].
Proof. exact: dibm_moments. Qed.
Print Assumptions C64_double_ibm.

Theorem C64_gbm (a b : R) :
  [/\ gbm_mean_ a 0 = gbm_x0, gbm_variance_ a b 0 = 0,
      forall t, mx_deriv (gbm_mean_ a) t (gbm_drift_ a (gbm_mean_ a t) t) &
      forall t i, is_derive (fun s => gbm_variance_ a b s i 0) t
        (2%:R * a * gbm_variance_ a b t i 0 +
         b ^+ 2 * (gbm_variance_ a b t i 0 + gbm_mean_ a t i 0 ^+ 2))].
Proof. exact: gbm_moments. Qed.
Print Assumptions C64_gbm.

(** The covariances are not degenerate. *)
Example C64_ex : ibm_var 1 0 0 = 3%:R^-1 /\ dibm_var 1 0 0 = 20%:R^-1.
Proof. by split; rewrite !mxE /= ?expr1n ?mul1r. Qed.

(** C65 *)
Theorem C65_ibm x t :
  square_ibm_sigma x t *m (square_ibm_sigma x t)^T = ibm_sigma x t *m (ibm_sigma x t)^T.
Proof. exact: square_ibm. Qed.
Print Assumptions C65_ibm.

Theorem C65_fhn sig x t :
  square_fhn_sigma_ sig x t *m (square_fhn_sigma_ sig x t)^T = fhn_sigma_ sig x t *m (fhn_sigma_ sig x t)^T.
Proof. exact: square_fhn. Qed.
Print Assumptions C65_fhn.

Example C65_ex x t : (square_ibm_sigma x t *m (square_ibm_sigma x t)^T) 1 1 = 1.
Proof. by rewrite square_ibm mulmxE big_ord1 !mxE /= mulr1. Qed.

(** C66: the code's mean against the expansion, for all constants ... *)
Theorem C66_exact_difference (gamma sig eps alpha s : R) (x0 : 'cV[R]_2) : eps <> 0 -> forall t : R,
  fhn_mean_ gamma eps alpha s x0 t =
  mean_taylor2 (fun z => fhn_drift_ gamma eps alpha s z 0) (fun z => fhn_sigma_ sig z 0) x0 t +
  cv 2 [:: t ^+ 2 * alpha / eps; 0].
Proof. exact: fhn_taylor. Qed.
Print Assumptions C66_exact_difference.

(** ... and refuted at every time but 0 for the constants of the file. *)
Theorem C66_mean_refuted t : t <> 0 ->
  fhn_mean t <> mean_taylor2 (fun z => fhn_drift z 0) (fun z => fhn_sigma z 0) fhn_x0 t.
Proof. exact: fhn_default. Qed.
Print Assumptions C66_mean_refuted.

(** With the constants of the file the error is (8 t^2, 0). *)
Theorem C66_mean_error t : fhn_mean t =
  mean_taylor2 (fun z => fhn_drift z 0) (fun z => fhn_sigma z 0) fhn_x0 t + cv 2 [:: 8%:R * t ^+ 2; 0].
Proof. exact: fhn_mean_default. Qed.
Print Assumptions C66_mean_error.

Example C66_ex : fhn_eps <> 0.
Proof. by rewrite /fhn_eps; toR; lra. Qed.

(** C67, reduced model: the first coordinate G_E is never read ... *)
Theorem C67_reduced_ignores_G_E tE tI gE gI sI sE (x y : 'cV[R]_2) : x 1 0 = y 1 0 ->
  synred_drift_ tE tI gE gI x = synred_drift_ tE tI gE gI y /\
  synred_sigma_ sI sE x = synred_sigma_ sI sE y.
Proof. exact: synred_dep. Qed.
Print Assumptions C67_reduced_ignores_G_E.

(** ... so the drift is the intended one plus an error in the first component. *)
Theorem C67_reduced_drift tE tI gE gI (x : 'cV[R]_2) :
  synred_drift_ tE tI gE gI x =
  cv 2 [:: -1 / tE * (x 0 0 - gE); -1 / tI * (x 1 0 - gI)]
    + cv 2 [:: -1 / tE * (x 1 0 - x 0 0); 0].
Proof. exact: synred_drift0. Qed.
Print Assumptions C67_reduced_drift.

Theorem C67_reduced_drift_refuted : exists x : 'cV[R]_2,
  synred_drift x <> cv 2 [:: -1 / syn_tau_E * (x 0 0 - syn_gbar_E); -1 / syn_tau_I * (x 1 0 - syn_gbar_I)].
Proof. exact: synred_default. Qed.
Print Assumptions C67_reduced_drift_refuted.

(** Both noise intensities are those of the second coordinate; the full model's are the intended ones. *)
Theorem C67_reduced_noise (sI sE : R) (x : 'cV[R]_2) : 0 <= x 1 0 ->
  synred_sigma_ sI sE x *m (synred_sigma_ sI sE x)^T = mx 2 2 [:: [:: sE ^+ 2 * x 1 0; 0]; [:: 0; sI ^+ 2 * x 1 0]].
Proof. exact: synred_noise. Qed.
Print Assumptions C67_reduced_noise.

Theorem C67_noise (sI sE : R) (x : 'cV[R]_3) : 0 <= x 1 0 -> 0 <= x (inord 2) 0 ->
  syn_sigma_ sI sE x *m (syn_sigma_ sI sE x)^T =
  mx 3 3 [:: [:: 0; 0; 0]; [:: 0; sE ^+ 2 * x 1 0; 0]; [:: 0; 0; sI ^+ 2 * x (inord 2) 0]].
Proof. exact: syn_noise. Qed.
Print Assumptions C67_noise.

(** The mean of the reduced model is the expansion for the code's own drift, exactly, so it
    misses the expansion of the intended model; with the constants of the file by 16.2 t^2. *)
Theorem C67_reduced_mean tE tI gE gI sI sE (x0 : 'cV[R]_2) t :
  synred_mean_ tE tI gE gI x0 t = mean_taylor2 (synred_drift_ tE tI gE gI) (synred_sigma_ sI sE) x0 t /\
  synred_mean_ tE tI gE gI x0 t =
  mean_taylor2 (fun x => cv 2 [:: -1 / tE * (x 0 0 - gE); -1 / tI * (x 1 0 - gI)]) (synred_sigma_ sI sE) x0 t +
  cv 2 [:: - t / tE * (x0 1 0 - x0 0 0) +
           t ^+ 2 / (2%:R * tE) * ((x0 1 0 - gI) / tI - (x0 0 0 - gE) / tE); 0].
Proof. exact: (conj (synred_taylor _ _ _ _ _ _ _ _) (synred_taylor_intended _ _ _ _ _ _ _ _)). Qed.
Print Assumptions C67_reduced_mean.

Theorem C67_reduced_mean_error t : synred_mean t =
  mean_taylor2 (fun x => cv 2 [:: -1 / syn_tau_E * (x 0 0 - syn_gbar_E); -1 / syn_tau_I * (x 1 0 - syn_gbar_I)])
    synred_sigma synred_x0 t + cv 2 [:: 162%:R / 10%:R * t ^+ 2; 0].
Proof. exact: synred_mean_default. Qed.
Print Assumptions C67_reduced_mean_error.

(** C67, full model: exact errors of the mean and of the variance for all constants. *)
Theorem C67_mean_difference (tau_E tau_I gbar_E gbar_I sig_I sig_E V_L V_E V_I I_inj C G_L : R)
  (x0 : 'cV[R]_3) : C <> 0 -> tau_E <> 0 -> tau_I <> 0 -> forall t : R,
  syn_mean_ tau_E tau_I gbar_E gbar_I V_L V_E V_I I_inj C G_L x0 t =
  mean_taylor2 (syn_drift_ tau_E tau_I gbar_E gbar_I V_L V_E V_I I_inj C G_L)
    (syn_sigma_ sig_I sig_E) x0 t +
  cv 3 [:: - (t ^+ 2 / (2%:R * C)) * (- 1 / tau_E * (x0 1 0 - gbar_E)) * (x0 1 0 - x0 0 0); 0; 0].
Proof. exact: syn_taylor. Qed.
Print Assumptions C67_mean_difference.

Theorem C67_variance_difference (tau_E tau_I gbar_E gbar_I sig_I sig_E V_L V_E V_I I_inj C G_L : R)
  (x0 : 'cV[R]_3) : C <> 0 -> forall t : R, 0 <= x0 1 0 -> 0 <= x0 (inord 2) 0 ->
  syn_variance_ sig_I sig_E V_E V_I C x0 t =
  lead_var3 (syn_drift_ tau_E tau_I gbar_E gbar_I V_L V_E V_I I_inj C G_L)
    (syn_sigma_ sig_I sig_E) x0 0 t +
  t ^+ 3 / (3%:R * C ^+ 2) * (x0 0 0 - V_E) ^+ 2 * sig_E ^+ 2 * (x0 (inord 2) 0 - x0 1 0).
Proof. exact: syn_var. Qed.
Print Assumptions C67_variance_difference.

(** With the constants of the file the mean is wrong at every time but 0, by -27.3 t^2 ... *)
Theorem C67_mean_refuted t : t <> 0 -> syn_mean t <> mean_taylor2 syn_drift syn_sigma syn_x0 t.
Proof. exact: syn_mean_bad. Qed.
Print Assumptions C67_mean_refuted.

Theorem C67_mean_error t : syn_mean t =
  mean_taylor2 syn_drift syn_sigma syn_x0 t + cv 3 [:: - (273%:R / 10%:R) * t ^+ 2; 0; 0].
Proof. exact: syn_mean_default. Qed.
Print Assumptions C67_mean_error.

(** ... the variance is right at the default initial state and wrong at others. *)
Theorem C67_variance_default t : syn_variance t = lead_var3 syn_drift syn_sigma syn_x0 0 t.
Proof. exact: syn_var_default. Qed.
Print Assumptions C67_variance_default.

Theorem C67_variance_refuted : exists x0 : 'cV[R]_3, [/\ 0 < x0 1 0, 0 < x0 (inord 2) 0 &
  forall t, 0 < t -> syn_variance_ syn_sig_I syn_sig_E syn_V_E syn_V_I syn_C x0 t <>
    lead_var3 syn_drift syn_sigma x0 0 t].
Proof. exact: syn_var_bad. Qed.
Print Assumptions C67_variance_refuted.

Example C67_ex : [/\ syn_C <> 0, syn_tau_E <> 0, syn_tau_I <> 0, 0 <= syn_x0 1 0 & 0 <= syn_x0 (inord 2) 0].
Proof.
split; rewrite ?mxE /= ?inordK //= ?/syn_C ?/syn_G_E0 ?/syn_G_I0 ?/syn_tau_E ?/syn_tau_I;
  first [by apply: ler0n | by toR; lra].
Qed.

(** C68: one matrix [G] serves for both, whatever the key. *)
Theorem C68_same_draw (g : prng) (k : key g) dim (s1 s2 : option 'M[R]_dim) :
  exists G : 'M[R]_dim, exists x0, random_linear_sde k s1 s2 =
    (x0, (fun x _ => odflt 1%:M s1 *m G *m x), (fun _ _ => odflt 1%:M s2 *m G)).
Proof. exact: random_linear. Qed.
Print Assumptions C68_same_draw.

Theorem C68_separate_draws_refuted (g : prng) (k : key g) dim x t :
  let '(_, drift, sigma) := random_linear_sde k (None : option 'M[R]_dim) None in
  drift x t = sigma x t *m x.
Proof. exact: random_linear_same. Qed.
Print Assumptions C68_separate_draws_refuted.

(** Entries that separate draws would leave uncorrelated have correlation 1. *)
Theorem C68_correlation (g : prng) (E : expectation (key g)) dim :
  standard2 E (fun k => normal2 k dim dim) ->
  forall x t i j,
  E (fun k => let '(_, drift, sigma) := random_linear_sde k (None : option 'M[R]_dim) None in
              drift (delta_mx j 0) t i 0 * sigma x t i j) = 1.
Proof. exact: random_linear_corr. Qed.
Print Assumptions C68_correlation.

Example C68_ex dim : standard2 (signkeyE dim dim) (fun k => normal2 (k : key tree_prng) dim dim).
Proof. exact: signkey_standard. Qed.

(** C71: the variance satisfies the moment equation linearised at [x0] up to terms of order
    [t^2], and [t^3] for the first component. *)
Theorem C71_fhn_variance (gamma sig eps alpha s : R) (x0 : 'cV[R]_2) : eps <> 0 ->
  let J := jac (fun z => fhn_drift_ gamma eps alpha s z 0) x0 in
  let V := fhn_variance_ sig eps in
  let q := (1 - 3%:R * x0 0 0 ^+ 2) / eps in
  V 0 = 0 /\
  forall t, mx_deriv V t
    (J *m V t + V t *m J^T + fhn_sigma_ sig x0 t *m (fhn_sigma_ sig x0 t)^T +
     (sig ^+ 2 * t ^+ 2) *: mx 2 2
       [:: [:: - (2%:R / 3%:R) * q / eps ^+ 2 * t;
               (q / eps - 3%:R / eps) / 2%:R - gamma / (3%:R * eps ^+ 2) * t];
           [:: (q / eps - 3%:R / eps) / 2%:R - gamma / (3%:R * eps ^+ 2) * t;
               gamma / eps - 2%:R]]).
Proof. exact: fhn_var_residual. Qed.
Print Assumptions C71_fhn_variance.

(** With the constants of the file. *)
Theorem C71_default t : (fhn_variance t =
  mx 2 2 [:: [:: 3%:R * t ^+ 3; - (9%:R / 20%:R) * t ^+ 2]; [:: - (9%:R / 20%:R) * t ^+ 2; 9%:R / 100%:R * (t - t ^+ 2)]]) /\
  forall x s, fhn_sigma x s *m (fhn_sigma x s)^T = mx 2 2 [:: [:: 0; 0]; [:: 0; 9%:R / 100%:R]].
Proof. exact: fhn_variance_default. Qed.
Print Assumptions C71_default.

Example C71_ex : fhn_eps <> 0 /\ fhn_variance 1 0 0 <> 0.
Proof.
by split; rewrite ?mxE /= /fhn_eps ?/fhn_sig; toR; [lra | move=> H; field_simplify in H; lra].
Qed.

(** C72 *)
Theorem C72_harmonic_variance (gamma D sig : R) : exists K : 'M[R]_2,
  harm_variance3 gamma D sig 0 = 0 /\
  forall t, mx_deriv (harm_variance3 gamma D sig) t
    (harm_M gamma D *m harm_variance3 gamma D sig t + harm_variance3 gamma D sig t *m (harm_M gamma D)^T +
     mx 2 2 [:: [:: 0; 0]; [:: 0; sig ^+ 2]] + t ^+ 3 *: K).
Proof. exact: harm_var_residual. Qed.
Print Assumptions C72_harmonic_variance.

(** The noise term is that of the diffusion matrices of the file (sig = 2 and sig = 1). *)
Theorem C72_noise : harm_sq_C *m harm_sq_C^T = mx 2 2 [:: [:: 0; 0]; [:: 0; 4%:R]] /\
  harm_C *m harm_C^T = mx 2 2 [:: [:: 0; 0]; [:: 0; 1]].
Proof. exact: harm_noise. Qed.
Print Assumptions C72_noise.

Example C72_ex : harm_variance3 harm_sq_gamma harm_sq_D harm_sq_sig 1 0 0 = 4%:R / 3%:R.
Proof. rewrite !mxE /= /harm_sq_sig !exprS !expr0; toR; field. Qed.
