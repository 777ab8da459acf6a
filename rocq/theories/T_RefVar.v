(** C104: at which times the declared variances of utils/ivp.py are covariance matrices. *)
From Coq Require Import Reals Lra.
From mathcomp Require Import all_ssreflect all_algebra mxtens.
From Verif Require Import Rstruct Base Linalg Calc Prob Spec M_Utils M_Ivp L_Ivp L_RefVar.

Set Implicit Arguments.
Unset Strict Implicit.
Unset Printing Implicit Defensive.
Import Order.TTheory GRing.Theory Num.Theory.
Local Open Scope ring_scope.

(** The closed forms of the two integrated Brownian motions: at every time. *)
Theorem C104_ibm t : (psd (ibm_var t) <-> 0 <= t) /\ (psd (dibm_var t) <-> 0 <= t).
Proof. exact: (conj (ibm_psd t) (dibm_psd t)). Qed.
Print Assumptions C104_ibm.

(** The trapezoidal variance of the harmonic oscillators and the variance of [gbm]: at every time. *)
Theorem C104_harmonic (gamma D : R) m (C : 'M[R]_(2, m)) nodes t : 0 <= t -> (1 < nodes)%N ->
  psd (harm_variance gamma D C nodes t).
Proof. exact: harm_trap_psd. Qed.
Print Assumptions C104_harmonic.

Theorem C104_gbm (a b t : R) : 0 <= t -> 0 <= gbm_variance_ a b t 0 0.
Proof. exact: gbm_var_ge0. Qed.
Print Assumptions C104_gbm.

(** The local expansion for FitzHugh-Nagumo: up to time 1/4 only, whatever the constants. *)
Theorem C104_fhn (sig eps t : R) : sig != 0 -> eps != 0 ->
  (psd (fhn_variance_ sig eps t) <-> 0 <= t <= 1 / 4%:R).
Proof. exact: fhn_psd. Qed.
Print Assumptions C104_fhn.

(** The local expansion for the harmonic oscillator; with the constants of the file up to 1.5798. *)
Theorem C104_harmonic3 (gamma D sig t : R) : sig != 0 ->
  (psd (harm_variance3 gamma D sig t) <->
   0 <= t /\ 0 <= 3%:R + 6%:R * gamma * t - (gamma ^+ 2 + 4%:R * D) * t ^+ 2 \/ t = 0).
Proof. exact: harm_psd. Qed.
Print Assumptions C104_harmonic3.

Theorem C104_harmonic3_default t :
  psd (harm_variance3 harm_sq_gamma harm_sq_D harm_sq_sig t) <-> 0 <= t <= (3%:R + 2%:R * sqrt 6%:R) / 5%:R.
Proof. exact: harm_psd_default. Qed.
Print Assumptions C104_harmonic3_default.

(** So the two expansions are not covariances at unit resp. double unit time. *)
Theorem C104_expansions_refuted :
  ~ psd (fhn_variance 1) /\ ~ psd (harm_variance3 harm_sq_gamma harm_sq_D harm_sq_sig 2%:R).
Proof. exact: expansions_bad. Qed.
Print Assumptions C104_expansions_refuted.

(** The constants of the file satisfy the hypotheses, and the step h = 0.01 of the tests is admissible. *)
Example C104_ex : [/\ fhn_sig != 0, fhn_eps != 0, harm_sq_sig != 0 & psd (fhn_variance (1 / 100%:R))].
Proof.
have H : fhn_sig != 0 /\ fhn_eps != 0 by split; rewrite mulf_neq0 ?invr_eq0 ?pnatr_eq0 ?oner_eq0.
case: H => H1 H2; split=> //; first by rewrite pnatr_eq0.
apply/(C104_fhn _ H1 H2); apply/andP; split; first by apply: divr_ge0; [exact: ler01 | exact: ler0n].
by rewrite ler_pmul2l ?ltr01 // lef_pinv ?posrE ?ltr0n // ler_nat.
Qed.
