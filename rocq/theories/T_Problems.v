(** C112: what the shipped test problems describe. *)
From Coq Require Import Reals Lra.
From Coquelicot Require Import Coquelicot.
From mathcomp Require Import all_ssreflect all_algebra mxtens.
From Verif Require Import Rstruct Base Linalg Calc Prob Spec M_Utils M_Ivp L_Ivp L_More L_Quad L_Gbm L_EndToEnd L_Problems.

Set Implicit Arguments.
Unset Strict Implicit.
Unset Printing Implicit Defensive.
Import Order.TTheory GRing.Theory Num.Theory.
Local Open Scope ring_scope.

(** FitzHugh-Nagumo with the shipped constants has exactly one rest state and it is a stable focus: trace negative,
    determinant positive, discriminant negative. *)
Theorem C112_fhn_rest : exists x : 'cV[R]_2,
  [/\ - (76%:R / 100%:R) <= x 0 0 <= - (75%:R / 100%:R),
      forall y t, fhn_drift y t = 0 <-> y = x &
      let J := jac (fun z => fhn_drift z 0) x in
      let tr := J 0 0 + J 1 1 in let det := J 0 0 * J 1 1 - J 0 1 * J 1 0 in
      [/\ - 9%:R < tr < - 7%:R, 21%:R < det & tr ^+ 2 < 4%:R * det]].
Proof. exact: fhn_rest. Qed.
Print Assumptions C112_fhn_rest.

(** The full synaptic model has exactly one rest state. *)
Theorem C112_synaptic_rest y :
  syn_drift y = 0 <-> y = cv 3 [:: (- (21263 / 386))%Re; 178%:R / 10%:R; 94%:R / 10%:R].
Proof. exact: syn_rest. Qed.
Print Assumptions C112_synaptic_rest.

(** The reduced synaptic model should have one too (the two mean conductances); as shipped it has none. *)
Theorem C112_reduced_rest_refuted y : synred_drift y <> 0.
Proof. exact: synred_no_rest. Qed.
Print Assumptions C112_reduced_rest_refuted.

(** The noise-free paths of the two integrated Brownian motions from their shipped starting points. *)
Theorem C112_ibm_path : (fun t : R => cv 2 [:: 1 + t; 1]) 0 = ibm_x0 /\
  forall t, mx_deriv (fun t : R => cv 2 [:: 1 + t; 1]) t (ibm_drift (cv 2 [:: 1 + t; 1]) t).
Proof. exact: ibm_path. Qed.
Print Assumptions C112_ibm_path.

Theorem C112_double_ibm_path : (fun t : R => cv 3 [:: t ^+ 2 / 2%:R; t; 1]) 0 = dibm_x0 /\
  forall t, mx_deriv (fun t : R => cv 3 [:: t ^+ 2 / 2%:R; t; 1]) t (dibm_drift (cv 3 [:: t ^+ 2 / 2%:R; t; 1]) t).
Proof. exact: dibm_path. Qed.
Print Assumptions C112_double_ibm_path.

(** Both oscillators: the equations of motion with the shipped constants, and the loss of energy along the mean. *)
Theorem C112_oscillators (t : R) : 0 <= t ->
  let x := harm_mean harm_gamma harm_D in let y := harm_mean harm_sq_gamma harm_sq_D in
  [/\ harm_drift harm_gamma harm_D (x t) = cv 2 [:: x t 1 0; - (x t 0 0 + x t 1 0) / 10%:R],
      harm_drift harm_sq_gamma harm_sq_D (y t) = cv 2 [:: y t 1 0; - (y t 0 0 + y t 1 0)],
      x t 0 0 ^+ 2 / 10%:R + x t 1 0 ^+ 2 <= 11%:R / 10%:R &
      y t 0 0 ^+ 2 + y t 1 0 ^+ 2 <= 2%:R].
Proof. exact: harm_defaults. Qed.
Print Assumptions C112_oscillators.

Theorem C112_gbm (t : R) : gbm_mean t = const_mx (exp t) /\ gbm_variance t = const_mx (exp (2%:R * t) * (exp t - 1)).
Proof. exact: gbm_defaults. Qed.
Print Assumptions C112_gbm.

(** The rates of the noise. *)
Theorem C112_noise :
  [/\ forall x t, fhn_sigma x t *m (fhn_sigma x t)^T = mx 2 2 [:: [:: 0; 0]; [:: 0; 9%:R / 100%:R]],
      forall x t, ibm_sigma x t *m (ibm_sigma x t)^T = mx 2 2 [:: [:: 0; 0]; [:: 0; 1]],
      forall x t, dibm_sigma x t *m (dibm_sigma x t)^T = mx 3 3 [:: [:: 0; 0; 0]; [:: 0; 0; 0]; [:: 0; 0; 1]],
      harm_C *m harm_C^T = mx 2 2 [:: [:: 0; 0]; [:: 0; 1]] /\
      harm_sq_C *m harm_sq_C^T = mx 2 2 [:: [:: 0; 0]; [:: 0; 4%:R]] &
      forall x : 'cV[R]_3, 0 <= x 1 0 -> 0 <= x (inord 2) 0 ->
      syn_sigma x *m (syn_sigma x)^T =
      mx 3 3 [:: [:: 0; 0; 0]; [:: 0; x 1 0 / 100%:R; 0]; [:: 0; 0; x (inord 2) 0 / 100%:R]]].
Proof. exact: noise_rates. Qed.
Print Assumptions C112_noise.

(** The velocities at the shipped starting points. *)
Theorem C112_starts :
  [/\ fhn_drift fhn_x0 0 = cv 2 [:: 0; 4%:R / 5%:R],
      harm_drift harm_gamma harm_D harm_x0 = cv 2 [:: 1; - (1 / 5%:R)] &
      syn_drift syn_x0 = cv 3 [:: (- (503 / 100))%Re; 156%:R / 10%:R; - (6%:R / 10%:R)]].
Proof. exact: starts. Qed.
Print Assumptions C112_starts.

(** The origin, where FitzHugh-Nagumo starts, is not its rest state. *)
Example C112_ex : exists2 x : 'cV[R]_2, x <> fhn_x0 & fhn_drift x 0 = 0.
Proof.
have [x [H1 H2 _]] := C112_fhn_rest; exists x; last by apply/H2.
move=> E; move: H1; rewrite E mxE => /andP[_]; rewrite oppr_ge0.
by rewrite lt_geF // divr_gt0 ?ltr0n.
Qed.
