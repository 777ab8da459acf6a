(** Properties C11, C12: Ito / Stratonovich conversion. *)
From Coq Require Import Reals Lra.
From Coquelicot Require Import Coquelicot.
From mathcomp Require Import all_ssreflect all_algebra mxtens.
From Verif Require Import Rstruct Base Linalg Calc Prob Spec M_ItoStrat L_ItoStrat.

Set Implicit Arguments.
Unset Strict Implicit.
Unset Printing Implicit Defensive.
Import Order.TTheory GRing.Theory Num.Theory.
Local Open Scope ring_scope.

(** C11: both round trips. *)
Theorem C11_conversions_inverse d m (f : drift_fn d) (g : diff_fn d m) x t :
  (let: (f', g') := to_ito f g in (to_stratonovich f' g').1 x t = f x t /\ (to_stratonovich f' g').2 = g) /\
  (let: (f', g') := to_stratonovich f g in (to_ito f' g').1 x t = f x t /\ (to_ito f' g').2 = g).
Proof. exact: conversions_inverse. Qed.
Print Assumptions C11_conversions_inverse.

(** C12: the correction, entrywise and as a sum over the column fields. *)
Theorem C12_correction_formula d m (f : drift_fn d) (g : diff_fn d m) x t i :
  (to_ito f g).1 x t i 0 = f x t i 0 +
     2%:R^-1 * (\sum_j \sum_k g x t j k * pderiv (fun z => g z t i k) j x) /\
  (to_stratonovich f g).1 x t i 0 = f x t i 0 -
     2%:R^-1 * (\sum_j \sum_k g x t j k * pderiv (fun z => g z t i k) j x).
Proof. exact: correction_formula. Qed.
Print Assumptions C12_correction_formula.

Theorem C12_correction_columns d m (f : drift_fn d) (g : diff_fn d m) x t :
  (to_ito f g).1 x t = f x t +
     2%:R^-1 *: \sum_k jac (field_col (g^~ t) k) x *m field_col (g^~ t) k x.
Proof. exact: correction_columns. Qed.
Print Assumptions C12_correction_columns.

Theorem C12_additive_noise d m (f : drift_fn d) (G : R -> 'M[R]_(d, m)) x t :
  (to_ito f (fun _ => G)).1 x t = f x t /\ (to_stratonovich f (fun _ => G)).1 x t = f x t.
Proof. exact: correction_additive. Qed.
Print Assumptions C12_additive_noise.

Theorem C12_scalar (f : drift_fn 1) (s s' : R -> R -> R) x t :
  is_derive (fun z => s z t) x (s' x t) ->
  (to_ito f (fun z t => (s (z 0 0) t)%:M)).1 x%:M t = f x%:M t + (2%:R^-1 * (s x t * s' x t))%:M.
Proof. exact: correction_scalar. Qed.
Print Assumptions C12_scalar.

Example C12_scalar_ex x t : is_derive (fun z : R => (fun z t => z * t)%Re z t) x ((fun x t => t) x t).
Proof. by auto_derive => //; ring. Qed.

Theorem C12_diagonal d (f : drift_fn d) x t :
  (to_ito f (fun z _ => diag_mx z^T)).1 x t = f x t + 2%:R^-1 *: x.
Proof. exact: correction_diag. Qed.
Print Assumptions C12_diagonal.

(** Converting and changing coordinates linearly commute. *)
Theorem C12_linear_coordinates d m (P : 'M[R]_d) (f : drift_fn d) (g : diff_fn d m) t x :
  P \in unitmx -> (forall i k, dir_diff (fun z => g z t i k) x) ->
  (to_ito (fun y t => P *m f (invmx P *m y) t) (fun y t => P *m g (invmx P *m y) t)).1 (P *m x) t =
  P *m (to_ito f g).1 x t.
Proof. exact: correction_coordinates. Qed.
Print Assumptions C12_linear_coordinates.

(** The hypothesis holds for diag(x) (geometric Brownian motions). *)
Example C12_linear_ex d (x : 'cV[R]_d) i k : dir_diff (fun z => diag_mx z^T i k) x.
Proof. exact: dir_diff_diag. Qed.
