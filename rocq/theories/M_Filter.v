(** Model of ode_solvers/probnum/ekf.py, ode_solvers/probnum/calibration.py. *)
From Coq Require Import Reals.
From mathcomp Require Import all_ssreflect all_algebra mxtens.
From Verif Require Import Rstruct Base Linalg Calc.

Set Implicit Arguments.
Unset Strict Implicit.
Unset Printing Implicit Defensive.
Import Order.TTheory GRing.Theory Num.Theory.
Local Open Scope ring_scope.

(** ** ode_solvers/probnum/ekf.py *)
Section Filter.
Variable lp : lapack.

(** [tria], lines 6-10.  [r] has shape (ny, nx); every caller has nx <= ny, so that
    [n = min(nx, ny) = nx] and the result is nx x nx. *)
Definition tria nx ny (A : 'M[R]_(nx, ny)) : 'M[R]_nx :=
  let r := qr_r lp A^T in
  \matrix_(i, j) if (j <= i)%N then (if insub (val j) is Some j' then r j' i else 0) else 0.

(** [predict], lines 13-19.  A state is (mean, covariance or factor). *)
Definition predict n (x : 'cV[R]_n * 'M[R]_n) (A Q_or_cholQ : 'M[R]_n) (xi : 'cV[R]_n)
  (lower_sqrt : bool) : 'cV[R]_n * 'M[R]_n :=
  let: (m, P_or_cholP) := x in
  if lower_sqrt then
    (A *m m + xi, tria (row_mx (A *m P_or_cholP) Q_or_cholQ))
  else (A *m m + xi, A *m P_or_cholP *m A^T + Q_or_cholQ).

(** [update], lines 22-43, with [return_S=True]: the state and S (or its factor). *)
Definition update nx ny (x : 'cV[R]_nx * 'M[R]_nx) (c : 'cV[R]_ny) (H : 'M[R]_(ny, nx))
  (R_or_cholR : 'M[R]_ny) (lower_sqrt : bool) : res (('cV[R]_nx * 'M[R]_nx) * 'M[R]_ny) :=
  let: (m, P_or_cholP) := x in
  if lower_sqrt then
    let M := block_mx (H *m P_or_cholP) R_or_cholR P_or_cholP (0 : 'M[R]_(nx, ny)) in
    let chol_S := tria M in
    let cholP := drsubmx chol_S in
    let G := dlsubmx chol_S in
    let I := ulsubmx chol_S in
    let! s := solve_lower I c in
    Val ((m - G *m s, cholP), I)
  else
    let S := H *m P_or_cholP *m H^T + R_or_cholR in
    let! S_invH := solve_pos S H in
    let K := (S_invH *m P_or_cholP)^T in
    let b := m - K *m c in
    let C := P_or_cholP - K *m H *m P_or_cholP in
    Val ((b, C), S).

Section Ekf.
Variables (nx ny : nat) (obs : dual nx -> R -> dual ny) (A Q_or_cholQ : 'M[R]_nx)
  (xi : 'cV[R]_nx) (R_or_cholR : 'M[R]_ny) (lower_sqrt : bool).

(** [body], lines 71-79 *)
Definition ekf_body (x : 'cV[R]_nx * 'M[R]_nx) (t : R) : res ('cV[R]_nx * 'M[R]_nx) :=
  let x := predict x A Q_or_cholQ xi lower_sqrt in
  let m := x.1 in
  let H := jacfwd (obs^~ t) m in
  let c := dprimal (obs^~ t) m in
  let! r := update x c H R_or_cholR lower_sqrt in
  Val r.1.

(** [body_return_UC], lines 53-69: state, innovation covariance and residual. *)
Definition ekf_body_UC (inps : ('cV[R]_nx * 'M[R]_nx) * 'M[R]_ny * 'cV[R]_ny) (t : R)
  : res (('cV[R]_nx * 'M[R]_nx) * 'M[R]_ny * 'cV[R]_ny) :=
  let x := predict inps.1.1 A Q_or_cholQ xi lower_sqrt in
  let m := x.1 in
  let H := jacfwd (obs^~ t) m in
  let c := dprimal (obs^~ t) m in
  let! r := update x c H R_or_cholR lower_sqrt in
  let S := if lower_sqrt then r.2 *m r.2^T else r.2 in
  Val (r.1, S, c).

(** [ekf], lines 81-88.  [jnp.empty] arrays hold zeros in JAX. *)
Definition ekf (init : 'cV[R]_nx * 'M[R]_nx) (params : seq R) : res ('cV[R]_nx * 'M[R]_nx) :=
  (scan (fun s t => (let! x := s in ekf_body x t, tt)) (Val init) params).1.

Definition ekf_UC (init : 'cV[R]_nx * 'M[R]_nx) (params : seq R)
  : res (('cV[R]_nx * 'M[R]_nx) * 'M[R]_ny * 'cV[R]_ny) :=
  (scan (fun s t => (let! x := s in ekf_body_UC x t, tt)) (Val (init, 0, 0)) params).1.
End Ekf.
End Filter.

(** ** ode_solvers/probnum/calibration.py, [mle_diffusion], lines 6-22.
    [zs] and [Ss] have a common leading axis (vmap raises ValueError otherwise);
    N = 0 or dim = 0 gives 0/0. *)
Fixpoint mle_terms dim (zs : seq 'cV[R]_dim) (Ss : seq 'M[R]_dim) : res (seq R) :=
  match zs, Ss with
  | [::], [::] => Val [::]
  | z :: zs', C :: Ss' =>
      let! temp := solve_gen C z in
      let! r := mle_terms zs' Ss' in
      Val ((z^T *m temp) 0 0 :: r)
  | _, _ => Raise ValueError
  end.
Definition mle_diffusion dim (zs : seq 'cV[R]_dim) (Ss : seq 'M[R]_dim) : res R :=
  if size zs != size Ss then Raise ValueError else
  let! r := mle_terms zs Ss in
  if (size zs * dim == 0)%N then Nan
  else Val ((\sum_(x <- r) x) / (size zs * dim)%:R).
