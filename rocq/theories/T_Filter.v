(** Properties C30 to C34 and C40 to C42: Kalman filter routines and calibration. *)
From Coq Require Import Reals Lra.
From mathcomp Require Import all_ssreflect all_algebra mxtens.
From Verif Require Import Rstruct Base Linalg Lapack Calc Prob Spec M_Filter L_Filter.

Set Implicit Arguments.
Unset Strict Implicit.
Unset Printing Implicit Defensive.
Import Order.TTheory GRing.Theory Num.Theory.
Local Open Scope ring_scope.

(** Routines meeting the contracts of [lapack] exist, so that no theorem below is vacuous. *)
Example lapack_ex : exists lp : lapack, forall n (A : 'M[R]_n), pd A -> chol lp A <> None.
Proof. by exists some_lapack => n A /(cholP some_lapack) [L [-> _ _ _]]. Qed.

(** C30 *)
Theorem C30_predict_sqrt (lp : lapack) n (m xi : 'cV[R]_n) (L A LQ : 'M[R]_n) :
  exists L', [/\ predict lp (m, L) A LQ xi true = (A *m m + xi, L'), lower_tri L' &
    predict lp (m, L *m L^T) A (LQ *m LQ^T) xi false = (A *m m + xi, L' *m L'^T)].
Proof. exact: predict_sqrt. Qed.
Print Assumptions C30_predict_sqrt.

(** C31: both updates are defined and agree, or both are NaN ... *)
Theorem C31_update_sqrt (lp : lapack) nx ny (m : 'cV[R]_nx) (L : 'M[R]_nx) (c : 'cV[R]_ny)
  (H : 'M[R]_(ny, nx)) (LR : 'M[R]_ny) :
  (exists m' L' I', [/\ update lp (m, L) c H LR true = Val ((m', L'), I'),
     update lp (m, L *m L^T) c H (LR *m LR^T) false = Val ((m', L' *m L'^T), I' *m I'^T),
     lower_tri L' & lower_tri I']) \/
  (update lp (m, L) c H LR true = Nan /\ update lp (m, L *m L^T) c H (LR *m LR^T) false = Nan).
Proof. exact: update_sqrt. Qed.
Print Assumptions C31_update_sqrt.

(** ... and they are defined exactly when the innovation covariance is positive definite. *)
Theorem C31_defined (lp : lapack) nx ny (m : 'cV[R]_nx) (L : 'M[R]_nx) (c : 'cV[R]_ny)
  (H : 'M[R]_(ny, nx)) (LR : 'M[R]_ny) :
  pd (H *m (L *m L^T) *m H^T + LR *m LR^T) <->
  exists m' L' I', update lp (m, L) c H LR true = Val ((m', L'), I').
Proof. exact: update_sqrt_def. Qed.
Print Assumptions C31_defined.

(** C32 *)
Theorem C32_ekf_sqrt (lp : lapack) nx ny (obs : dual nx -> R -> dual ny) (A : 'M[R]_nx) (xi : 'cV[R]_nx)
  (LQ : 'M[R]_nx) (LR : 'M[R]_ny) m L ts :
  (exists m' L' S z, [/\ ekf_UC lp obs A LQ xi LR true (m, L) ts = Val ((m', L'), S, z),
     ekf_UC lp obs A (LQ *m LQ^T) xi (LR *m LR^T) false (m, L *m L^T) ts = Val ((m', L' *m L'^T), S, z) &
     ts <> [::] -> lower_tri L']) \/
  (ekf_UC lp obs A LQ xi LR true (m, L) ts = Nan /\
   ekf_UC lp obs A (LQ *m LQ^T) xi (LR *m LR^T) false (m, L *m L^T) ts = Nan).
Proof. exact: ekf_sqrt. Qed.
Print Assumptions C32_ekf_sqrt.

Theorem C32_ekf_sqrt_state (lp : lapack) nx ny (obs : dual nx -> R -> dual ny) (A : 'M[R]_nx) (xi : 'cV[R]_nx)
  (LQ : 'M[R]_nx) (LR : 'M[R]_ny) m L ts :
  ekf lp obs A (LQ *m LQ^T) xi (LR *m LR^T) false (m, L *m L^T) ts =
  rmap (fun x => (x.1, x.2 *m x.2^T)) (ekf lp obs A LQ xi LR true (m, L) ts).
Proof. exact: ekf_sqrt_state. Qed.
Print Assumptions C32_ekf_sqrt_state.

(** C33 *)
Theorem C33_predict_psd (lp : lapack) n (m xi : 'cV[R]_n) (P A Q : 'M[R]_n) : psd P -> psd Q ->
  psd (predict lp (m, P) A Q xi false).2.
Proof. exact: predict_psd. Qed.
Print Assumptions C33_predict_psd.

Theorem C33_update_psd (lp : lapack) nx ny (m : 'cV[R]_nx) (P : 'M[R]_nx) (c : 'cV[R]_ny)
  (H : 'M[R]_(ny, nx)) (Rn : 'M[R]_ny) m' C S : psd P -> psd Rn ->
  update lp (m, P) c H Rn false = Val ((m', C), S) -> [/\ psd C, psd (P - C) & pd S].
Proof. exact: update_psd. Qed.
Print Assumptions C33_update_psd.

Theorem C33_ekf_psd (lp : lapack) nx ny (obs : dual nx -> R -> dual ny) A Q xi Rn m P ts m' C :
  psd P -> psd Q -> psd Rn ->
  ekf lp obs A Q xi Rn false (m, P) ts = Val (m', C) -> psd C.
Proof. exact: ekf_psd. Qed.
Print Assumptions C33_ekf_psd.

(** A scalar update: prior variance 2, unit noise, residual 3. *)
Example C33_ex (lp : lapack) (m : R) :
  psd (2%:R%:M : 'M[R]_1) /\ psd (1%:M : 'M[R]_1) /\
  update lp (m%:M : 'cV[R]_1, 2%:R%:M) (3%:R%:M : 'cV[R]_1) 1%:M 1%:M false =
  Val (((m - 2%:R)%:M, (2%:R / 3%:R)%:M), 3%:R%:M).
Proof. exact: update_ex. Qed.

(** C34 *)
Theorem C34_optimal (lp : lapack) (Om : Type) (E : expectation Om) nx ny
  (e : Om -> 'cV[R]_nx) (r : Om -> 'cV[R]_ny) (H : 'M[R]_(ny, nx)) (P : 'M[R]_nx) (Rn : 'M[R]_ny)
  (m : 'cV[R]_nx) (c : 'cV[R]_ny) m' C S :
  psd P -> psd Rn ->
  Emx E (fun w => e w *m (e w)^T) = P -> Emx E (fun w => r w *m (r w)^T) = Rn ->
  Emx E (fun w => e w *m (r w)^T) = 0 ->
  update lp (m, P) c H Rn false = Val ((m', C), S) ->
  let z w := H *m e w + r w in
  let cov G := Emx E (fun w => (e w - G *m z w) *m (e w - G *m z w)^T) in
  exists K : 'M[R]_(nx, ny),
  [/\ m' = m - K *m c, cov K = C, Emx E (fun w => (e w - K *m z w) *m (z w)^T) = 0,
      Emx E (fun w => z w *m (z w)^T) = S & forall G, psd (cov G - C)].
Proof. exact: update_optimal. Qed.
Print Assumptions C34_optimal.

(** Every pair of covariances belongs to some uncorrelated errors. *)
Example C34_ex nx ny (P : 'M[R]_nx) (Rn : 'M[R]_ny) : psd P -> psd Rn ->
  exists (e : signs (nx + ny) -> 'cV[R]_nx) (r : signs (nx + ny) -> 'cV[R]_ny),
  let E := signsE (nx + ny) in
  [/\ Emx E (fun w => e w *m (e w)^T) = P, Emx E (fun w => r w *m (r w)^T) = Rn &
      Emx E (fun w => e w *m (r w)^T) = 0].
Proof. exact: uncorrelated_exists. Qed.

(** C40: plain filters ... *)
Theorem C40_scale (lp : lapack) nx ny (obs : dual nx -> R -> dual ny) (A Q : 'M[R]_nx) (xi : 'cV[R]_nx)
  (Rn : 'M[R]_ny) (a : R) m P ts : 0 < a ->
  ekf_UC lp obs A (a *: Q) xi (a *: Rn) false (m, a *: P) ts =
  rmap (fun r => let: ((m', C), S0, z) := r in ((m', a *: C), a *: S0, z))
    (ekf_UC lp obs A Q xi Rn false (m, P) ts).
Proof. exact: ekf_UC_scale'. Qed.
Print Assumptions C40_scale.

(** ... and square-root filters, whose factors scale by the square root. *)
Theorem C40_scale_sqrt (lp : lapack) nx ny (obs : dual nx -> R -> dual ny) A xi LQ LR m L (a : R) ts :
  0 < a ->
  (exists m' L1 L2 S z, [/\ ekf_UC lp obs A LQ xi LR true (m, L) ts = Val ((m', L1), S, z),
     ekf_UC lp obs A (a *: LQ) xi (a *: LR) true (m, a *: L) ts = Val ((m', L2), a ^+ 2 *: S, z) &
     L2 *m L2^T = a ^+ 2 *: (L1 *m L1^T)]) \/
  (ekf_UC lp obs A LQ xi LR true (m, L) ts = Nan /\
   ekf_UC lp obs A (a *: LQ) xi (a *: LR) true (m, a *: L) ts = Nan).
Proof. exact: ekf_UC_scale_sqrt. Qed.
Print Assumptions C40_scale_sqrt.

(** C41 *)
Theorem C41_mle_maximises n (zs : seq 'cV[R]_n) (Ss : seq 'M[R]_n) :
  size zs = size Ss -> (forall C, C \in Ss -> pd C) -> (0 < size zs * n)%N ->
  exists2 s0, mle_diffusion zs Ss = Val s0 & 0 <= s0 /\
    [/\ 0 < s0 -> forall s, 0 < s -> s != s0 -> scale_loglik zs Ss s < scale_loglik zs Ss s0,
        s0 = 0 <-> forall z, z \in zs -> z = 0 &
        s0 = 0 -> forall s s', 0 < s -> s < s' -> scale_loglik zs Ss s' < scale_loglik zs Ss s].
Proof. exact: mle_max. Qed.
Print Assumptions C41_mle_maximises.

Theorem C41_quadratic n (zs : seq 'cV[R]_n) (Ss : seq 'M[R]_n) (c : R) :
  size zs = size Ss -> (forall C, C \in Ss -> pd C) -> (0 < size zs * n)%N ->
  mle_diffusion [seq c *: z | z <- zs] Ss = rmap (fun s => c ^+ 2 * s) (mle_diffusion zs Ss).
Proof. exact: mle_quad. Qed.
Print Assumptions C41_quadratic.

Theorem C41_inverse n (zs : seq 'cV[R]_n) (Ss : seq 'M[R]_n) (c : R) : 0 < c ->
  size zs = size Ss -> (forall C, C \in Ss -> pd C) -> (0 < size zs * n)%N ->
  mle_diffusion zs [seq c *: C | C <- Ss] = rmap (fun s => s / c) (mle_diffusion zs Ss).
Proof. exact: mle_inv. Qed.
Print Assumptions C41_inverse.

Theorem C41_recalibration n (zs : seq 'cV[R]_n) (Ss : seq 'M[R]_n) (s : R) :
  size zs = size Ss -> (forall C, C \in Ss -> pd C) -> (0 < size zs * n)%N ->
  mle_diffusion zs Ss = Val s -> 0 < s -> mle_diffusion zs [seq s *: C | C <- Ss] = Val 1.
Proof. exact: mle_recal. Qed.
Print Assumptions C41_recalibration.

(** The outcome of every call: ValueError exactly on sequences of different lengths, a number exactly
    when there is something to average and all covariances are invertible. *)
Theorem C41_outcome n (zs : seq 'cV[R]_n) (Ss : seq 'M[R]_n) :
  (mle_diffusion zs Ss = Raise ValueError <-> size zs <> size Ss) /\
  (size zs = size Ss -> forall s, mle_diffusion zs Ss = Val s <->
     [/\ (0 < size zs)%N, (0 < n)%N, forall C, C \in Ss -> C \in unitmx &
         s = (\sum_(p <- zip zs Ss) ((p.1)^T *m invmx p.2 *m p.1) 0 0) / (size zs * n)%:R]).
Proof. exact: mle_outcome. Qed.
Print Assumptions C41_outcome.

(** Residuals 1 and 3 with variances 1 and 3: scale (1 + 3)/2 = 2. *)
Example C41_ex : let zs : seq 'cV[R]_1 := [:: 1%:M; 3%:R%:M] in let Ss : seq 'M[R]_1 := [:: 1%:M; 3%:R%:M] in
  [/\ size zs = size Ss, forall C, C \in Ss -> pd C & mle_diffusion zs Ss = Val 2%:R].
Proof. exact: mle_ex. Qed.

(** C42 *)
Theorem C42_same_state (lp : lapack) nx ny (obs : dual nx -> R -> dual ny) A xi Q (Rn : 'M[R]_ny) sq init ts :
  rmap (fun r => r.1.1) (ekf_UC lp obs A Q xi Rn sq init ts) = ekf lp obs A Q xi Rn sq init ts.
Proof. exact: ekf_UC_fst. Qed.
Print Assumptions C42_same_state.

Theorem C42_last_outputs (lp : lapack) nx ny (obs : dual nx -> R -> dual ny) A Q xi (Rn : 'M[R]_ny) sq init ts t x' S z :
  ekf_UC lp obs A Q xi Rn sq init (rcons ts t) = Val (x', S, z) ->
  exists m P, [/\ ekf lp obs A Q xi Rn sq init ts = Val (m, P),
    ekf lp obs A Q xi Rn sq init (rcons ts t) = Val x',
    z = dprimal (obs^~ t) (A *m m + xi) &
    S = (let H := jacfwd (obs^~ t) (A *m m + xi) in
         if sq then H *m (A *m (P *m P^T) *m A^T + Q *m Q^T) *m H^T + Rn *m Rn^T
         else H *m (A *m P *m A^T + Q) *m H^T + Rn)].
Proof. exact: ekf_UC_out. Qed.
Print Assumptions C42_last_outputs.

(** One step of a scalar filter: the observation is the state minus 5. *)
Example C42_ex (lp : lapack) :
  let obs : dual 1 -> R -> dual 1 := fun x _ => dlift (fun z => z - 5%:R%:M) x in
  ekf_UC lp obs 1%:M 1%:M 0 1%:M false (2%:R%:M, 1%:M) [:: 0] =
  Val ((4%:R%:M, (2%:R / 3%:R)%:M), 3%:R%:M, (- 3%:R)%:M).
Proof. exact: ekf_ex. Qed.
