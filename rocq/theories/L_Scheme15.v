(** Lemmas about the order 1.5 schemes. *)
From Coq Require Import Reals Lra.
From Coquelicot Require Import Coquelicot.
From mathcomp Require Import all_ssreflect all_algebra mxtens.
From Verif Require Import Rstruct Base Linalg Calc Prob Spec M_Utils M_Scheme15.

Set Implicit Arguments.
Unset Strict Implicit.
Unset Printing Implicit Defensive.
Import Order.TTheory GRing.Theory Num.Theory.
Local Open Scope ring_scope.

(** ** The Brownian covariances in closed form *)
Lemma cov_W_WE (h : R) : cov_W_W h = h.
Proof. by rewrite /cov_W_W Rmin_left //; exact: Rle_refl. Qed.

Lemma is_RInt_id (a b : R) : is_RInt (fun s : R => s) a b ((b ^ 2 - a ^ 2) / 2)%Re.
Proof.
have -> : ((b ^ 2 - a ^ 2) / 2)%Re = minus (b ^ 2 / 2)%Re (a ^ 2 / 2)%Re.
  by rewrite /minus /plus /opp /=; field.
apply: (is_RInt_derive (fun s : R => (s ^ 2 / 2)%Re) (fun s : R => s)) => s _.
  by auto_derive => //; field.
exact: continuous_id.
Qed.

Lemma RInt_min (s h : R) : (0 <= s)%Re -> (s <= h)%Re ->
  RInt (fun t => Rmin s t) 0 h = (s * h - s ^ 2 / 2)%Re.
Proof.
move=> s0 sh; apply: is_RInt_unique.
have -> : (s * h - s ^ 2 / 2)%Re = plus ((s ^ 2 - 0 ^ 2) / 2)%Re (scal (h - s)%Re s).
  by rewrite /plus /scal /= /mult /=; field.
apply: (@is_RInt_Chasles _ _ _ s).
  apply: (is_RInt_ext (fun t : R => t)); last exact: is_RInt_id.
  by move=> t; rewrite Rmin_left // Rmax_right // => -[_ H]; rewrite Rmin_right //; lra.
apply: (is_RInt_ext (fun _ : R => s)); last exact: is_RInt_const.
by move=> t; rewrite Rmin_left // Rmax_right // => -[H _]; rewrite Rmin_left //; lra.
Qed.

Lemma cov_I_WE (h : R) : 0 <= h -> cov_I_W h = h ^+ 2 / 2%:R.
Proof.
move=> /RleP h0; rewrite /cov_I_W; apply: is_RInt_unique.
have -> : h ^+ 2 / 2%:R = ((h ^ 2 - 0 ^ 2) / 2)%Re by toR; field.
apply: (is_RInt_ext (fun t : R => t)); last exact: is_RInt_id.
by move=> t; rewrite Rmin_left // Rmax_right // => -[_ H]; rewrite Rmin_left //; lra.
Qed.

Lemma cov_I_IE (h : R) : 0 <= h -> cov_I_I h = h ^+ 3 / 3%:R.
Proof.
move=> /RleP h0; rewrite /cov_I_I; apply: is_RInt_unique.
apply: (is_RInt_ext (fun s : R => (s * h - s ^ 2 / 2)%Re)).
  by move=> s; rewrite Rmin_left // Rmax_right // => -[H1 H2]; rewrite RInt_min //; move: H1 H2; toR; lra.
have -> : h ^+ 3 / 3%:R = minus (h ^ 2 / 2 * h - h ^ 3 / 6)%Re (0 ^ 2 / 2 * h - 0 ^ 3 / 6)%Re.
  by rewrite /minus /plus /opp /=; toR; field.
apply: (is_RInt_derive (fun s : R => (s ^ 2 / 2 * h - s ^ 3 / 6)%Re)) => s _.
  by auto_derive => //; field.
by apply: ex_derive_continuous; auto_derive.
Qed.

Lemma brownian_covE m (h : R) : 0 <= h ->
  brownian_cov m h = block_mx (h ^+ 3 / 3%:R)%:M (h ^+ 2 / 2%:R)%:M (h ^+ 2 / 2%:R)%:M h%:M.
Proof. by move=> h0; rewrite /brownian_cov cov_W_WE cov_I_WE ?cov_I_IE. Qed.

(** An explicit square root. *)
Definition brownian_root m (h : R) : 'M[R]_(m + m) :=
  block_mx (sqrt (h ^+ 3 / 12%:R))%:M (h * sqrt h / 2%:R)%:M 0 (sqrt h)%:M.

Lemma brownian_rootP m (h : R) : 0 <= h -> brownian_root m h *m (brownian_root m h)^T = brownian_cov m h.
Proof.
move=> h0; have sh : sqrt h * sqrt h = h by apply: sqrt_sqrt; apply/RleP.
have s3 : sqrt (h ^+ 3 / 12%:R) * sqrt (h ^+ 3 / 12%:R) = h ^+ 3 / 12%:R.
  by apply: sqrt_sqrt; apply/RleP; rewrite mulr_ge0 ?exprn_ge0 ?invr_ge0 //; exact: ler0n.
rewrite brownian_covE // /brownian_root tr_block_mx !tr_scalar_mx trmx0 mulmx_block.
rewrite !mul0mx !mulmx0 !add0r -!scalar_mxM -raddfD /=.
congr (block_mx _%:M _%:M _%:M _%:M); rewrite ?s3 //.
- have -> : h * sqrt h / 2%:R * (h * sqrt h / 2%:R) = h ^+ 2 * (sqrt h * sqrt h) / 4%:R by rfield.
  by rewrite sh; rfield.
- have -> : h * sqrt h / 2%:R * sqrt h = h * (sqrt h * sqrt h) / 2%:R by rfield.
  by rewrite sh; rfield.
have -> : sqrt h * (h * sqrt h / 2%:R) = h * (sqrt h * sqrt h) / 2%:R by rfield.
by rewrite sh; rfield.
Qed.

Lemma brownian_psd m (h : R) : 0 <= h -> psd (brownian_cov m h).
Proof. by move=> h0; rewrite -brownian_rootP //; exact: psd_gram. Qed.

Lemma brownian_pd m (h : R) : 0 < h -> pd (brownian_cov m h).
Proof.
move=> h0; rewrite -brownian_rootP ?ltW //; apply: pd_gram.
rewrite unitmxE /brownian_root det_ublock !det_scalar unitfE mulf_neq0 // expf_neq0 //.
  have : (0 < sqrt (h ^+ 3 / 12%:R))%Re.
    by apply: sqrt_lt_R0; apply/RltP; rewrite mulr_gt0 ?exprn_gt0 ?invr_gt0 ?ltr0n.
  by move=> /RltP /lt0r_neq0.
have : (0 < sqrt h)%Re by apply: sqrt_lt_R0; apply/RltP.
by move=> /RltP /lt0r_neq0.
Qed.

(** ** The diagonal scheme *)
Section Diag.
Variables (d : nat) (h : R).
Implicit Types (a : 'cV[R]_d -> 'cV[R]_d) (x zeta eta : 'cV[R]_d).

Lemma diag15_covE : 0 <= h -> diag15_cov d h = brownian_cov d h.
Proof. by move=> h0; rewrite brownian_covE // /diag15_cov !scale_scalar_mx !mulr1. Qed.

Lemma generator_drift a (s : 'cV[R]_d -> 'M[R]_d) x :
  (forall i j, i != j -> (s x *m (s x)^T) i j = 0) ->
  2%:R^-1 *: laplacedrift a s x + jac a x *m a x = generator a s a x.
Proof.
move=> D; apply/colP=> i; rewrite !mxE addrC; congr (_ + _ * _).
  by apply: eq_bigr => j _; rewrite mxE mulrC.
rewrite /dotv mxE; apply: eq_bigr => j _; rewrite (bigD1 j) //= [X in _ + X]big1 ?addr0.
  rewrite trmxE !mxE; congr (_ * _); first by apply: eq_bigr => l _; rewrite mxE.
  by apply: pderiv_ext => z; rewrite mxE.
move=> k kj; have := D j k; rewrite eq_sym => /(_ kj); rewrite mxE => E.
rewrite (eq_bigr (fun l => s x j l * (s x)^T l k)) ?E ?mul0r // => l _.
by rewrite mxE.
Qed.

Lemma diag15_additive a (s : 'M[R]_d) x zeta eta : (forall i j, i != j -> (s *m s^T) i j = 0) ->
  diag15_step a (fun _ => s) h x zeta eta =
  x + h *: a x + s *m eta + (h ^+ 2 / 2%:R) *: generator a (fun _ => s) a x + jac a x *m s *m zeta.
Proof.
move=> D; rewrite -(@generator_drift a (fun _ => s)) // /diag15_step.
have Z : partialxsigma (fun _ : 'cV[R]_d => s) x = 0.
  by apply/matrixP=> i j; rewrite !mxE -[RHS](pderiv_const (s i i) j x); apply: pderiv_ext => z; rewrite mxE.
have L : laplacesigma (fun _ : 'cV[R]_d => s) x = 0.
  apply/colP=> i; rewrite /laplacesigma mxE /dotv [LHS]mxE [RHS]mxE big1 // => j _; rewrite !mxE.
  rewrite (@pderiv_ext _ _ (fun _ => 0)) ?pderiv_const ?mulr0 // => z; rewrite mxE.
  by rewrite -[RHS](pderiv_const (s i i) j z); apply: pderiv_ext => y; rewrite mxE.
rewrite Z L !mul0mx !scaler0 !mul0mx.
have -> : \matrix_(i < d, j < d) (0 : 'cV[R]_d) j 0 = 0 :> 'M[R]_d by apply/matrixP=> i j; rewrite !mxE.
have D0 v : dotv (0 : 'cV[R]_d) v = 0 by rewrite /dotv trmx0 mul0mx mxE.
rewrite !D0 !addr0 scaler0 mul0mx.
rewrite !addr0 scalerDr scalerA -scalemxAl /partialxdrift.
have -> : h ^+ 2 / 2%:R * 2%:R^-1 = h ^+ 2 / 4%:R by rfield.
rewrite [_ *: laplacedrift _ _ _ + _]addrC.
by congr (_ + _); rewrite -!addrA; congr (_ + (_ + _)); rewrite addrA addrC.
Qed.
End Diag.

(** One dimension *)
Lemma jac_one (f : R -> R) (x : 'cV[R]_1) :
  jac (fun z => (f (z 0 0))%:M) x = (Derive f (x 0 0))%:M.
Proof.
apply/matrixP=> i j; rewrite (ord1 i) (ord1 j) !mxE mulr1n -pderiv_one.
by apply: pderiv_ext => z; rewrite mxE mulr1n.
Qed.

Lemma hess_one (f : R -> R) (x : 'cV[R]_1) :
  hess (fun z => (f (z 0 0))%:M) x 0 = (Derive (Derive f) (x 0 0))%:M.
Proof.
apply/matrixP=> i j; rewrite (ord1 i) (ord1 j) !mxE mulr1n -pderiv_one.
by apply: pderiv_ext => z; rewrite jac_one mxE mulr1n.
Qed.

Section One.
Variables (a s : R -> R) (h : R).
Let av (z : 'cV[R]_1) : 'cV[R]_1 := (a (z 0 0))%:M.
Let sv (z : 'cV[R]_1) : 'M[R]_1 := (s (z 0 0))%:M.

Lemma diag15_one (x zeta eta : R) :
  let s' := Derive s x in let s'' := Derive (Derive s) x in
  diag15_step av sv h x%:M zeta%:M eta%:M 0 0 =
  kp15 a s x h zeta eta + 2%:R^-1 * s x * (s x * s'' + s' ^+ 2) * (3%:R^-1 * eta ^+ 2 - h) * (1 - eta).
Proof.
move=> s' s''.
have x0 : (x%:M : 'cV[R]_1) 0 0 = x by rewrite mxE mulr1n.
have Ds : diagSigma sv = (fun z : 'cV[R]_1 => (s (z 0 0))%:M).
  apply: FunctionalExtensionality.functional_extensionality => z.
  by apply/colP=> i; rewrite (ord1 i) !mxE.
have ja : partialxdrift av x%:M = (Derive a x)%:M by rewrite /partialxdrift jac_one x0.
have js : partialxsigma sv x%:M = s'%:M by rewrite /partialxsigma Ds jac_one x0.
have la : laplacedrift av sv x%:M = (s x ^+ 2 * Derive (Derive a) x)%:M.
  apply/colP=> i; rewrite (ord1 i) /laplacedrift mxE /dotv mxE big_ord1 trmxE.
  rewrite mxE [X in _ * X]mxE hess_one !mxE big_ord1 !mxE !mulr1n ?x0 expr2; rring.
have ls : laplacesigma sv x%:M = (s x ^+ 2 * s'')%:M.
  apply/colP=> i; rewrite (ord1 i) /laplacesigma Ds mxE /dotv mxE big_ord1 trmxE.
  rewrite mxE [X in _ * X]mxE hess_one !mxE big_ord1 !mxE !mulr1n ?x0 expr2; rring.
rewrite /diag15_step ja js la ls /av /sv x0.
have dE (u v : R) : dotv (u%:M : 'cV[R]_1) (v%:M) = u * v.
  by rewrite /dotv mxE big_ord1 !mxE !mulr1n.
have cE (u : R) : const_mx u = u%:M :> 'cV[R]_1.
  by apply/colP=> i; rewrite (ord1 i) !mxE mulr1n.
have -> : \col_i ((eta%:M : 'cV[R]_1) i 0) ^+ 2 = (eta ^+ 2)%:M.
  by apply/colP=> i; rewrite (ord1 i) !mxE !mulr1n.
have -> : \matrix_(i < 1, j < 1) ((s x ^+ 2 * s'')%:M : 'cV[R]_1) j 0 = (s x ^+ 2 * s'')%:M.
  by apply/matrixP=> i j; rewrite (ord1 i) (ord1 j) !mxE !mulr1n.
rewrite !(scale_scalar_mx, cE, mulr1) -!scalar_mxM.
have sB (u v : R) : (u%:M : 'M[R]_1) - v%:M = (u - v)%:M by rewrite raddfB.
have sD (u v : R) : (u%:M : 'M[R]_1) + v%:M = (u + v)%:M by rewrite raddfD.
rewrite !sB !dE !sD !scale_scalar_mx -!scalar_mxM !sD mxE mulr1n /kp15 -/s' -/s''.
by rfield.
Qed.

(** Means over draws with the moments of Brownian increments. *)
Section Bias.
Variables (Om : Type) (E : expectation Om) (zeta eta : Om -> R) (x : R).
Hypothesis E1 : E eta = 0.
Hypothesis E2 : E (fun w => eta w ^+ 2) = h.
Hypothesis E3 : E (fun w => eta w ^+ 3) = 0.
Hypothesis Ez : E zeta = 0.

Lemma E_poly (c0 c1 c2 c3 cz : R) :
  E (fun w => c0 + c1 * eta w + c2 * eta w ^+ 2 + c3 * eta w ^+ 3 + cz * zeta w) = c0 + c2 * h.
Proof. by rewrite !E_add !E_scale E_const E1 E2 E3 Ez !mulr0 !addr0. Qed.

Lemma kp15_mean : E (fun w => kp15 a s x h (zeta w) (eta w)) =
  x + h * a x + h ^+ 2 / 2%:R * (a x * Derive a x + 2%:R^-1 * s x ^+ 2 * Derive (Derive a) x).
Proof.
set a' := Derive a x; set a'' := Derive (Derive a) x.
set s' := Derive s x; set s'' := Derive (Derive s) x.
set c := s x * (s x * s'' + s' ^+ 2).
transitivity (x + a x * h - 2%:R^-1 * s x * s' * h
  + 2%:R^-1 * (a x * a' + 2%:R^-1 * s x ^+ 2 * a'') * h ^+ 2 + 2%:R^-1 * s x * s' * h); last by rfield.
rewrite -[RHS](E_poly (x + a x * h - 2%:R^-1 * s x * s' * h
    + 2%:R^-1 * (a x * a' + 2%:R^-1 * s x ^+ 2 * a'') * h ^+ 2)
  (s x + (a x * s' + 2%:R^-1 * s x ^+ 2 * s'') * h - 2%:R^-1 * c * h)
  (2%:R^-1 * s x * s') (2%:R^-1 * c * 3%:R^-1) (a' * s x - (a x * s' + 2%:R^-1 * s x ^+ 2 * s''))).
by apply: E_ext => w; rewrite /kp15 /c -/a' -/a'' -/s' -/s''; rfield.
Qed.

Lemma diag15_mean : 
  E (fun w => diag15_step av sv h x%:M (zeta w)%:M (eta w)%:M 0 0) =
  E (fun w => kp15 a s x h (zeta w) (eta w)) -
  h / 3%:R * (s x * (s x * Derive (Derive s) x + Derive s x ^+ 2)).
Proof.
set s' := Derive s x; set s'' := Derive (Derive s) x.
set c := s x * (s x * s'' + s' ^+ 2).
rewrite (E_ext _ (fun w => diag15_one x (zeta w) (eta w))) E_add; congr (_ + _).
transitivity (2%:R^-1 * c * - h + 2%:R^-1 * c * 3%:R^-1 * h); last by rfield.
rewrite -[RHS](E_poly (2%:R^-1 * c * - h) (2%:R^-1 * c * h) (2%:R^-1 * c * 3%:R^-1) (- (2%:R^-1 * c * 3%:R^-1)) 0).
by apply: E_ext => w; rewrite /c -/s' -/s''; rfield.
Qed.
End Bias.
End One.

(** ** Coordinates are coupled: geometric Brownian motions *)
Lemma jac_diag_scale d (b : R) (x : 'cV[R]_d) :
  partialxsigma (fun z : 'cV[R]_d => b *: diag_mx z^T) x = b%:M.
Proof.
rewrite /partialxsigma -[RHS](jac_mul b%:M x); apply: jac_ext => z; apply/colP=> i.
by rewrite mul_scalar_mx !mxE eqxx mulr1n.
Qed.

Lemma hess_lin n m (A : 'M[R]_(m, n)) (x : 'cV[R]_n) i : hess (fun z => A *m z) x i = 0.
Proof.
apply/matrixP=> j k; rewrite !mxE -[RHS](pderiv_const (A i j) k x).
by apply: pderiv_ext => z; rewrite jac_mul.
Qed.

Lemma diag15_gbm d (a b h : R) (x zeta eta : 'cV[R]_d) i :
  diag15_step (fun z => a *: z) (fun z : 'cV[R]_d => b *: diag_mx z^T) h x zeta eta i 0 =
  (1 + a * h + (a * h) ^+ 2 / 2%:R) * x i 0 + b * x i 0 * eta i 0 + a * b * x i 0 * zeta i 0
  + 2%:R^-1 * b ^+ 2 * x i 0 * (eta i 0 ^+ 2 - h)
  + a * b * (\sum_j x j 0 * (h * eta j 0 - zeta j 0))
  + 2%:R^-1 * b ^+ 3 * x i 0 * (3%:R^-1 * (\sum_j eta j 0 ^+ 2) - h).
Proof.
have ja : partialxdrift (fun z : 'cV[R]_d => a *: z) x = a%:M.
  by rewrite /partialxdrift -[RHS](jac_mul a%:M x); apply: jac_ext => z; rewrite mul_scalar_mx.
have la : laplacedrift (fun z : 'cV[R]_d => a *: z) (fun z : 'cV[R]_d => b *: diag_mx z^T) x = 0.
  apply/colP=> j; rewrite mxE /dotv mxE [RHS]mxE big1 // => k _; rewrite [X in _ * X]mxE.
  rewrite (_ : hess _ x j = hess (fun z : 'cV[R]_d => a%:M *m z) x j); first by rewrite hess_lin zeromxE mulr0.
  by apply: hess_ext => z; rewrite mul_scalar_mx.
have ls : laplacesigma (fun z : 'cV[R]_d => b *: diag_mx z^T) x = 0.
  apply/colP=> j; rewrite mxE /dotv mxE [RHS]mxE big1 // => k _; rewrite [X in _ * X]mxE.
  rewrite (_ : hess _ x j = hess (fun z : 'cV[R]_d => b%:M *m z) x j); first by rewrite hess_lin zeromxE mulr0.
  apply: hess_ext => z.
  by apply/colP=> l; rewrite mul_scalar_mx !mxE eqxx mulr1n.
rewrite /diag15_step ja la ls jac_diag_scale !scaler0 !addr0.
have -> : \matrix_(i < d, j < d) (0 : 'cV[R]_d) j 0 = 0 :> 'M[R]_d by apply/matrixP=> k j; rewrite !mxE.
have -> : dotv (0 : 'cV[R]_d) (h *: eta - zeta) = 0 by rewrite /dotv trmx0 mul0mx mxE.
rewrite !addr0 -!scalemxAl !mul_scalar_mx -!scalemxAr.
rewrite !addmxE !scalemxE !scalerA -!scalemxAl !scalemxE !mul_diag_mx.
rewrite !mul_scalar_mx -!scalemxAl !scalemxE !mul_diag_mx !mxE /dotv !mxE /=.
have -> : \sum_j ((b * a) *: x)^T 0 j * (h *: eta - zeta) j 0 = a * b * \sum_j x j 0 * (h * eta j 0 - zeta j 0).
  by rewrite big_distrr /=; apply: eq_bigr => j _; rewrite !mxE mulrA [b * a]mulrC.
have -> : \sum_j (3%:R^-1 *: eta)^T 0 j * eta j 0 = 3%:R^-1 * \sum_j eta j 0 ^+ 2.
  by rewrite big_distrr /=; apply: eq_bigr => j _; rewrite !mxE -mulrA -expr2.
by rfield.
Qed.

(** ** The hypoelliptic scheme *)
Section Hypo.
Variables (d m : nat) (a : 'cV[R]_(1 + d) -> 'cV[R]_(1 + d)) (s : 'cV[R]_(1 + d) -> 'M[R]_(1 + d, m)).
Variable h : R.
Implicit Types x : 'cV[R]_(1 + d).

(** Gradient of the smooth drift component with respect to the rough coordinates. *)
Definition rough_grad x : 'rV[R]_d := \row_j pderiv (fun z => a z 0 0) (rshift 1 j) x.

Lemma partialuaE x : partialua a x = rough_grad x.
Proof. by apply/rowP=> j; rewrite !mxE. Qed.

Definition hypo_mix x : 'M[R]_(1 + d, m + m) :=
  block_mx (rough_grad x *m dsubmx (s x)) 0 0 (dsubmx (s x)).

Lemma hypo_covE x : 0 <= h ->
  hypo_cov a s h x = hypo_mix x *m brownian_cov m h *m (hypo_mix x)^T.
Proof.
move=> h0; rewrite brownian_covE // /hypo_mix tr_block_mx !mulmx_block !trmx0.
rewrite !(mul0mx, mulmx0, addr0, add0r) !mul_mx_scalar -!scalemxAl trmx_mul !mulmxA.
rewrite /hypo_cov partialuaE /GammaGammaT /Gamma !mulmxA; congr (block_mx _ _ _ _).
by rewrite !trmx_mul trmxK !mulmxA.
Qed.

Lemma hypo_cov_psd x : 0 <= h -> psd (hypo_cov a s h x).
Proof. by move=> h0; rewrite hypo_covE //; apply: psd_congr; exact: brownian_psd. Qed.

Lemma hypo_generator x e :
  hypo_step a s h x e = x + h *: a x + (h ^+ 2 / 2%:R) *: generator a s a x + e.
Proof.
rewrite /hypo_step; congr (_ + _); rewrite -[RHS]addrA -!addrA; congr (_ + (_ + _)).
apply/colP=> i; rewrite addmxE -scalemxAl !scalemxE !mxE.
have -> : \sum_j partialuvdrift a x i j * a x j 0 = \sum_j a x j 0 * pderiv (fun z => a z i 0) j x.
  by apply: eq_bigr => j _; rewrite mxE mulrC.
have -> : \sum_j \sum_k (s x *m (s x)^T) j k * hess a x i j k =
  \sum_j \sum_k (\sum_l s x j l * s x k l) * pderiv (fun y => pderiv (fun z => a z i 0) j y) k x.
  apply: eq_bigr => j _; apply: eq_bigr => k _; rewrite !mxE; congr (_ * _).
    by apply: eq_bigr => l _; rewrite mxE.
  by apply: pderiv_ext => z; rewrite mxE.
by rewrite mulrDr mulrA; congr (_ + _ * _); rfield.
Qed.

Lemma qf_block (A : 'M[R]_1) (B : 'M[R]_(1, d)) (C : 'M[R]_(d, 1)) (D : 'M[R]_d) (v : 'cV[R]_d) :
  qf (block_mx A B C D) (col_mx 0 v) = qf D v.
Proof.
by rewrite /qf tr_col_mx trmx0 mul_row_block !mul0mx !add0r mul_row_col mulmx0 add0r.
Qed.

Lemma hypo_pd x : pd (hypo_cov a s h x) <->
  [/\ 0 < h, row_free (dsubmx (s x)) & rough_grad x != 0].
Proof.
set G := dsubmx (s x); set p := rough_grad x.
split=> [[S P]|[h0 rf g0]].
  have c1 : (col_mx 1%:M 0 : 'cV[R]_(1 + d)) != 0.
    by apply/eqP=> /colP/(_ (lshift d 0)); rewrite col_mxEu !mxE => /eqP; rewrite oner_eq0.
  have := P _ c1.
  have -> : qf (hypo_cov a s h x) (col_mx 1%:M 0) = h ^+ 3 / 3%:R * ((p *m G)^T^T *m (p *m G)^T) 0 0.
    rewrite /qf tr_col_mx trmx1 trmx0 mul_row_block !mul0mx !addr0 mul_row_col mulmx0 addr0 mulmx1 mul1mx.
    by rewrite scalemxE partialuaE trmxK trmx_mul /GammaGammaT /Gamma !mulmxA.
  have := sumsq_ge0 (p *m G)^T; set q := (_ *m _) 0 0 => q0 hq.
  have h0 : 0 < h.
    rewrite ltNge; apply/negP=> hle; move: hq; rewrite ltNge => /negP; apply.
    rewrite mulr_le0_ge0 // mulr_le0_ge0 ?invr_ge0 //; last exact: ler0n.
    by rewrite exprSr mulr_ge0_le0 // sqr_ge0.
  split=> //; last first.
    by apply: contraTneq hq => p0; rewrite /q p0 mul0mx !trmx0 mul0mx mxE mulr0 ltxx.
  apply: inj_row_free => v vG; apply/eqP; apply: contraT => v0.
  have c2 : (col_mx 0 v^T : 'cV[R]_(1 + d)) != 0.
    by apply: contra_neq v0 => /eqP; rewrite col_mx_eq0 => /andP[_ /eqP/(congr1 trmx)]; rewrite trmxK trmx0.
  have := P _ c2; rewrite qf_block qfZ qf_gram.
  by rewrite -trmx_mul vG !trmx0 mul0mx mxE mulr0 ltxx.
rewrite hypo_covE ?ltW //; split; first by apply: sym_congr; case: (brownian_psd m (ltW h0)).
move=> v v0; rewrite qf_congr; apply: (brownian_pd m h0).2; apply: contra_neq v0.
rewrite -[v]vsubmxK /hypo_mix tr_block_mx !trmx0 mul_block_col !mul0mx addr0 add0r.
move=> /eqP; rewrite col_mx_eq0 => /andP[/eqP E1 /eqP E2].
have -> : dsubmx v = 0.
  apply: trmx_inj; rewrite trmx0; apply: (row_free_inj rf).
  by rewrite mul0mx -[LHS]trmxK trmx_mul trmxK E2 trmx0.
have -> : usubmx v = 0; last exact: col_mx0.
apply/eqP; apply: contra_neqT g0 => u0.
apply: (row_free_inj rf); rewrite mul0mx -/p.
have E : usubmx v = (usubmx v 0 0)%:M by apply/matrixP=> i j; rewrite (ord1 i) (ord1 j) [RHS]mxE mulr1n.
move: E1; rewrite {1}E mul_mx_scalar => /eqP; rewrite scaler_eq0 => /orP[/eqP z|/eqP z].
  by move: u0; rewrite E z raddf0 eqxx.
by apply: trmx_inj; rewrite z trmx0.
Qed.

Lemma hypo_cov_sym x : sym (hypo_cov a s h x).
Proof.
rewrite /sym /hypo_cov tr_block_mx; congr (block_mx _ _ _ _).
- by rewrite linearZ /= !trmx_mul !trmxK !mulmxA.
- by rewrite linearZ /= trmxK.
- by rewrite linearZ.
by rewrite linearZ /= trmx_mul trmxK.
Qed.

(** A step returns numbers exactly in the hypoelliptic case. *)
Lemma hypo_numbers lp (g : prng) (k : key g) x :
  (exists y, (hypo_body lp a s h (Val x) k).1 = Val y) <->
  [/\ 0 < h, row_free (dsubmx (s x)) & rough_grad x != 0].
Proof.
rewrite -hypo_pd /hypo_body /= /mvn /cholesky; split=> [[y]|P].
  case E: (chol lp _) => [L|] //= _; apply: Classical_Prop.NNPP => NP.
  by rewrite (chol_nan lp (hypo_cov_sym x) NP) in E.
by have [L [-> _ _ _]] := cholP lp P; eexists.
Qed.

Lemma hypo_nan lp (g : prng) (k : key g) x :
  (hypo_body lp a s h (Val x) k).1 = Nan \/ exists y, (hypo_body lp a s h (Val x) k).1 = Val y.
Proof.
rewrite /hypo_body /= /mvn /cholesky; case: (chol lp _) => [L|] /=; [right|left] => //.
by eexists.
Qed.
End Hypo.

Lemma hypo_linear d m (M : 'M[R]_(1 + d)) (s : 'cV[R]_(1 + d) -> 'M[R]_(1 + d, m)) h x :
  hypo_step (fun z => M *m z) s h x 0 = (1%:M + h *: M + (h ^+ 2 / 2%:R) *: (M *m M)) *m x.
Proof.
rewrite /hypo_step addr0.
have -> : laplaceweighted s (fun z => M *m z) x = 0.
  apply/colP=> i; rewrite mxE [RHS]mxE big1 // => j _; rewrite big1 // => k _.
  by rewrite hess_lin zeromxE mulr0.
by rewrite scaler0 addr0 /partialuvdrift jac_mul !mulmxDl mul1mx -!scalemxAl mulmxA.
Qed.

Lemma diag15_linear d (M s : 'M[R]_d) h x : (forall i j, i != j -> (s *m s^T) i j = 0) ->
  diag15_step (fun z => M *m z) (fun _ => s) h x 0 0 = (1%:M + h *: M + (h ^+ 2 / 2%:R) *: (M *m M)) *m x.
Proof.
move=> D; rewrite diag15_additive // !mulmx0 !addr0 -(@generator_drift _ _ (fun _ => s)) //.
have -> : laplacedrift (fun z => M *m z) (fun _ => s) x = 0.
  apply/colP=> i; rewrite mxE /dotv mxE [RHS]mxE big1 // => j _.
  by rewrite [X in _ * X]mxE hess_lin zeromxE mulr0.
by rewrite scaler0 add0r jac_mul !mulmxDl mul1mx -!scalemxAl mulmxA.
Qed.

Section DiagNumbers.
Variables (d : nat) (a : 'cV[R]_d -> 'cV[R]_d) (s : 'cV[R]_d -> 'M[R]_d) (h : R).
Lemma diag15_cov_sym : sym (diag15_cov d h).
Proof. by rewrite /sym /diag15_cov tr_block_mx !linearZ /= trmx1. Qed.

Lemma diag15_cov_pd : pd (diag15_cov d h) <-> 0 < h \/ d = 0%N.
Proof.
split=> [[_ P]|[h0|d0]]; last 1 first.
- split; first exact: diag15_cov_sym.
  have E (v : 'cV[R]_(d + d)) : v = 0 by clear -d0; move: v; rewrite d0 => v; apply/matrixP=> -[].
  by move=> v; rewrite (E v) eqxx.
- case: (posnP d) => [->|d0]; [by right|left].
  have := P (col_mx 0 (const_mx 1)).
  have -> : (col_mx 0 (const_mx 1) : 'cV[R]_(d + d)) != 0.
    apply/eqP=> /colP/(_ (rshift d (Ordinal d0))); rewrite col_mxEd !mxE => /eqP; by rewrite oner_eq0.
  rewrite /qf /diag15_cov tr_col_mx trmx0 mul_row_block !mul0mx !add0r mul_row_col mulmx0 add0r.
  rewrite -scalemxAr -scalemxAl mulmx1 scalemxE => /(_ isT).
  have := sumsq_ge0 (const_mx 1 : 'cV[R]_d); set q := (_ *m _) 0 0 => q0 hq.
  rewrite ltNge; apply/negP => h0; move: hq; rewrite ltNge => /negP; apply.
  by rewrite mulr_le0_ge0.
by rewrite diag15_covE ?ltW //; exact: brownian_pd.
Qed.

Lemma diag15_numbers lp (g : prng) (k : key g) x :
  (exists y, (diag15_body lp a s h (Val x) k).1 = Val y) <-> 0 < h \/ d = 0%N.
Proof.
rewrite -diag15_cov_pd /diag15_body /= /mvn /cholesky; split=> [[y]|P].
  case E: (chol lp _) => [L|] //= _; apply: Classical_Prop.NNPP => NP.
  by rewrite (chol_nan lp diag15_cov_sym NP) in E.
by have [L [-> _ _ _]] := cholP lp P; eexists.
Qed.
End DiagNumbers.

(** Two geometric Brownian motions: the first coordinate of the step depends on the second. *)
Lemma diag15_coupled :
  let step := diag15_step (fun z : 'cV[R]_2 => 1 *: z) (fun z : 'cV[R]_2 => 1 *: diag_mx z^T) 1 in
  let zeta : 'cV[R]_2 := 0 in let eta : 'cV[R]_2 := const_mx 1 in
  let x := (0 : 'cV[R]_2) in let y : 'cV[R]_2 := delta_mx 1 0 in
  x 0 0 = y 0 0 /\ step x zeta eta 0 0 <> step y zeta eta 0 0.
Proof.
move=> step zeta eta x y; split; first by rewrite !mxE.
move=> H.
have {H} := etrans (esym (diag15_gbm 1 1 1 x zeta eta 0)) (etrans H (diag15_gbm 1 1 1 y zeta eta 0)).
have -> : \sum_j x j 0 * (1 * eta j 0 - zeta j 0) = 0.
  by rewrite big1 // => j _; rewrite zeromxE mul0r.
have -> : \sum_j y j 0 * (1 * eta j 0 - zeta j 0) = 1.
  by rewrite (bigD1 1) //= big1 ?addr0 => [|j j1]; rewrite !mxE ?eqxx ?(negPf j1) /= ?mul0r // !mul1r subr0.
have -> : y 0 0 = 0 by rewrite !mxE.
have -> : x 0 0 = 0 by rewrite !mxE.
rewrite !(mul0r, mulr0, mulr1, mul1r, addr0, add0r) => /eqP.
by rewrite eq_sym oner_eq0.
Qed.

Lemma diag15_not_textbook :
  exists (a s : R -> R) (h x zeta eta : R), 0 < h /\
  diag15_step (fun z => (a (z 0 0))%:M) (fun z => (s (z 0 0))%:M) h x%:M zeta%:M eta%:M 0 0 <>
  kp15 a s x h zeta eta.
Proof.
exists (fun _ : R => 0), (fun z : R => z), 1, 1, 0, 0; split; first exact: ltr01.
rewrite (diag15_one (fun _ : R => 0) (fun z : R => z)).
have D1 (x : R) : Derive (fun z : R => z) x = 1 by exact: Derive_id.
have D2 (x : R) : Derive (Derive (fun z : R => z)) x = 0.
  by rewrite (Derive_ext _ (fun _ => 1)) // Derive_const.
rewrite D1 D2 -[RHS]addr0 => /addrI.
rewrite !(mulr1, mul1r, mulr0, mul0r, expr1n, add0r, addr0, sub0r, subr0) expr2 mulr0 mulr0 add0r.
move=> /eqP; rewrite mulrN1 oppr_eq0 invr_eq0 => /eqP H.
have : (2 = 0)%Re by move: H; toR.
lra.
Qed.

Lemma signs_moments (h : R) : 0 <= h ->
  let E := signsE 1 in let eta w := sqrt h * rademacher w 0 0 in let zeta w := h / 2%:R * eta w in
  [/\ E eta = 0, E (fun w => eta w ^+ 2) = h, E (fun w => eta w ^+ 3) = 0 & E zeta = 0].
Proof.
move=> h0 E eta zeta; have [/matrixP S1 _] := rademacher_standard 1.
have {}S1 := S1 0 0; rewrite !mxE in S1.
have e1 : E eta = 0 by rewrite /E E_scale S1 mulr0.
have sq w : rademacher (w : signs 1) 0 0 ^+ 2 = 1.
  by rewrite mxE /sgn; case: (w 0); rewrite ?sqrrN expr1n.
have hs : sqrt h ^+ 2 = h by rewrite expr2; apply: sqrt_sqrt; apply/RleP.
have e2 w : eta w ^+ 2 = h by rewrite /eta exprMn sq mulr1 hs.
split=> //.
- by rewrite -[RHS](E_const E); apply: E_ext => w; rewrite e2.
- rewrite -[RHS](mulr0 h) -e1 -E_scale; apply: E_ext => w.
  by rewrite exprS mulrC e2.
by rewrite /zeta E_scale e1 mulr0.
Qed.

Lemma diag15_joint d (h : R) : 0 <= h ->
  diag15_cov d h = brownian_cov d h /\ psd (diag15_cov d h).
Proof. by move=> h0; rewrite diag15_covE //; split=> //; exact: brownian_psd. Qed.

Lemma hypo_cov_brownian d m (a : 'cV[R]_(1 + d) -> 'cV[R]_(1 + d))
  (s : 'cV[R]_(1 + d) -> 'M[R]_(1 + d, m)) (h : R) x : 0 <= h ->
  hypo_cov a s h x = hypo_mix a s x *m brownian_cov m h *m (hypo_mix a s x)^T /\
  psd (hypo_cov a s h x).
Proof. by move=> h0; split; [exact: hypo_covE | exact: hypo_cov_psd]. Qed.

Lemma diag15_coupled_ex :
  let step := diag15_step (fun z : 'cV[R]_2 => 1 *: z) (fun z : 'cV[R]_2 => 1 *: diag_mx z^T) 1 in
  let zeta : 'cV[R]_2 := 0 in let eta : 'cV[R]_2 := const_mx 1 in
  exists x y : 'cV[R]_2, x 0 0 = y 0 0 /\ step x zeta eta 0 0 <> step y zeta eta 0 0.
Proof. by move=> step zeta eta; exists 0, (delta_mx 1 0); exact: diag15_coupled. Qed.
