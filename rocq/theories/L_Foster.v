(** Lemmas about the parabola approximations. *)
From Coq Require Import Reals Lra.
From Coquelicot Require Import Coquelicot.
From mathcomp Require Import all_ssreflect all_algebra mxtens.
From Verif Require Import Rstruct Base Linalg Calc Prob Spec M_Foster.

Set Implicit Arguments.
Unset Strict Implicit.
Unset Printing Implicit Defensive.
Import Order.TTheory GRing.Theory Num.Theory.
Local Open Scope ring_scope.

Lemma sqrt6_sq : sqrt 6%:R * sqrt 6%:R = 6%:R.
Proof. by toR; rewrite sqrt_sqrt //; lra. Qed.
Lemma sqrt6_gt0 : 0 < sqrt 6%:R.
Proof. by apply/RltP; toR; apply: sqrt_lt_R0; lra. Qed.
Lemma sqrt6_neq0 : sqrt 6%:R != 0.
Proof. by apply: lt0r_neq0; exact: sqrt6_gt0. Qed.
Lemma sqrt6_inv : (sqrt 6%:R)^-1 = sqrt 6%:R / 6%:R.
Proof.
apply: (mulfI sqrt6_neq0); rewrite divff ?sqrt6_neq0 // mulrA sqrt6_sq divff //.
by rewrite pnatr_eq0.
Qed.

Lemma eval_parabola1E t dt a b : eval_parabola1 t dt a b = parab dt a b t.
Proof. by rewrite /eval_parabola1 /parab; rring. Qed.

Lemma parab0 T a b : parab T a b 0 = 0.
Proof. by rewrite /parab !mul0r !mulr0 addr0. Qed.
Lemma parabT T a b : T != 0 -> parab T a b T = a.
Proof. by move=> T0; rewrite /parab divff // subrr !mulr0 mulr1 addr0. Qed.

Lemma is_derive_parab T a b t : T != 0 ->
  is_derive (parab T a b) t ((a + sqrt 6%:R * b * (1 - 2%:R * (t / T))) / T).
Proof.
move=> /eqP T0; set r := sqrt 6%:R.
apply: (is_derive_ext (fun s : R => (a * (s / T) + r * b * ((s / T) * (1 - s / T)))%Re)).
  by move=> s; rewrite /parab -/r; toR.
auto_derive => //; toR; by field.
Qed.

Definition parab_int (T a b t : R) : R :=
  (a * (t ^ 2 / (2 * T)) + sqrt 6%:R * b * (t ^ 2 / (2 * T) - t ^ 3 / (3 * T ^ 2)))%Re.

Lemma is_derive_parab_int T a b t : T != 0 -> is_derive (parab_int T a b) t (parab T a b t).
Proof.
move=> /eqP T0; rewrite /parab_int /parab; set r := sqrt 6%:R.
auto_derive => //; toR; by field.
Qed.

Lemma continuous_parab T a b t : T != 0 -> continuous (parab T a b) t.
Proof. by move=> T0; apply: ex_derive_continuous; eexists; exact: is_derive_parab. Qed.

Lemma is_RInt_parab T a b : T != 0 ->
  is_RInt (parab T a b) 0 T (T * (a / 2%:R + b / sqrt 6%:R)).
Proof.
move=> T0; have -> : T * (a / 2%:R + b / sqrt 6%:R) = minus (parab_int T a b T) (parab_int T a b 0).
  rewrite /minus /plus /opp /= /parab_int sqrt6_inv; set r := sqrt _; toR; field.
  by move/eqP: T0.
apply: (@is_RInt_derive R_CompleteNormedModule) => t _; first exact: is_derive_parab_int.
exact: continuous_parab.
Qed.

(** ** Piecewise paths *)
Fixpoint area (h : R) (ps : seq (R * R)) (s : R) : R :=
  if ps is (a, b) :: ps' then h * (s + a / 2%:R + b / sqrt 6%:R) + area h ps' (s + a) else 0.

Definition total (ps : seq (R * R)) : R := \sum_(p <- ps) p.1.

Lemma pieced_shift (h : R) ps (s t a b : R) : h < t ->
  pieced h ((a, b) :: ps) s t = pieced h ps (s + a) (t - h).
Proof. by move=> ht; rewrite /= leNgt ht. Qed.

Lemma pieced_end (h : R) ps s : 0 < h -> pieced h ps s ((size ps)%:R * h) = s + total ps.
Proof.
move=> h0; have hN : h != 0 by rewrite gt_eqF.
elim: ps s => [|[a b] ps IH] s; first by rewrite /= /total big_nil addr0.
rewrite /total big_cons /=; case: ps IH => [|p ps] IH.
  by rewrite /= mul1r lexx parabT // big_nil addr0.
have -> : ((size (p :: ps)).+1%:R * h <= h) = false.
  apply/negbTE; rewrite -ltNge -[X in X < _]mul1r ltr_pmul2r // ltr1n //.
have -> : (size (p :: ps)).+1%:R * h - h = (size (p :: ps))%:R * h.
  by rewrite -addn1 natrD mulrDl mul1r addrK.
by rewrite IH /total addrA.
Qed.

Lemma is_RInt_pieced (h : R) ps s : 0 < h ->
  is_RInt (pieced h ps s) 0 ((size ps)%:R * h) (area h ps s).
Proof.
move=> h0; have hN : h != 0 by rewrite gt_eqF.
have h0' : (0 < h)%Re by apply/RltP.
elim: ps s => [|[a b] ps IH] s.
  by rewrite /= mul0r; exact: is_RInt_point.
have E : (size ((a, b) :: ps))%:R * h = (h + (size ps)%:R * h)%Re.
  by rewrite /= -addn1 natrD mulrDl mul1r addrC.
have n0 : (0 <= (size ps)%:R * h)%Re by apply/RleP; rewrite mulr_ge0 ?ler0n // ltW.
rewrite E [area _ _ _]/=; set I1 := h * _; set I2 := area _ _ _.
apply: (@is_RInt_Chasles R_NormedModule _ 0 h _ I1 I2); rewrite /I1 /I2.
  apply: (is_RInt_ext (fun t => plus (s : R) (parab h a b t))).
    move=> t; rewrite Rmin_left ?Rmax_right; try (toR; lra).
    by move=> [_ /RltP th] /=; rewrite ltW.
  have -> : h * (s + a / 2%:R + b / sqrt 6%:R) =
      plus (scal (h - 0)%Re (s : R)) (h * (a / 2%:R + b / sqrt 6%:R)).
    by rewrite /plus /scal /= /mult /= !mulrDr -!addrA; toR; ring.
  apply: (@is_RInt_plus R_NormedModule); first exact: is_RInt_const.
  exact: is_RInt_parab.
apply: (is_RInt_ext (fun t => scal 1%Re (pieced h ps (s + a) (1 * t + (- h))%Re))).
  move=> t; rewrite Rmin_left ?Rmax_right; try lra.
  move=> [/RltP ht _]; rewrite pieced_shift // /scal /= /mult /= Rmult_1_l.
  by rewrite Rmult_1_l.
apply: (@is_RInt_comp_lin R_NormedModule (pieced h ps (s + a)) 1%Re (- h)%Re).
have -> : (1 * h + - h)%Re = 0 by toR; ring.
have -> : (1 * (h + (size ps)%:R * h) + - h)%Re = (size ps)%:R * h by toR; ring.
exact: IH.
Qed.

Section Model.
Variables (g : prng) (dim : nat).

Lemma parabolasE (k : key g) dt i :
  ((parabolas dim k dt).1 i 0 = sqrt dt * normal2 k 2 dim 0 i) /\
  ((parabolas dim k dt).2 i 0 = sqrt (2%:R^-1 * dt) * normal2 k 2 dim 1 i).
Proof. by rewrite /parabolas /= !mxE. Qed.

Lemma eval_path t dt (a b : 'cV[R]_dim) i : eval_parabola t dt a b i 0 = parab dt (a i 0) (b i 0) t.
Proof. by rewrite mxE eval_parabola1E. Qed.

Lemma jacR_eval t dt (a b : 'cV[R]_dim) : dt != 0 ->
  jacR (fun s => eval_parabola s dt a b) t =
  dt^-1 *: (a + (sqrt 6%:R * (1 - 2%:R * (t / dt))) *: b).
Proof.
move=> dt0; apply/colP=> i; rewrite mxE; apply: is_derive_unique.
apply: (is_derive_ext (parab dt (a i 0) (b i 0))); first by move=> s; rewrite eval_path.
rewrite !mxE; have := is_derive_parab (a i 0) (b i 0) t dt0.
by congr is_derive; rewrite mulrC mulrAC.
Qed.

(** *** Second moments of one parabola *)
Section Moments.
Variables (Om : Type) (E : expectation Om).
Variables (X : Om -> 'M[R]_(2, dim)).
Hypothesis Hstd : standard2 E X.

Lemma std_affine1 p u v i : E (fun w => p + u * X w 0 i + v * X w 1 i) = p.
Proof. by rewrite !E_add E_const !E_scale !Hstd.1 !mulr0 !addr0. Qed.

Lemma std_affine2 p u v q u' v' i j :
  E (fun w => (p + u * X w 0 i + v * X w 1 i) * (q + u' * X w 0 j + v' * X w 1 j)) =
  p * q + (i == j)%:R * (u * u' + v * v').
Proof.
transitivity (E (fun w => (p * q + (p * u') * X w 0 j + (p * v') * X w 1 j)
  + ((u * q) * X w 0 i + (u * u') * (X w 0 i * X w 0 j) + (u * v') * (X w 0 i * X w 1 j)
  + ((v * q) * X w 1 i + (v * u') * (X w 1 i * X w 0 j) + (v * v') * (X w 1 i * X w 1 j))))).
  by apply: E_ext => w; rring.
rewrite !E_add !E_const !E_scale !Hstd.1 !Hstd.2 /= !mulr0 !addr0 !add0r.
by rewrite -mulrDl; congr (_ + _); rewrite mulrC.
Qed.
End Moments.

(** *** Aggregation of fine parabolas *)
Definition pieces (h : R) (ks : seq (key g)) (i : 'I_dim) : seq (R * R) :=
  [seq ((parabolas dim k h).1 i 0, (parabolas dim k h).2 i 0) | k <- ks].
Definition fine_inputs (h : R) (ks : seq (key g)) :=
  let fine := [seq parabolas dim k h | k <- ks] in
  zip (unzip1 fine) [seq (1 / sqrt 6%:R) *: e | e <- unzip2 fine].

Lemma scan_update h ks s0 s1 i :
  let r := (scan (@update_eps dim h) (s0, s1) (fine_inputs h ks)).1 in
  r.1 i 0 = s0 i 0 + total (pieces h ks i) /\
  r.2 i 0 = s1 i 0 + area h (pieces h ks i) (s0 i 0).
Proof.
elim: ks s0 s1 => [|k ks IH] s0 s1; first by rewrite /= /total big_nil !addr0.
have := IH (s0 + (parabolas dim k h).1)
  (s1 + h *: (s0 + 2%:R^-1 *: (parabolas dim k h).1 + (1 / sqrt 6%:R) *: (parabolas dim k h).2)).
rewrite /fine_inputs /= => -[-> ->]; rewrite /total big_cons /= -/(total _) !mxE.
split; first by rewrite addrA.
by rewrite -/(pieces h ks i) mul1r [_ / 2%:R]mulrC [_ / sqrt 6%:R]mulrC !addrA.
Qed.

Lemma size_pieces h ks i : size (pieces h ks i) = size ks.
Proof. exact: size_map. Qed.

Lemma parabolas_fine_keysE N ks dt i :
  let h := dt / N%:R in
  let c := parabolas_fine_keys dim N ks dt in
  c.1.1.1 i 0 = total (pieces h ks i) /\
  c.1.1.2 i 0 = sqrt 6%:R * (area h (pieces h ks i) 0 / dt - total (pieces h ks i) / 2%:R).
Proof.
move=> h c; have := scan_update h ks 0 0 i; rewrite /c /parabolas_fine_keys -/h -/(fine_inputs h ks).
case: (scan _ _ _).1 => e0 e1 /= [H1 H2]; rewrite !mxE H2 !mxE !add0r; split; first by rewrite H1 mxE add0r.
by rewrite mul1r H1 mxE add0r; congr (_ * (_ - _)); rewrite mulrC.
Qed.

Lemma fine_area N k (dt : R) i : (0 < N)%N -> 0 < dt ->
  let h := dt / N%:R in
  let ps := pieces h (split k N) i in
  let c := parabolas_fine dim N k dt in
  [/\ eval_fn (p := get_approx_fine g dim N) dt dt c i 0 = pieced h ps 0 dt,
      is_RInt (fun t => eval_fn (p := get_approx_fine g dim N) t dt c i 0) 0 dt (area h ps 0) &
      is_RInt (pieced h ps 0) 0 dt (area h ps 0)].
Proof.
move=> N0 dt0 h ps c; have dtN : dt != 0 by rewrite gt_eqF.
have NN : N%:R != 0 :> R by rewrite pnatr_eq0 -lt0n.
have Nh : (size ps)%:R * h = dt by rewrite size_pieces size_split mulrC divfK.
have h0 : 0 < h by rewrite divr_gt0 // ltr0n.
have [H1 H2] := parabolas_fine_keysE N (split k N) dt i.
rewrite -/h -/ps in H1 H2; split.
- rewrite /= eval_path parabT // /c /parabolas_fine H1.
  by rewrite -Nh pieced_end // add0r.
- apply: (is_RInt_ext (parab dt (c.1.1.1 i 0) (c.1.1.2 i 0))).
    by move=> t _; rewrite /= eval_path.
  have -> : area h ps 0 = dt * (c.1.1.1 i 0 / 2%:R + c.1.1.2 i 0 / sqrt 6%:R).
    rewrite /c /parabolas_fine H1 H2 [sqrt _ * _]mulrC mulfK ?sqrt6_neq0 //.
    by rewrite addrC subrK mulrC divfK.
  exact: is_RInt_parab.
- by rewrite -[X in is_RInt _ _ X]Nh; exact: is_RInt_pieced.
Qed.

(** A parabola is determined by its increment and its area. *)
Lemma parab_unique (T a b a' b' : R) : T != 0 -> parab T a b T = parab T a' b' T ->
  (exists I, is_RInt (parab T a b) 0 T I /\ is_RInt (parab T a' b') 0 T I) ->
  a = a' /\ b = b'.
Proof.
move=> T0; rewrite !parabT // => <- [I [H1 H2]]; split=> //.
have E1 := is_RInt_unique _ _ _ _ H1; have E2 := is_RInt_unique _ _ _ _ H2.
have F1 := is_RInt_unique _ _ _ _ (@is_RInt_parab T a b T0).
have F2 := is_RInt_unique _ _ _ _ (@is_RInt_parab T a b' T0).
have : T * (a / 2%:R + b / sqrt 6%:R) = T * (a / 2%:R + b' / sqrt 6%:R).
  by rewrite -F1 -F2 E1 E2.
move/(mulfI T0)/addrI; apply: (mulIf).
by rewrite invr_eq0 sqrt6_neq0.
Qed.
End Model.

Lemma total_rcons ps p : total (rcons ps p) = total ps + p.1.
Proof. by rewrite /total -cats1 big_cat big_seq1. Qed.
Lemma area_rcons h ps p s :
  area h (rcons ps p) s = area h ps s + h * (s + total ps + p.1 / 2%:R + p.2 / sqrt 6%:R).
Proof.
elim: ps s => [|[a b] ps IH] s /=.
  by case: p => a b /=; rewrite /total big_nil !addr0 add0r.
by rewrite IH /total big_cons /= -/(total ps) !addrA.
Qed.

Section FineMoments.
Variables (g : prng) (dim : nat) (E : expectation (key g)) (h : R).
Hypothesis Hstd : standard2 E (fun k => normal2 k 2 dim).
Hypothesis h0 : 0 <= h.

Notation S ws i := (total (pieces (g := g) (dim := dim) h ws i)).
Notation J ws i := (area h (pieces (g := g) (dim := dim) h ws i) 0).

Let sh : sqrt h * sqrt h = h.
Proof. by toR; rewrite sqrt_sqrt //; apply/RleP. Qed.
Let sh2 : sqrt (2%:R^-1 * h) * sqrt (2%:R^-1 * h) = 2%:R^-1 * h.
Proof. by toR; rewrite sqrt_sqrt //; move/RleP: h0 => /=; toR; lra. Qed.

Let S_rcons ws w i : S (rcons ws w) i = S ws i + sqrt h * normal2 w 2 dim 0 i + 0 * normal2 w 2 dim 1 i.
Proof. by rewrite /pieces map_rcons total_rcons /= (parabolasE w h i).1 mul0r addr0. Qed.
Let J_rcons ws w i : J (rcons ws w) i = (J ws i + h * S ws i)
  + (h * sqrt h / 2%:R) * normal2 w 2 dim 0 i + (h * sqrt (2%:R^-1 * h) / sqrt 6%:R) * normal2 w 2 dim 1 i.
Proof.
rewrite /pieces map_rcons area_rcons /= (parabolasE w h i).1 (parabolasE w h i).2 add0r.
by rewrite -!/(pieces _ _ _) !mulrDr !addrA; congr (_ + _ + _); rewrite -!mulrA; congr (_ * (_ * _)); rewrite mulrC.
Qed.

Lemma fine_mean n i : iidE E n (fun ws => S ws i) = 0 /\ iidE E n (fun ws => J ws i) = 0.
Proof.
elim: n => [|n [IH1 IH2]]; first by rewrite /= /total big_nil.
split; rewrite [LHS]iid_rcons.
  rewrite -[RHS]IH1; apply: iid_ext => ws _.
  by rewrite (E_ext _ (fun w => S_rcons ws w i)) (std_affine1 Hstd).
transitivity (iidE E n (fun ws => J ws i + h * S ws i)).
  by apply: iid_ext => ws _; rewrite (E_ext _ (fun w => J_rcons ws w i)) (std_affine1 Hstd).
by rewrite E_add E_scale IH1 IH2 mulr0 addr0.
Qed.

Lemma fine_cov n i j :
  [/\ iidE E n (fun ws => S ws i * S ws j) = (i == j)%:R * (n%:R * h),
      iidE E n (fun ws => S ws i * J ws j) = (i == j)%:R * (n%:R ^+ 2 * h ^+ 2 / 2%:R) &
      iidE E n (fun ws => J ws i * J ws j) = (i == j)%:R * (n%:R ^+ 3 * h ^+ 3 / 3%:R)].
Proof.
move: i j; elim: n => [|n IH] i j.
  by rewrite /= /total !big_nil !(mul0r, mulr0, exprS).
have [I1 I2 I3] := IH i j; have [_ I2' _] := IH j i.
have nS : n.+1%:R = n%:R + 1 :> R by rewrite -addn1 natrD.
split; rewrite [LHS]iid_rcons nS.
- transitivity (iidE E n (fun ws => S ws i * S ws j + (i == j)%:R * h)).
    apply: iid_ext => ws _.
    rewrite (E_ext _ (fun w => congr2 *%R (S_rcons ws w i) (S_rcons ws w j))) (std_affine2 Hstd).
    by rewrite mul0r addr0 sh.
  by rewrite E_add E_const I1; rring.
- transitivity (iidE E n (fun ws => S ws i * J ws j + h * (S ws i * S ws j) + (i == j)%:R * (h * h / 2%:R))).
    apply: iid_ext => ws _.
    rewrite (E_ext _ (fun w => congr2 *%R (S_rcons ws w i) (J_rcons ws w j))) (std_affine2 Hstd).
    have -> : sqrt h * (h * sqrt h / 2%:R) = h * (sqrt h * sqrt h) / 2%:R by rfield.
    by rewrite sh mul0r addr0; rfield.
  by rewrite !E_add E_scale E_const I1 I2; toR; field.
- transitivity (iidE E n (fun ws => J ws i * J ws j + h * (S ws j * J ws i) + h * (S ws i * J ws j)
     + (h * h) * (S ws i * S ws j) + (i == j)%:R * (h * h * h / 3%:R))).
    apply: iid_ext => ws _.
    rewrite (E_ext _ (fun w => congr2 *%R (J_rcons ws w i) (J_rcons ws w j))) (std_affine2 Hstd).
    have -> : h * sqrt h / 2%:R * (h * sqrt h / 2%:R) +
              h * sqrt (2%:R^-1 * h) / sqrt 6%:R * (h * sqrt (2%:R^-1 * h) / sqrt 6%:R) = h * h * h / 3%:R.
      transitivity (h * h * (sqrt h * sqrt h) / 4%:R + h * h * (sqrt (2%:R^-1 * h) * sqrt (2%:R^-1 * h)) * ((sqrt 6%:R)^-1 * (sqrt 6%:R)^-1)).
        by move: (sqrt h) (sqrt _) ((sqrt _)^-1) => a b c; toR; field.
      rewrite sh sh2 -invfM sqrt6_sq; toR; field.
    by rring.
  rewrite !E_add !E_scale E_const I1 I2 I3 I2' eq_sym; toR; field.
Qed.

(** The coefficients aggregated from [n] independent fine pieces of length [h]. *)
Lemma fine_law n dt i j : (0 < n)%N -> dt = n%:R * h -> 0 < dt ->
  let a ws := (parabolas_fine_keys dim n ws dt).1.1.1 in
  let b ws := (parabolas_fine_keys dim n ws dt).1.1.2 in
  [/\ iidE E n (fun ws => a ws i 0) = 0,
      iidE E n (fun ws => b ws i 0) = 0,
      iidE E n (fun ws => a ws i 0 * a ws j 0) = (i == j)%:R * dt,
      iidE E n (fun ws => a ws i 0 * b ws j 0) = 0 &
      iidE E n (fun ws => b ws i 0 * b ws j 0) = (i == j)%:R * (dt / 2%:R)].
Proof.
move=> n0 Edt dt0 a b; have nN : n%:R != 0 :> R by rewrite pnatr_eq0 -lt0n.
have dtN : dt != 0 by rewrite gt_eqF.
have Eh : dt / n%:R = h by rewrite Edt [_ * h]mulrC mulfK.
have [M1 M2] := fine_mean n i; have [C1 C2 C3] := fine_cov n i j; have [_ C2' _] := fine_cov n j i.
have Ea ws k : a ws k 0 = S ws k by have /= [-> _] := parabolas_fine_keysE n ws dt k; rewrite Eh.
have Eb ws k : b ws k 0 = sqrt 6%:R / dt * J ws k - sqrt 6%:R / 2%:R * S ws k.
  have /= [_ ->] := parabolas_fine_keysE n ws dt k; rewrite Eh.
  by rewrite mulrBr; congr (_ - _); rewrite mulrA mulrAC.
have dtn : (dt <> 0)%Re by apply/eqP.
split.
- by rewrite -[RHS]M1; apply: E_ext => ws; exact: Ea.
- by rewrite (E_ext _ (fun ws => Eb ws i)) E_sub !E_scale M1 M2 !mulr0 subrr.
- rewrite Edt -[RHS]C1; apply: E_ext => ws; by rewrite !Ea.
- transitivity (iidE E n (fun ws => sqrt 6%:R / dt * (S ws i * J ws j) - sqrt 6%:R / 2%:R * (S ws i * S ws j))).
    by apply: E_ext => ws; rewrite Ea Eb; rring.
  rewrite E_sub !E_scale C1 C2 -exprMn -Edt; set r := sqrt _; toR; field.
  by [].
- transitivity (iidE E n (fun ws => (sqrt 6%:R * sqrt 6%:R) * (dt^-1 * dt^-1) * (J ws i * J ws j)
    + (- (sqrt 6%:R * sqrt 6%:R) / (2%:R * dt)) * (S ws j * J ws i + S ws i * J ws j)
    + (sqrt 6%:R * sqrt 6%:R / 4%:R) * (S ws i * S ws j))).
    by apply: E_ext => ws; rewrite !Eb; set r := sqrt _; toR; field.
  rewrite !E_add !E_scale E_add C1 C2 C3 C2' sqrt6_sq -!exprMn -Edt eq_sym; toR; field.
  by [].
Qed.
End FineMoments.

(** *** The parabola of a sampled Brownian path *)
Section Brownian.
Variables (g : prng) (dim : nat).

Lemma nth_rows m n (e : 'M[R]_(m, n)) (i : 'I_m) : nth 0 (rows e) i = (row i e)^T.
Proof. by rewrite /rows (nth_map i) ?size_enum_ord // nth_ord_enum. Qed.
Lemma size_rows m n (e : 'M[R]_(m, n)) : size (rows e) = m.
Proof. by rewrite size_map size_enum_ord. Qed.

Lemma sum_shift2 (V : zmodType) (F : nat -> V) M :
  \sum_(0 <= i < M) F i.+2 = \sum_(0 <= j < M.+1) F j + F M.+1 - F 0%N - F 1%N.
Proof.
have -> : \sum_(0 <= j < M.+1) F j + F M.+1 = \sum_(0 <= j < M.+2) F j by rewrite [RHS]big_nat_recr.
rewrite big_nat_recl // big_nat_recl //.
by rewrite [F 0%N + _]addrC addrK [F 1%N + _]addrC addrK.
Qed.

(** What the code returns as second coefficient, against what it should be. *)
Lemma parabolas_bmE N (k : key g) dt : (0 < N)%N -> dt != 0 ->
  let h := dt / N%:R in
  let c := parabolas_bm dim N k dt in
  let W := bm_at h c.2 in
  c.1.1 = W N /\
  c.1.2 = sqrt 6%:R *: (dt^-1 *: trapezoid h W N - 2%:R^-1 *: W N)
          + (sqrt 6%:R / N%:R) *: (W N - W 1%N - 2%:R^-1 *: W (minn 2 N)).
Proof.
case: N => // M _ dt0 h c W; set N := M.+1; have NN : N%:R != 0 :> R by rewrite pnatr_eq0.
set incs := c.2; have sz : size incs = N by rewrite /incs /c /= size_rows.
set bm := [seq sqrt h *: b | b <- cumsum incs].
have szb : size bm = N by rewrite size_map size_mkseq sz.
have nb j : (j < N)%N -> nth 0 bm j = W j.+1.
  by move=> Hj; rewrite (nth_map 0) ?size_mkseq ?sz // nth_mkseq ?sz.
have clamp j : get_clamped 0 bm j = W (minn j.+1 N).
  by rewrite /get_clamped szb nb ?ltnS ?geq_minr //= -minnSS.
have c0 : c.1.1 = W N by rewrite -[LHS]/(nth 0 bm (size bm).-1) szb nb.
split=> //; rewrite -[LHS]/(trapz_dx [seq sqrt 6%:R *: get_clamped 0 bm i | i <- iota 1 N] (1 / N%:R)
               - (2%:R^-1 * sqrt 6%:R) *: c.1.1) c0.
pose F j := 2%:R^-1 *: (W (minn j N) + W (minn j.+1 N)).
have -> : trapz_dx [seq sqrt 6%:R *: get_clamped 0 bm i | i <- iota 1 N] (1 / N%:R) =
   (sqrt 6%:R / N%:R) *: \sum_(0 <= i < M) F i.+2.
  rewrite /trapz_dx size_map size_iota [N.-1]/= mul1r.
  rewrite mulrC -scalerA; congr (_ *: _); rewrite scaler_sumr.
  apply: eq_big_nat => i /andP [_ Hi].
  rewrite !(nth_map 0%N) ?size_iota ?nth_iota ?ltnS ?(ltnW Hi) // !clamp.
  by rewrite -scalerDr scalerA mulrC -scalerA.
rewrite sum_shift2 /F.
have W0 : W 0%N = 0 by rewrite /W /bm_at big_geq // scaler0.
have -> : \sum_(0 <= j < M.+1) 2%:R^-1 *: (W (minn j N) + W (minn j.+1 N)) = h^-1 *: trapezoid h W N.
  rewrite /trapezoid scaler_sumr; apply: eq_big_nat => j /andP [_ Hj].
  rewrite (minn_idPl _) ?(ltnW Hj) // (minn_idPl _) // scalerA; congr (_ *: _).
  have hN : h != 0 by rewrite mulf_neq0 // invr_eq0.
  by rewrite mulrA mulVf // mul1r.
have -> : minn M.+1 N = N by apply/minn_idPl.
have -> : minn M.+2 N = N by apply/minn_idPr.
rewrite min0n (minn_idPl (isT : (1 <= N)%N)) W0 add0r.
have hE : h^-1 = N%:R / dt by rewrite invf_div.
apply/colP=> i; rewrite !mxE hE; set r := sqrt _; set t := (trapezoid _ _ _) i 0.
set a := W N i 0; set b := W 1%N i 0; set e := W (minn 2 N) i 0.
move/eqP: NN; move/eqP: dt0; toR; set n := (INR N); move=> dt0 NN.
by field.
Qed.
End Brownian.

(** ** Closed statements used in [T_Foster] *)
Lemma parab_path dim t dt (a b : 'cV[R]_dim) i : dt != 0 ->
  [/\ eval_parabola 0 dt a b i 0 = 0,
      eval_parabola dt dt a b i 0 = a i 0,
      jacR (fun s => eval_parabola s dt a b) t =
        dt^-1 *: (a + (sqrt 6%:R * (1 - 2%:R * (t / dt))) *: b),
      is_derive (fun s => eval_parabola s dt a b i 0) t
        ((a i 0 + sqrt 6%:R * b i 0 * (1 - 2%:R * (t / dt))) / dt) &
      is_RInt (fun s => eval_parabola s dt a b i 0) 0 dt (dt * (a i 0 / 2%:R + b i 0 / sqrt 6%:R))].
Proof.
move=> dt0; split; first by rewrite eval_path parab0.
- by rewrite eval_path parabT.
- exact: jacR_eval.
- apply: (is_derive_ext (parab dt (a i 0) (b i 0))); first by move=> s; rewrite eval_path.
  exact: is_derive_parab.
- apply: (is_RInt_ext (parab dt (a i 0) (b i 0))); first by move=> s _; rewrite eval_path.
  exact: is_RInt_parab.
Qed.

Section OneParabola.
Variables (g : prng) (dim : nat) (E : expectation (key g)).
Hypothesis Hstd : standard2 E (fun k => normal2 k 2 dim).
Lemma parabola_law (dt : R) i j : 0 <= dt ->
  let a k := (parabolas dim k dt).1 i 0 in let b k := (parabolas dim k dt).2 i 0 in
  let a' k := (parabolas dim k dt).1 j 0 in let b' k := (parabolas dim k dt).2 j 0 in
  [/\ E a = 0, E b = 0, E (fun k => a k * a' k) = (i == j)%:R * dt,
      E (fun k => a k * b' k) = 0 & E (fun k => b k * b' k) = (i == j)%:R * (dt / 2%:R)].
Proof.
move=> dt0 a b a' b'.
have sh : sqrt dt * sqrt dt = dt by toR; rewrite sqrt_sqrt //; apply/RleP.
have sh2 : sqrt (2%:R^-1 * dt) * sqrt (2%:R^-1 * dt) = dt / 2%:R.
  by toR; rewrite sqrt_sqrt; [field | move/RleP: dt0 => /=; toR; lra].
have Ea k : a k = 0 + sqrt dt * normal2 k 2 dim 0 i + 0 * normal2 k 2 dim 1 i.
  by rewrite /a (parabolasE k dt i).1 add0r mul0r addr0.
have Eb k : b k = 0 + 0 * normal2 k 2 dim 0 i + sqrt (2%:R^-1 * dt) * normal2 k 2 dim 1 i.
  by rewrite /b (parabolasE k dt i).2 mul0r !add0r.
have Ea' k : a' k = 0 + sqrt dt * normal2 k 2 dim 0 j + 0 * normal2 k 2 dim 1 j.
  by rewrite /a' (parabolasE k dt j).1 add0r mul0r addr0.
have Eb' k : b' k = 0 + 0 * normal2 k 2 dim 0 j + sqrt (2%:R^-1 * dt) * normal2 k 2 dim 1 j.
  by rewrite /b' (parabolasE k dt j).2 mul0r !add0r.
split.
- by rewrite (E_ext _ Ea) (std_affine1 Hstd).
- by rewrite (E_ext _ Eb) (std_affine1 Hstd).
- by rewrite (E_ext _ (fun k => congr2 *%R (Ea k) (Ea' k))) (std_affine2 Hstd) !mul0r add0r addr0 sh.
- by rewrite (E_ext _ (fun k => congr2 *%R (Ea k) (Eb' k))) (std_affine2 Hstd) !mul0r !mulr0 addr0 add0r mulr0.
- by rewrite (E_ext _ (fun k => congr2 *%R (Eb k) (Eb' k))) (std_affine2 Hstd) !mul0r !add0r sh2.
Qed.

(** Increment and time integral of the path have the Brownian covariances. *)
Lemma path_law (dt : R) i j : 0 < dt ->
  let W k i := eval_parabola dt dt (parabolas dim k dt).1 (parabolas dim k dt).2 i 0 in
  let Z k i := RInt (fun t => eval_parabola t dt (parabolas dim k dt).1 (parabolas dim k dt).2 i 0) 0 dt in
  [/\ E (fun k => W k i) = 0, E (fun k => Z k i) = 0,
      E (fun k => W k i * W k j) = (i == j)%:R * dt,
      E (fun k => W k i * Z k j) = (i == j)%:R * (dt ^+ 2 / 2%:R) &
      E (fun k => Z k i * Z k j) = (i == j)%:R * (dt ^+ 3 / 3%:R)].
Proof.
move=> dt0 W Z; have dtN : dt != 0 by rewrite gt_eqF.
have [E1 E2 E3 E4 E5] := parabola_law i j (ltW dt0).
have [_ _ _ E4' _] := parabola_law j i (ltW dt0).
pose a (k : key g) l := (parabolas dim k dt).1 l 0; pose b (k : key g) l := (parabolas dim k dt).2 l 0.
have EW k l : W k l = a k l by rewrite /W; have [_ -> _ _ _] := parab_path 0 (parabolas dim k dt).1 (parabolas dim k dt).2 l dtN.
have EZ k l : Z k l = dt / 2%:R * a k l + dt / sqrt 6%:R * b k l.
  have [_ _ _ _ H] := parab_path 0 (parabolas dim k dt).1 (parabolas dim k dt).2 l dtN.
  rewrite /Z (is_RInt_unique _ _ _ _ H) -/(a k l) -/(b k l) mulrDr.
  by congr (_ + _); rewrite mulrA mulrAC.
have s6 : (sqrt 6%:R)^-1 * (sqrt 6%:R)^-1 = 6%:R^-1 by rewrite -invfM sqrt6_sq.
split.
- by rewrite -[RHS]E1; apply: E_ext => k; exact: EW.
- by rewrite (E_ext _ (fun k => EZ k i)) E_add !E_scale E1 E2 !mulr0 addr0.
- by rewrite -[RHS]E3; apply: E_ext => k; rewrite !EW.
- transitivity (E (fun k => dt / 2%:R * (a k i * a k j) + dt / sqrt 6%:R * (a k i * b k j))).
    by apply: E_ext => k; rewrite EW EZ; rring.
  rewrite E_add !E_scale E3 E4 mulr0 addr0; rfield.
- transitivity (E (fun k => (dt / 2%:R) ^+ 2 * (a k i * a k j)
    + (dt / 2%:R * (dt / sqrt 6%:R)) * (a k i * b k j + a k j * b k i)
    + (dt * dt * ((sqrt 6%:R)^-1 * (sqrt 6%:R)^-1)) * (b k i * b k j))).
    by apply: E_ext => k; rewrite !EZ; move: ((sqrt _)^-1) => r; rring.
  rewrite !E_add !E_scale E_add E3 E4 E4' E5 s6 addr0 mulr0 addr0; rfield.
Qed.
End OneParabola.

(** A generator all of whose keys split into the same key with the given table. *)
Definition table_prng (f : nat -> nat -> R) : prng :=
  @Prng unit (fun _ n => nseq n tt) (fun _ n => size_nseq n tt) (fun _ n => \col_i f 0%N i)
        (fun _ m n => \matrix_(i, j) f i j).

Lemma sqrt_gt0 (x : R) : 0 < x -> sqrt x != 0.
Proof. by move=> /RltP x0; apply/eqP=> E; have := sqrt_lt_R0 x x0; rewrite E; toR; lra. Qed.

Definition first_one (i j : nat) : R := (i == 0%N)%:R.

Lemma bm_area_wrong N dim (dt : R) : (0 < N)%N -> (0 < dim)%N -> 0 < dt ->
  exists (g : prng) (k : key g),
  let h := dt / N%:R in
  let c := parabolas_bm dim N k dt in
  let W := bm_at h c.2 in
  c.1.2 <> sqrt 6%:R *: (dt^-1 *: trapezoid h W N - 2%:R^-1 *: W N).
Proof.
move=> N0 d0 dt0; exists (table_prng first_one), tt => h c W.
have [_ E] := parabolas_bmE dim (tt : key (table_prng first_one)) N0 (lt0r_neq0 dt0).
rewrite /c E -/h -/c -/W => /(congr1 (fun x => x - sqrt 6%:R *: (dt^-1 *: trapezoid h W N - 2%:R^-1 *: W N))).
rewrite subrr addrC addKr => /colP /(_ (Ordinal d0)); rewrite zeromxE scalemxE !submxE (scalemxE 2%:R^-1).
have V j : (0 < j)%N -> (j <= N)%N -> W j (Ordinal d0) 0 = sqrt h.
  case: j => // j _ jN; rewrite /W /bm_at mxE summxE big_nat_recl // big_nat big1 ?addr0.
    rewrite /c /= (nth_rows (normal2 (tt : key (table_prng first_one)) N dim) (Ordinal N0)).
    by rewrite !mxE /first_one /= mulr1.
  move=> i /andP [_ ij]; have Hi : (i.+1 < N)%N by apply: leq_trans jN; rewrite ltnS.
  rewrite /c /= (nth_rows (normal2 (tt : key (table_prng first_one)) N dim) (Ordinal Hi)).
  by rewrite !mxE.
rewrite !V ?leq_min ?geq_minr //.
rewrite subrr add0r => /eqP; rewrite mulf_eq0 oppr_eq0 !mulf_eq0 !invr_eq0 !pnatr_eq0 /=.
rewrite (negPf sqrt6_neq0) (gtn_eqF N0) /= => /eqP H.
by have := sqrt_gt0 (divr_gt0 dt0 (_ : 0 < N%:R)); rewrite -/h H eqxx ltr0n N0 => /(_ isT).
Qed.

(** The path returned by [get_approx_and_brownian]: right end point, area off by the defect. *)
Lemma bm_path g dim N (k : key g) (dt : R) i : (0 < N)%N -> dt != 0 ->
  let h := dt / N%:R in
  let c := get_coeffs (get_approx_and_brownian g dim N) k dt in
  let W := bm_at h (snd (c : 'cV[R]_dim * 'cV[R]_dim * seq 'cV[R]_dim)) in
  let path t := eval_fn t dt c i 0 in
  [/\ path 0 = 0, path dt = W N i 0 &
      is_RInt path 0 dt (trapezoid h W N i 0 + h * (W N i 0 - W 1%N i 0 - W (minn 2 N) i 0 / 2%:R))].
Proof.
move=> N0 dt0 h c W path; have NN : N%:R != 0 :> R by rewrite pnatr_eq0 -lt0n.
have [Ea Eb] := parabolas_bmE dim k N0 dt0; rewrite -/h -/W in Ea Eb.
have [p0 pT _ _ pI] := parab_path 0 (parabolas_bm dim N k dt).1.1 (parabolas_bm dim N k dt).1.2 i dt0.
split; [exact: p0 | by rewrite -Ea; exact: pT |].
have -> : trapezoid h W N i 0 + h * (W N i 0 - W 1%N i 0 - W (minn 2 N) i 0 / 2%:R) =
  dt * ((parabolas_bm dim N k dt).1.1 i 0 / 2%:R + (parabolas_bm dim N k dt).1.2 i 0 / sqrt 6%:R); last exact: pI.
rewrite Ea Eb /h; move: (trapezoid _ _ _) (W N) (W 1%N) (W (minn 2 N)) => x y z w.
rewrite addmxE !(scalemxE, submxE); move: (sqrt6_neq0); move: (sqrt 6%:R) => q q0.
move: (x i 0) (y i 0) (z i 0) (w i 0) => {}x {}y {}z {}w; move: (N%:R) NN => n n0.
by toR; field; repeat split; exact/eqP.
Qed.

Lemma nth_fine g dim N (k : key g) (dt : R) j : (j < N)%N ->
  let h := dt / N%:R in
  let c := parabolas_fine dim N k dt in
  let p := parabolas dim (nth k (split k N) j) h in
  nth 0 c.1.2 j = p.1 /\ nth 0 c.2 j = (sqrt 6%:R)^-1 *: p.2.
Proof.
move=> jN h c p; rewrite /c /parabolas_fine /parabolas_fine_keys -/h.
case: (scan _ _ _).1 => e0 e1 /=; rewrite /unzip1 /unzip2 -!map_comp.
by rewrite !(nth_map k) ?size_split //= mul1r.
Qed.

Lemma fine_eval g dim N (k : key g) (dt t : R) j i : (j < N)%N -> 0 < dt ->
  let h := dt / N%:R in
  let c := parabolas_fine dim N k dt in
  let p := parabolas dim (nth k (split k N) j) h in
  eval_parabola t h (nth 0 c.1.2 j) (sqrt 6%:R *: nth 0 c.2 j) = eval_parabola t h p.1 p.2 /\
  (eval_parabola t h (nth 0 c.1.2 j) (nth 0 c.2 j) i 0 = eval_parabola t h p.1 p.2 i 0 <->
   p.2 i 0 = 0 \/ t = 0 \/ t = h).
Proof.
move=> jN dt0 h c p; have [-> ->] := nth_fine dim k dt jN; rewrite -/h -/p; clearbody p.
have N0 : (0 < N)%N by apply: leq_ltn_trans jN.
have h0 : h != 0 by rewrite gt_eqF // divr_gt0 // ltr0n.
rewrite scalerA divff ?sqrt6_neq0 // scale1r; split=> //.
rewrite !eval_path /parab scalemxE; split.
  move/addrI => /eqP; rewrite -subr_eq0 -mulrBl mulf_eq0 => /orP [].
    rewrite -mulrBr mulf_eq0 (negPf sqrt6_neq0) /= => H; left; apply/eqP; move: H.
    have -> : (sqrt 6%:R)^-1 * p.2 i 0 - p.2 i 0 = ((sqrt 6%:R)^-1 - 1) * p.2 i 0.
      by rewrite mulrBl mul1r.
    rewrite mulf_eq0 subr_eq0 => /orP [/eqP H|//].
    have : (sqrt 6%:R) * (sqrt 6%:R) = 1 by rewrite -[sqrt _]invrK H invr1 mulr1.
    by rewrite sqrt6_sq => /eqP; rewrite (eqr_nat _ 6 1).
  rewrite mulf_eq0 subr_eq0 => /orP [/eqP H|/eqP H]; right.
    by left; apply/eqP; move/eqP: H; rewrite mulf_eq0 invr_eq0 (negPf h0) orbF.
  by right; rewrite -[t](divfK h0) -H mul1r.
case=> [->|[->|->]]; first by rewrite !mulr0.
  by rewrite !(mul0r, mulr0).
by rewrite divff // subrr !mulr0.
Qed.

Lemma fine_eval_wrong N dim (dt : R) : (0 < N)%N -> (0 < dim)%N -> 0 < dt ->
  exists (g : prng) (k : key g) (t : R) (j : nat) (i : 'I_dim),
  let h := dt / N%:R in
  let c := parabolas_fine dim N k dt in
  let p := parabolas dim (nth k (split k N) j) h in
  [/\ (j < N)%N, 0 < t < h &
   eval_parabola t h (nth 0 c.1.2 j) (nth 0 c.2 j) i 0 <> eval_parabola t h p.1 p.2 i 0].
Proof.
move=> N0 d0 dt0; set g := table_prng (fun _ _ => 1).
exists g, tt, (dt / N%:R / 2%:R), 0%N, (Ordinal d0) => h c p.
have h0 : 0 < h by rewrite divr_gt0 // ltr0n.
split=> //; first by rewrite divr_gt0 ?ltr0n //= ltr_pdivr_mulr ?ltr0n // ltr_pmulr // ltr1n.
have [_ [H _]] := fine_eval (tt : key g) (h / 2%:R) (Ordinal d0) N0 dt0.
move=> /H []; [|case].
- rewrite (parabolasE _ _ _).2 mxE mulr1 => E.
  by have := @sqrt_gt0 (2%:R^-1 * h); rewrite E eqxx => /(_ (mulr_gt0 _ h0)); rewrite invr_gt0 ltr0n => /(_ isT).
- by move/eqP; rewrite mulf_eq0 invr_eq0 pnatr_eq0 (gt_eqF h0).
- move/eqP; rewrite eq_sym -subr_eq0 -[X in X - _]mulr1 -mulrBr mulf_eq0 (gt_eqF h0) /=.
  by rewrite subr_eq0 eq_sym invr_eq1 (eqr_nat _ 2 1).
Qed.

Lemma coarse_matches_fine g dim N (k : key g) (dt : R) i : (0 < N)%N -> 0 < dt ->
  let h := dt / N%:R in
  let fine := [seq ((parabolas dim k' h).1 i 0, (parabolas dim k' h).2 i 0) | k' <- split k N] in
  let c := get_coeffs (get_approx_fine g dim N) k dt in
  let coarse t := eval_fn t dt c i 0 in
  [/\ coarse 0 = 0, coarse dt = pieced h fine 0 dt &
      exists area, is_RInt coarse 0 dt area /\ is_RInt (pieced h fine 0) 0 dt area].
Proof.
move=> N0 dt0 h fine c coarse; have [H1 H2 H3] := fine_area k i N0 dt0.
split; first by rewrite /coarse /= eval_path parab0.
- exact: H1.
- by exists (area h fine 0); split; [exact: H2 | exact: H3].
Qed.

Lemma aggregated_law g dim (E : expectation (key g)) (F : expectation (key g)) N (dt : R) i j :
  standard2 E (fun k => normal2 k 2 dim) ->
  (forall G, F (fun k => G (split k N)) = iid E N G) ->
  (0 < N)%N -> 0 < dt ->
  let a k := (get_coeffs (get_approx_fine g dim N) k dt).1.1.1 in
  let b k := (get_coeffs (get_approx_fine g dim N) k dt).1.1.2 in
  [/\ F (fun k => a k i 0) = 0, F (fun k => b k i 0) = 0,
      F (fun k => a k i 0 * a k j 0) = (i == j)%:R * dt,
      F (fun k => a k i 0 * b k j 0) = 0 &
      F (fun k => b k i 0 * b k j 0) = (i == j)%:R * (dt / 2%:R)].
Proof.
move=> Hstd HF N0 dt0 a b.
have h0 : 0 <= dt / N%:R by rewrite divr_ge0 ?ler0n // ltW.
have Edt : dt = N%:R * (dt / N%:R) by rewrite mulrC divfK // pnatr_eq0 -lt0n.
have [L1 L2 L3 L4 L5] := fine_law Hstd h0 i j N0 Edt dt0.
split.
- by rewrite -[RHS]L1 -[RHS]HF.
- by rewrite -[RHS]L2 -[RHS]HF.
- by rewrite -[RHS]L3 -[RHS]HF.
- by rewrite -[RHS]L4 -[RHS]HF.
- by rewrite -[RHS]L5 -[RHS]HF.
Qed.
