(** Lemmas about the test problems of utils/ivp.py. *)
From Coq Require Import Reals Lra.
From Coquelicot Require Import Coquelicot.
From mathcomp Require Import all_ssreflect all_algebra mxtens.
From Verif Require Import Rstruct Base Linalg Calc Prob Spec M_Utils M_Ivp.

Set Implicit Arguments.
Unset Strict Implicit.
Unset Printing Implicit Defensive.
Import Order.TTheory GRing.Theory Num.Theory.
Local Open Scope ring_scope.

Lemma ord2P (P : 'I_2 -> Prop) : P 0 -> P 1 -> forall i, P i.
Proof.
move=> P0 P1 [[|[|//]] Hi].
  by have -> : Ordinal Hi = 0 by apply/val_inj.
by have -> : Ordinal Hi = 1 by apply/val_inj.
Qed.

Lemma ord3P (P : 'I_3 -> Prop) : P 0 -> P 1 -> P (inord 2) -> forall i, P i.
Proof.
move=> P0 P1 P2 [[|[|[|//]]] Hi].
- by have -> : Ordinal Hi = 0 by apply/val_inj.
- by have -> : Ordinal Hi = 1 by apply/val_inj.
by have -> : Ordinal Hi = inord 2 by apply/val_inj; rewrite /= inordK.
Qed.

Lemma sum2 (F : 'I_2 -> R) : \sum_i F i = F 0 + F 1.
Proof.
rewrite !big_ord_recl big_ord0 addr0; congr (F _ + F _); exact/val_inj.
Qed.

Lemma sum3 (F : 'I_3 -> R) : \sum_i F i = F 0 + F 1 + F (inord 2).
Proof.
rewrite !big_ord_recl big_ord0 addr0 addrA; congr (F _ + F _ + F _); apply/val_inj => //.
by rewrite /= inordK.
Qed.

Lemma vget0 n (x : 'cV[R]_n.+1) : vget x 0 = x 0 0.
Proof. by rewrite /vget min0n; congr (x _ 0); apply/val_inj => /=; rewrite inordK. Qed.
Lemma vget1 n (x : 'cV[R]_n.+2) : vget x 1 = x 1 0.
Proof. by rewrite /vget minnSS min0n; congr (x _ 0); apply/val_inj => /=; rewrite inordK. Qed.
Lemma vget_clamp (x : 'cV[R]_2) : vget x 2 = x 1 0.
Proof. by rewrite /vget; congr (x _ 0); apply/val_inj => /=; rewrite inordK. Qed.
Lemma vget2 (x : 'cV[R]_3) : vget x 2 = x (inord 2) 0.
Proof. by []. Qed.

(** ** Moment equations *)
Lemma ibm_moments : exists M : 'M[R]_2,
  [/\ forall x t, ibm_drift x t = M *m x, ibm_var 0 = 0 &
      forall x t, mx_deriv ibm_var t (M *m ibm_var t + ibm_var t *m M^T + ibm_sigma x t *m (ibm_sigma x t)^T)].
Proof.
exists (mx 2 2 [:: [:: 0; 1]; [:: 0; 0]]); split=> // [|x t].
  by apply/matrixP; apply: ord2P; apply: ord2P; rewrite !mxE /= ?expr0n /= ?mul0r ?mulr0.
have E : forall i j (s : R), ibm_var s i j =
   (match val i, val j with 0%N, 0%N => s ^ 3 / 3 | 1%N, 1%N => s | _, _ => s ^ 2 / 2 end)%Re.
  move=> i j s; move: i j; apply: ord2P; apply: ord2P; rewrite /ibm_var scalemxE mxE /= /ibm_sig expr1n mul1r; toR; by [].
move=> i j; rewrite !(addmxE, mulmxE) !sum2 big_ord1 ![(_ ^T) _ _]mxE !E.
apply: (is_derive_ext _ _ _ _ (fun s => esym (E i j s))).
rewrite !mxE; move: i j; apply: ord2P; apply: ord2P; rewrite /= /ibm_sig; auto_derive => //; toR; by field.
Qed.

Lemma dibm_moments : exists M : 'M[R]_3,
  [/\ forall x t, dibm_drift x t = M *m x, dibm_var 0 = 0 &
      forall x t, mx_deriv dibm_var t
        (M *m dibm_var t + dibm_var t *m M^T + dibm_sigma x t *m (dibm_sigma x t)^T)].
Proof.
exists (mx 3 3 [:: [:: 0; 1; 0]; [:: 0; 0; 1]; [:: 0; 0; 0]]); split=> // [|x t].
  by apply/matrixP; apply: ord3P; apply: ord3P; rewrite !mxE /= ?inordK //= ?expr0n /= ?mul0r ?mulr0.
have E : forall i j (s : R), dibm_var s i j =
   (match val i, val j with
    | 0%N, 0%N => s ^ 5 / 20 | 0%N, 1%N => s ^ 4 / 8 | 0%N, 2%N => s ^ 3 / 6
    | 1%N, 0%N => s ^ 4 / 8 | 1%N, 1%N => s ^ 3 / 3 | 1%N, 2%N => s ^ 2 / 2
    | 2%N, 0%N => s ^ 3 / 6 | 2%N, 1%N => s ^ 2 / 2 | _, _ => s end)%Re.
  move=> i j s; move: i j; apply: ord3P; apply: ord3P;
  rewrite /dibm_var scalemxE mxE /= ?inordK //= /dibm_sig expr1n mul1r; toR; by [].
move=> i j; rewrite !(addmxE, mulmxE) !sum3 big_ord1 ![(_ ^T) _ _]mxE !E.
apply: (is_derive_ext _ _ _ _ (fun s => esym (E i j s))).
rewrite !mxE; move: i j; apply: ord3P; apply: ord3P; rewrite /= ?inordK //= /dibm_sig;
  auto_derive => //; toR; by field.
Qed.

Lemma gbm_moments (a b : R) :
  [/\ gbm_mean_ a 0 = gbm_x0, gbm_variance_ a b 0 = 0,
      forall t, mx_deriv (gbm_mean_ a) t (gbm_drift_ a (gbm_mean_ a t) t) &
      forall t i, is_derive (fun s => gbm_variance_ a b s i 0) t
        (2%:R * a * gbm_variance_ a b t i 0 +
         b ^+ 2 * (gbm_variance_ a b t i 0 + gbm_mean_ a t i 0 ^+ 2))].
Proof.
split.
- by apply/matrixP=> i j; rewrite !mxE mulr1 mulr0 exp_0.
- by apply/matrixP=> i j; rewrite !mxE !mulr0 exp_0 subrr mulr0 mul0r.
- move=> t i j; rewrite /gbm_drift_ !scalemxE !mxE !mulr1.
  apply: (is_derive_ext (fun s : R => exp (a * s)%Re)).
    by move=> s; rewrite !mxE mulr1.
  by auto_derive => //; toR; ring.
move=> t i; rewrite !mxE expr1n !mul1r mulr1.
apply: (is_derive_ext (fun s : R => ((exp (b ^ 2 * s)%Re - 1) * exp (2 * a * s)%Re)%Re)).
  by move=> s; rewrite !mxE expr1n !mul1r; toR.
auto_derive => //; toR.
rewrite (_ : (2 * a * t)%Re = (a * t + a * t)%Re); last by ring.
rewrite exp_plus (_ : (b * (b * 1))%Re = (b ^ 2)%Re); [by ring | by []].
Qed.

(** ** Square variants *)
Lemma square_ibm x t :
  square_ibm_sigma x t *m (square_ibm_sigma x t)^T = ibm_sigma x t *m (ibm_sigma x t)^T.
Proof.
apply/matrixP; apply: ord2P; apply: ord2P; rewrite !mulmxE sum2 big_ord1 !mxE /= ?inordK //=;
  by rewrite ?mulr0 ?mul0r ?addr0.
Qed.

Lemma square_fhn sig x t :
  square_fhn_sigma_ sig x t *m (square_fhn_sigma_ sig x t)^T = fhn_sigma_ sig x t *m (fhn_sigma_ sig x t)^T.
Proof.
apply/matrixP; apply: ord2P; apply: ord2P; rewrite !mulmxE sum2 big_ord1 !mxE /= ?inordK //=;
  by rewrite ?mulr0 ?mul0r ?addr0.
Qed.

(** ** Partial derivatives of functions of two and three variables *)
Lemma pderiv2_0 (F : R -> R -> R) (x : 'cV[R]_2) :
  pderiv (fun z => F (z 0 0) (z 1 0)) 0 x = Derive (fun u => F u (x 1 0)) (x 0 0).
Proof.
rewrite -Derive_shift; apply: Derive_ext => s; rewrite !vshiftE eqxx mul1r.
by have -> : (1 == 0 :> 'I_2) = false by []; rewrite mul0r addr0.
Qed.
Lemma pderiv2_1 (F : R -> R -> R) (x : 'cV[R]_2) :
  pderiv (fun z => F (z 0 0) (z 1 0)) 1 x = Derive (fun v => F (x 0 0) v) (x 1 0).
Proof.
rewrite -Derive_shift; apply: Derive_ext => s; rewrite !vshiftE eqxx mul1r.
by have -> : (0 == 1 :> 'I_2) = false by []; rewrite mul0r addr0.
Qed.

Section Three.
Variables (F : R -> R -> R -> R) (x : 'cV[R]_3).
Let f (z : 'cV[R]_3) := F (z 0 0) (z 1 0) (z (inord 2) 0).
Let e01 : (0 == 1 :> 'I_3) = false. Proof. by []. Qed.
Let e02 : (0 == inord 2 :> 'I_3) = false. Proof. by apply/eqP => /(congr1 val) /=; rewrite inordK. Qed.
Let e12 : (1 == inord 2 :> 'I_3) = false. Proof. by apply/eqP => /(congr1 val) /=; rewrite inordK. Qed.
Lemma pderiv3_0 : pderiv f 0 x = Derive (fun u => F u (x 1 0) (x (inord 2) 0)) (x 0 0).
Proof.
rewrite -Derive_shift; apply: Derive_ext => s; rewrite /f !vshiftE eqxx mul1r.
by rewrite ![_ == 0]eq_sym e01 e02 !mul0r !addr0.
Qed.
Lemma pderiv3_1 : pderiv f 1 x = Derive (fun u => F (x 0 0) u (x (inord 2) 0)) (x 1 0).
Proof.
rewrite -Derive_shift; apply: Derive_ext => s; rewrite /f !vshiftE eqxx mul1r e01.
by rewrite ![_ == 1]eq_sym e12 !mul0r !addr0.
Qed.
Lemma pderiv3_2 : pderiv f (inord 2) x = Derive (fun u => F (x 0 0) (x 1 0) u) (x (inord 2) 0).
Proof.
by rewrite -Derive_shift; apply: Derive_ext => s; rewrite /f !vshiftE eqxx mul1r e02 e12 !mul0r !addr0.
Qed.
End Three.

Lemma mean_taylor2E d m (a : 'cV[R]_d -> 'cV[R]_d) (s : 'cV[R]_d -> 'M[R]_(d, m)) x t i :
  mean_taylor2 a s x t i 0 = x i 0 + t * a x i 0 + t ^+ 2 / 2%:R *
    (\sum_j a x j 0 * pderiv (fun z => a z i 0) j x +
     2%:R^-1 * \sum_j \sum_k (\sum_l s x j l * s x k l) *
       pderiv (fun y => pderiv (fun z => a z i 0) j y) k x).
Proof. by rewrite /mean_taylor2 !(addmxE, scalemxE) /generator [(\col_ _ _) _ _]mxE. Qed.

(** ** FitzHugh-Nagumo *)
Section FhnL.
Variables (gamma sig eps alpha s : R) (x0 : 'cV[R]_2).
Hypothesis eps0 : eps <> 0.
Let a (z : 'cV[R]_2) := fhn_drift_ gamma eps alpha s z 0.
Let F0 (u v : R) : R := ((u - v + s - u ^ 3) / eps)%Re.
Let F1 (u v : R) : R := (gamma * u - v + alpha)%Re.

Lemma fhn_a0 z : a z 0 0 = F0 (z 0 0) (z 1 0).
Proof.
by rewrite /a /fhn_drift_ addmxE mulmxE sum2 !mxE /= vget0 /F0; toR; field; exact: eps0.
Qed.
Lemma fhn_a1 z : a z 1 0 = F1 (z 0 0) (z 1 0).
Proof. by rewrite /a /fhn_drift_ addmxE mulmxE sum2 !mxE /= /F1; rring. Qed.

Lemma fhn_d00 z : pderiv (fun y => a y 0 0) 0 z = (1 - 3%:R * z 0 0 ^+ 2) / eps.
Proof.
rewrite (pderiv_ext _ _ fhn_a0) pderiv2_0; apply: is_derive_unique.
by rewrite /F0; auto_derive => //; toR; field.
Qed.
Lemma fhn_d01 z : pderiv (fun y => a y 0 0) 1 z = (- / eps)%Re.
Proof.
rewrite (pderiv_ext _ _ fhn_a0) pderiv2_1; apply: is_derive_unique.
by rewrite /F0; auto_derive => //; toR; field.
Qed.
Lemma fhn_d10 z : pderiv (fun y => a y 1 0) 0 z = gamma.
Proof.
rewrite (pderiv_ext _ _ fhn_a1) pderiv2_0; apply: is_derive_unique.
by rewrite /F1; auto_derive => //; ring.
Qed.
Lemma fhn_d11 z : pderiv (fun y => a y 1 0) 1 z = (-1)%Re.
Proof.
rewrite (pderiv_ext _ _ fhn_a1) pderiv2_1; apply: is_derive_unique.
by rewrite /F1; auto_derive => //; ring.
Qed.

Lemma fhn_taylor t :
  fhn_mean_ gamma eps alpha s x0 t =
  mean_taylor2 a (fun z => fhn_sigma_ sig z 0) x0 t + cv 2 [:: t ^+ 2 * alpha / eps; 0].
Proof.
set S := fun z => fhn_sigma_ sig z 0.
have S0 (j k : 'I_2) : (j, k) != (1, 1) -> \sum_(l < 1) S x0 j l * S x0 k l = 0.
  rewrite big_ord1 /S /fhn_sigma_ !mxE; move: j k; apply: ord2P; apply: ord2P => //= _;
  by rewrite ?mulr0 ?mul0r.
apply/colP; apply: ord2P.
  rewrite [RHS]addmxE mean_taylor2E !sum2 (S0 0 0) // (S0 0 1) // (S0 1 0) // !mul0r !add0r.
  rewrite (pderiv_ext _ _ fhn_d01) pderiv_const mulr0 mulr0 addr0.
  rewrite fhn_d00 fhn_d01 fhn_a0 fhn_a1 /fhn_mean_ !mxE /= !vget0 !vget1 /F0 /F1.
  by toR; field; exact: eps0.
rewrite [RHS]addmxE mean_taylor2E !sum2 (S0 0 0) // (S0 0 1) // (S0 1 0) // !mul0r !add0r.
rewrite (pderiv_ext _ _ fhn_d11) pderiv_const mulr0 mulr0 addr0.
rewrite fhn_d10 fhn_d11 fhn_a0 fhn_a1 /fhn_mean_ !mxE /= !vget0 !vget1 /F0 /F1.
by toR; field; exact: eps0.
Qed.
End FhnL.

(** ** FitzHugh-Nagumo variance: residual of the moment equation linearised at [x0] *)
Section FhnVar.
Variables (gamma sig eps alpha s : R) (x0 : 'cV[R]_2).
Hypothesis eps0 : eps <> 0.
Let J := jac (fun z => fhn_drift_ gamma eps alpha s z 0) x0.
Let V := fhn_variance_ sig eps.
Let q := (1 - 3%:R * x0 0 0 ^+ 2) / eps.

Lemma fhn_var_residual :
  V 0 = 0 /\
  forall t, mx_deriv V t
    (J *m V t + V t *m J^T + fhn_sigma_ sig x0 t *m (fhn_sigma_ sig x0 t)^T +
     (sig ^+ 2 * t ^+ 2) *: mx 2 2
       [:: [:: - (2%:R / 3%:R) * q / eps ^+ 2 * t;
               (q / eps - 3%:R / eps) / 2%:R - gamma / (3%:R * eps ^+ 2) * t];
           [:: (q / eps - 3%:R / eps) / 2%:R - gamma / (3%:R * eps ^+ 2) * t;
               gamma / eps - 2%:R]]).
Proof.
split.
  by apply/matrixP; apply: ord2P; apply: ord2P; rewrite !mxE /= ?expr0n /= ?subr0; rring.
have J00 : J 0 0 = q by rewrite /J /jac mxE fhn_d00.
have J01 : J 0 1 = (- / eps)%Re by rewrite /J /jac mxE fhn_d01.
have J10 : J 1 0 = gamma by rewrite /J /jac mxE fhn_d10.
have J11 : J 1 1 = (-1)%Re by rewrite /J /jac mxE fhn_d11.
have E : forall i j (r : R), V r i j =
   (match val i, val j with
    | 0%N, 0%N => sig ^ 2 * (1 / 3 * r ^ 3 * 1 / eps ^ 2)
    | 1%N, 1%N => sig ^ 2 * (r - r ^ 2)
    | _, _ => sig ^ 2 * (- 1 / 2 * r ^ 2 * 1 / eps) end)%Re.
  by move=> i j r; move: i j; apply: ord2P; apply: ord2P; rewrite /V /fhn_variance_ scalemxE mxE /=; toR.
move=> t i j; rewrite !(addmxE, mulmxE, scalemxE) !sum2 big_ord1 ![(_ ^T) _ _]mxE !E.
apply: (is_derive_ext _ _ _ _ (fun r => esym (E i j r))).
move: i j; apply: ord2P; apply: ord2P; rewrite ?J00 ?J01 ?J10 ?J11 ![fhn_sigma_ _ _ _ _ _]mxE ![mx _ _ _ _ _]mxE /=;
  auto_derive => //; toR; field; exact: eps0.
Qed.
End FhnVar.

(** ** Harmonic oscillator, third order variance *)
Lemma harm_var_residual (gamma D sig : R) : exists K : 'M[R]_2,
  harm_variance3 gamma D sig 0 = 0 /\
  forall t, mx_deriv (harm_variance3 gamma D sig) t
    (harm_M gamma D *m harm_variance3 gamma D sig t + harm_variance3 gamma D sig t *m (harm_M gamma D)^T +
     mx 2 2 [:: [:: 0; 0]; [:: 0; sig ^+ 2]] + t ^+ 3 *: K).
Proof.
set V := harm_variance3 gamma D sig.
pose v00 := sig ^+ 2 / 3%:R; pose v01 := - (sig ^+ 2 * gamma / 2%:R).
pose v11 := sig ^+ 2 / 3%:R * (2%:R * gamma ^+ 2 - D).
exists (-1 *: mx 2 2 [:: [:: 2%:R * v01; v11 - D * v00 - gamma * v01];
                   [:: v11 - D * v00 - gamma * v01; - (2%:R * (D * v01 + gamma * v11))]]).
split.
  by apply/matrixP; apply: ord2P; apply: ord2P; rewrite !mxE /= ?expr0n /= ?subr0; rring.
have E : forall i j (r : R), V r i j =
   (match val i, val j with
    | 0%N, 0%N => sig ^ 2 * (1 / 3 * r ^ 3)
    | 1%N, 1%N => sig ^ 2 * (r - gamma * r ^ 2 + 1 / 3 * r ^ 3 * (2 * gamma ^ 2 - D))
    | _, _ => sig ^ 2 * (1 / 2 * r ^ 2 - 1 / 2 * r ^ 3 * gamma) end)%Re.
  by move=> i j r; move: i j; apply: ord2P; apply: ord2P; rewrite /V /harm_variance3 scalemxE mxE /=; toR.
move=> t i j; rewrite !(addmxE, mulmxE, scalemxE) !sum2 ![(_ ^T) _ _]mxE !E.
apply: (is_derive_ext _ _ _ _ (fun r => esym (E i j r))).
rewrite ![harm_M _ _ _ _]mxE ![mx _ _ _ _ _]mxE.
move: i j; apply: ord2P; apply: ord2P; rewrite /= /v00 /v01 /v11;
  auto_derive => //; toR; by field.
Qed.

(** ** Synaptic conductance *)
Lemma synred_dep tE tI gE gI sI sE (x y : 'cV[R]_2) : x 1 0 = y 1 0 ->
  synred_drift_ tE tI gE gI x = synred_drift_ tE tI gE gI y /\
  synred_sigma_ sI sE x = synred_sigma_ sI sE y.
Proof. by move=> e; rewrite /synred_drift_ /synred_sigma_ !vget1 !vget_clamp e. Qed.

Lemma synred_drift0 tE tI gE gI (x : 'cV[R]_2) :
  synred_drift_ tE tI gE gI x =
  cv 2 [:: -1 / tE * (x 0 0 - gE); -1 / tI * (x 1 0 - gI)]
    + cv 2 [:: -1 / tE * (x 1 0 - x 0 0); 0].
Proof.
apply/colP; apply: ord2P; rewrite !mxE /= ?vget1 ?vget_clamp; rring.
Qed.

(** An affine drift has a mean expansion without second derivatives. *)
Lemma affine_taylor (a : 'cV[R]_2 -> 'cV[R]_2) (S : 'cV[R]_2 -> 'M[R]_2) (p q r : 'I_2 -> R) x t :
  (forall i z, a z i 0 = p i * z 0 0 + q i * z 1 0 + r i) ->
  forall i, mean_taylor2 a S x t i 0 = x i 0 + t * a x i 0 + t ^+ 2 / 2%:R * (a x 0 0 * p i + a x 1 0 * q i).
Proof.
move=> aE; pose F i u v := (p i * u + q i * v + r i)%Re.
have aF i z : a z i 0 = F i (z 0 0) (z 1 0) by exact: aE.
have d0 i z : pderiv (fun y => a y i 0) 0 z = p i.
  by rewrite (pderiv_ext _ _ (aF i)) pderiv2_0; apply: is_derive_unique; rewrite /F; auto_derive => //; toR; ring.
have d1 i z : pderiv (fun y => a y i 0) 1 z = q i.
  by rewrite (pderiv_ext _ _ (aF i)) pderiv2_1; apply: is_derive_unique; rewrite /F; auto_derive => //; toR; ring.
have dd i j k z : pderiv (fun y => pderiv (fun w => a w i 0) j y) k z = 0.
  move: j; apply: ord2P; first by rewrite (pderiv_ext _ _ (d0 i)) pderiv_const.
  by rewrite (pderiv_ext _ _ (d1 i)) pderiv_const.
move=> i; rewrite mean_taylor2E [X in _ + 2%:R^-1 * X]big1 ?mulr0 ?addr0 => [|j _]; first by rewrite sum2 d0 d1.
by apply: big1 => k _; rewrite dd mulr0.
Qed.

Definition synred_intended tE tI gE gI (x : 'cV[R]_2) : 'cV[R]_2 :=
  cv 2 [:: -1 / tE * (x 0 0 - gE); -1 / tI * (x 1 0 - gI)].

Lemma synred_taylor tE tI gE gI sI sE x0 t :
  synred_mean_ tE tI gE gI x0 t = mean_taylor2 (synred_drift_ tE tI gE gI) (synred_sigma_ sI sE) x0 t.
Proof.
have aE i z : synred_drift_ tE tI gE gI z i 0 =
  0 * z 0 0 + cv 2 [:: -1 / tE; -1 / tI] i 0 * z 1 0 + cv 2 [:: gE / tE; gI / tI] i 0.
  by move: i; apply: ord2P; rewrite /synred_drift_ ![cv _ _ _ _]mxE /= ?vget1 ?vget_clamp; rring.
apply/colP => i; rewrite (affine_taylor (p := fun=> 0) _ _ _ aE) mulr0 add0r /synred_mean_ !(addmxE, scalemxE).
congr (_ + _ * _); rewrite !vget1 vget_clamp mulrC.
by move: i; apply: ord2P; rewrite ![cv _ _ _ _]mxE /= mulrC.
Qed.

Lemma synred_taylor_intended tE tI gE gI sI sE x0 t :
  synred_mean_ tE tI gE gI x0 t = mean_taylor2 (synred_intended tE tI gE gI) (synred_sigma_ sI sE) x0 t +
  cv 2 [:: - t / tE * (x0 1 0 - x0 0 0) +
           t ^+ 2 / (2%:R * tE) * ((x0 1 0 - gI) / tI - (x0 0 0 - gE) / tE); 0].
Proof.
have aE i z : synred_intended tE tI gE gI z i 0 =
  cv 2 [:: -1 / tE; 0] i 0 * z 0 0 + cv 2 [:: 0; -1 / tI] i 0 * z 1 0 + cv 2 [:: gE / tE; gI / tI] i 0.
  by move: i; apply: ord2P; rewrite /synred_intended ![cv _ _ _ _]mxE /=; rring.
apply/colP => i; rewrite [RHS]addmxE (affine_taylor _ _ _ aE) /synred_mean_ /synred_intended !(addmxE, scalemxE).
rewrite /synred_drift_ !vget1 !vget_clamp.
have i2 : ((2%:R * tE)^-1 = 2%:R^-1 * tE^-1 :> R) by rewrite invfM.
rewrite i2; move: i; apply: ord2P; rewrite !mxE /= ?vget1 ?vget_clamp ?mxE /=; move: (2%:R^-1) (tE^-1) (tI^-1) => c e1 e2; rring.
Qed.

Section SynL.
Variables (tau_E tau_I gbar_E gbar_I sig_I sig_E V_L V_E V_I I_inj C G_L : R) (x0 : 'cV[R]_3).
Hypothesis (C0 : C <> 0) (tE0 : tau_E <> 0) (tI0 : tau_I <> 0).
Let a := syn_drift_ tau_E tau_I gbar_E gbar_I V_L V_E V_I I_inj C G_L.
Let S := syn_sigma_ sig_I sig_E.
Let F0 (v e i : R) : R := ((- G_L * (v - V_L) - e * (v - V_E) - i * (v - V_I) + I_inj) / C)%Re.
Let F1 (v e i : R) : R := (- (e - gbar_E) / tau_E)%Re.
Let F2 (v e i : R) : R := (- (i - gbar_I) / tau_I)%Re.

Let vg0 (z : 'cV[R]_3) : vget z 0 = z 0 0. Proof. by rewrite /vget; congr (z _ _); apply: val_inj; rewrite /= inordK. Qed.
Let vg1 (z : 'cV[R]_3) : vget z 1 = z 1 0. Proof. by rewrite /vget; congr (z _ _); apply: val_inj; rewrite /= inordK. Qed.
Let vg2 (z : 'cV[R]_3) : vget z 2 = z (inord 2) 0. Proof. by rewrite /vget; congr (z _ _); apply: val_inj; rewrite /= inordK. Qed.

Lemma syn_a0 z : a z 0 0 = F0 (z 0 0) (z 1 0) (z (inord 2) 0).
Proof. by rewrite /a /syn_drift_ mxE /= vg0 vg1 vg2 /F0; toR; field. Qed.
Lemma syn_a1 z : a z 1 0 = F1 (z 0 0) (z 1 0) (z (inord 2) 0).
Proof. by rewrite /a /syn_drift_ mxE /= vg1 /F1; toR; field. Qed.
Lemma syn_a2 z : a z (inord 2) 0 = F2 (z 0 0) (z 1 0) (z (inord 2) 0).
Proof. by rewrite /a /syn_drift_ mxE /= inordK //= vg2 /F2; toR; field. Qed.

Lemma syn_d0 z :
  [/\ pderiv (fun y => a y 0 0) 0 z = - (G_L + z 1 0 + z (inord 2) 0) / C,
      pderiv (fun y => a y 0 0) 1 z = - (z 0 0 - V_E) / C &
      pderiv (fun y => a y 0 0) (inord 2) z = - (z 0 0 - V_I) / C].
Proof.
rewrite !(pderiv_ext _ _ syn_a0) pderiv3_0 pderiv3_1 pderiv3_2.
by split; apply: is_derive_unique; rewrite /F0; auto_derive => //; toR; field.
Qed.
Lemma syn_d1 z :
  [/\ pderiv (fun y => a y 1 0) 0 z = 0,
      pderiv (fun y => a y 1 0) 1 z = - 1 / tau_E &
      pderiv (fun y => a y 1 0) (inord 2) z = 0].
Proof.
rewrite !(pderiv_ext _ _ syn_a1) pderiv3_0 pderiv3_1 pderiv3_2.
by split; apply: is_derive_unique; rewrite /F1; auto_derive => //; toR; field.
Qed.
Lemma syn_d2 z :
  [/\ pderiv (fun y => a y (inord 2) 0) 0 z = 0,
      pderiv (fun y => a y (inord 2) 0) 1 z = 0 &
      pderiv (fun y => a y (inord 2) 0) (inord 2) z = - 1 / tau_I].
Proof.
rewrite !(pderiv_ext _ _ syn_a2) pderiv3_0 pderiv3_1 pderiv3_2.
by split; apply: is_derive_unique; rewrite /F2; auto_derive => //; toR; field.
Qed.

Lemma syn_dd (i j : 'I_3) z : j != 0 -> pderiv (fun y => pderiv (fun w => a w i 0) j y) j z = 0.
Proof.
have e01 : (0 : 'I_3) != 1 by [].
have e02 : (0 : 'I_3) != inord 2 by apply/eqP => /(congr1 val) /=; rewrite inordK.
have e12 : (1 : 'I_3) != inord 2 by apply/eqP => /(congr1 val) /=; rewrite inordK.
have lin (k : 'I_3) c d : k != j -> forall f : 'cV[R]_3 -> R, (forall y, f y = c * y k 0 + d) -> pderiv f j z = 0.
  move=> kj f fE; rewrite (pderiv_ext _ _ fE) /pderiv.
  rewrite (Derive_ext _ (fun=> c * z k 0 + d)) ?Derive_const // => s.
  by rewrite vshiftE (negbTE kj) mul0r addr0.
move: i j lin; apply: ord3P; apply: ord3P => //= lin _.
- by apply: (lin 0 (- C^-1) (V_E / C)) => // y; case: (syn_d0 y) => _ -> _; toR; field.
- by apply: (lin 0 (- C^-1) (V_I / C)) => // y; case: (syn_d0 y) => _ _ ->; toR; field.
- by apply: (lin 0 0 (- 1 / tau_E)) => // y; case: (syn_d1 y) => _ -> _; rewrite mul0r add0r.
- by apply: (lin 0 0 0) => // y; case: (syn_d1 y) => _ _ ->; rewrite mul0r add0r.
- by apply: (lin 0 0 0) => // y; case: (syn_d2 y) => _ -> _; rewrite mul0r add0r.
- by apply: (lin 0 0 (- 1 / tau_I)) => // y; case: (syn_d2 y) => _ _ ->; rewrite mul0r add0r.
Qed.

Lemma syn_ss (j k : 'I_3) z : (j != k) || (j == 0) -> \sum_l S z j l * S z k l = 0.
Proof.
have e20 : (inord 2 == 0 :> 'I_3) = false by apply/eqP => /(congr1 val) /=; rewrite inordK.
rewrite sum3 /S /syn_sigma_ !mxE; move: j k; apply: ord3P; apply: ord3P; rewrite /= ?inordK //= ?eqxx ?e20 //= => _;
  by rewrite ?mulr0 ?mul0r ?addr0.
Qed.

Lemma syn_taylor t :
  syn_mean_ tau_E tau_I gbar_E gbar_I V_L V_E V_I I_inj C G_L x0 t =
  mean_taylor2 a S x0 t +
  cv 3 [:: - (t ^+ 2 / (2%:R * C)) * (- 1 / tau_E * (x0 1 0 - gbar_E)) * (x0 1 0 - x0 0 0); 0; 0].
Proof.
have second i : \sum_j \sum_k (\sum_l S x0 j l * S x0 k l) *
       pderiv (fun y => pderiv (fun z => a z i 0) j y) k x0 = 0.
  apply: big1 => j _; apply: big1 => k _.
  case: (boolP ((j != k) || (j == 0))) => [/syn_ss ->|]; first by rewrite mul0r.
  by rewrite negb_or negbK => /andP [/eqP <- j0]; rewrite syn_dd ?mulr0.
have A0 := syn_a0 x0; have A1 := syn_a1 x0; have A2 := syn_a2 x0.
apply/colP; apply: ord3P; rewrite [RHS]addmxE mean_taylor2E second mulr0 addr0 sum3 /syn_mean_ -/a.
- case: (syn_d0 x0) => -> -> ->; rewrite !vg0 !vg1 !vg2 !(addmxE, scalemxE) A0 A1 A2.
  by rewrite ![cv _ _ _ _]mxE /= /F0 /F1 /F2; toR; field; do !split.
- case: (syn_d1 x0) => -> -> ->; rewrite !vg1 !(addmxE, scalemxE) A0 A1 A2.
  by rewrite ![cv _ _ _ _]mxE /= /F1; toR; field.
- case: (syn_d2 x0) => -> -> ->; rewrite !vg2 !(addmxE, scalemxE) A0 A1 A2.
  by rewrite ![cv _ _ _ _]mxE /= ?inordK //= /F2; toR; field.
Qed.

Lemma syn_var t : 0 <= x0 1 0 -> 0 <= x0 (inord 2) 0 ->
  syn_variance_ sig_I sig_E V_E V_I C x0 t =
  lead_var3 a S x0 0 t +
  t ^+ 3 / (3%:R * C ^+ 2) * (x0 0 0 - V_E) ^+ 2 * sig_E ^+ 2 * (x0 (inord 2) 0 - x0 1 0).
Proof.
move=> p1 p2; rewrite /lead_var3 /syn_variance_ !sum3 !vg0 !vg2.
case: (syn_d0 x0) => -> -> ->; rewrite /S /syn_sigma_ !mxE /= !inordK //= !vg1 !vg2.
have s1 : sqrt (x0 1 0) ^+ 2 = x0 1 0 by rewrite expr2; apply: sqrt_sqrt; apply/RleP.
have s2 : sqrt (x0 (inord 2) 0) ^+ 2 = x0 (inord 2) 0 by rewrite expr2; apply: sqrt_sqrt; apply/RleP.
rewrite !mulr0 ?add0r ?addr0 -[in RHS]mulrA !exprMn_comm //; try exact: mulrC.
by rewrite s1 s2; toR; field.
Qed.
End SynL.

(** ** random_linear_sde *)
Lemma random_linear (g : prng) (k : key g) dim (s1 s2 : option 'M[R]_dim) :
  exists G : 'M[R]_dim, exists x0, random_linear_sde k s1 s2 =
    (x0, (fun x _ => odflt 1%:M s1 *m G *m x), (fun _ _ => odflt 1%:M s2 *m G)).
Proof. by exists (normal2 k dim dim), (const_mx 1); case: s1; case: s2. Qed.

(** ** Verdicts for the constants of the file *)
Lemma fhn_default t : t <> 0 ->
  fhn_mean t <> mean_taylor2 (fun z => fhn_drift z 0) (fun z => fhn_sigma z 0) fhn_x0 t.
Proof.
move=> t0; rewrite /fhn_mean (fhn_taylor _ fhn_sig); last by rewrite /fhn_eps; toR; lra.
rewrite -[X in _ <> X]addr0 => /addrI /(congr1 (fun v : 'cV[R]_2 => v 0 0)); rewrite !mxE /=.
have -> : t ^+ 2 * fhn_alpha / fhn_eps = 8%:R * t ^+ 2 by rewrite /fhn_alpha /fhn_eps; toR; field.
by move/eqP; rewrite mulf_eq0 sqrf_eq0 => /orP [/eqP|/eqP //]; toR; lra.
Qed.

Lemma synred_mean_default t :
  synred_mean t = mean_taylor2 (synred_intended syn_tau_E syn_tau_I syn_gbar_E syn_gbar_I) synred_sigma synred_x0 t +
  cv 2 [:: 162%:R / 10%:R * t ^+ 2; 0].
Proof.
rewrite /synred_mean (synred_taylor_intended _ _ _ _ syn_sig_I syn_sig_E); congr (_ + cv 2 [:: _; 0]).
rewrite /synred_x0 ![cv _ _ _ _]mxE /= /syn_tau_E /syn_tau_I /syn_gbar_E /syn_gbar_I /syn_G_E0 /syn_G_I0.
by toR; field.
Qed.

Lemma synred_default : exists x : 'cV[R]_2,
  synred_drift x <> cv 2 [:: -1 / syn_tau_E * (x 0 0 - syn_gbar_E); -1 / syn_tau_I * (x 1 0 - syn_gbar_I)].
Proof.
exists (cv 2 [:: 0; 1]); rewrite /synred_drift synred_drift0 -[X in _ <> X]addr0 => /addrI.
move/(congr1 (fun v : 'cV[R]_2 => v 0 0)); rewrite !mxE /= /syn_tau_E; toR; lra.
Qed.

Lemma syn_mean_default t : syn_mean t =
  mean_taylor2 syn_drift syn_sigma syn_x0 t + cv 3 [:: - (273%:R / 10%:R) * t ^+ 2; 0; 0].
Proof.
rewrite /syn_mean (syn_taylor _ _ syn_sig_I syn_sig_E); first last.
- by rewrite /syn_tau_I; toR; lra.
- by rewrite /syn_tau_E; toR; lra.
- by rewrite /syn_C /syn_G_E0 /syn_G_I0; toR; lra.
congr (_ + _); apply/colP; apply: ord3P; rewrite !mxE /= ?inordK //=.
rewrite /syn_C /syn_G_E0 /syn_G_I0 /syn_tau_E /syn_gbar_E /syn_V0; toR; field.
Qed.

Lemma syn_mean_bad t : t <> 0 -> syn_mean t <> mean_taylor2 syn_drift syn_sigma syn_x0 t.
Proof.
move=> t0; rewrite syn_mean_default -[X in _ <> X]addr0 => /addrI.
move/(congr1 (fun v : 'cV[R]_3 => v 0 0)); rewrite !mxE /= => /eqP.
by rewrite mulf_eq0 sqrf_eq0 => /orP [/eqP|/eqP //]; toR; lra.
Qed.

Lemma syn_var_default t : syn_variance t = lead_var3 syn_drift syn_sigma syn_x0 0 t.
Proof.
rewrite /syn_variance (syn_var syn_tau_E syn_tau_I syn_gbar_E syn_gbar_I _ _ syn_V_L _ _ syn_I_inj syn_G_L).
- by rewrite !mxE /= inordK //= subrr mulr0 addr0.
- by rewrite /syn_C /syn_G_E0 /syn_G_I0; toR; lra.
- by rewrite mxE /=; apply: ler0n.
- by rewrite mxE /= inordK //=; apply: ler0n.
Qed.

Lemma syn_var_bad : exists x0 : 'cV[R]_3, [/\ 0 < x0 1 0, 0 < x0 (inord 2) 0 &
  forall t, 0 < t -> syn_variance_ syn_sig_I syn_sig_E syn_V_E syn_V_I syn_C x0 t <>
    lead_var3 syn_drift syn_sigma x0 0 t].
Proof.
exists (cv 3 [:: syn_V0; 1; 2%:R]); rewrite !mxE /= !inordK //=; split; rewrite ?ltr01 ?ltr0n // => t t0.
rewrite (syn_var syn_tau_E syn_tau_I syn_gbar_E syn_gbar_I _ _ syn_V_L _ _ syn_I_inj syn_G_L); first last.
- by rewrite mxE /= inordK //=; apply: ler0n.
- by rewrite mxE /=; apply: ler01.
- by rewrite /syn_C /syn_G_E0 /syn_G_I0; toR; lra.
rewrite -[X in _ <> X]addr0 => /addrI; rewrite !mxE /= inordK //=.
apply/eqP; rewrite /syn_V0 /syn_V_E /syn_sig_E /syn_C /syn_G_E0 /syn_G_I0.
have -> : t ^+ 3 / (3%:R * (10%:R + 10%:R) ^+ 2) * (- 60%:R - 0) ^+ 2 * (1 / 10%:R) ^+ 2 * (2%:R - 1) =
  3%:R / 100%:R * t ^+ 3 :> R by toR; field.
rewrite mulf_neq0 //; last by rewrite expf_neq0 // (lt0r_neq0 t0).
by apply/eqP; toR; lra.
Qed.

Lemma random_linear_same (g : prng) (k : key g) dim x t :
  let '(_, drift, sigma) := random_linear_sde k (None : option 'M[R]_dim) None in
  drift x t = sigma x t *m x.
Proof. by rewrite /random_linear_sde /=. Qed.

Lemma random_linear_corr (g : prng) (E : expectation (key g)) dim :
  standard2 E (fun k => normal2 k dim dim) ->
  forall x t i j,
  E (fun k => let '(_, drift, sigma) := random_linear_sde k (None : option 'M[R]_dim) None in
              drift (delta_mx j 0) t i 0 * sigma x t i j) = 1.
Proof.
move=> H x t i j; case: H => _ H; rewrite -[RHS](_ : ((i == i) && (j == j))%:R = 1); last by rewrite !eqxx.
rewrite -H; apply: E_ext => k /=; rewrite !mul1mx; congr (_ * _).
by rewrite -colE mxE.
Qed.
