(** Euler-Maruyama on the damped oscillators: exact covariance and its limit. Proofs for C115. *)
From Coq Require Import Reals Lra.
From Coquelicot Require Import Coquelicot.
From mathcomp Require Import all_ssreflect all_algebra mxtens.
From Verif Require Import Rstruct Base Linalg Calc Prob Spec M_Utils M_Euler M_Ivp L_Euler L_Ivp L_RefVar.

Set Implicit Arguments.
Unset Strict Implicit.
Unset Printing Implicit Defensive.
Import Order.TTheory GRing.Theory Num.Theory.
Local Open Scope ring_scope.

Section Linear.
Variables (g : prng) (E F : expectation (key g)) (N d m : nat).
Hypothesis split_iid : forall G, F (fun k => G (split k N)) = iid E N G.
Hypothesis draws : standard E (fun k => normal (child k 2 0) m).

Lemma em_cov (M : 'M[R]_d) (s : 'M[R]_(d, m)) (h : R) init S : 0 <= h ->
  let A := 1%:M + h *: M in A *m S *m A^T + h *: (s *m s^T) = S ->
  let x n (k : key g) := nth 0 (euler_maruyama (fun x _ => M *m x) (fun _ _ => s) h k init N).2 n in
  forall n, (n <= N)%N ->
  Emx F (fun k => (x n k - Emx F (x n)) *m (x n k - Emx F (x n))^T) = S - mxpow A n *m S *m (mxpow A n)^T.
Proof.
move=> h0 A fix_ x n nN.
have [Hm H0 HS] := em_linear_moments split_iid draws M s init h0.
have -> : Emx F (fun k => (x n k - Emx F (x n)) *m (x n k - Emx F (x n))^T) =
          Emx F (fun k => (x n k - mxpow A n *m init) *m (x n k - mxpow A n *m init)^T).
  by rewrite (Hm _ nN).
elim: n nN => [|n IH] nN.
  by rewrite [LHS]H0 /mxpow /= mul1mx trmx1 mulmx1 subrr.
rewrite [LHS](HS _ nN) [Emx _ _](IH (ltnW nN)) /mxpow iterS -/(mxpow A n) trmx_mul mulmxBr mulmxBl addrAC fix_.
by rewrite !mulmxA.
Qed.
End Linear.

Section Osc.
Variables (gamma D sig : R).

(** The limit. *)
Definition osc_r (h : R) : R := 2%:R * sig ^+ 2 / ((gamma - D * h) * (4%:R - 2%:R * gamma * h + D * h ^+ 2)).
Definition osc_S (h : R) : 'M[R]_2 := osc_r h *:
  mx 2 2 [:: [:: (1 - gamma * h / 2%:R + D * h ^+ 2 / 2%:R) / D; - h / 2%:R]; [:: - h / 2%:R; 1]].

Lemma osc_fix m (C : 'M[R]_(2, m)) (h : R) : C *m C^T = mx 2 2 [:: [:: 0; 0]; [:: 0; sig ^+ 2]] ->
  D != 0 -> gamma - D * h != 0 -> 4%:R - 2%:R * gamma * h + D * h ^+ 2 != 0 ->
  let A := 1%:M + h *: harm_M gamma D in A *m osc_S h *m A^T + h *: (C *m C^T) = osc_S h.
Proof.
move=> -> /eqP D0 /eqP g0 /eqP q0 A; move: D0 g0 q0; rewrite !expr2; toR => D0 g0 q0.
apply/matrixP; apply: ord2P; apply: ord2P;
  rewrite !(addmxE, mulmxE, sum2, mxE) /= /osc_r !expr2; toR; field; by repeat split.
Qed.

Lemma osc_equation m (C : 'M[R]_(2, m)) : C *m C^T = mx 2 2 [:: [:: 0; 0]; [:: 0; sig ^+ 2]] ->
  D != 0 -> gamma != 0 ->
  harm_M gamma D *m osc_S 0 + osc_S 0 *m (harm_M gamma D)^T + C *m C^T = 0.
Proof.
move=> -> /eqP D0 /eqP g0; move: D0 g0; toR => D0 g0.
apply/matrixP; apply: ord2P; apply: ord2P;
  rewrite !(addmxE, mulmxE, sum2, mxE) /= /osc_r !expr2; toR; field; by repeat split.
Qed.

Variable h : R.
Hypothesis D0 : 0 < D.
Hypothesis h0 : 0 <= h.
Hypothesis g0 : D * h < gamma.
Hypothesis q0 : 0 < 4%:R - 2%:R * gamma * h + D * h ^+ 2.

Lemma osc_r_ge0 : 0 <= osc_r h.
Proof.
have gd : 0 <= gamma - D * h by rewrite subr_ge0 ltW.
by apply: divr_ge0; apply: mulr_ge0 => //; [exact: ler0n | exact: sqr_ge0 | exact: ltW].
Qed.

Lemma osc_psd : psd (osc_S h).
Proof.
apply: psdZ; first exact: osc_r_ge0.
apply/psd2; first by rewrite !mxE.
  rewrite mxE /= divr_gt0 //; apply/RltP; move: q0 D0 h0 => /RltP q /RltP D1 /RleP h1; move: q D1 h1; rewrite !expr2; toR => q D1 h1.
  by have := Rmult_le_pos _ _ (Rlt_le _ _ D1) (Rmult_le_pos _ _ h1 h1); lra.
rewrite !mxE /= mulr1.
have -> : (1 - gamma * h / 2%:R + D * h ^+ 2 / 2%:R) / D - (- h / 2%:R) ^+ 2 = (4%:R - 2%:R * gamma * h + D * h ^+ 2) / (4%:R * D).
  have D1 : D <> 0%Re by apply/eqP/lt0r_neq0.
  by apply: (_ : @eq R _ _); rewrite !expr2; toR; field.
by rewrite divr_ge0 ?(ltW q0) // mulr_ge0 ?ler0n ?ltW.
Qed.

(** The velocity is too agitated, whatever the step. *)
Lemma osc_bias : 0 < h -> sig != 0 -> sig ^+ 2 / (2%:R * gamma) < osc_r h.
Proof.
move=> h1 s0; have s2 : 0 < sig ^+ 2 by rewrite lt_neqAle sqr_ge0 andbT eq_sym expf_neq0.
have gp : 0 < gamma by apply: le_lt_trans g0; rewrite mulr_ge0 // ltW.
have gd : 0 < gamma - D * h by rewrite subr_gt0.
have -> : sig ^+ 2 / (2%:R * gamma) = 2%:R * sig ^+ 2 / (4%:R * gamma).
  have g1 : gamma <> 0%Re by apply/eqP/lt0r_neq0.
  by apply: (_ : @eq R _ _); toR; field.
have n2 : 0 < 2%:R * sig ^+ 2 by apply: mulr_gt0 => //; exact: ltr0n.
have n4 : 0 < 4%:R * gamma by apply: mulr_gt0 => //; exact: ltr0n.
rewrite /osc_r (ltr_pmul2l n2) ltf_pinv ?posrE //; last exact: mulr_gt0.
move: gd h1 D0 gp => /RltP gd /RltP h2 /RltP D1 /RltP gp; apply/RltP; move: gd h2 D1 gp; rewrite expr2; toR => gd h2 D1 gp.
have u1 : (0 < (gamma - D * h) * (2 * gamma - D * h))%Re by apply: Rmult_lt_0_compat; lra.
have u2 : (0 < h * ((gamma - D * h) * (2 * gamma - D * h) + 4 * D))%Re by apply: Rmult_lt_0_compat; lra.
by lra.
Qed.
End Osc.

Section OscLaw.
Variables (g : prng) (E F : expectation (key g)) (N m : nat).
Hypothesis split_iid : forall G, F (fun k => G (split k N)) = iid E N G.
Hypothesis draws : standard E (fun k => normal (child k 2 0) m).

Lemma osc_law (gamma D sig h : R) (C : 'M[R]_(2, m)) init : C *m C^T = mx 2 2 [:: [:: 0; 0]; [:: 0; sig ^+ 2]] ->
  0 < D -> 0 <= h -> D * h < gamma -> 0 < 4%:R - 2%:R * gamma * h + D * h ^+ 2 ->
  let x n (k : key g) := nth 0 (euler_maruyama (fun x _ => harm_drift gamma D x) (fun x _ => harm_sigma C x) h k init N).2 n in
  let A := 1%:M + h *: harm_M gamma D in
  forall n, (n <= N)%N ->
  let cov := Emx F (fun k => (x n k - Emx F (x n)) *m (x n k - Emx F (x n))^T) in
  [/\ cov = osc_S gamma D sig h - mxpow A n *m osc_S gamma D sig h *m (mxpow A n)^T,
      psd (osc_S gamma D sig h) & psd (osc_S gamma D sig h - cov)].
Proof.
move=> CC D0 h0 g0 q0 x A n nN cov.
have fx := osc_fix CC (lt0r_neq0 D0) (_ : gamma - D * h != 0) (lt0r_neq0 q0).
have cE := em_cov split_iid draws init h0 (fx (lt0r_neq0 (_ : 0 < gamma - D * h))) nN.
have S0 := osc_psd sig D0 h0 g0 q0.
have cE' : cov = osc_S gamma D sig h - mxpow A n *m osc_S gamma D sig h *m (mxpow A n)^T.
  by apply: cE; rewrite subr_gt0.
by split=> //; rewrite cE' opprB addrC subrK; exact: psd_congr.
Qed.
End OscLaw.

Lemma osc_exact (gamma D sig : R) m (C : 'M[R]_(2, m)) : C *m C^T = mx 2 2 [:: [:: 0; 0]; [:: 0; sig ^+ 2]] ->
  0 < D -> 0 < gamma ->
  let S := mx 2 2 [:: [:: sig ^+ 2 / (2%:R * gamma * D); 0]; [:: 0; sig ^+ 2 / (2%:R * gamma)]] in
  harm_M gamma D *m S + S *m (harm_M gamma D)^T + C *m C^T = 0 /\
  forall h, 0 < h -> D * h < gamma -> 0 < 4%:R - 2%:R * gamma * h + D * h ^+ 2 -> sig != 0 ->
  S 1 1 < 2%:R * sig ^+ 2 / ((gamma - D * h) * (4%:R - 2%:R * gamma * h + D * h ^+ 2)).
Proof.
move=> CC D0 g0 S; split.
  rewrite -(osc_equation CC (lt0r_neq0 D0) (lt0r_neq0 g0)); have -> // : S = osc_S gamma D sig 0.
  have D1 : D <> 0%Re by apply/eqP/lt0r_neq0.
  have g1 : gamma <> 0%Re by apply/eqP/lt0r_neq0.
  by apply/matrixP; apply: ord2P; apply: ord2P; rewrite !mxE /= /osc_r !expr2; toR; field.
by move=> h h0 gD q0 s0; rewrite /S mxE /=; exact: (osc_bias D0 (ltW h0) gD q0 h0 s0).
Qed.

(** Conversely, the two conditions on the step are needed, and the limit is the only one. *)
Lemma osc_iff (gamma D sig h : R) m (C : 'M[R]_(2, m)) : C *m C^T = mx 2 2 [:: [:: 0; 0]; [:: 0; sig ^+ 2]] ->
  0 < D -> 0 < h -> sig != 0 ->
  let A := 1%:M + h *: harm_M gamma D in
  let stationary S := psd S /\ A *m S *m A^T + h *: (C *m C^T) = S in
  ((exists S, stationary S) <-> D * h < gamma /\ 0 < 4%:R - 2%:R * gamma * h + D * h ^+ 2) /\
  forall S, stationary S -> S = osc_S gamma D sig h.
Proof.
move=> CC D0 h0 s0 A stationary.
have sg : (0 < sig * sig)%Re.
  by apply: Rsqr_pos_lt; apply/eqP.
have D1 : (0 < D)%Re by apply/RltP.
have h1 : (0 < h)%Re by apply/RltP.
have key S : stationary S ->
  [/\ (S 0%R 1%R = - h * S 1%R 1%R / 2)%Re, (S 1%R 0%R = S 0%R 1%R)%Re,
      (D * S 0%R 0%R = S 1%R 1%R * (1 - gamma * h / 2 + D * (h * h) / 2))%Re,
      (S 1%R 1%R * ((gamma - D * h) * (4 - 2 * gamma * h + D * (h * h))) = 2 * (sig * sig))%Re &
      (0 <= S 1%R 1%R)%Re /\ (0 <= S 0%R 0%R * S 1%R 1%R - S 0%R 1%R * S 0%R 1%R)%Re].
  move=> [[sy ps] fx].
  have q10 : S 1 0 = S 0 1 by rewrite -{1}sy mxE.
  have e0 := congr1 (fun X : 'M[R]_2 => X 0 0) fx; have e1 := congr1 (fun X : 'M[R]_2 => X 0 1) fx.
  have e2 := congr1 (fun X : 'M[R]_2 => X 1 1) fx.
  move: e0 e1 e2; rewrite CC !(addmxE, mulmxE, sum2, mxE) /= q10 !expr2; toR.
  have d0 : (0 <= S 1%R 1%R)%Re by apply/RleP; exact: psd_entry (conj sy ps).
  have p0 : (0 <= S 0%R 0%R)%Re by apply/RleP; exact: psd_entry (conj sy ps).
  have dt : (0 <= S 0%R 0%R * S 1%R 1%R - S 0%R 1%R * S 0%R 1%R)%Re.
    have quad u v : (0 <= u * u * S 0%R 0%R + 2 * (u * v * S 0%R 1%R) + v * v * S 1%R 1%R)%Re.
      have := ps (cv 2 [:: u; v]); rewrite /qf !(mulmxE, sum2, mxE) /= q10 => /RleP; toR; lra.
    have E1 := quad (S 1%R 1%R) (- S 0%R 1%R)%Re.
    have E2 := quad (- S 0%R 1%R)%Re (S 0%R 0%R).
    case: (Req_dec (S 1%R 1%R) 0%Re) => [r0|r0].
      case: (Req_dec (S 0%R 0%R) 0%Re) => [pp|pp].
        have := quad 1%Re (- S 0%R 1%R)%Re; rewrite r0 pp; nra.
      by apply: (Rmult_le_reg_l (S 0%R 0%R)); [lra | nra].
    by apply: (Rmult_le_reg_l (S 1%R 1%R)); [lra | nra].
  move: (S 0 0) (S 0 1) (S 1 1) d0 dt => p q r d0 dt e0 e1 e2.
  have qE : (q = - h * r / 2)%Re.
    apply: (Rmult_eq_reg_l (2 * h)%Re); last by lra.
    by lra.
  have pE : (D * p = r * (1 - gamma * h / 2 + D * (h * h) / 2))%Re.
    apply: (Rmult_eq_reg_l h); last by lra.
    by rewrite qE in e1; lra.
  have rE : (r * ((gamma - D * h) * (4 - 2 * gamma * h + D * (h * h))) = 2 * (sig * sig))%Re.
    apply: (Rmult_eq_reg_l h); last by lra.
    have E : (D * D * p = D * (r * (1 - gamma * h / 2 + D * (h * h) / 2)))%Re by rewrite -pE; ring.
    have E' : (h * h * (D * D * p) = h * h * (D * (r * (1 - gamma * h / 2 + D * (h * h) / 2))))%Re by rewrite E.
    by rewrite qE in e2; lra.
  by [].
have nec S : stationary S -> (D * h < gamma)%Re /\ (0 < 4 - 2 * gamma * h + D * (h * h))%Re.
  move=> /key[qE _ pE rE [r0 dt]].
  move: (S 0 0) (S 0 1) (S 1 1) qE pE rE r0 dt => p q r qE pE rE r0 dt.
  have rp : (0 < r)%Re by case: (Req_dec r 0%Re) => [rr|]; [rewrite rr in rE; lra | lra].
  have d2 : (0 <= r * r * (4 - 2 * gamma * h + D * (h * h)))%Re.
    have := Rmult_le_pos _ _ (Rlt_le _ _ D1) dt.
    have -> : (D * (p * r - q * q) = D * p * r - D * (q * q))%Re by ring.
    by rewrite pE qE; lra.
  have k0 : (0 <= 4 - 2 * gamma * h + D * (h * h))%Re.
    by apply: (Rmult_le_reg_l (r * r)%Re); [exact: Rmult_lt_0_compat | lra].
  move: (4 - 2 * gamma * h + D * (h * h))%Re k0 rE {d2 pE} => k k0 rE.
  have kp : (0 < k)%Re by case: (Req_dec k 0%Re) => [kk|]; [rewrite kk in rE; lra | lra].
  split=> //; apply: Rnot_le_lt => gl.
  have : (r * ((gamma - D * h) * k) <= 0)%Re.
    have := Rmult_le_pos _ _ (Rmult_le_pos _ _ r0 k0) (_ : 0 <= D * h - gamma)%Re; lra.
  by lra.
split.
  split=> [[S /nec[H1 H2]]|[H1 H2]].
    by split; apply/RltP; [|rewrite expr2]; toR; lra.
  exists (osc_S gamma D sig h); split; first exact: (osc_psd sig D0 (ltW h0) H1 H2).
  have H3 : 0 < gamma - D * h by rewrite subr_gt0.
  exact: osc_fix CC (lt0r_neq0 D0) (lt0r_neq0 H3) (lt0r_neq0 H2).
move=> S st; have [k1 k2] := nec _ st; have [qE sE pE rE _] := key _ st.
have Z1 : ((gamma - D * h) <> 0)%Re by lra.
have Z2 : (4 - 2 * gamma * h + D * (h * h) <> 0)%Re by lra.
have r' : S 1 1 = (2 * (sig * sig) / ((gamma - D * h) * (4 - 2 * gamma * h + D * (h * h))))%Re.
  have sol (r k u : R) : k <> 0%Re -> (r * k = u)%Re -> r = (u / k)%Re by move=> k0 <-; field.
  by apply: sol rE => /Rmult_integral[].
have p' : S 0 0 = (S 1%R 1%R * (1 - gamma * h / 2 + D * (h * h) / 2) / D)%Re.
  have sol (r k u : R) : k <> 0%Re -> (k * r = u)%Re -> r = (u / k)%Re by move=> ? <-; field.
  by apply: sol pE; lra.
by apply/matrixP; apply: ord2P; apply: ord2P; apply: (_ : @eq R _ _); rewrite ?p' ?sE ?qE ?r' !mxE /= /osc_r !expr2; toR; field; repeat split; lra.
Qed.
