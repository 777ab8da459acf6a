(** Properties C05-C10: parabola approximations of Brownian paths. *)
From Coq Require Import Reals Lra.
From Coquelicot Require Import Coquelicot.
From mathcomp Require Import all_ssreflect all_algebra mxtens.
From Verif Require Import Rstruct Base Linalg Calc Prob Spec M_Foster L_Foster.

Set Implicit Arguments.
Unset Strict Implicit.
Unset Printing Implicit Defensive.
Import Order.TTheory GRing.Theory Num.Theory.
Local Open Scope ring_scope.

(** C05: end points, slope (as [jacfwd] sees it and as a derivative) and area. *)
Theorem C05_parabola_path dim t dt (a b : 'cV[R]_dim) i : dt != 0 ->
  [/\ eval_parabola 0 dt a b i 0 = 0,
      eval_parabola dt dt a b i 0 = a i 0,
      jacR (fun s => eval_parabola s dt a b) t =
        dt^-1 *: (a + (sqrt 6%:R * (1 - 2%:R * (t / dt))) *: b),
      is_derive (fun s => eval_parabola s dt a b i 0) t
        ((a i 0 + sqrt 6%:R * b i 0 * (1 - 2%:R * (t / dt))) / dt) &
      is_RInt (fun s => eval_parabola s dt a b i 0) 0 dt (dt * (a i 0 / 2%:R + b i 0 / sqrt 6%:R))].
Proof. exact: parab_path. Qed.
Print Assumptions C05_parabola_path.

(** a = 3 and b = sqrt 6 on an interval of length 2: end point 3, area 5. *)
Example C05_ex : let path s := eval_parabola s 2%:R (const_mx 3%:R : 'cV[R]_1) (const_mx (sqrt 6%:R)) 0 0 in
  [/\ path 2%:R = 3%:R, is_derive path 0 (9%:R / 2%:R) & is_RInt path 0 2%:R 5%:R].
Proof.
have s6 := @sqrt6_gt0; have s66 : sqrt 6%:R * sqrt 6%:R = 6%:R :> R by apply: sqrt_sqrt; rewrite RnatE /=; lra.
have n2 : (2%:R : R) != 0 by rewrite pnatr_eq0.
have [_ e1 _ _ e3] := @parab_path 1 0 2%:R (const_mx 3%:R) (const_mx (sqrt 6%:R)) 0 n2.
have [_ _ _ e2 _] := @parab_path 1 0 2%:R (const_mx 3%:R) (const_mx (sqrt 6%:R)) 0 n2.
split; first by rewrite e1 mxE.
  by move: e2; rewrite !mxE mul0r mulr0 subr0 mulr1 s66 -natrD.
move: e3; rewrite !mxE divff ?gt_eqF // mulrDr mulr1 mulrCA divff // mulr1 -natrD; exact.
Qed.

(** C06: law of one sampled parabola, and of its increment and area. *)
Theorem C06_coefficients_law g dim (E : expectation (key g)) :
  standard2 E (fun k => normal2 k 2 dim) -> forall (dt : R) i j, 0 <= dt ->
  let a k := (parabolas dim k dt).1 i 0 in let b k := (parabolas dim k dt).2 i 0 in
  let a' k := (parabolas dim k dt).1 j 0 in let b' k := (parabolas dim k dt).2 j 0 in
  [/\ E a = 0, E b = 0, E (fun k => a k * a' k) = (i == j)%:R * dt,
      E (fun k => a k * b' k) = 0 & E (fun k => b k * b' k) = (i == j)%:R * (dt / 2%:R)].
Proof. exact: parabola_law. Qed.
Print Assumptions C06_coefficients_law.

Theorem C06_path_law g dim (E : expectation (key g)) :
  standard2 E (fun k => normal2 k 2 dim) -> forall (dt : R) i j, 0 < dt ->
  let W k i := eval_parabola dt dt (parabolas dim k dt).1 (parabolas dim k dt).2 i 0 in
  let Z k i := RInt (fun t => eval_parabola t dt (parabolas dim k dt).1 (parabolas dim k dt).2 i 0) 0 dt in
  [/\ E (fun k => W k i) = 0, E (fun k => Z k i) = 0,
      E (fun k => W k i * W k j) = (i == j)%:R * dt,
      E (fun k => W k i * Z k j) = (i == j)%:R * (dt ^+ 2 / 2%:R) &
      E (fun k => Z k i * Z k j) = (i == j)%:R * (dt ^+ 3 / 3%:R)].
Proof. exact: path_law. Qed.
Print Assumptions C06_path_law.

(** Keys with independent fair signs as draws meet the hypothesis, in every dimension. *)
Example C06_ex dim :
  standard2 (signkeyE 2 dim) (fun k => normal2 (k : key tree_prng) 2 dim).
Proof. exact: signkey_standard. Qed.

(** C07: increment and area of the coarse parabola are those of the fine path. *)
Theorem C07_coarse_matches_fine g dim N (k : key g) (dt : R) i : (0 < N)%N -> 0 < dt ->
  let h := dt / N%:R in
  let fine := [seq ((parabolas dim k' h).1 i 0, (parabolas dim k' h).2 i 0) | k' <- split k N] in
  let c := get_coeffs (get_approx_fine g dim N) k dt in
  let coarse t := eval_fn t dt c i 0 in
  [/\ coarse 0 = 0, coarse dt = pieced h fine 0 dt &
      exists area, is_RInt coarse 0 dt area /\ is_RInt (pieced h fine 0) 0 dt area].
Proof. exact: coarse_matches_fine. Qed.
Print Assumptions C07_coarse_matches_fine.

(** ... and no other parabola has them. *)
Theorem C07_coarse_unique (T a b a' b' : R) : T != 0 -> parab T a b T = parab T a' b' T ->
  (exists I, is_RInt (parab T a b) 0 T I /\ is_RInt (parab T a' b') 0 T I) ->
  a = a' /\ b = b'.
Proof. exact: parab_unique. Qed.
Print Assumptions C07_coarse_unique.

(** Two pieces of length 1 with increments 1 and 3 and no curvature: the fine path goes through 0, 1 and 4, and
    the coarse parabola has the end point 4 and the area 3. *)
Example C07_ex : let piece z := Leaf (fun i _ => if i == 0%N then z else 0) in
  let c := get_coeffs (get_approx_fine tree_prng 1 2) (Node [:: piece 1; piece 3%:R]) 2%:R in
  let coarse t := eval_fn t 2%:R c 0 0 in
  coarse 2%:R = 4%:R /\ is_RInt coarse 0 2%:R 3%:R.
Proof.
move=> piece c coarse; have n2 : (2%:R : R) != 0 by rewrite pnatr_eq0.
have s1 : sqrt (2%:R / 2%:R) = 1 by rewrite divff // sqrt_1.
have s6 := sqrt6_gt0.
have [ea eb] : c.1.1.1 0 0 = 4%:R /\ c.1.1.2 0 0 = - (sqrt 6%:R / 2%:R).
  by rewrite /c /= !mxE s1; toR; split; field; apply: Rgt_not_eq; move/RltP: s6; toR.
have [_ e1 _ _ e2] := @parab_path 1 0 2%:R c.1.1.1 c.1.1.2 0 n2.
split; first by rewrite /coarse /= e1 ea.
suff -> : 3%:R = 2%:R * (c.1.1.1 0 0 / 2%:R + c.1.1.2 0 0 / sqrt 6%:R) :> R by exact: e2.
by rewrite ea eb mulNr mulrAC divff ?gt_eqF //; toR; field.
Qed.

(** C08: the aggregated coefficients have the law of a single parabola. *)
Theorem C08_aggregated_law g dim (E : expectation (key g)) (F : expectation (key g)) N (dt : R) i j :
  standard2 E (fun k => normal2 k 2 dim) ->
  (forall G, F (fun k => G (split k N)) = iid E N G) ->
  (0 < N)%N -> 0 < dt ->
  let a k := (get_coeffs (get_approx_fine g dim N) k dt).1.1.1 in
  let b k := (get_coeffs (get_approx_fine g dim N) k dt).1.1.2 in
  [/\ F (fun k => a k i 0) = 0, F (fun k => b k i 0) = 0,
      F (fun k => a k i 0 * a k j 0) = (i == j)%:R * dt,
      F (fun k => a k i 0 * b k j 0) = 0 &
      F (fun k => b k i 0 * b k j 0) = (i == j)%:R * (dt / 2%:R)].
Proof. exact: aggregated_law. Qed.
Print Assumptions C08_aggregated_law.

Example C08_ex dim N :
  standard2 (signkeyE 2 dim) (fun k => normal2 (k : key tree_prng) 2 dim) /\
  (forall G, nodeE (signkeyE 2 dim) N (fun k => G (split (k : key tree_prng) N)) =
             iid (signkeyE 2 dim) N G).
Proof. by split; [exact: signkey_standard | exact: nodeE_split]. Qed.

(** C09: end point right, area wrong; exact value of the second coefficient. *)
Theorem C09_endpoint_and_defect g dim N (k : key g) dt : (0 < N)%N -> dt != 0 ->
  let h := dt / N%:R in
  let c := parabolas_bm dim N k dt in
  let W := bm_at h c.2 in
  c.1.1 = W N /\
  c.1.2 = sqrt 6%:R *: (dt^-1 *: trapezoid h W N - 2%:R^-1 *: W N)
          + (sqrt 6%:R / N%:R) *: (W N - W 1%N - 2%:R^-1 *: W (minn 2 N)).
Proof. exact: parabolas_bmE. Qed.
Print Assumptions C09_endpoint_and_defect.

(** ... read on the path itself: right end points, area off by the defect. *)
Theorem C09_path g dim N (k : key g) (dt : R) i : (0 < N)%N -> dt != 0 ->
  let h := dt / N%:R in
  let c := get_coeffs (get_approx_and_brownian g dim N) k dt in
  let W := bm_at h (snd (c : 'cV[R]_dim * 'cV[R]_dim * seq 'cV[R]_dim)) in
  let path t := eval_fn t dt c i 0 in
  [/\ path 0 = 0, path dt = W N i 0 &
      is_RInt path 0 dt (trapezoid h W N i 0 + h * (W N i 0 - W 1%N i 0 - W (minn 2 N) i 0 / 2%:R))].
Proof. exact: bm_path. Qed.
Print Assumptions C09_path.

Theorem C09_area_refuted N dim (dt : R) : (0 < N)%N -> (0 < dim)%N -> 0 < dt ->
  exists (g : prng) (k : key g),
  let h := dt / N%:R in
  let c := parabolas_bm dim N k dt in
  let W := bm_at h c.2 in
  c.1.2 <> sqrt 6%:R *: (dt^-1 *: trapezoid h W N - 2%:R^-1 *: W N).
Proof. exact: bm_area_wrong. Qed.
Print Assumptions C09_area_refuted.

(** C10: the fine coefficients returned are usable only after multiplication by sqrt 6. *)
Theorem C10_fine_coefficients g dim N (k : key g) (dt t : R) j i : (j < N)%N -> 0 < dt ->
  let h := dt / N%:R in
  let c := parabolas_fine dim N k dt in
  let p := parabolas dim (nth k (split k N) j) h in
  eval_parabola t h (nth 0 c.1.2 j) (sqrt 6%:R *: nth 0 c.2 j) = eval_parabola t h p.1 p.2 /\
  (eval_parabola t h (nth 0 c.1.2 j) (nth 0 c.2 j) i 0 = eval_parabola t h p.1 p.2 i 0 <->
   p.2 i 0 = 0 \/ t = 0 \/ t = h).
Proof. exact: fine_eval. Qed.
Print Assumptions C10_fine_coefficients.

Theorem C10_fine_coefficients_refuted N dim (dt : R) : (0 < N)%N -> (0 < dim)%N -> 0 < dt ->
  exists (g : prng) (k : key g) (t : R) (j : nat) (i : 'I_dim),
  let h := dt / N%:R in
  let c := parabolas_fine dim N k dt in
  let p := parabolas dim (nth k (split k N) j) h in
  [/\ (j < N)%N, 0 < t < h &
   eval_parabola t h (nth 0 c.1.2 j) (nth 0 c.2 j) i 0 <> eval_parabola t h p.1 p.2 i 0].
Proof. exact: fine_eval_wrong. Qed.
Print Assumptions C10_fine_coefficients_refuted.
