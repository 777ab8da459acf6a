(** The driver of the calibration scripts. *)
From Coq Require Import Reals Lra FunctionalExtensionality.
From mathcomp Require Import all_ssreflect all_algebra mxtens.
From Verif Require Import Rstruct Base Linalg Calc Prob Spec M_Utils L_Utils M_Foster L_Foster M_SdeSolver L_SdeSolver
  M_Euler M_ItoStrat M_Filter M_Prior M_OdeSolvers M_Scripts L_Calibration.

Set Implicit Arguments.
Unset Strict Implicit.
Unset Printing Implicit Defensive.
Import Order.TTheory GRing.Theory Num.Theory.
Local Open Scope ring_scope.

Section Driver.
Variables (g : prng) (d m : nat) (X Y : Type).
Variables (drift : 'cV[R]_d -> R -> 'cV[R]_d) (sigma : 'cV[R]_d -> R -> 'M[R]_(d, m)).
Variables (bm : path_approx g m) (delta : R).
Variable int : key g -> X -> ('cV[R]_d -> R -> 'cV[R]_d) -> R -> X * Y.

Notation body := (custom_body drift sigma bm delta int).
Notation body1 := (sde_body drift sigma bm delta (fun k x f T => (int k x f T).1)).

Lemma custom_scan x (inps : seq (nat * (key g * R))) :
  let r := scan body x inps in
  scan body1 x inps = (r.1, [seq o.1 | o <- r.2]).
Proof.
elim: inps x => //= -[j [k t]] inps IH x.
have -> : body1 x (j, (k, t)) = ((body x (j, (k, t))).1, (body x (j, (k, t))).2.1).
  by rewrite /custom_body /sde_body; case: (split2 k) => k1 k2; case: (int _ _ _ _).
by rewrite /= IH.
Qed.

Lemma custom_carry x inps i : (i <= size inps)%N ->
  (scan body x (take i inps)).1 = nth x (x :: [seq o.1.1 | o <- (scan body x inps).2]) i.
Proof.
elim: inps x i => [|[j [k t]] inps IH] x [|i] //= iN.
have -> : (body x (j, (k, t))).2.1.1 = (body x (j, (k, t))).1.
  by rewrite /custom_body; case: (split2 k) => k1 k2; case: (int _ _ _ _).
rewrite IH //; set y := (body _ _).1; case: i iN => //= i iN.
by apply: set_nth_default; rewrite size_map scan_size.
Qed.

Lemma custom_driver k x0 N :
  let: (ts, traj, cs, others) := custom_sde_solver drift sigma bm delta int k x0 N in
  [/\ sde_solver drift sigma bm delta (fun k x f T => (int k x f T).1) k x0 N = (ts, traj, cs), size others = N &
      forall i c0 o0, (i < N)%N -> nth o0 others i =
        (int (child (child k N i) 2 1) (nth x0 traj i)
          (fun z t => drift z (t + i%:R * delta) +
             sigma z (t + i%:R * delta) *m jacR (fun s => eval_fn s delta (nth c0 cs i)) t) delta).2].
Proof.
rewrite /custom_sde_solver /sde_solver !scan_ev_progress /=.
set inps := zip _ _; have H := custom_scan x0 inps; rewrite H /=.
set out := (scan body x0 inps).2.
have szi : size inps = N.
  by rewrite /inps !size_zip size_iota size_split size_take size_map size_iota /= ltnSn !minnn.
have szo : size out = N by rewrite /out scan_size.
split; first by rewrite /unzip1 /unzip2 -!map_comp.
  by rewrite size_map.
move=> i c0 o0 iN.
have E : nth (x0, c0, o0) out i = (body (nth x0 (x0 :: [seq o.1.1 | o <- out]) i) (i, (nth k (split k N) i, i%:R * delta))).2.
  rewrite /out (scan_nth _ _ _ (0%N, (k, 0))) ?szi // custom_carry ?szi ?(ltnW iN) //.
  congr (body _ _).2; rewrite /inps !nth_zip ?size_iota ?size_zip ?size_split ?but_last_grid ?size_mkseq ?minnn //.
  by rewrite nth_iota // add0n nth_mkseq.
have E2 : (nth (x0, c0, o0) out i).1.2 = get_coeffs bm (child (child k N i) 2 0) delta.
  by rewrite E /custom_body /child /split2; case: (int _ _ _ _).
rewrite (nth_map (x0, c0, o0)) ?szo // (nth_map (x0, c0, o0)) ?szo // E2 E /jnp_insert take0 drop0 /=.
by rewrite /custom_body /child /split2 /=; case: (int _ _ _ _).
Qed.
Lemma custom_driver_eq k x0 N ts traj cs others :
  custom_sde_solver drift sigma bm delta int k x0 N = (ts, traj, cs, others) ->
  [/\ sde_solver drift sigma bm delta (fun k x f T => (int k x f T).1) k x0 N = (ts, traj, cs), size others = N &
      forall i c0 o0, (i < N)%N -> nth o0 others i =
        (int (child (child k N i) 2 1) (nth x0 traj i)
          (fun z t => drift z (t + i%:R * delta) +
             sigma z (t + i%:R * delta) *m jacR (fun s => eval_fn s delta (nth c0 cs i)) t) delta).2].
Proof. by move=> E; move: (custom_driver k x0 N); rewrite E. Qed.
End Driver.

Lemma rseq_val T (y0 : T) (xs : seq (res T)) ys : rseq xs = Val ys ->
  size ys = size xs /\ forall i, (i < size xs)%N -> nth Nan xs i = Val (nth y0 ys i).
Proof.
elim: xs ys => [|[x||e] xs IH] ys //=; first by move=> [<-].
case E: (rseq xs) => [r||] // [<-]; have [sz H] := IH _ E.
by split=> [|[|i] iN] /=; [rewrite sz | | exact: H].
Qed.

Lemma collect_inv d (os : seq (res ('cV[R]_(d * 2) * 'cV[R]_(d * 2) * 'M[R]_(d * 2) * arr d * arr d))) zs Ss :
  collect os = Val (zs, Ss) ->
  [/\ size zs = size os, size Ss = size os &
   forall i, (i < size os)%N -> exists p, nth Nan os i = Val (p, Arr2 (nth 0 Ss i), Arr1 (nth 0 zs i))].
Proof.
rewrite /collect; case E: (rseq os) => [r||] //; rewrite rbind_val.
case E1: (rseq [seq out_var _ | _ <- _]) => [v||] //; rewrite rbind_val.
case E2: (rseq _) => [z||] //; rewrite rbind_val => -[<- <-].
pose o0 : 'cV[R]_(d * 2) * 'cV[R]_(d * 2) * 'M[R]_(d * 2) * arr d * arr d := (0, 0, 0, Arr1 0, Arr1 0).
have [s1 H1] := rseq_val o0 E; have [s2 H2] := rseq_val 0 E1; have [s3 H3] := rseq_val 0 E2.
rewrite !size_map in s2 s3 H2 H3; split; rewrite ?s2 ?s3 // => i iN.
have ir : (i < size r)%N by rewrite s1.
rewrite H1 //; move: (H2 _ ir) (H3 _ ir); rewrite !(nth_map o0) //.
case: (nth o0 r i) => -[p [z1|C]] [z2|C2] //= -[->] [->].
by exists p.
Qed.

Section Estimate.
Variables (lp : lapack) (g : prng) (d m fine : nat) (delta : R) (M : nat).
Variables (drift : 'cV[R]_d -> R -> 'cV[R]_d) (sigma : 'cV[R]_d -> R -> 'M[R]_(d, m)).
Hypotheses (delta0 : 0 < delta) (M0 : (0 < M)%N).

(** The estimate is that of [mle_diffusion] for the residuals and their covariances at the end of
    each interval of the filter run. *)
Lemma calibration_mle (s : R) (k : key g) x0 N : 0 < s ->
  let st := to_stratonovich drift sigma in
  let bm := get_approx_fine g m fine in
  let filter kk (x : gauss d) f T :=
    ekf1_2_all lp (Some kk) x f (T / M%:R) M true (a_prior (ioup 0 s 1 (delta / M%:R) d)) None in
  let: (_, traj, cs) := sde_solver st.1 st.2 bm delta (fun kk x f T => let! x := x in rmap fst (filter kk x f T))
     k (Val (x0, x0, 0)) N in
  exists zs Ss, [/\ size zs = N, size Ss = N, calibration lp fine delta M drift sigma s k x0 N = mle_diffusion zs Ss &
    forall i c0, (i < N)%N -> exists x p,
      nth Nan traj i = Val x /\
      rmap snd (filter (child (child k N i) 2 1) x
        (fun z t => st.1 z (t + i%:R * delta) +
             st.2 z (t + i%:R * delta) *m jacR (fun s => eval_fn (p := bm) s delta (nth c0 cs i)) t) delta) =
      Val (p, Arr2 (nth 0 Ss i), Arr1 (nth 0 zs i))].
Proof.
move=> s0 st bm filter.
pose C := @custom_sde_solver g d m _ _ st.1 st.2 bm delta (calibration_int lp delta M s) k (Val (x0, x0, 0)) N.
case EC: C => [[[ts traj] cs] others].
have [ES so HO] := custom_driver_eq EC.
have -> : (fun kk x f T => let! x := x in rmap fst (filter kk x f T)) =
  (fun kk x f T => (calibration_int lp delta M s kk x f T).1).
  apply: functional_extensionality => kk; apply: functional_extensionality => x.
  apply: functional_extensionality => f; apply: functional_extensionality => T.
  by rewrite /calibration_int; case: x.
rewrite ES.
have E : calibration lp fine delta M drift sigma s k x0 N = let! r := collect others in mle_diffusion r.1 r.2.
  by rewrite /calibration (surjective_pairing (to_stratonovich _ _)) -/st -/bm -/C EC collect_mle.
have [zs [Ss EQ]] : exists zs Ss, collect others = Val (zs, Ss).
  have T := calib_scan_total lp bm st.1 st.2 s0 delta0 M0 _ x0 x0 (psd0 d).
  move: EC; rewrite /C /custom_sde_solver scan_ev_progress => -[_ _ _ <-].
  by have [zs [Ss [-> _ _ _]]] := T (zip (iota 0 N) (zip (split k N) (but_last (linspace 0 (N%:R * delta) N.+1)))); exists zs, Ss.
have [s1 s2 H] := collect_inv EQ; rewrite so in s1 s2 H.
exists zs, Ss; split=> //; first by rewrite E EQ rbind_val.
move=> i c0 iN; have [p Ep] := H _ iN; move: Ep; rewrite (HO i c0 Nan iN) /calibration_int.
case Ex: (nth _ traj i) => [x||] // Ep; exists x, p; split=> //.
rewrite -Ex; apply: set_nth_default.
have -> : traj = (sde_solver st.1 st.2 bm delta (fun kk x f T => (calibration_int lp delta M s kk x f T).1) k (Val (x0, x0, 0)) N).1.2 by rewrite ES.
by rewrite sde_solverE; cbn [fst snd size]; rewrite size_map run_size ?size_split ?size_mkseq // ltnS ltnW.
Qed.
End Estimate.
