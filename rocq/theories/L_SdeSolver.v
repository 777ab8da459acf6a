(** Lemmas about sde_solver. *)
From Coq Require Import Reals.
From mathcomp Require Import all_ssreflect all_algebra mxtens.
From Verif Require Import Rstruct Base Linalg Calc Prob Spec M_Utils L_Utils M_Foster L_Foster M_SdeSolver.

Set Implicit Arguments.
Unset Strict Implicit.
Unset Printing Implicit Defensive.
Import Order.TTheory GRing.Theory Num.Theory.
Local Open Scope ring_scope.

Lemma scan_zip_map S A B O (f f' : S -> A * B -> S * O) (F : B -> B) s xs ys :
  (forall s a b, f s (a, b) = f' s (a, F b)) ->
  scan f s (zip xs ys) = scan f' s (zip xs (map F ys)).
Proof.
by move=> E; elim: xs ys s => [|x xs IH] [|y ys] s //=; rewrite E IH.
Qed.

Lemma take_zip A B n (xs : seq A) (ys : seq B) : take n (zip xs ys) = zip (take n xs) (take n ys).
Proof. by elim: n xs ys => [|n IH] [|x xs] [|y ys] //=; rewrite IH. Qed.

Section SdeSolver.
Variables (g : prng) (d m : nat) (X : Type).
Implicit Types (drift : 'cV[R]_d -> R -> 'cV[R]_d) (sigma : 'cV[R]_d -> R -> 'M[R]_(d, m)).
Variables (bm : path_approx g m) (delta : R).
Variable ode_int : key g -> X -> ('cV[R]_d -> R -> 'cV[R]_d) -> R -> X.

(** One interval. *)
Definition step drift sigma (x : X) (kt : key g * R) : X * (X * coeffs bm) :=
  sde_body drift sigma bm delta ode_int x (0%N, kt).
Arguments step : simpl never.

Lemma scan_step drift sigma x (is_ : seq nat) (kts : seq (key g * R)) : size is_ = size kts ->
  scan (sde_body drift sigma bm delta ode_int) x (zip is_ kts) =
  scan (step drift sigma) x kts.
Proof.
elim: kts is_ x => [|kt kts IH] [|i is_] x //= [Hs].
by rewrite (IH is_) //; case: kt.
Qed.

(** Run over given interval keys from start index [n]. *)
Definition run drift sigma x (keys : seq (key g)) (ts : seq R) := scan (step drift sigma) x (zip keys ts).

Definition grid N := mkseq (fun k => k%:R * delta) N.

Lemma sde_solverE drift sigma k x0 N :
  sde_solver drift sigma bm delta ode_int k x0 N =
  let out := (run drift sigma x0 (split k N) (grid N)).2 in
  (mkseq (fun k => k%:R * delta) N.+1, x0 :: unzip1 out, unzip2 out).
Proof.
rewrite /sde_solver scan_ev_progress /= linspace_grid -linspace_grid but_last_grid scan_step.
  by rewrite /jnp_insert take0 drop0.
by rewrite size_iota size_zip size_split size_mkseq minnn.
Qed.

Lemma run_size drift sigma x keys ts : size keys = size ts ->
  size (run drift sigma x keys ts).2 = size keys.
Proof. by move=> H; rewrite scan_size size_zip H minnn. Qed.

Lemma run_out drift sigma x keys ts :
  last x (unzip1 (run drift sigma x keys ts).2) = (run drift sigma x keys ts).1.
Proof.
rewrite /run; elim: (zip keys ts) x => //= kt kts IH x.
rewrite -IH /=; congr (last _ _).
by rewrite /step /sde_body; case: kt => k t; case: (split2 k).
Qed.

(** Shifting the start time is the same as shifting the coefficients in time. *)
Lemma step_shift drift sigma x k t s :
  step (fun z t => drift z (t + s)) (fun z t => sigma z (t + s)) x (k, t) =
  step drift sigma x (k, t + s).
Proof.
rewrite /step /sde_body; case: (split2 k) => k1 k2.
set vf := fun z _ => _; set vf' := fun z _ => _.
suff -> : vf = vf' by [].
apply: FunctionalExtensionality.functional_extensionality => z.
by apply: FunctionalExtensionality.functional_extensionality => u; rewrite /vf /vf' !addrA.
Qed.

Lemma run_shift drift sigma x keys N s :
  run (fun z t => drift z (t + s)) (fun z t => sigma z (t + s)) x keys (grid N) =
  run drift sigma x keys (mkseq (fun k => k%:R * delta + s) N).
Proof.
rewrite /run /grid /mkseq (@scan_zip_map _ _ _ _ _ (step drift sigma) (fun t => t + s)) -?map_comp //.
by move=> y k t; exact: step_shift.
Qed.
End SdeSolver.

Section Final.
Variables (g : prng) (d m : nat) (X : Type).
Variables (drift : 'cV[R]_d -> R -> 'cV[R]_d) (sigma : 'cV[R]_d -> R -> 'M[R]_(d, m)).
Variables (bm : path_approx g m) (delta : R).
Variable ode_int : key g -> X -> ('cV[R]_d -> R -> 'cV[R]_d) -> R -> X.
Notation solve := (sde_solver drift sigma bm delta ode_int).

Lemma aligned_grids k x0 N :
  let: (ts, traj, cs) := solve k x0 N in
  [/\ ts = mkseq (fun i => i%:R * delta) N.+1, size traj = N.+1, head x0 traj = x0,
      nth x0 traj 0 = x0 & size cs = N].
Proof.
rewrite sde_solverE /= !size_map run_size ?size_split ?size_mkseq //.
Qed.

Lemma interval_ode k x0 N i c0 : (i < N)%N ->
  let: (ts, traj, cs) := solve k x0 N in
  let: (bm_key, sample_key) := split2 (nth k (split k N) i) in
  let c := nth c0 cs i in
  [/\ c = get_coeffs bm bm_key delta &
    nth x0 traj i.+1 = ode_int sample_key (nth x0 traj i)
      (fun z t => drift z (t + i%:R * delta) +
         sigma z (t + i%:R * delta) *m jacR (fun s => eval_fn s delta c) t) delta].
Proof.
move=> Hi; rewrite sde_solverE /=.
set out := (run _ _ _ _ _ _ _ _).2.
have so : size out = N by rewrite /out run_size ?size_split ?size_mkseq.
have sz : size (zip (split k N) (grid delta N)) = N by rewrite size_zip size_split size_mkseq minnn.
have E : nth (x0, c0) out i =
   (step bm delta ode_int drift sigma (nth x0 (x0 :: unzip1 out) i) (nth k (split k N) i, i%:R * delta)).2.
  rewrite /out /run (scan_nth _ _ _ (k, 0)) ?sz // nth_zip ?size_split ?size_mkseq // nth_mkseq //.
  congr (step _ _ _ _ _ _ _).2.
  have := run_out bm delta ode_int drift sigma x0 (take i (split k N)) (take i (grid delta N)).
  rewrite /run -take_zip => <-; rewrite scan_take /unzip1 map_take -/unzip1.
  rewrite -/(run bm delta ode_int drift sigma x0 (split k N) (grid delta N)) -/out.
  by rewrite (last_nth x0) size_take size_map so Hi -[in RHS](cat_take_drop i (unzip1 out)) -cat_cons nth_cat /= size_take size_map so Hi ltnS leqnn.
have E1 : nth x0 (unzip1 out) i = (nth (x0, c0) out i).1 by rewrite (nth_map (x0, c0)) ?so.
have E2 : nth c0 (unzip2 out) i = (nth (x0, c0) out i).2 by rewrite (nth_map (x0, c0)) ?so.
by rewrite E1 E2 E /step /sde_body /=.
Qed.

Lemma causal k k' x0 N N' n : (n <= N)%N -> (n <= N')%N ->
  take n (split k N) = take n (split k' N') ->
  take n.+1 (solve k x0 N).1.2 = take n.+1 (solve k' x0 N').1.2 /\
  take n (solve k x0 N).2 = take n (solve k' x0 N').2.
Proof.
move=> nN nN' E; rewrite !sde_solverE /= /unzip1 /unzip2 -!map_take.
have R1 k1 M : (n <= M)%N -> take n (run bm delta ode_int drift sigma x0 (split k1 M) (grid delta M)).2 =
   (run bm delta ode_int drift sigma x0 (take n (split k1 M)) (grid delta n)).2.
  move=> nM; rewrite /run -scan_take take_zip; congr (scan _ _ (zip _ _)).2.
  by rewrite /grid /mkseq -map_take take_iota (minn_idPl nM).
by rewrite !R1 // E.
Qed.

Lemma restart k k1 k2 x0 n p : split k (n + p) = split k1 n ++ split k2 p ->
  let: (_, traj, cs) := solve k x0 (n + p) in
  let: (_, traj1, cs1) := solve k1 x0 n in
  let: (_, traj2, cs2) := sde_solver (fun z t => drift z (t + n%:R * delta))
       (fun z t => sigma z (t + n%:R * delta)) bm delta ode_int k2 (last x0 traj1) p in
  traj = traj1 ++ behead traj2 /\ cs = cs1 ++ cs2.
Proof.
move=> E; rewrite !sde_solverE; cbn beta iota zeta; rewrite sde_solverE; cbn beta iota zeta.
have L := run_out bm delta ode_int drift sigma x0 (split k1 n) (grid delta n).
rewrite [behead _]/= ![last _ _]/= !L !(run_shift bm delta ode_int drift sigma _ _ _ (n%:R * delta)) E.
have -> : grid delta (n + p) = grid delta n ++ mkseq (fun i => i%:R * delta + n%:R * delta) p.
  rewrite /grid /mkseq iotaD map_cat add0n; congr (_ ++ _).
  rewrite -[X in iota X p]addn0 iotaDl -map_comp; apply: eq_map => i /=.
  by rewrite -mulrDl -natrD addnC.
rewrite /run in L *; rewrite zip_cat ?size_split ?size_mkseq // scan_cat /= L.
by rewrite /unzip1 /unzip2 !map_cat.
Qed.
End Final.

Lemma two_intervals :
  let: (ts, traj, cs) := sde_solver (g := table_prng (fun _ _ => 1)) (d := 1) (m := 1)
     (fun _ _ => 0) (fun _ _ => 1%:M) (get_approx _ 1) 1
     (fun _ x f T => x + T *: f x 0) tt 0 2 in
  nth 0 traj 2 = 2%:R *: const_mx (1 + sqrt 6%:R * sqrt (2%:R^-1)).
Proof.
rewrite sde_solverE /= !jacR_eval ?oner_neq0 // mul0r mulr0 subr0 invr1 scale1r mulr1.
rewrite !mul1mx !add0r !scale1r sqrt_1 scale1r -mulr2n scaler_nat; congr (_ *+ 2).
by apply/colP=> i; rewrite !mxE !mulr1.
Qed.
