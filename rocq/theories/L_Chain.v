(** Markov chains driven by split keys; whole runs of the order 1.5 schemes. *)
From Coq Require Import Reals Lra FunctionalExtensionality.
From Coquelicot Require Import Coquelicot.
From mathcomp Require Import all_ssreflect all_algebra mxtens.
From Verif Require Import Rstruct Base Linalg Lapack Calc Prob Spec M_Utils M_Scheme15 L_Scheme15.

Set Implicit Arguments.
Unset Strict Implicit.
Unset Printing Implicit Defensive.
Import Order.TTheory GRing.Theory Num.Theory.
Local Open Scope ring_scope.

(** ** A chain x_{n+1} = step x_n (key n) *)
Section Chain.
Variables (g : prng) (E F : expectation (key g)) (N : nat).
Hypothesis split_iid : forall G, F (fun k => G (split k N)) = iid E N G.
Variables (d : nat) (step : 'cV[R]_d -> key g -> 'cV[R]_d) (init : 'cV[R]_d).

Definition chain n (k : key g) := foldl step init (take n (split k N)).

Lemma chain0 k : chain 0 k = init.
Proof. by rewrite /chain take0. Qed.

Lemma chainS n k : (n < N)%N -> chain n.+1 k = step (chain n k) (nth k (split k N) n).
Proof. by move=> nN; rewrite /chain (take_nth k) ?size_split // foldl_rcons. Qed.

Lemma chain_expect (f : 'cV[R]_d -> R) n : (n <= N)%N ->
  F (fun k => f (chain n k)) = iid E n (fun ws => f (foldl step init ws)).
Proof.
move=> nN; rewrite -(iid_take E n (N - n)) subnKC // -split_iid; exact: E_ext.
Qed.

Lemma chain_EmxS p q (f : 'cV[R]_d -> 'M[R]_(p, q)) n : (n < N)%N ->
  Emx F (fun k => f (chain n.+1 k)) = Emx F (fun k => Emx E (fun w => f (step (chain n k) w))).
Proof.
move=> nN; apply/matrixP=> i j; rewrite !mxE.
rewrite (chain_expect (fun x => f x i j)) // iid_rcons.
transitivity (F (fun k => E (fun w => f (step (chain n k) w) i j))); last first.
  by apply: E_ext => k; rewrite mxE.
rewrite (chain_expect (fun x => E (fun w => f (step x w) i j)) (ltnW nN)).
by apply: iid_ext => ws _; apply: E_ext => w; rewrite foldl_rcons.
Qed.

Variables (A C : 'M[R]_d) (b : key g -> 'cV[R]_d).
Hypotheses (stepE : forall x w, step x w = A *m x + b w) (b0 : Emx E b = 0)
  (b2 : Emx E (fun w => b w *m (b w)^T) = C).
Let mean n := mxpow A n *m init.
Let cov n := Emx F (fun k => (chain n k - mean n) *m (chain n k - mean n)^T).

Lemma chain_moments :
  [/\ forall n, (n <= N)%N -> Emx F (chain n) = mean n, cov 0%N = 0 &
      forall n, (n < N)%N -> cov n.+1 = A *m cov n *m A^T + C].
Proof.
have H n : (n <= N)%N -> Emx F (chain n) = mean n.
  elim: n => [|n IH] nN.
    rewrite (@Emx_ext _ _ _ _ _ (fun _ => init)) ?Emx_const /mean ?mul1mx // => k; exact: chain0.
  rewrite (chain_EmxS id nN) (@Emx_ext _ _ _ _ _ (fun k => A *m chain n k)).
    by rewrite Emx_mull IH ?(ltnW nN) // /mean /mxpow iterS mulmxA.
  move=> k; rewrite (@Emx_ext _ _ _ _ _ (fun w => A *m chain n k + b w)) => [|w]; last by rewrite stepE.
  by rewrite EmxD Emx_const b0 addr0.
split=> // [|n nN].
  rewrite /cov (@Emx_ext _ _ _ _ _ (fun _ => 0)) ?Emx_const // => k.
  by rewrite chain0 /mean mul1mx subrr mul0mx.
rewrite /cov (chain_EmxS (fun x => (x - mean n.+1) *m (x - mean n.+1)^T) nN).
rewrite (@Emx_ext _ _ _ _ _ (fun k => A *m ((chain n k - mean n) *m (chain n k - mean n)^T) *m A^T + C)).
  by rewrite EmxD Emx_const Emx_mulr Emx_mull.
move=> k; set y := A *m (chain n k - mean n).
have yE w : step (chain n k) w - mean n.+1 = y + b w.
  by rewrite stepE /y mulmxBr addrAC /mean /mxpow iterS mulmxA.
rewrite (@Emx_ext _ _ _ _ _ (fun w => y *m y^T + b w *m y^T + (y *m (b w)^T + b w *m (b w)^T))); last first.
  by move=> w; rewrite yE linearD /= mulmxDr !mulmxDl !addrA [_ + b w *m y^T + _]addrAC.
rewrite EmxD [X in X + _]EmxD Emx_const Emx_mulr b0 mul0mx addr0.
by rewrite EmxD Emx_mull EmxT b0 trmx0 mulmx0 add0r b2 /y trmx_mul !mulmxA.
Qed.
End Chain.

(** ** Runs of a body that returns its carry *)
Lemma run_states (g : prng) S (body : res S -> key g -> res S * res S) (init : S) (ks : seq (key g)) (k0 : key g) :
  (forall x k, (body x k).2 = (body x k).1) ->
  let xs := jnp_insert (scan body (Val init) ks).2 0 (Val init) in
  [/\ size xs = (size ks).+1, nth Nan xs 0 = Val init &
      forall i, (i < size ks)%N -> nth Nan xs i.+1 = (body (nth Nan xs i) (nth k0 ks i)).1].
Proof.
move=> B xs; have xsE : xs = Val init :: (scan body (Val init) ks).2 by rewrite /xs /jnp_insert take0 drop0.
rewrite xsE; split=> //; first by rewrite /= scan_size.
move=> i il; rewrite /= (scan_nth _ _ _ k0) // B; congr (body _ _).1.
case: i il => [|i] il; first by rewrite take0.
rewrite /= (scan_nth _ _ _ k0) ?(ltnW il) // B.
by rewrite (take_nth k0) ?(ltnW il) // scan_rcons.
Qed.

(** ** The two schemes *)
Lemma diag15_run (lp : lapack) (g : prng) d (a : 'cV[R]_d -> 'cV[R]_d) (s : 'cV[R]_d -> 'M[R]_d) (h : R)
  (k : key g) init N :
  let r := diag15 lp a s h k init N in let xs := r.2 in
  [/\ r.1 = mkseq (fun i => i%:R * h) N.+1, size xs = N.+1, nth Nan xs 0 = Val init &
    forall i, (i < N)%N -> let ki := nth k (split k N) i in
      nth Nan xs i.+1 = let! x := nth Nan xs i in
                        let! z := mvn lp (nth ki (split ki 1) 0) (0 : 'cV[R]_(d + d)) (diag15_cov d h) in
                        Val (diag15_step a s h x (usubmx z) (dsubmx z))].
Proof.
rewrite /diag15 linspace_grid.
have [|] := @run_states g _ (@diag15_body lp g d a s h) init (split k N) k => //.
by rewrite size_split => E1 E2 E3; split.
Qed.

Lemma hypo15_run (lp : lapack) (g : prng) d m (a : 'cV[R]_(1 + d) -> 'cV[R]_(1 + d))
  (s : 'cV[R]_(1 + d) -> 'M[R]_(1 + d, m)) (h : R) (k : key g) init N :
  let r := hypo15 lp a s h k init N in let xs := r.2 in
  [/\ r.1 = mkseq (fun i => i%:R * h) N.+1, size xs = N.+1, nth Nan xs 0 = Val init &
    forall i, (i < N)%N -> let ki := nth k (split k N) i in
      nth Nan xs i.+1 = let! x := nth Nan xs i in
                        let! e := mvn lp (nth ki (split ki 1) 0) (0 : 'cV[R]_(1 + d)) (hypo_cov a s h x) in
                        Val (x + h *: a x + (h ^+ 2 / 2%:R) *: generator a s a x + e)].
Proof.
rewrite /hypo15 linspace_grid.
have [|] := @run_states g _ (@hypo_body lp g d m a s h) init (split k N) k => //.
rewrite size_split => E1 E2 E3; split; [by []|by []|by []|move=> i iN; cbv zeta; rewrite E3 //].
case: (nth Nan _ i) => // x; rewrite /hypo_body; cbn [rbind fst].
by case: (mvn _ _ _ _) => // e; cbn [rbind]; rewrite hypo_generator.
Qed.

Definition oval d (r : res 'cV[R]_d) : 'cV[R]_d := if r is Val y then y else 0.

Section Moments15.
Variables (lp : lapack) (g : prng) (E F : expectation (key g)) (N : nat).
Hypothesis split_iid : forall G, F (fun k => G (split k N)) = iid E N G.
Let bmk (k : key g) := nth k (split k 1) 0.

Lemma run_chain d (xs : key g -> seq (res 'cV[R]_d)) (step : 'cV[R]_d -> key g -> 'cV[R]_d) init :
  (forall k, nth Nan (xs k) 0 = Val init) ->
  (forall k i x, (i < N)%N -> nth Nan (xs k) i = Val x -> nth Nan (xs k) i.+1 = Val (step x (nth k (split k N) i))) ->
  forall n k, (n <= N)%N -> nth Nan (xs k) n = Val (chain N step init n k).
Proof.
move=> X0 XS n k; elim: n => [|n IH] nN; first by rewrite X0 chain0.
by rewrite (XS _ _ _ nN (IH (ltnW nN))) chainS.
Qed.

Lemma diag15_moments d (M s : 'M[R]_d) (h : R) init :
  standard E (fun k => normal (bmk k) (d + d)) ->
  0 < h -> (forall i j, i != j -> (s *m s^T) i j = 0) ->
  let A := 1%:M + h *: M + (h ^+ 2 / 2%:R) *: (M *m M) in
  let B := row_mx (M *m s) s in
  let xs k := (diag15 lp (fun z => M *m z) (fun _ => s) h k init N).2 in
  let x n k := oval (nth Nan (xs k) n) in
  let mean n := mxpow A n *m init in
  let cov n := Emx F (fun k => (x n k - mean n) *m (x n k - mean n)^T) in
  (forall n k, (n <= N)%N -> nth Nan (xs k) n = Val (x n k)) /\
  [/\ forall n, (n <= N)%N -> Emx F (x n) = mean n, cov 0%N = 0 &
      forall n, (n < N)%N -> cov n.+1 = A *m cov n *m A^T + B *m brownian_cov d h *m B^T].
Proof.
move=> std h0 D A B xs x mean cov.
have [L [EL _ _ LL]] := cholP lp ((diag15_cov_pd d h).2 (or_introl h0)).
pose b k := B *m (L *m normal (bmk k) (d + d)).
pose step z k := A *m z + b k.
have H n k : (n <= N)%N -> nth Nan (xs k) n = Val (chain N step init n k).
  apply: run_chain => [k0|k0 i z iN Ez].
    by have := diag15_run lp (fun z => M *m z) (fun _ => s) h k0 init N; case.
  have [_ _ _ /(_ _ iN)] := diag15_run lp (fun z => M *m z) (fun _ => s) h k0 init N; rewrite -/(xs k0) => ->.
  rewrite Ez; cbn [rbind]; rewrite /mvn /cholesky EL /= add0r.
  set z2 := L *m _; congr Val; rewrite diag15_additive //.
  have := diag15_linear M h z D; rewrite diag15_additive // !mulmx0 !addr0 /step => <-.
  rewrite /b -/z2 -[z2 in RHS]vsubmxK mul_row_col jac_mul !addrA.
  by rewrite -!addrA; congr (_ + (_ + _)); rewrite addrCA; congr (_ + _); rewrite addrC.
have xE n k : (n <= N)%N -> x n k = chain N step init n k by move=> nN; rewrite /x H.
split; first by move=> n k nN; rewrite H // xE.
have b0 : Emx E b = 0 by rewrite Emx_mull Emx_mull std.1 !mulmx0.
have b2 : Emx E (fun w => b w *m (b w)^T) = B *m brownian_cov d h *m B^T.
  rewrite (@Emx_ext _ _ _ _ _ (fun w => (B *m L) *m (normal (bmk w) (d + d) *m (normal (bmk w) (d + d))^T) *m (B *m L)^T)).
    by rewrite Emx_mulr Emx_mull std.2 mulmx1 trmx_mul !mulmxA -[B *m L *m L^T]mulmxA LL diag15_covE // ltW.
  by move=> w; rewrite /b !trmx_mul !mulmxA.
have [C1 C2 C3] := @chain_moments g E F N split_iid d step init A _ b (fun _ _ => erefl) b0 b2.
split.
- by move=> n nN; rewrite /mean -C1 //; apply: Emx_ext => k; rewrite xE.
- by rewrite -[RHS]C2; apply: Emx_ext => k; rewrite xE.
- move=> n nN.
  have cE i : (i <= N)%N -> cov i = Emx F (fun k => (chain N step init i k - mean i) *m (chain N step init i k - mean i)^T).
    by move=> iN; apply: Emx_ext => k; rewrite xE.
  by rewrite (cE _ nN) (cE _ (ltnW nN)) C3.
Qed.

Lemma hypo15_moments d m (M : 'M[R]_(1 + d)) (s : 'M[R]_(1 + d, m)) (h : R) init :
  standard E (fun k => normal (bmk k) (1 + d)) ->
  let p : 'rV[R]_d := \row_j M 0 (rshift 1 j) in let G : 'M[R]_(d, m) := dsubmx s in
  0 < h -> row_free G -> p != 0 ->
  let A := 1%:M + h *: M + (h ^+ 2 / 2%:R) *: (M *m M) in
  let B : 'M[R]_(1 + d, m + m) := block_mx (p *m G) 0 0 G in
  let xs k := (hypo15 lp (fun z => M *m z) (fun _ => s) h k init N).2 in
  let x n k := oval (nth Nan (xs k) n) in
  let mean n := mxpow A n *m init in
  let cov n := Emx F (fun k => (x n k - mean n) *m (x n k - mean n)^T) in
  (forall n k, (n <= N)%N -> nth Nan (xs k) n = Val (x n k)) /\
  [/\ forall n, (n <= N)%N -> Emx F (x n) = mean n, cov 0%N = 0 &
      forall n, (n < N)%N -> cov n.+1 = A *m cov n *m A^T + B *m brownian_cov m h *m B^T].
Proof.
move=> std p G h0 rG p0 A B xs x mean cov.
have gE z : (\row_j pderiv (fun y => (M *m y) 0 0) (rshift 1 j) z : 'rV[R]_d) = p.
  apply/rowP=> j; rewrite !mxE.
  by have /matrixP/(_ 0 (rshift 1 j)) := jac_mul M z; rewrite mxE.
have CE z : hypo_cov (fun y => M *m y) (fun _ => s) h z = B *m brownian_cov m h *m B^T.
  have [e _] := hypo_cov_brownian (fun y => M *m y) (fun _ => s) z (ltW h0).
  have pE := gE z; rewrite e /B /G -pE; by [].
have pC : pd (B *m brownian_cov m h *m B^T).
  by rewrite -(CE 0); apply/hypo_pd; split=> //; rewrite /rough_grad gE.
have [L [EL _ _ LL]] := cholP lp pC.
pose b k := L *m normal (bmk k) (1 + d).
pose step z k := A *m z + b k.
have H n k : (n <= N)%N -> nth Nan (xs k) n = Val (chain N step init n k).
  apply: run_chain => [k0|k0 i z iN Ez].
    by have := hypo15_run lp (fun z => M *m z) (fun _ => s) h k0 init N; case.
  have [_ _ _ /(_ _ iN)] := hypo15_run lp (fun z => M *m z) (fun _ => s) h k0 init N; rewrite -/(xs k0) => ->.
  rewrite Ez; cbn [rbind]; rewrite /mvn /cholesky CE EL /= add0r.
  rewrite -hypo_generator.
  have := hypo_linear M (fun _ => s) h z; rewrite /step -/A => <-.
  by rewrite !hypo_generator addr0.
have xE n k : (n <= N)%N -> x n k = chain N step init n k by move=> nN; rewrite /x H.
split; first by move=> n k nN; rewrite H // xE.
have b0 : Emx E b = 0 by rewrite Emx_mull std.1 mulmx0.
have b2 : Emx E (fun w => b w *m (b w)^T) = B *m brownian_cov m h *m B^T.
  rewrite (@Emx_ext _ _ _ _ _ (fun w => L *m (normal (bmk w) (1 + d) *m (normal (bmk w) (1 + d))^T) *m L^T)).
    by rewrite Emx_mulr Emx_mull std.2 mulmx1 LL.
  by move=> w; rewrite /b !trmx_mul !mulmxA.
have [C1 C2 C3] := @chain_moments g E F N split_iid _ step init A _ b (fun _ _ => erefl) b0 b2.
split.
- by move=> n nN; rewrite /mean -C1 //; apply: Emx_ext => k; rewrite xE.
- by rewrite -[RHS]C2; apply: Emx_ext => k; rewrite xE.
- move=> n nN.
  have cE i : (i <= N)%N -> cov i = Emx F (fun k => (chain N step init i k - mean i) *m (chain N step init i k - mean i)^T).
    by move=> iN; apply: Emx_ext => k; rewrite xE.
  by rewrite (cE _ nN) (cE _ (ltnW nN)) C3.
Qed.

Lemma diag15_law d (M s : 'M[R]_d) (h : R) init :
  standard E (fun k => normal (bmk k) (d + d)) ->
  0 < h -> (forall i j, i != j -> (s *m s^T) i j = 0) ->
  let A := 1%:M + h *: M + (h ^+ 2 / 2%:R) *: (M *m M) in
  let B := row_mx (M *m s) s in
  let mean n := mxpow A n *m init in
  exists2 x : nat -> key g -> 'cV[R]_d,
    forall n k, (n <= N)%N -> nth Nan (diag15 lp (fun z => M *m z) (fun _ => s) h k init N).2 n = Val (x n k) &
  let cov n := Emx F (fun k => (x n k - mean n) *m (x n k - mean n)^T) in
  [/\ forall n, (n <= N)%N -> Emx F (x n) = mean n, cov 0%N = 0 &
      forall n, (n < N)%N -> cov n.+1 = A *m cov n *m A^T + B *m brownian_cov d h *m B^T].
Proof. by move=> std h0 D A B mean; have [H1 H2] := diag15_moments M init std h0 D; eexists; [exact: H1 | exact: H2]. Qed.

Lemma hypo15_law d m (M : 'M[R]_(1 + d)) (s : 'M[R]_(1 + d, m)) (h : R) init :
  standard E (fun k => normal (bmk k) (1 + d)) ->
  let p : 'rV[R]_d := \row_j M 0 (rshift 1 j) in let G : 'M[R]_(d, m) := dsubmx s in
  0 < h -> row_free G -> p != 0 ->
  let A := 1%:M + h *: M + (h ^+ 2 / 2%:R) *: (M *m M) in
  let B : 'M[R]_(1 + d, m + m) := block_mx (p *m G) 0 0 G in
  let mean n := mxpow A n *m init in
  exists2 x : nat -> key g -> 'cV[R]_(1 + d),
    forall n k, (n <= N)%N -> nth Nan (hypo15 lp (fun z => M *m z) (fun _ => s) h k init N).2 n = Val (x n k) &
  let cov n := Emx F (fun k => (x n k - mean n) *m (x n k - mean n)^T) in
  [/\ forall n, (n <= N)%N -> Emx F (x n) = mean n, cov 0%N = 0 &
      forall n, (n < N)%N -> cov n.+1 = A *m cov n *m A^T + B *m brownian_cov m h *m B^T].
Proof. by move=> std p G h0 rG p0 A B mean; have [H1 H2] := hypo15_moments init std h0 rG p0; eexists; [exact: H1 | exact: H2]. Qed.
End Moments15.

Lemma stepkey_split1 n : standard (stepkeyE n) (fun k => normal (nth k (split (k : key tree_prng) 1) 0 : key tree_prng) n).
Proof.
have [H1 H2] := signkey_standard1 n; split; [rewrite -[RHS]H1|rewrite -[RHS]H2];
  by apply/matrixP=> i j; rewrite !mxE; apply: (@E_ext _ (signkeyE 1 n)).
Qed.
