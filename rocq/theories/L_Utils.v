(** Lemmas on array layout and the progress bar. *)
From Coq Require Import Reals.
From mathcomp Require Import all_ssreflect all_algebra mxtens.
From Verif Require Import Rstruct Base Linalg Spec M_Utils.

Set Implicit Arguments.
Unset Strict Implicit.
Unset Printing Implicit Defensive.
Import Order.TTheory GRing.Theory Num.Theory.
Local Open Scope ring_scope.

Section Interlace.
Variables (T : Type) (x0 : T).

Lemma flatten_grid (g : nat -> nat -> T) d n :
  flatten (mkseq (fun k => mkseq (g k) n) d) =
  mkseq (fun p => g (p %/ n)%N (p %% n)%N) (d * n).
Proof.
elim: d => [|d IH]; first by rewrite mul0n.
rewrite /mkseq -addn1 iotaD map_cat flatten_cat /= cats0 add0n -!/(mkseq _ _).
rewrite IH mulnDl mul1n /mkseq iotaD map_cat; congr (_ ++ _).
rewrite add0n -[in RHS](addn0 (d * n)%N) iotaDl -map_comp; apply/eq_in_map => i.
rewrite mem_iota add0n /= => Hi.
by rewrite divnMDl ?divn_small ?addn0 ?modnMDl ?modn_small //; apply: leq_ltn_trans Hi.
Qed.

Lemma reshapeFE d (arrays : seq (seq T)) : arrays <> [::] ->
  (forall a, List.In a arrays -> size a = d) ->
  reshapeF x0 arrays =
  mkseq (fun p => nth x0 (nth [::] arrays (p %% size arrays)) (p %/ size arrays)) (d * size arrays).
Proof.
move=> ne Hs; rewrite /reshapeF.
have -> : size (nth [::] arrays 0) = d by case: arrays ne Hs => // a l _ Hs; apply: Hs; left.
rewrite -(flatten_grid (fun k i => nth x0 (nth [::] arrays i) k)).
congr flatten; apply: eq_map => k.
by rewrite -{1}(mkseq_nth [::] arrays) /mkseq -map_comp.
Qed.

Lemma all_size d (arrays : seq (seq T)) :
  (forall a, List.In a arrays -> size a = d) -> all (fun b => size b == d) arrays.
Proof.
elim: arrays => //= a l IH H; rewrite (H a) ?eqxx /=; last by left.
by apply: IH => b Hb; apply: H; right.
Qed.

Lemma interlaceE d (arrays : seq (seq T)) : arrays <> [::] ->
  (forall a, List.In a arrays -> size a = d) ->
  interlace x0 arrays =
  Val (mkseq (fun p => nth x0 (nth [::] arrays (p %% size arrays)) (p %/ size arrays)) (d * size arrays)).
Proof.
move=> ne Hs; rewrite -reshapeFE // /interlace /vstack.
case: arrays ne Hs => // a l ne Hs.
by rewrite (Hs a); [rewrite all_size|left].
Qed.

Lemma interlace_reject (arrays : seq (seq T)) a b :
  List.In a arrays -> List.In b arrays -> size a <> size b ->
  interlace x0 arrays = Raise TypeError.
Proof.
case: arrays => // c l Ha Hb ab; rewrite /interlace /vstack.
case: ifP => // Hall; case: ab.
have H z : List.In z (c :: l) -> size z = size c.
  move: Hall; elim: (c :: l) => //= y t IH /andP [/eqP Hy Ht] [<- //|Hz].
  exact: IH.
by rewrite (H a) // (H b).
Qed.

Lemma stride_mkseq (f : nat -> T) d n i : (i < n)%N ->
  stride i n (mkseq f (d * n)) = mkseq (fun k => f (k * n + i)%N) d.
Proof.
move=> Hi; rewrite /stride size_mkseq.
elim: d => [|d IH]; first by rewrite mul0n.
rewrite -addn1 mulnDl mul1n /mkseq !iotaD !map_cat mask_cat ?size_map ?size_iota //.
rewrite -!/(mkseq _ _) IH add0n /=; congr (_ ++ _).
rewrite -(addn0 (d * n)%N) iotaDl -!map_comp.
have -> : [seq ((fun p => (p %% n == i)%N) \o addn (d * n)) p | p <- iota 0 n] =
          [seq (p == i) | p <- iota 0 n].
  apply/eq_in_map => p; rewrite mem_iota /= => Hp.
  by rewrite modnMDl modn_small.
rewrite -map_mask.
have -> : mask [seq p == i | p <- iota 0 n] (iota 0 n) = [:: i]; last by rewrite /= addn0.
rewrite -filter_mask.
have := filter_pred1_uniq (iota_uniq 0 n) (_ : i \in iota 0 n).
by apply; rewrite mem_iota.
Qed.
End Interlace.

(** The vector-level [interl] used by the solvers is [interlace]. *)
Lemma entries_nth n (x : 'cV[R]_n) (i : 'I_n) : nth 0 (entries x) i = x i 0.
Proof. by rewrite /entries (nth_map i) ?size_enum_ord // nth_ord_enum. Qed.
Lemma size_entries n (x : 'cV[R]_n) : size (entries x) = n.
Proof. by rewrite size_map size_enum_ord. Qed.

Lemma mxtens_index_val m n (i : 'I_m) (j : 'I_n) : mxtens_index (i, j) = (i * n + j)%N :> nat.
Proof. by []. Qed.

Lemma interlace_interl d n (f : 'I_n -> 'cV[R]_d) : (0 < n)%N ->
  interlace 0 [seq entries (f i) | i <- enum 'I_n] = Val (entries (interl f)).
Proof.
move=> n0; rewrite (@interlaceE _ _ d); first last.
- by move=> a /List.in_map_iff [i [<- _]]; rewrite size_entries.
- by move=> /(congr1 size); rewrite size_map size_enum_ord /= => E; rewrite E in n0.
congr Val; rewrite size_map size_enum_ord.
apply: (@eq_from_nth _ 0); first by rewrite size_mkseq size_entries.
move=> p; rewrite size_mkseq => Hp; rewrite nth_mkseq //.
have Hm : (p %% n < n)%N by rewrite ltn_pmod.
have Hd : (p %/ n < d)%N by rewrite ltn_divLR.
rewrite (nth_map (Ordinal Hm)) ?size_enum_ord // (nth_ord_enum _ (Ordinal Hm)).
rewrite (entries_nth _ (Ordinal Hd)) (entries_nth _ (Ordinal Hp)) mxE.
have -> : Ordinal Hp = mxtens_index (Ordinal Hd, Ordinal Hm).
  by apply: val_inj; rewrite /= -divn_eq.
by rewrite mxtens_indexK.
Qed.

(** ** interlace_matrix *)
Lemma mxgetE m n (M : 'M[R]_(m, n)) (i : 'I_m) (j : 'I_n) : mxget M i j = M i j.
Proof. by rewrite /mxget !valK. Qed.

Lemma block2_ul d v w x y (k l : 'I_d) : block2 d v w x y k l = v k l.
Proof. by rewrite /block2 !ltn_ord. Qed.
Lemma block2_ur d v w x y (k l : 'I_d) : block2 d v w x y k (d + l)%N = w k l.
Proof. by rewrite /block2 ltn_ord ltnNge leq_addr /= addKn. Qed.
Lemma block2_dl d v w x y (k l : 'I_d) : block2 d v w x y (d + k)%N l = x k l.
Proof. by rewrite /block2 ltn_ord ltnNge leq_addr /= addKn. Qed.
Lemma block2_dr d v w x y (k l : 'I_d) : block2 d v w x y (d + k)%N (d + l)%N = y k l.
Proof. by rewrite /block2 !ltnNge !leq_addr /= !addKn. Qed.

Lemma mod2 (k : nat) (i : 'I_2) : ((k * 2 + i) %% 2 = i)%N.
Proof. by rewrite modnMDl modn_small. Qed.
Lemma div2 (k : nat) (i : 'I_2) : ((k * 2 + i) %/ 2 = k)%N.
Proof. by rewrite divnMDl // divn_small ?addn0. Qed.

Lemma interlace_matrixE d (v w x y : 'M[R]_d) (i j : 'I_2) (k l : 'I_d) :
  interlace_matrix v w x y (mxtens_index (k, i)) (mxtens_index (l, j)) =
  if i == 0 then (if j == 0 then v k l else w k l)
  else (if j == 0 then x k l else y k l).
Proof.
rewrite mxE /set_stride2 !mxtens_index_val !mod2 !div2.
case: i => -[|[|i]] //= Hi; case: j => -[|[|j]] //= Hj; rewrite /sub2 ?add0n.
- by rewrite block2_ul mxgetE.
- by rewrite block2_ur mxgetE.
- by rewrite block2_dl mxgetE.
- by rewrite block2_dr mxgetE.
Qed.

Lemma ord2P (i : 'I_2) : i = 0 \/ i = 1.
Proof. by case: i => -[|[|i]] // H; [left|right]; apply: val_inj. Qed.

Lemma interlace_matrix_slices d (v w x y : 'M[R]_d) :
  [/\ slice2 0 0 (interlace_matrix v w x y) = v,
      slice2 0 1 (interlace_matrix v w x y) = w,
      slice2 1 0 (interlace_matrix v w x y) = x &
      slice2 1 1 (interlace_matrix v w x y) = y].
Proof. by split; apply/matrixP=> k l; rewrite mxE interlace_matrixE. Qed.


Lemma interlace_matrix_outer d (a b c e : 'cV[R]_d) :
  interlace_matrix (a *m c^T) (a *m e^T) (b *m c^T) (b *m e^T) =
  interl (pair2 a b) *m (interl (pair2 c e))^T.
Proof.
apply/matrixP=> p q; rewrite -(mxtens_unindexK p) -(mxtens_unindexK q).
case: (mxtens_unindex p) => k i; case: (mxtens_unindex q) => l j.
rewrite interlace_matrixE [RHS]mxE big_ord1 trmxE !interlE /pair2.
by case: ifP; case: ifP; rewrite mxE big_ord1 !mxE.
Qed.

Lemma qf_interlace_matrix d (v w x y : 'M[R]_d) (a b : 'cV[R]_d) :
  qf (interlace_matrix v w x y) (interl (pair2 a b)) =
  qf (block_mx v w x y) (col_mx a b).
Proof.
rewrite [RHS]/qf tr_col_mx mul_row_block mul_row_col !mulmxDl !addmxE.
rewrite qfE sum_mxtens.
under eq_bigr => k _ do under eq_bigr => i _ do rewrite sum_mxtens.
have E k i l j : interl (pair2 a b) (mxtens_index (k, i)) 0 *
    interlace_matrix v w x y (mxtens_index (k, i)) (mxtens_index (l, j)) *
    interl (pair2 a b) (mxtens_index (l, j)) 0 =
    pair2 a b i k 0 * (if i == 0 then (if j == 0 then v k l else w k l)
        else (if j == 0 then x k l else y k l)) * pair2 a b j l 0.
  by rewrite interlace_matrixE !interlE.
under eq_bigr => k _ do under eq_bigr => i _ do under eq_bigr => l _ do
  under eq_bigr => j _ do rewrite E.
under eq_bigr => k _.
  rewrite big_ord_recl big_ord1.
  under eq_bigr => l _ do rewrite big_ord_recl big_ord1 /=.
  under [X in _ + X]eq_bigr => l _ do rewrite big_ord_recl big_ord1 /=.
  rewrite !big_split /=.
  over.
rewrite !big_split /= /pair2 /=.
have S (u z : 'cV[R]_d) (M : 'M[R]_d) : (u^T *m M *m z) 0 0 = \sum_k \sum_l u k 0 * M k l * z l 0.
  rewrite mxE exchange_big /=; apply: eq_bigr => l _.
  by rewrite !mxE big_distrl /=; apply: eq_bigr => k _; rewrite !mxE.
by rewrite !S -!addrA; congr (_ + _); rewrite addrCA.
Qed.

Lemma interl_pair2 d (z : 'cV[R]_(d * 2)) : z = interl (pair2 (slice 0 z) (slice 1 z)).
Proof.
rewrite -[LHS]interl_slice; apply/colP=> p; rewrite !mxE /pair2.
by case: (ord2P (mxtens_unindex p).2) => -> /=; rewrite mxE.
Qed.

Lemma interlace_matrix_psd d (v w x y : 'M[R]_d) :
  psd (block_mx v w x y) -> psd (interlace_matrix v w x y).
Proof.
move=> [sB pB]; split; last by move=> z; rewrite [z]interl_pair2 qf_interlace_matrix.
have := sB; rewrite /sym tr_block_mx => /eq_block_mx [sv sx sw sy].
apply/matrixP=> p q; rewrite mxE -(mxtens_unindexK p) -(mxtens_unindexK q).
case: (mxtens_unindex p) => k i; case: (mxtens_unindex q) => l j.
rewrite !interlace_matrixE.
case: (i == 0); case: (j == 0).
- by rewrite -{1}sv mxE.
- by rewrite -sx mxE.
- by rewrite -sw mxE.
- by rewrite -{1}sy mxE.
Qed.

(** ** Progress bar *)
Lemma scan_ev_progress S I O N (f : S -> nat * I -> S * O) s xs :
  scan_ev (progress_bar N f) s xs =
  (scan f s xs, flatten [seq update_events N x.1 ++ close_events N x.1 | x <- xs]).
Proof.
elim: xs s => //= -[i x] xs IH s /=; rewrite IH /=; congr (_, _).
Qed.

(** Events of a run over iterations 0 .. k-1. *)
Definition run_events N k := flatten [seq update_events N i ++ close_events N i | i <- iota 0 k].


Lemma ev_total_cat a b : ev_total (a ++ b) = (ev_total a + ev_total b)%N.
Proof. by rewrite /ev_total map_cat sumn_cat. Qed.

Lemma run_eventsS N k : run_events N k.+1 = run_events N k ++ update_events N k ++ close_events N k.
Proof. by rewrite /run_events -addn1 iotaD map_cat flatten_cat /= cats0 add0n. Qed.

Lemma print_rate_gt0 N : (0 < print_rate N)%N.
Proof. by rewrite /print_rate; case: ifP => // H; rewrite divn_gt0 // ltnW. Qed.

Lemma close_total N k : ev_total (close_events N k) = 0%N.
Proof. by rewrite /close_events; case: ifP. Qed.

Lemma update_total N k : ev_total (update_events N k) =
  if (k == N - remainder N)%N then remainder N
  else if (k %% print_rate N == 0)%N then print_rate N else 0%N.
Proof.
rewrite /update_events !ev_total_cat.
have -> : ev_total (if k == 0%N then [:: Define] else [::]) = 0%N by case: ifP.
case: (k == N - remainder N)%N => /=; first by rewrite andbF /ev_total /= addn0.
by rewrite andbT; case: ifP => _; rewrite /ev_total /= ?addn0.
Qed.

Lemma remainder_le N : (remainder N <= N)%N.
Proof. by rewrite /remainder leq_mod. Qed.
Lemma remainder_lt N : (remainder N < print_rate N)%N.
Proof. by rewrite /remainder ltn_pmod // print_rate_gt0. Qed.
Lemma rate_dvd N : (print_rate N %| N - remainder N)%N.
Proof.
rewrite /remainder; set r := print_rate N.
by rewrite {1}(divn_eq N r) addnK dvdn_mull.
Qed.

Lemma dvdn_gap r k T : (r %| k)%N -> (r %| T)%N -> (k <= T)%N -> (T < k + r)%N -> T = k.
Proof.
move=> rk rT kT TK; apply/eqP; rewrite eqn_leq kT andbT -subn_eq0.
have : (r %| T - k)%N by rewrite dvdn_sub.
by case: (posnP (T - k)) => [->//|H]; rewrite gtnNdvd // ltn_subLR.
Qed.

Lemma run_total_low N k : (k <= N - remainder N)%N ->
  [/\ (print_rate N %| ev_total (run_events N k))%N, (k <= ev_total (run_events N k))%N &
      (ev_total (run_events N k) < k + print_rate N)%N].
Proof.
elim: k => [|k IH] Hk; first by rewrite /= /run_events /= dvdn0 print_rate_gt0.
have [rT kT TK] := IH (ltnW Hk).
rewrite run_eventsS 2!ev_total_cat close_total addn0 update_total ltn_eqF //.
set T := ev_total _ in rT kT TK *; set r := print_rate N in rT TK *.
case: ifP => [/eqP k0|/negbT k0].
  have -> : T = k by apply: (@dvdn_gap r) => //; rewrite /dvdn k0.
  by rewrite dvdn_add ?dvdnn /dvdn ?k0 // -[k.+1]addn1 leq_add2l print_rate_gt0 addnAC addn1 ltnS.
rewrite addn0 rT; split=> //.
- by rewrite ltn_neqAle kT andbT; apply: contra k0 => /eqP ->.
- by rewrite addSn ltnS ltnW.
Qed.

Lemma run_total_mid N : ev_total (run_events N (N - remainder N)) = (N - remainder N)%N.
Proof.
have [rT kT TK] := run_total_low (leqnn (N - remainder N)).
exact: (@dvdn_gap (print_rate N)) (rate_dvd N) rT kT TK.
Qed.

Lemma run_total_high N k : (N - remainder N < k <= N)%N -> ev_total (run_events N k) = N.
Proof.
elim: k => // k IH /andP [Hk HkN].
rewrite run_eventsS 2!ev_total_cat close_total addn0 update_total.
move: Hk; rewrite ltnS leq_eqVlt => /orP [/eqP <-|Hk].
  by rewrite eqxx run_total_mid subnK // remainder_le.
rewrite gtn_eqF // IH ?Hk ?(ltnW HkN) //.
case: ifP => [/eqP k0|_]; last by rewrite addn0.
exfalso; have E : k = (N - remainder N)%N.
  apply: (@dvdn_gap (print_rate N)); rewrite ?rate_dvd ?(ltnW Hk) //; first by rewrite /dvdn k0.
  apply: leq_trans HkN _; rewrite -{1}(subnK (remainder_le N)) leq_add2l.
  by rewrite ltnW // remainder_lt.
by rewrite E ltnn in Hk.
Qed.

Lemma run_total N : ev_total (run_events N N) = N.
Proof.
case: (posnP (remainder N)) => [r0|r0]; first by have := run_total_mid N; rewrite r0 subn0.
by apply: run_total_high; rewrite leqnn andbT ltn_subrL r0 (leq_trans r0 (remainder_le N)).
Qed.

(** After iteration [k] the bar shows at least [k+1], at most [N]. *)
Lemma run_total_bounds N k : (k < N)%N -> (k < ev_total (run_events N k.+1) <= N)%N.
Proof.
move=> Hk; case: (leqP k.+1 (N - remainder N)) => H; last by rewrite run_total_high ?H ?Hk ?leqnn.
have [rT kT TK] := run_total_low H; rewrite kT /=.
apply: leq_trans (leq_subr (remainder N) N).
case: (leqP (ev_total (run_events N k.+1)) (N - remainder N)) => // L.
have := rate_dvd N; move: rT H TK L; set T := ev_total _; set M := (N - remainder N)%N.
move=> rT H TK L rM; exfalso.
have : T = M; last by move=> E; rewrite E ltnn in L.
apply: (dvdn_gap rM rT (ltnW L)).
by apply: leq_trans TK _; rewrite leq_add2r.
Qed.

Lemma count_define N k : (0 < k)%N -> count is_define (run_events N k) = 1%N.
Proof.
elim: k => // -[|k] IH _.
  rewrite run_eventsS /= !count_cat /= /close_events.
  by case: ifP => _; case: ifP => _; case: ifP.
rewrite run_eventsS count_cat IH // count_cat.
suff -> : count is_define (update_events N k.+1) = 0%N.
  by rewrite /close_events; case: ifP.
by rewrite /update_events /= count_cat; case: ifP => _; case: ifP.
Qed.

Lemma head_define N k : (0 < k)%N -> exists es, run_events N k = Define :: es.
Proof. by case: k => // k _; rewrite /run_events /= /update_events /=; eexists. Qed.

Lemma no_close_update N k : count is_close (update_events N k) = 0%N.
Proof. by rewrite /update_events !count_cat; case: ifP => _; case: ifP => _; case: ifP. Qed.

Lemma count_close N k : (k < N)%N -> count is_close (run_events N k) = 0%N.
Proof.
elim: k => // k IH Hk; rewrite run_eventsS 2!count_cat IH ?no_close_update ?(ltnW Hk) //.
by rewrite /close_events ltn_eqF.
Qed.

Lemma last_close N : (0 < N)%N -> exists es,
  run_events N N = rcons es Close /\ count is_close es = 0%N.
Proof.
case: N => // N _; rewrite run_eventsS /close_events eqxx.
exists (run_events N.+1 N ++ update_events N.+1 N).
by rewrite -cats1 catA count_cat count_close // no_close_update.
Qed.

Lemma count_update1 N k : (count is_update (update_events N k) <=
  (k %% print_rate N == 0))%N.
Proof.
rewrite /update_events !count_cat.
have -> : count is_update (if k == 0%N then [:: Define] else [::]) = 0%N by case: ifP.
case: (eqVneq k (N - remainder N)%N) => [->|_] /=; last by rewrite andbT; case: ifP.
by rewrite andbF /= (eqP (rate_dvd N)) eqxx.
Qed.

Lemma count_updates N k : (print_rate N * count is_update (run_events N k) < k + print_rate N)%N.
Proof.
suff : (print_rate N * count is_update (run_events N k) <=
       (k + (print_rate N).-1) %/ print_rate N * print_rate N)%N.
  move=> H; apply: (@leq_ltn_trans _ _ _ H); apply: leq_ltn_trans (leq_trunc_div _ _) _.
  by rewrite ltn_add2l prednK // print_rate_gt0.
rewrite mulnC leq_mul2r; apply/orP; right.
elim: k => [|k IH]; first by [].
rewrite run_eventsS 2!count_cat.
have -> : count is_update (close_events N k) = 0%N by rewrite /close_events; case: ifP.
rewrite addn0; apply: leq_trans (leq_add IH (count_update1 N k)) _.
have r0 := print_rate_gt0 N; move: (print_rate N) r0 => r r0.
case: eqP => [k0|_] /=.
  rewrite addSnnS prednK // (divn_eq k r) k0 addn0 !divnMDl // divnn r0.
  by rewrite [(r.-1 %/ r)%N]divn_small ?ltn_predL // addn0.
by rewrite addn0; apply: leq_div2r; rewrite addSn.
Qed.

Lemma count_updates_le N : (count is_update (run_events N N) <= 1999)%N.
Proof.
have H := count_updates N N; have r0 := print_rate_gt0 N.
move: H r0; set c := count _ _; rewrite /print_rate.
case: (ltnP 1000 N) => HN; last first.
  by rewrite mul1n addn1 ltnS => H _; apply: leq_trans H (leq_trans HN _).
set r := (N %/ 1000)%N => H r0.
have HN2 : (N < r.+1 * 1000)%N by rewrite /r -ltn_divLR.
case: (leqP r 1) => Hr.
  have r1 : r = 1%N by apply/eqP; rewrite eqn_leq Hr r0.
  move: H; rewrite r1 mul1n addn1 ltnS => H; apply: leq_trans H _.
  by rewrite -ltnS; move: HN2; rewrite r1.
rewrite leqNgt; apply/negP => H3.
have : (r * 2000 <= r * c)%N by rewrite leq_mul2l H3 orbT.
move=> H4; have := leq_ltn_trans H4 H; rewrite mulSn in HN2.
move=> H5; have := ltn_trans H5 (_ : N + r < 1000 + r * 1000 + r)%N.
rewrite ltn_add2r HN2 => /(_ isT).
have -> : (r * 2000 = r * 999 + r * 1000 + r)%N by rewrite -mulnDr -mulnSr.
rewrite !ltn_add2r => H6.
have := leq_ltn_trans (leq_mul Hr (leqnn 999)) H6.
by [].
Qed.

(** ** insert *)
Lemma insert_one T (y0 : T) x y : insert y0 (One x) 0 (One y) = Val (One (y :: x)).
Proof. by rewrite /insert /jnp_insert take0 drop0. Qed.

Lemma insert_tup T (y0 : T) (y : seq T) (zs : seq (seq T)) :
  insert y0 (Tup (columns y0 (size y) zs)) 0 (Tup y) = Val (Tup (columns y0 (size y) (y :: zs))).
Proof.
rewrite /insert /columns size_mkseq leqnn; congr (Val (Tup _)).
apply/eq_in_map => i; rewrite mem_iota /= => Hi.
by rewrite nth_mkseq // /jnp_insert take0 drop0.
Qed.

Lemma progress_shape N : (0 < N)%N ->
  exists mid, [/\ run_events N N = Define :: rcons mid Close,
    ~~ has is_define mid & ~~ has is_close mid].
Proof.
move=> N0; have [es [E1 Hc]] := last_close N0; have [es' E2] := head_define N N0.
have Hd := count_define N N0.
case: es E1 Hc => [|e es] E1 Hc; first by move: E2; rewrite E1.
have e1 : e = Define by move: E2; rewrite E1 rcons_cons => -[].
exists es; rewrite E1 e1 rcons_cons; split=> //.
  move: Hd; rewrite E1 e1 rcons_cons /= -cats1 count_cat /= !addn0 has_count -ltnNge.
  by case: (count _ _).
by move: Hc; rewrite e1 /= add0n has_count => ->.
Qed.

Lemma events_zip N I (xs : seq I) k : size xs = N -> (k <= N)%N ->
  flatten [seq update_events N x.1 ++ close_events N x.1 | x <- take k (zip (iota 0 N) xs)] =
  run_events N k.
Proof.
move=> Hs Hk; rewrite /run_events.
have -> : [seq update_events N x.1 ++ close_events N x.1 | x <- take k (zip (iota 0 N) xs)] =
  [seq update_events N i ++ close_events N i | i <- [seq x.1 | x <- take k (zip (iota 0 N) xs)]].
  by rewrite -map_comp.
congr (flatten (map _ _)); rewrite map_take -/unzip1 unzip1_zip ?size_iota ?Hs //.
by rewrite take_iota; congr iota; apply/minn_idPl.
Qed.

(** ** Final forms *)
Lemma interlace_layout (T : Type) (x0 : T) (d : nat) (arrays : seq (seq T)) :
  arrays <> [::] -> (forall a, List.In a arrays -> size a = d) ->
  exists s, [/\ interlace x0 arrays = Val s,
    size s = (d * size arrays)%N,
    (forall i k, (i < size arrays)%N -> (k < d)%N ->
       nth x0 s (k * size arrays + i) = nth x0 (nth [::] arrays i) k) &
    (forall i, (i < size arrays)%N -> stride i (size arrays) s = nth [::] arrays i)].
Proof.
move=> ne Hs; rewrite (interlaceE _ ne Hs); eexists; split; first by [].
- by rewrite size_mkseq.
- move=> i k Hi Hk; have n0 : (0 < size arrays)%N by apply: leq_ltn_trans Hi.
  rewrite nth_mkseq ?modnMDl ?modn_small ?divnMDl ?divn_small ?addn0 //.
  apply: (@leq_trans (k * size arrays + size arrays)); first by rewrite ltn_add2l.
  by rewrite -mulSnr leq_mul2r Hk orbT.
- move=> i Hi; have n0 : (0 < size arrays)%N by apply: leq_ltn_trans Hi.
  rewrite stride_mkseq //.
  have Hd : size (nth [::] arrays i) = d.
    apply: Hs; clear -Hi; elim: arrays i Hi => // a l IH [|i] /= Hi; first by left.
    by right; exact: IH.
  rewrite -[RHS](mkseq_nth x0) Hd; apply: eq_map => k.
  by rewrite modnMDl modn_small ?divnMDl ?divn_small ?addn0.
Qed.

Lemma interlace_state_vector d n (f : 'I_n -> 'cV[R]_d) : (0 < n)%N ->
  interlace 0 [seq entries (f i) | i <- enum 'I_n] = Val (entries (interl f)) /\
  forall i, slice i (interl f) = f i.
Proof. by move=> n0; split; [exact: interlace_interl | move=> i; exact: slice_interl]. Qed.

Lemma interlace_matrix_form d (v w x y : 'M[R]_d) :
  (forall a b, qf (interlace_matrix v w x y) (interl (pair2 a b)) =
               qf (block_mx v w x y) (col_mx a b)) /\
  (psd (block_mx v w x y) -> psd (interlace_matrix v w x y)).
Proof. by split; [exact: qf_interlace_matrix | exact: interlace_matrix_psd]. Qed.

Lemma progress_transparent S I O N (body : S -> nat * I -> S * O) (s : S)
  (xs : seq (nat * I)) :
  (scan_ev (progress_bar N body) s xs).1 = scan body s xs.
Proof. by rewrite scan_ev_progress. Qed.

Lemma progress_accounting S I O (body : S -> nat * I -> S * O) (s : S) (xs : seq I) :
  let N := size xs in
  let evs k := (scan_ev (progress_bar N body) s (take k (zip (iota 0 N) xs))).2 in
  [/\ (N = 0%N -> evs N = [::]),
      ((0 < N)%N -> exists mid, [/\ evs N = Define :: rcons mid Close,
          ~~ has is_define mid & ~~ has is_close mid]),
      ev_total (evs N) = N,
      (forall k, (k < N)%N -> (k < ev_total (evs k.+1) <= N)%N) &
      (count is_update (evs N) <= 1999)%N].
Proof.
move=> N evs.
have E k : (k <= N)%N -> evs k = run_events N k.
  by move=> Hk; rewrite /evs scan_ev_progress /= events_zip.
split.
- by rewrite E // => ->.
- by rewrite E // => N0; exact: progress_shape.
- by rewrite E // run_total.
- by move=> k Hk; rewrite E //; exact: run_total_bounds.
- by rewrite E // count_updates_le.
Qed.
