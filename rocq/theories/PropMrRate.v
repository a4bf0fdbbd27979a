(** * C79: the accuracy of MapReduce

    The data set has rows [xs], all of weight one, and no supervision; [k] is a positive
    semi-definite kernel with [k x x <= kappa] on the rows and on the padding row [p0];
    [accurate p0 k kappa m eps base]: on equally weighted rows the base solver selects [m] rows
    whose MMD to the data is at most [eps]; [tree_perm tree]: the scikit-learn tree lists every
    row once. *)
From Coq Require Import List ZArith Reals Lra Lia Bool Arith Permutation.
From Verif Require Import Num Jax RSum JaxFacts DataModel MeanModel MeanSpec GreedySpec GreedyModel MetricSpec MetricProofs PropGreedy PsdProofs
  KernelProofs7 RateProofs RateProofs2 PropRate MapReduceModel MapReduceSpec MapReduceProofs MapReduceProofs2 MapReduceProofs3 PropMapReduce2
  MrRateSpec MrRateProofs MrRateProofs2 MrRateProofs3.
Import ListNotations.
Open Scope R_scope.

Notation rows_at p0 xs l := (map (fun j => nth j xs p0) l).

(** ** Any base solver: every level of the recursion adds the error of one call of the base
    solver, and the padding of the first level adds its share of the rows *)
Theorem C79_map_reduce_accuracy :
  forall P Y (p0 : P) (y0 : Y) (k : P -> P -> R) (kappa eps : R) (m leaf fuel : nat)
         (base : Data P Y ER -> result (Coresubset P Y ER)) tree (xs : list P),
    let n := length xs in
    let data := unsup xs (repeat 1 n) in
    let levels := Nat.log2 ((n - 1) / (leaf / 2)) in
    psd k -> (forall a, In a (p0 :: xs) -> k a a <= kappa) ->
    accurate p0 k kappa m eps base -> tree_perm tree ->
    (1 <= m)%nat -> (2 * m <= leaf)%nat -> (m <= n)%nat ->
    ((leaf < n)%nat -> (padded_rows leaf n + m <= leaf_rows leaf n)%nat) ->
    (levels < fuel)%nat ->
    exists t, map_reduce EROps p0 y0 base tree leaf fuel data = Ok (mkCS (map Z.of_nat t) (repeat (Fin 1) m) data) /\
      length t = m /\ (forall i, In i t -> (i < n)%nat) /\
      sqrt (mmd2 k xs (repeat 1 n) (rows_at p0 xs t) (repeat 1 m))
      <= (1 + INR levels) * eps + 2 * (INR (padded_rows leaf n) / INR n) * sqrt kappa.
Proof.
  intros P Y p0 y0 k kappa eps m leaf fuel base tree xs n data levels Hk Hd HB HT Hm Hl Hn HP Hf.
  unfold levels in *. rewrite <- half_div in * by lia. rewrite padded_rows_eq. rewrite padded_rows_eq, leaf_rows_eq in HP.
  now apply (accurate_reduce p0 y0 k Hk kappa eps m leaf base tree xs HB HT Hm Hl Hd fuel).
Qed.
Print Assumptions C79_map_reduce_accuracy.

(** ** KernelHerding, with or without repeated rows *)
Theorem C79_map_reduce_herding :
  forall P Y (p0 : P) (y0 : Y) (k : P -> P -> R) (kappa : R) (m leaf fuel : nat) (unique : bool) (bs bs' : bsarg)
         (ord : nat -> list nat) tree (xs : list P),
    let n := length xs in
    let levels := Nat.log2 ((n - 1) / (leaf / 2)) in
    psd k -> (forall a, In a (p0 :: xs) -> k a a <= kappa) -> tree_perm tree ->
    (1 <= m)%nat -> (2 * m <= leaf)%nat -> (m <= n)%nat ->
    ((leaf < n)%nat -> (padded_rows leaf n + m <= leaf_rows leaf n)%nat) ->
    (levels < fuel)%nat -> (forall i, Permutation (ord i) (seq 0 m)) ->
    exists coreset mmd,
      map_reduce EROps p0 y0 (herding_base EROps p0 y0 (mkHerding m (kE k) unique bs Greedy) ord) tree leaf fuel (unsup xs (repeat 1 n)) = Ok coreset /\
      reported_mmd p0 y0 k bs' coreset = Ok (Fin mmd) /\
      mmd <= (1 + INR levels) * (7 / 2 * sqrt (kappa / INR m)) + 2 * (INR (padded_rows leaf n) / INR n) * sqrt kappa.
Proof.
  intros P Y p0 y0 k kappa m leaf fuel unique bs bs' ord tree xs n levels Hk Hd HT Hm Hl Hn HP Hf HO.
  destruct (C79_map_reduce_accuracy P Y p0 y0 k kappa (7 / 2 * sqrt (kappa / INR m)) m leaf fuel _ tree xs Hk Hd
              (herding_accurate p0 y0 k kappa m unique bs ord Hk Hm HO) HT Hm Hl Hn HP Hf) as (t & E & L & R & B).
  eexists _, _. split; [exact E|]. fold n in B, R. split; [|exact B].
  rewrite <- L. apply reported_value; auto.
  - apply repeat_length.
  - rewrite Rsum_repeat, Rmult_1_r. apply not_0_INR. fold n. lia.
  - intros ->. cbn in L. lia.
Qed.
Print Assumptions C79_map_reduce_herding.

(** ** Finding: weighted data.  The coresets of the leaves all have unit weights, so the
    weights of the leaves are lost.  The rows are [2 m] copies of 1 of weight 99 each and [2 m]
    copies of -1 of weight 1 each, the kernel is the product.  Kernel herding on its own finds
    a coreset as close to the data as for equal weights; through [MapReduce] the discrepancy is
    at least 0.98 minus that, however large [m] is. *)
Lemma chunks_two (c : nat) : (0 < c)%nat -> chunks c (seq 0 (c + c)) = [seq 0 c; seq c c].
Proof.
  intros Hc. destruct (chunks_mult c 2 (seq 0 (c + c)) Hc) as [C1 C2]; [rewrite seq_length; lia|].
  assert (CC : concat (chunks c (seq 0 (c + c))) = seq 0 (c + c)) by (apply chunks_concat; lia).
  destruct (chunks c (seq 0 (c + c))) as [|r1 [|r2 [|r3 rs]]]; try discriminate.
  cbn [concat] in CC. rewrite app_nil_r, seq_app in CC. assert (L1 : length r1 = c) by (apply C2; now left).
  assert (r1 = seq 0 c).
  { apply (f_equal (firstn c)) in CC. rewrite !firstn_app, L1, seq_length, Nat.sub_diag, !firstn_O, !app_nil_r in CC.
    rewrite firstn_all2 in CC by lia. rewrite firstn_all2 in CC by (rewrite seq_length; lia). exact CC. }
  subst r1. apply app_inv_head in CC. cbn in CC. now subst.
Qed.
Lemma map_const_repeat {A B} (b : B) (l : list A) : map (fun _ => b) l = repeat b (length l).
Proof. induction l; cbn; congruence. Qed.
Lemma halves {A} (a b d : A) c :
  map (fun i => nth i (repeat a c ++ repeat b c) d) (seq 0 c) = repeat a c /\
  map (fun i => nth i (repeat a c ++ repeat b c) d) (seq c c) = repeat b c.
Proof.
  split.
  - rewrite (map_ext_in _ (fun _ => a)); [rewrite map_const_repeat, seq_length; reflexivity|].
    intros i Hi. apply in_seq in Hi. rewrite app_nth1 by (rewrite repeat_length; lia). apply nth_repeat_below. lia.
  - rewrite (map_ext_in _ (fun _ => b)); [rewrite map_const_repeat, seq_length; reflexivity|].
    intros i Hi. apply in_seq in Hi. rewrite app_nth2 by (rewrite repeat_length; lia). rewrite repeat_length. apply nth_repeat_below. lia.
Qed.
Lemma mmd2_product xs w ys v : mmd2 Rmult xs w ys v = (wavg (fun a => a) xs w - wavg (fun a => a) ys v) * (wavg (fun a => a) xs w - wavg (fun a => a) ys v).
Proof.
  unfold mmd2.
  assert (E : forall zs z us u, wavg (fun a => wavg (fun b => a * b) zs z) us u = wavg (fun a => a) us u * wavg (fun a => a) zs z).
  { intros zs z us u. rewrite (DataMeanLemmas.wavg_ext _ (fun t => wavg (fun a => a) zs z * t)).
    - rewrite (GreedyProofs3.wavg_scal (wavg (fun a => a) zs z) (fun a => a)). ring.
    - intro t. rewrite (GreedyProofs3.wavg_scal t (fun a => a)). ring. }
  rewrite !E. ring.
Qed.
Lemma combine_app2 {A B} (l l' : list A) (m m' : list B) : length l = length m -> combine (l ++ l') (m ++ m') = combine l m ++ combine l' m'.
Proof. revert m. induction l as [|a l IH]; intros [|b m] H; try discriminate; [reflexivity|]. cbn. rewrite IH by (cbn in H; lia). reflexivity. Qed.
Lemma wavg_halves (a b u v : R) c : (0 < c)%nat -> u + v <> 0 ->
  wavg (fun x => x) (repeat a c ++ repeat b c) (repeat u c ++ repeat v c) = (u * a + v * b) / (u + v).
Proof.
  intros Hc Huv. assert (0 < INR c) by now apply lt_0_INR.
  unfold wavg. rewrite Rsum_app, !Rsum_repeat.
  assert (E : wsum (fun x => x) (repeat a c ++ repeat b c) (repeat u c ++ repeat v c) = INR c * (u * a) + INR c * (v * b)).
  { unfold wsum. rewrite combine_app2 by (now rewrite !repeat_length). rewrite map_app, Rsum_app. f_equal; clear.
    - induction c as [|c IH]; [cbn; ring|]. cbn [repeat combine map Rsum fst snd]. rewrite IH, S_INR. ring.
    - induction c as [|c IH]; [cbn; ring|]. cbn [repeat combine map Rsum fst snd]. rewrite IH, S_INR. ring. }
  rewrite E. field. split; [lra|]. replace (INR c * u + INR c * v) with (INR c * (u + v)) by ring. nra.
Qed.
Definition lost_xs (m : nat) : list R := repeat 1 (2 * m) ++ repeat (-1) (2 * m).
Definition lost_w (m : nat) : list R := repeat 99 (2 * m) ++ repeat 1 (2 * m).
Theorem C79_weights_lost_refuted :
  forall (m fuel : nat) (bs bs' : bsarg) (ord : nat -> list nat),
    (1 <= m)%nat -> (2 <= fuel)%nat -> (forall i, Permutation (ord i) (seq 0 m)) ->
    let solver := herding_base EROps 0 tt (mkHerding m (kE Rmult) false bs Greedy) ord in
    let data := unsup (lost_xs m) (lost_w m) in
    (exists c1 mmd1, solver data = Ok c1 /\ reported_mmd 0 tt Rmult bs' c1 = Ok (Fin mmd1) /\ mmd1 <= 7 / 2 * sqrt (1 / INR m)) /\
    (exists c2 mmd2, map_reduce EROps 0 tt solver (fun rows _ _ => seq 0 (length rows)) (2 * m) fuel data = Ok c2 /\
                     reported_mmd 0 tt Rmult bs' c2 = Ok (Fin mmd2) /\ 98 / 100 - 7 / 2 * sqrt (1 / INR m) <= mmd2).
Proof.
  intros m fuel bs bs' ord Hm Hf HO solver data.
  assert (Hk : psd Rmult) by (apply (psd_rank1 (fun a : R => a))).
  assert (LX : length (lost_xs m) = (4 * m)%nat) by (unfold lost_xs; rewrite app_length, !repeat_length; lia).
  assert (LW : length (lost_w m) = length (lost_xs m)) by (unfold lost_w, lost_xs; now rewrite !app_length, !repeat_length).
  assert (HM : 0 < INR (2 * m)) by (apply lt_0_INR; lia).
  assert (SW : 0 < Rsum (lost_w m)) by (unfold lost_w; rewrite Rsum_app, !Rsum_repeat; lra).
  assert (SK : forall a, In a (lost_xs m) -> a * a <= 1).
  { intros a Ha. apply in_app_or in Ha as [Ha|Ha]; apply repeat_spec in Ha; subst; lra. }
  split.
  { destruct (C65_herding_rate R unit 0 tt Rmult 1 m false bs bs' ord (lost_xs m) (lost_w m) Hk SK LW) as (c & g & v & E & V & B); auto; try lia; try discriminate.
    - intros w Hw. apply in_app_or in Hw as [Hw|Hw]; apply repeat_spec in Hw; subst; lra.
    - exists c, v. unfold solver, herding_base. fold data in E. rewrite E. auto. }
  set (c := (2 * m)%nat) in *.
  assert (HN : mr_nleaves c (4 * m) = 2%nat).
  { unfold mr_nleaves. replace ((4 * m - 1) / mr_half c)%nat with 3%nat; [reflexivity|].
    unfold mr_half, c. replace (2 * m / 2)%nat with m by (apply Nat.div_unique with 0%nat; lia). rewrite Nat.max_r by lia. apply Nat.div_unique with (m - 1)%nat; lia. }
  assert (HP : mr_padding c (4 * m) = 0%nat).
  { unfold mr_padding. rewrite HN. pose proof (cdiv_spec (4 * m) 2 ltac:(lia)) as [_ C2]. lia. }
  assert (HQ : mr_partition c (4 * m) = c).
  { unfold mr_partition. rewrite HN, HP, Nat.add_0_r. unfold c. replace (4 * m)%nat with (2 * m * 2)%nat by lia. apply Nat.div_mul. lia. }
  assert (GI : forall r, (forall i, In i r -> (i < 4 * m)%nat) -> d_getitem EROps 0 tt data (map Z.of_nat r)
      = unsup (map (fun i => nth i (lost_xs m) 0) r) (map (fun i => nth i (lost_w m) 0) r)).
  { intros r Hr. rewrite <- (zero_pad_0 EROps 0 tt data). unfold data. rewrite part_value; auto.
    - cbn [repeat]. now rewrite !app_nil_r.
    - intros i Hi. rewrite LX, Nat.add_0_r. auto. }
  (* the two leaves *)
  assert (NP : forall u, 0 < u -> npos (repeat u c) = c).
  { intros u Hu. unfold npos. clear - Hu. induction c as [|j IH]; [reflexivity|]. cbn. destruct (Rlt_dec 0 u); [cbn; now rewrite IH|contradiction]. }
  assert (LEAF : forall a u, 0 < u -> exists l, solver (unsup (repeat a c) (repeat u c))
      = Ok (mkCS (map Z.of_nat l) (repeat (Fin 1) m) (unsup (repeat a c) (repeat u c))) /\ length l = m /\ (forall i, In i l -> (i < c)%nat)).
  { intros a u Hu. destruct (C17_herding_reduce R unit 0 tt Rmult m false bs ord (repeat a c) (repeat u c) None) as (l & g & E & L & R1 & _); auto.
    - now rewrite !repeat_length.
    - rewrite repeat_length. lia.
    - rewrite NP by exact Hu. lia.
    - discriminate.
    - discriminate.
    - exists l. unfold solver, herding_base. cbn [option_map] in E. rewrite E. split; [reflexivity|]. split; [exact L|].
      intros i Hi. apply R1 in Hi. rewrite repeat_length in Hi. tauto. }
  destruct (LEAF 1 99 ltac:(lra)) as (l1 & E1 & L1 & R1). destruct (LEAF (-1) 1 ltac:(lra)) as (l2 & E2 & L2 & R2).
  set (l2' := map (fun i => (c + i)%nat) l2).
  set (xs' := repeat 1 m ++ repeat (-1) m).
  (* the last level *)
  assert (LX' : length xs' = c) by (unfold xs'; rewrite app_length, !repeat_length; lia).
  destruct (herding_accurate 0 tt Rmult 1 m false bs ord Hk Hm HO xs' (repeat 1 c)) as (s & E3 & L3 & R3 & B3).
  { now rewrite repeat_length. }
  { intros v Hv. apply repeat_spec in Hv. auto. }
  { rewrite NP by lra. lia. }
  { intros a Ha. apply in_app_or in Ha as [Ha|Ha]; apply repeat_spec in Ha; subst; lra. }
  fold solver in E3. rewrite LX' in R3.
  set (t := map (fun i => nth i (l1 ++ l2') 0%nat) s).
  assert (LL : length (l1 ++ l2') = c) by (unfold l2'; rewrite app_length, map_length; lia).
  assert (IT : forall i, In i (l1 ++ l2') -> (i < 4 * m)%nat).
  { intros i Hi. apply in_app_or in Hi as [Hi|Hi]; [specialize (R1 i Hi); lia|]. unfold l2' in Hi. apply in_map_iff in Hi as (j & <- & Hj). specialize (R2 j Hj). lia. }
  assert (HT : forall i, In i t -> (i < length (lost_xs m))%nat).
  { intros i Hi. apply in_map_iff in Hi as (j & <- & Hj). rewrite LX. apply IT, nth_In. rewrite LL. now apply R3. }
  assert (PT : map (fun j => nth j (lost_xs m) 0) t = map (fun i => nth i xs' 0) s).
  { unfold t. rewrite map_map. apply map_ext_in. intros i Hi. destruct (R3 i Hi) as [Hi2 _].
    unfold lost_xs, xs'. fold c. destruct (Nat.lt_ge_cases i m) as [H|H].
    - rewrite (app_nth1 l1) by lia. rewrite !app_nth1; [|rewrite repeat_length; lia|rewrite repeat_length; apply R1, nth_In; lia].
      rewrite !nth_repeat_below; [reflexivity|lia|apply R1, nth_In; lia].
    - rewrite (app_nth2 l1) by lia. unfold l2'. rewrite nth_indep with (d' := (c + 0)%nat) by (rewrite map_length; lia).
      rewrite (map_nth (fun i => (c + i)%nat)). rewrite !app_nth2 by (rewrite repeat_length; lia). rewrite !repeat_length.
      rewrite !nth_repeat_below; [reflexivity|lia|]. replace (c + nth (i - length l1) l2 0 - c)%nat with (nth (i - length l1) l2 0%nat) by lia.
      apply R2, nth_In. lia. }
  assert (RUN : map_reduce EROps 0 tt solver (fun rows _ _ => seq 0 (length rows)) c fuel data = Ok (mkCS (map Z.of_nat t) (repeat (Fin 1) m) data)).
  { destruct fuel as [|[|fuel]]; try lia. unfold map_reduce.
    assert (STEP : reduce_coreset EROps 0 tt solver (fun rows _ _ => seq 0 (length rows)) c (S (S fuel)) data None
      = reduce_coreset EROps 0 tt solver (fun rows _ _ => seq 0 (length rows)) c (S fuel) (unsup xs' (repeat 1 c)) (Some (map Z.of_nat (l1 ++ l2')))).
    { cbn [reduce_coreset]. assert (DL : d_len data = (4 * m)%nat) by exact LX.
      rewrite DL. destruct (Nat.leb_spec (4 * m) c) as [Bad|_]; [lia|].
      unfold jit_tree. rewrite DL, HP, HQ, (zero_pad_0 EROps 0 tt data). change (d_x data) with (lost_xs m). rewrite LX.
      rewrite map_chunks. replace (4 * m)%nat with (c + c)%nat by lia. rewrite (chunks_two c) by lia. cbn [map].
      rewrite !GI by (intros i Hi; apply in_seq in Hi; lia).
      destruct (halves 1 (-1) 0 c) as [H1 H2]. destruct (halves 99 1 0 c) as [H3 H4]. unfold lost_xs, lost_w. fold c. rewrite H1, H2, H3, H4.
      cbn [mapM]. rewrite E1, E2. cbn [bind map2 concat map c_idx]. 
      assert (CD : cat_data (map (points EROps 0 tt)
          [mkCS (map Z.of_nat l1) (repeat (Fin 1) m) (unsup (repeat 1 c) (repeat 99 c)); mkCS (map Z.of_nat l2) (repeat (Fin 1) m) (unsup (repeat (-1) c) (repeat 1 c))])
          = unsup xs' (repeat 1 c)).
      { unfold cat_data, points, d_getitem. cbn [map concat d_x d_w d_y c_idx c_w c_pre option_map].
        rewrite !gather_nats by (intros i Hi; rewrite repeat_length; auto). rewrite !app_nil_r. f_equal.
        - unfold xs'. f_equal.
          + rewrite (map_ext_in _ (fun _ => 1)); [now rewrite map_const_repeat, L1|]. intros i Hi. apply nth_repeat_below. auto.
          + rewrite (map_ext_in _ (fun _ => -1)); [now rewrite map_const_repeat, L2|]. intros i Hi. apply nth_repeat_below. auto.
        - rewrite <- repeat_app. rewrite map_repeat'. f_equal. lia. }
      change (map (points EROps 0 tt) ?l) with (map (points EROps 0 tt) l) in *. cbn [map] in CD. rewrite CD.
      assert (FI : gather 0%Z (gather 0%Z (map Z.of_nat (seq 0 (c + c))) (map Z.of_nat (seq 0 c))) (map Z.of_nat l1) ++
                   gather 0%Z (gather 0%Z (map Z.of_nat (seq 0 (c + c))) (map Z.of_nat (seq c c))) (map Z.of_nat l2) ++ []
                   = map Z.of_nat (l1 ++ l2')).
      { rewrite app_nil_r, map_app. 
        assert (GG : forall b, (b + c <= c + c)%nat -> gather 0%Z (map Z.of_nat (seq 0 (c + c))) (map Z.of_nat (seq b c)) = map Z.of_nat (seq b c)).
        { intros b Hb. rewrite gather_nats by (intros i Hi; rewrite map_length, seq_length; apply in_seq in Hi; lia).
          apply map_ext_in. intros i Hi. apply in_seq in Hi. rewrite nth_indep with (d' := Z.of_nat 0) by (rewrite map_length, seq_length; lia).
          rewrite (map_nth Z.of_nat), seq_nth by lia. reflexivity. }
        assert (GL : forall b l, (forall i, In i l -> (i < c)%nat) -> gather 0%Z (map Z.of_nat (seq b c)) (map Z.of_nat l) = map Z.of_nat (map (fun i => (b + i)%nat) l)).
        { intros b l Hl. rewrite gather_nats by (intros i Hi; rewrite map_length, seq_length; auto). rewrite map_map.
          apply map_ext_in. intros i Hi. rewrite nth_indep with (d' := Z.of_nat 0) by (rewrite map_length, seq_length; auto).
          rewrite (map_nth Z.of_nat), seq_nth by auto. reflexivity. }
        rewrite !GG by lia. rewrite !GL by auto. f_equal. f_equal. rewrite <- (map_id l1) at 2. reflexivity. }
      rewrite FI. reflexivity. }
    rewrite STEP. cbn [reduce_coreset]. assert (DL' : d_len (unsup xs' (repeat 1 c) : Data R unit ER) = c) by exact LX'.
    rewrite DL', Nat.leb_refl, E3. cbn [bind c_idx c_w]. f_equal. f_equal.
    rewrite gather_nats by (intros i Hi; rewrite map_length, LL; now apply R3). unfold t. rewrite map_map. apply map_ext_in. intros i Hi.
    rewrite nth_indep with (d' := Z.of_nat 0) by (rewrite map_length, LL; now apply R3). apply (map_nth Z.of_nat). }
  assert (LT : length t = m) by (unfold t; now rewrite map_length).
  eexists _, _. split; [exact RUN|]. split.
  - rewrite <- LT at 1. apply reported_value; auto; [lra|]. intros E. rewrite E in LT. cbn in LT. lia.
  - rewrite PT, LT. set (ys := map (fun i => nth i xs' 0) s) in *.
    rewrite mmd2_product in B3 |- *. change (?a * ?a) with (Rsqr a) in *. rewrite sqrt_Rsqr_abs in B3 |- *.
    unfold lost_xs, lost_w. fold c. rewrite wavg_halves by (lia || lra).
    assert (EU : repeat 1 c = repeat 1 m ++ repeat 1 m) by (rewrite <- repeat_app; f_equal; lia).
    rewrite EU in B3. unfold xs' in B3. rewrite wavg_halves in B3 by (lia || lra).
    set (mu := wavg (fun a => a) ys (repeat 1 m)) in *.
    unfold Rabs in *. destruct (Rcase_abs _), (Rcase_abs _); lra.
Qed.
Print Assumptions C79_weights_lost_refuted.

(** 21 rows of weight one, padded by three rows, in leaves of at most 8, two points each *)
Example C79_applies :
  let xs := map (fun i => / INR (S i)) (seq 0 21) in
  (forall a, In a (0 :: xs) -> a * a <= 1) /\ psd Rmult /\ padded_rows 8 21 = 3%nat /\ leaf_rows 8 21 = 6%nat /\
  Nat.log2 ((21 - 1) / (8 / 2)) = 2%nat /\ accurate 0 Rmult 1 2 (7 / 2 * sqrt (1 / INR 2)) (herding_base EROps 0 tt (mkHerding 2 (kE Rmult) true (BOne None) Greedy) (fun _ => seq 0 2)) /\
  exists coreset mmd,
    map_reduce EROps 0 tt (herding_base EROps 0 tt (mkHerding 2 (kE Rmult) true (BOne None) Greedy) (fun _ => seq 0 2))
      (fun rows _ _ => seq 0 (length rows)) 8 3 (unsup xs (repeat 1 21)) = Ok coreset /\
    reported_mmd 0 tt Rmult (BOne None) coreset = Ok (Fin mmd).
Proof.
  intros xs.
  assert (Hk : psd Rmult) by (apply (psd_rank1 (fun a : R => a))).
  assert (Hd : forall a, In a (0 :: xs) -> a * a <= 1).
  { intros a [<-|Ha]; [lra|]. unfold xs in Ha. apply in_map_iff in Ha as (i & <- & _).
    assert (1 <= INR (S i)) by (change 1 with (INR 1); apply le_INR; lia).
    assert (0 < / INR (S i) <= 1) by (split; [apply Rinv_0_lt_compat; lra|rewrite <- Rinv_1; apply Rinv_le_contravar; lra]). nra. }
  split; [exact Hd|]. split; [exact Hk|]. split; [reflexivity|]. split; [reflexivity|]. split; [reflexivity|].
  split; [apply herding_accurate; [exact Hk|lia|intros _; reflexivity]|].
  assert (L : length xs = 21%nat) by (unfold xs; now rewrite map_length, seq_length).
  clearbody xs.
  pose proof (C79_map_reduce_herding R unit 0 tt Rmult 1 2 8 3 true (BOne None) (BOne None) (fun _ => seq 0 2) (fun rows _ _ => seq 0 (length rows)) xs Hk Hd) as T.
  rewrite L in T. destruct T as (c & v & E & V & _).
  - intros rows w lf. reflexivity.
  - lia.
  - lia.
  - lia.
  - intros _. apply Nat.leb_le. vm_compute. reflexivity.
  - apply Nat.ltb_lt. vm_compute. reflexivity.
  - intros _. reflexivity.
  - exists c, v. split; [exact E|exact V].
Qed.
