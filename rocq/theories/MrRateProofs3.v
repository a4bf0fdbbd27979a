(** * MapReduce: accuracy through the recursion *)
From Coq Require Import List ZArith Reals Lra Lia Bool Arith Permutation.
From Verif Require Import Num Jax RSum JaxFacts DataModel MeanSpec GreedySpec MetricSpec MetricProofs RateProofs RateProofs2
  MapReduceModel MapReduceSpec MapReduceProofs MapReduceProofs2 MrRateSpec MrRateProofs MrRateProofs2.
Import ListNotations.
Open Scope nat_scope.

(** ** sizes *)
Lemma level_pos leaf n : 2 <= leaf -> leaf < n -> 1 <= Nat.log2 ((n - 1) / mr_half leaf).
Proof.
  intros Hl Hn. pose proof (half_le leaf Hl) as HH. pose proof (half_pos leaf).
  apply (Nat.log2_le_mono 2). apply Nat.div_le_lower_bound; lia.
Qed.
Lemma pow_level m leaf a : 1 <= m -> 2 * m <= leaf -> 1 <= a ->
  Nat.log2 ((2 ^ a * m - 1) / mr_half leaf) < a.
Proof.
  intros Hm Hl Ha. pose proof (half_le leaf ltac:(lia)) as HH. pose proof (half_pos leaf).
  assert (HM : m <= mr_half leaf) by lia.
  assert (Q : (2 ^ a * m - 1) / mr_half leaf < 2 ^ a).
  { apply Nat.div_lt_upper_bound; [lia|]. assert (1 <= 2 ^ a) by (apply Nat.neq_0_lt_0, Nat.pow_nonzero; lia). nia. }
  destruct (Nat.eq_dec ((2 ^ a * m - 1) / mr_half leaf) 0) as [->|D]; [cbn; lia|].
  apply Nat.log2_lt_pow2; lia.
Qed.
Lemma pow_padding m leaf a : 1 <= m -> 2 * m <= leaf -> leaf < 2 ^ a * m ->
  mr_padding leaf (2 ^ a * m) = 0 /\ m <= mr_partition leaf (2 ^ a * m).
Proof.
  intros Hm Hl Ha. assert (A1 : 1 <= a) by (destruct a; [cbn in Ha; lia|lia]).
  pose proof (pow_level m leaf a Hm Hl A1) as HB. set (b := Nat.log2 _) in HB.
  assert (EN : mr_nleaves leaf (2 ^ a * m) = 2 ^ b) by reflexivity.
  assert (P0 : 2 ^ b <> 0) by (apply Nat.pow_nonzero; lia).
  assert (EM : 2 ^ a * m = (2 ^ (a - b) * m) * 2 ^ b).
  { replace (2 ^ a) with (2 ^ (a - b) * 2 ^ b) by (rewrite <- Nat.pow_add_r; f_equal; lia). ring. }
  assert (PZ : mr_padding leaf (2 ^ a * m) = 0).
  { unfold mr_padding. rewrite EN. pose proof (cdiv_spec (2 ^ a * m) (2 ^ b) ltac:(lia)) as [_ C2].
    set (c := cdiv _ _) in *. set (N := 2 ^ b) in *. set (q := 2 ^ (a - b) * m) in *.
    assert (c <= q) by nia. nia. }
  split; [exact PZ|]. unfold mr_partition. rewrite PZ, EN, Nat.add_0_r. rewrite EM, Nat.div_mul by exact P0.
  assert (1 <= 2 ^ (a - b)) by (apply Nat.neq_0_lt_0, Nat.pow_nonzero; lia). nia.
Qed.

Section Accuracy.
  Context {P Y : Type} (p0 : P) (y0 : Y) (k : P -> P -> R) (Hk : psd k) (kappa eps : R) (m leaf : nat).
  Notation data := (Data P Y ER).
  Notation cs := (Coresubset P Y ER).
  Notation unsup xs dw := (@mkData P Y ER xs (map Fin dw) None).
  Context (base : data -> result cs) (tree : list P -> list ER -> nat -> list nat) (xs : list P).
  Hypothesis HB : accurate p0 k kappa m eps base.
  Hypothesis HT : tree_perm tree.
  Hypothesis Hm : 1 <= m.
  Hypothesis Hl : 2 * m <= leaf.
  Hypothesis Hd : forall a, In a (p0 :: xs) -> (k a a <= kappa)%R.
  Notation pt l := (map (fun i => nth i xs p0) l).
  Notation ones n := (repeat 1%R n).
  Notation D l := (unsup (pt l) (ones (length l))).
  Notation mmd a b := (sqrt (mmd2 k (pt a) (ones (length a)) (pt b) (ones (length b)))).

  Lemma ones01 n pad v : In v (ones n ++ repeat 0%R pad) -> (v = 0 \/ v = 1)%R.
  Proof. intros H. apply in_app_or in H as [H|H]; apply repeat_spec in H; auto. Qed.
  Lemma npos_ones n : npos (ones n) = n.
  Proof. unfold npos. induction n as [|n IH]; [reflexivity|]. cbn. destruct (Rlt_dec 0 1); [cbn; now rewrite IH|lra]. Qed.
  Lemma ones_fin n : map Fin (ones n) = repeat (Fin 1%R : ER) n.
  Proof. induction n; cbn; congruence. Qed.

  Lemma accurate_leaf fuel l idx : (forall i, In i l -> i < length xs) -> m <= length l <= leaf ->
    match idx with None => l = seq 0 (length xs) | Some i => i = map Z.of_nat l end ->
    exists t c ix, reduce_coreset EROps p0 y0 base tree leaf (S fuel) (D l) idx = Ok (c, ix) /\
      match ix with Some i => i | None => c_idx c end = map Z.of_nat t /\ c_w c = repeat (Fin 1%R) m /\ length t = m /\
      (forall i, In i t -> i < length xs) /\ (mmd l t <= eps)%R.
  Proof.
    intros Hr [Hml Hll] Hix. cbn [reduce_coreset].
    assert (DL : d_len (D l) = length l) by (unfold d_len; cbn [d_x]; now rewrite map_length). rewrite DL.
    destruct (Nat.leb_spec (length l) leaf); [|lia].
    destruct (HB (pt l) (ones (length l))) as (s & E & L & R & B).
    - now rewrite repeat_length, map_length.
    - intros v Hv. apply repeat_spec in Hv. auto.
    - now rewrite npos_ones.
    - intros a Ha. apply Hd. right. apply in_map_iff in Ha as (i & <- & Hi). now apply nth_In, Hr.
    - rewrite E. cbn [bind]. rewrite map_length in R.
      exists (map (fun i => nth i l 0%nat) s). eexists _, _. split; [reflexivity|]. cbn [c_idx c_w].
      split; [|split; [reflexivity|split; [now rewrite map_length|split]]].
      + destruct idx as [i|]; subst.
        * rewrite gather_nats by (intros i Hi; rewrite map_length; now apply R). rewrite map_map. apply map_ext_in. intros i Hi.
          rewrite nth_indep with (d' := Z.of_nat 0) by (rewrite map_length; now apply R). apply map_nth.
        * f_equal. transitivity (map (fun i => i) s); [now rewrite map_id|]. apply map_ext_in. intros i Hi.
          rewrite seq_nth; [reflexivity|]. apply R in Hi as [Hi _]. now rewrite seq_length in Hi.
      + intros i Hi. apply in_map_iff in Hi as [j [<- Hj]]. apply Hr, nth_In. now apply R.
      + rewrite !map_length, L. replace (pt (map (fun i => nth i l 0%nat) s)) with (map (fun i => nth i (pt l) p0) s); [exact B|].
        rewrite map_map. apply map_ext_in. intros i Hi.
        rewrite nth_indep with (d' := nth 0 xs p0) by (rewrite map_length; now apply R).
        apply (map_nth (fun i => nth i xs p0)).
  Qed.

  Lemma accurate_level fuel l idx : (forall i, In i l -> i < length xs) -> leaf < length l ->
    mr_padding leaf (length l) + m <= mr_partition leaf (length l) ->
    match idx with None => l = seq 0 (length xs) | Some i => i = map Z.of_nat l end ->
    exists l', reduce_coreset EROps p0 y0 base tree leaf (S fuel) (D l) idx
               = reduce_coreset EROps p0 y0 base tree leaf fuel (D l') (Some (map Z.of_nat l')) /\
      length l' = mr_nleaves leaf (length l) * m /\ (forall i, In i l' -> i < length xs) /\
      (mmd l l' <= eps + 2 * (INR (mr_padding leaf (length l)) / INR (length l)) * sqrt kappa)%R.
  Proof.
    intros Hr Hgt NS1 Hix. cbn [reduce_coreset].
    set (d := D l) in *. assert (Hl2 : 2 <= leaf) by lia.
    assert (DL : d_len d = length l) by (unfold d_len, d; cbn [d_x]; now rewrite map_length). rewrite DL.
    destruct (Nat.leb_spec (length l) leaf); [lia|].
    unfold jit_tree. rewrite DL.
    set (n := length l) in *. set (pad := mr_padding leaf n) in *. set (pd := zero_pad EROps p0 y0 d pad) in *.
    set (tr := tree (d_x pd) (d_w pd) (mr_half leaf)) in *.
    assert (TP : Permutation tr (seq 0 (n + pad))).
    { unfold tr. replace (n + pad) with (length (d_x pd)); [apply HT|]. unfold pd, zero_pad, d. cbn [d_x].
      rewrite app_length, map_length, repeat_length. reflexivity. }
    set (p := mr_partition leaf n) in *.
    pose proof (partition_large leaf n Hgt Hl2) as PL. fold p in PL.
    destruct (chunks_mult p (mr_nleaves leaf n) tr) as [C1 C2]; [lia| |].
    { rewrite (Permutation_length TP), seq_length. apply padded_shape. }
    rewrite map_chunks.
    set (rs := chunks p tr) in *.
    assert (RC : concat rs = tr) by (apply chunks_concat; lia).
    assert (RN : NoDup (concat rs)) by (rewrite RC; eapply Permutation_NoDup; [symmetry; exact TP|apply seq_NoDup]).
    assert (RR : forall r, In r rs -> NoDup r /\ length r = p /\ forall i, In i r -> i < n + pad).
    { intros r Hrr. split; [|split].
      - clear -RN Hrr. induction rs as [|r' rs IH]; [contradiction|]. simpl in RN. apply NoDup_app_iff' in RN as [A1 [A2 A3]].
        destruct Hrr as [<-|Hrr]; auto.
      - now apply C2.
      - intros i Hi. assert (I : In i tr) by (rewrite <- RC; apply in_concat; eauto).
        apply (Permutation_in _ TP) in I. apply in_seq in I. lia. }
    rewrite !map_map.
    set (X := fun r : list nat => map (fun i => nth i (pt l ++ repeat p0 pad) p0) r).
    set (W := fun r : list nat => map (fun i => nth i (ones n ++ repeat 0%R pad) 0%R) r).
    assert (PV : forall r, In r rs -> d_getitem EROps p0 y0 pd (map Z.of_nat r) = unsup (X r) (W r)).
    { intros r Hrr. unfold pd, d. apply part_value; rewrite map_length; [now rewrite repeat_length|]. now apply RR. }
    assert (W01 : forall r v, In r rs -> In v (W r) -> (v = 0 \/ v = 1)%R).
    { intros r v Hrr Hv. apply in_map_iff in Hv as (i & <- & Hi). apply (ones01 n pad). apply nth_In.
      rewrite app_length, !repeat_length. now apply (RR r). }
    assert (WP : forall r, In r rs -> m <= npos (W r)).
    { intros r Hrr. destruct (RR r Hrr) as (Q1 & Q2 & Q3). eapply Nat.le_trans; [|apply npos_part; auto].
      - lia.
      - apply Forall_forall. intros v Hv. apply repeat_spec in Hv. lra.
      - rewrite repeat_length. auto. }
    assert (XK : forall r a, In r rs -> In a (X r) -> (k a a <= kappa)%R).
    { intros r a Hrr Ha. apply in_map_iff in Ha as (i & <- & Hi). destruct (RR r Hrr) as (_ & _ & Q3).
      assert (I : In (nth i (pt l ++ repeat p0 pad) p0) (pt l ++ repeat p0 pad)).
      { apply nth_In. rewrite app_length, map_length, repeat_length. now apply Q3. }
      apply in_app_or in I as [I|I]; apply Hd.
      - right. apply in_map_iff in I as (j & E & Hj). rewrite <- E. now apply nth_In, Hr.
      - left. symmetry. now apply repeat_spec in I. }
    (* every leaf *)
    assert (LEAF : forall r, In r rs -> exists s,
      base (d_getitem EROps p0 y0 pd (map Z.of_nat r))
      = Ok (mkCS (map Z.of_nat s) (repeat (Fin 1%R) m) (d_getitem EROps p0 y0 pd (map Z.of_nat r)))
      /\ length s = m /\ (forall i, In i s -> i < length r /\ nth i r 0 < n)
      /\ (sqrt (mmd2 k (X r) (W r) (map (fun i => nth i (X r) p0) s) (repeat 1 m)) <= eps)%R).
    { intros r Hrr. rewrite (PV r Hrr). destruct (HB (X r) (W r)) as (s & E & L & R1 & B).
      - unfold X, W. now rewrite !map_length.
      - intros v. now apply W01.
      - now apply WP.
      - intros a. now apply XK.
      - exists s. split; [exact E|]. split; [exact L|]. split; [|exact B]. intros i Hi. destruct (R1 i Hi) as [R2 R3].
        unfold X in R2. rewrite map_length in R2. split; auto. unfold W in R3.
        rewrite nth_indep with (d' := (fun i => nth i (ones n ++ repeat 0%R pad) 0%R) 0) in R3 by (rewrite map_length; lia).
        rewrite (map_nth (fun i => nth i (ones n ++ repeat 0%R pad) 0%R)) in R3.
        destruct (Nat.lt_ge_cases (nth i r 0) n) as [G|G]; [assumption|]. rewrite app_nth2 in R3 by (rewrite repeat_length; lia).
        exfalso. assert (Z : nth (nth i r 0 - length (ones n)) (repeat 0%R pad) 0%R = 0%R).
        { destruct (nth_in_or_default (nth i r 0 - length (ones n)) (repeat 0%R pad) 0%R) as [I|I]; auto. now apply repeat_spec in I. }
        rewrite Z in R3. lra. }
    (* all leaves together *)
    assert (ALL : forall rs', (forall r, In r rs' -> In r rs) -> exists outs (gs : list (list nat)),
      mapM base (map (fun r => d_getitem EROps p0 y0 pd (map Z.of_nat r)) rs') = Ok outs /\
      Forall2 (fun g r => length g = m /\ (forall i, In i g -> i < n) /\
                 (sqrt (mmd2 k (X r) (W r) (pt (map (fun i => nth i l 0%nat) g)) (repeat 1 m)) <= eps)%R) gs rs' /\
      concat (map2 (fun i c0 => gather 0%Z i (c_idx c0)) (map (fun r => gather 0%Z (map Z.of_nat (seq 0 n)) (map Z.of_nat r)) rs') outs)
        = map Z.of_nat (concat gs) /\
      concat (map d_x (map (points EROps p0 y0) outs)) = pt (map (fun i => nth i l 0%nat) (concat gs)) /\
      concat (map d_w (map (points EROps p0 y0) outs)) = repeat (Fin 1%R) (length (concat gs)) /\
      match map (points EROps p0 y0) outs with [] => True | d0 :: _ => d_y d0 = None end).
    { induction rs' as [|r rs' IHr]; intros Hin.
      - exists [], []. repeat split; auto.
      - destruct IHr as [outs [gs [A1 [A2 [A5 [A6 [A7 A10]]]]]]]; [intros; apply Hin; now right|].
        pose proof (Hin r (or_introl eq_refl)) as Hrr.
        destruct (LEAF r Hrr) as [s [E1 [L1 [R1 B1]]]].
        destruct (RR r Hrr) as [Q1 [Q2 Q3]].
        set (g := map (fun i => nth i r 0) s).
        assert (GN : forall i, In i g -> i < n).
        { intros i Hi. apply in_map_iff in Hi as [j [<- Hj]]. now apply R1. }
        assert (PG : pt (map (fun i => nth i l 0%nat) g) = map (fun i => nth i (X r) p0) s).
        { unfold g. rewrite !map_map. apply map_ext_in. intros i Hi. destruct (R1 i Hi) as [R2 R3]. symmetry. unfold X.
          rewrite nth_indep with (d' := (fun i => nth i (pt l ++ repeat p0 pad) p0) 0) by (rewrite map_length; assumption).
          rewrite (map_nth (fun i => nth i (pt l ++ repeat p0 pad) p0)).
          rewrite app_nth1 by (rewrite map_length; assumption).
          rewrite nth_indep with (d' := (fun i => nth i xs p0) 0) by (rewrite map_length; assumption).
          apply (map_nth (fun i => nth i xs p0)). }
        eexists (_ :: outs), (g :: gs). cbn [map mapM]. rewrite E1. cbn [bind]. rewrite A1. cbn [bind].
        split; [reflexivity|]. split; [|split; [|split; [|split]]].
        + constructor; auto. split; [unfold g; now rewrite map_length|]. split; [exact GN|]. rewrite PG. exact B1.
        + cbn [map2 concat]. rewrite A5, map_app. f_equal. cbn [c_idx]. unfold gather at 1. rewrite map_map. unfold g. rewrite map_map.
          apply map_ext_in. intros i Hi. destruct (R1 i Hi) as [R2 R3].
          rewrite jget_nat by (rewrite gather_length, map_length; assumption). unfold gather.
          rewrite nth_indep with (d' := jget 0%Z (map Z.of_nat (seq 0 n)) (Z.of_nat 0)) by (rewrite !map_length; assumption).
          rewrite (map_map Z.of_nat), (map_nth (fun x => jget 0%Z (map Z.of_nat (seq 0 n)) (Z.of_nat x))).
          rewrite jget_nat by (rewrite map_length, seq_length; assumption).
          rewrite nth_indep with (d' := Z.of_nat 0) by (rewrite map_length, seq_length; assumption).
          rewrite (map_nth Z.of_nat), seq_nth by assumption. reflexivity.
        + cbn [map concat]. rewrite A6, !map_app. f_equal. unfold points. cbn [d_x c_idx c_pre]. rewrite (PV r Hrr).
          rewrite PG. unfold d_getitem. cbn [d_x]. apply gather_nats. intros i Hi. unfold X. rewrite map_length. now apply R1.
        + cbn [map concat]. rewrite A7, app_length, repeat_app. f_equal. unfold points. cbn [d_w c_idx c_w]. unfold g. now rewrite map_length, L1.
        + cbn [map]. unfold points. cbn [d_y c_pre]. rewrite (PV r Hrr). reflexivity. }
    destruct (ALL rs (fun r H => H)) as [outs [gs [A1 [A2 [A5 [A6 [A7 A10]]]]]]].
    rewrite A1. cbn [bind]. rewrite A5.
    set (l' := map (fun i => nth i l 0%nat) (concat gs)) in *.
    assert (LG : length l' = length (concat gs)) by (unfold l'; now rewrite map_length).
    assert (CD : cat_data (map (points EROps p0 y0) outs) = D l').
    { unfold cat_data. rewrite A6, A7, LG, ones_fin. f_equal. destruct (map (points EROps p0 y0) outs); auto. now rewrite A10. }
    rewrite CD.
    assert (GI : forall i, In i (concat gs) -> i < n).
    { clear - A2. induction A2 as [|g r gs rs (_ & G & _) A2 IH]; cbn; [contradiction|]. intros i Hi. apply in_app_or in Hi as [Hi|Hi]; auto. }
    assert (GL : length (concat gs) = length rs * m).
    { clear - A2. induction A2 as [|g r gs rs (G & _) A2 IH]; [reflexivity|]. cbn. rewrite app_length, IH. lia. }
    exists l'. split; [|split; [|split]].
    - f_equal. f_equal. destruct idx as [i|].
      + subst i. rewrite gather_nats by (intros i Hi; rewrite map_length; auto). unfold l'. rewrite map_map. apply map_ext_in. intros i Hi.
        rewrite nth_indep with (d' := Z.of_nat 0) by (rewrite map_length; auto). apply (map_nth Z.of_nat).
      + f_equal. unfold l'. transitivity (map (fun i => i) (concat gs)); [now rewrite map_id|]. apply map_ext_in. intros i Hi.
        unfold n in *. rewrite Hix in *. rewrite seq_length in *. rewrite seq_nth; auto.
    - rewrite LG, GL, C1. reflexivity.
    - intros i Hi. apply in_map_iff in Hi as [j [<- Hj]]. apply Hr, nth_In. now apply GI.
    - assert (XL : length (pt l) = n) by apply map_length.
      assert (GP : concat (map (fun g => pt (map (fun i => nth i l 0%nat) g)) gs) = pt l').
      { unfold l'. rewrite !concat_map, !map_map. reflexivity. }
      assert (NE : pt l <> []) by (intro E; apply (f_equal (@length P)) in E; rewrite XL in E; cbn in E; lia).
      pose proof (merge_bound p0 k Hk X W kappa eps m p pad (pt l) (map (fun g => pt (map (fun i => nth i l 0%nat) g)) gs) rs) as MB.
      rewrite GP, XL in MB. rewrite map_length in MB. apply MB; auto; clear MB.
      + assert (LO : forall g r, In r rs -> length g = m /\ (forall i, In i g -> i < n) /\
          (sqrt (mmd2 k (X r) (W r) (pt (map (fun i => nth i l 0%nat) g)) (repeat 1 m)) <= eps)%R -> leaf_ok k X W kappa eps m p (pt (map (fun i => nth i l 0%nat) g)) r).
        { intros g r Hrr (G1 & G2 & G3). pose proof (WP r Hrr) as WPr. pose proof (npos_le (W r)) as WL.
          assert (LW : length (W r) = p) by (unfold W; rewrite map_length; now apply RR).
          assert (SW : Rsum (W r) = INR (npos (W r))) by (apply Rsum_npos; intros v; now apply W01).
          unfold leaf_ok. split; [unfold X, W; now rewrite !map_length|]. split; [intros v; now apply W01|].
          rewrite SW. split; [apply lt_0_INR; lia|]. split; [apply le_INR; lia|]. split; [intros a; now apply XK|].
          split; [now rewrite !map_length|exact G3]. }
        clear - A2 LO. induction A2 as [|g r gs rs H A2 IH]; [constructor|]. cbn [map]. constructor.
        * apply LO; [now left|exact H].
        * apply IH. intros g' r' Hr'. apply LO. now right.
      + intros E. rewrite E in C1. cbn in C1. pose proof (nleaves_pos leaf n). lia.
      + lia.
      + intro f. set (h := fun i => (nth i (ones n ++ repeat 0%R pad) 0%R * f (nth i (pt l ++ repeat p0 pad) p0))%R).
        assert (WS : forall r, wsum f (X r) (W r) = Rsum (map h r)).
        { intro r. unfold wsum, X, W, h. clear. induction r as [|a r IH]; [reflexivity|]. cbn [map combine Rsum fst snd]. now rewrite IH. }
        transitivity (Rsum (map h (concat rs))).
        * rewrite RC, (Rsum_perm _ _ (Permutation_map h TP)). unfold h.
          replace (n + pad) with (length (pt l ++ repeat p0 pad)) by (now rewrite app_length, XL, repeat_length).
          rewrite <- (wsum_seq p0) by (now rewrite !app_length, !repeat_length, XL).
          replace n with (length (pt l)) by exact XL. unfold wsum. clear. generalize (pt l). intro ys.
          induction ys as [|a ys IH]; cbn [map Rsum length repeat app combine fst snd]; [|rewrite IH; lra].
          induction pad as [|j IH]; [reflexivity|]. cbn [repeat combine map Rsum fst snd]. rewrite <- IH. lra.
        * clear - WS. induction rs as [|r rs IH]; [reflexivity|]. cbn [concat map Rsum]. now rewrite map_app, Rsum_app, IH, WS.
      + rewrite C1. apply padded_shape.
  Qed.

  Lemma kappa_nonneg : (0 <= kappa)%R.
  Proof.
    pose proof (proj2 Hk [(p0, 1%R)]) as H. unfold bil in H. cbn in H. specialize (Hd p0 (or_introl eq_refl)). lra.
  Qed.
  Lemma eps_nonneg : (0 <= eps)%R.
  Proof.
    destruct (HB (repeat p0 m) (ones m)) as (s & _ & _ & _ & B); [now rewrite !repeat_length|intros v Hv; apply repeat_spec in Hv; auto|now rewrite npos_ones|intros a Ha; apply repeat_spec in Ha; subst; apply Hd; now left|].
      eapply Rle_trans; [apply sqrt_pos|exact B].
  Qed.
  (** sizes 2^a m: no padding *)
  Lemma accurate_pow fuel : forall a l i, length l = 2 ^ a * m -> (forall i, In i l -> i < length xs) -> i = map Z.of_nat l ->
    Nat.log2 ((length l - 1) / mr_half leaf) < fuel ->
    exists t c ix, reduce_coreset EROps p0 y0 base tree leaf fuel (D l) (Some i) = Ok (c, ix) /\
      match ix with Some i => i | None => c_idx c end = map Z.of_nat t /\ c_w c = repeat (Fin 1%R) m /\ length t = m /\
      (forall i, In i t -> i < length xs) /\ (mmd l t <= (1 + INR (Nat.log2 ((length l - 1) / mr_half leaf))) * eps)%R.
  Proof.
    pose proof eps_nonneg as EP.
    induction fuel as [|fuel IH]; intros a l i HL Hr Hi Hf; [lia|].
    assert (P1 : 1 <= 2 ^ a) by (apply Nat.neq_0_lt_0, Nat.pow_nonzero; lia).
    destruct (Nat.le_gt_cases (length l) leaf) as [Hle|Hgt].
    - destruct (accurate_leaf fuel l (Some i) Hr ltac:(nia) Hi) as (t & c & ix & E & A1 & A2 & A3 & A4 & A5).
      exists t, c, ix. split; [exact E|]. split; [exact A1|]. split; [exact A2|]. split; [exact A3|]. split; [exact A4|].
      pose proof (pos_INR (Nat.log2 ((length l - 1) / mr_half leaf))). nra.
    - destruct (pow_padding m leaf a Hm Hl ltac:(lia)) as [PZ PM]. rewrite <- HL in PZ, PM.
      destruct (accurate_level fuel l (Some i) Hr Hgt ltac:(lia) Hi) as (l' & E & L' & R' & B).
      rewrite PZ in B. cbn [INR] in B. rewrite E.
      unfold mr_nleaves in L'. set (b := Nat.log2 ((length l - 1) / mr_half leaf)) in *.
      pose proof (level_pos leaf (length l) ltac:(lia) Hgt) as B1. fold b in B1.
      pose proof (pow_level m leaf b Hm Hl B1) as LB. rewrite <- L' in LB.
      destruct (IH b l' _ L' R' eq_refl ltac:(lia)) as (t & c & ix & E2 & A1 & A2 & A3 & A4 & A5).
      exists t, c, ix. split; [exact E2|]. split; [exact A1|]. split; [exact A2|]. split; [exact A3|]. split; [exact A4|].
      eapply Rle_trans; [apply (mmd_triangle k _ _ (pt l') (ones (length l')) _ _ Hk)|].
      assert (LR : (INR (Nat.log2 ((length l' - 1) / mr_half leaf)) + 1 <= INR b)%R) by (rewrite <- S_INR; apply le_INR; lia).
      unfold Rdiv in B. rewrite Rmult_0_l, Rmult_0_r, Rmult_0_l in B. nra.
  Qed.

  Lemma accurate_reduce fuel : m <= length xs ->
    (leaf < length xs -> mr_padding leaf (length xs) + m <= mr_partition leaf (length xs)) ->
    Nat.log2 ((length xs - 1) / mr_half leaf) < fuel ->
    exists t, map_reduce EROps p0 y0 base tree leaf fuel (unsup xs (ones (length xs)))
              = Ok (mkCS (map Z.of_nat t) (repeat (Fin 1%R) m) (unsup xs (ones (length xs)))) /\
      length t = m /\ (forall i, In i t -> i < length xs) /\
      (sqrt (mmd2 k xs (ones (length xs)) (pt t) (ones m)) <= (1 + INR (Nat.log2 ((length xs - 1) / mr_half leaf))) * eps
        + 2 * (INR (mr_padding leaf (length xs)) / INR (length xs)) * sqrt kappa)%R.
  Proof.
    intros Hn Hp Hf. set (n := length xs) in *.
    assert (SQ : pt (seq 0 n) = xs).
    { unfold n. clear. induction xs as [|a ys IH]; [reflexivity|]. cbn [length seq map nth]. f_equal. rewrite <- seq_shift, map_map. exact IH. }
    assert (LS : length (seq 0 n) = n) by apply seq_length.
    assert (SR : forall i, In i (seq 0 n) -> i < n) by (intros i Hi; apply in_seq in Hi; lia).
    assert (Q0 : (0 <= INR (mr_padding leaf n) / INR n)%R).
    { apply Rmult_le_pos; [apply pos_INR|]. left. apply Rinv_0_lt_compat, lt_0_INR. lia. }
    pose proof (sqrt_pos kappa) as K0. pose proof eps_nonneg as EP. pose proof (pos_INR (Nat.log2 ((n - 1) / mr_half leaf))) as LP.
    unfold map_reduce. destruct fuel as [|fuel]; [lia|].
    destruct (Nat.le_gt_cases n leaf) as [Hle|Hgt].
    - destruct (accurate_leaf fuel (seq 0 n) None SR ltac:(lia) eq_refl) as (t & c & ix & E & A1 & A2 & A3 & A4 & A5).
      rewrite SQ, LS in E, A5. rewrite E. cbn [bind]. exists t. rewrite A1, A2. split; [reflexivity|]. split; [exact A3|]. split; [exact A4|].
      rewrite A3 in A5. nra.
    - destruct (accurate_level fuel (seq 0 n) None SR ltac:(lia) ltac:(rewrite LS; auto) eq_refl) as (l' & E & L' & R' & B).
      rewrite SQ, LS in E, B. rewrite LS in L'. unfold mr_nleaves in L'. set (b := Nat.log2 ((n - 1) / mr_half leaf)) in *.
      pose proof (level_pos leaf n ltac:(lia) Hgt) as B1. fold b in B1.
      pose proof (pow_level m leaf b Hm Hl B1) as LB. rewrite <- L' in LB.
      destruct (accurate_pow fuel b l' _ L' R' eq_refl ltac:(lia)) as (t & c & ix & E2 & A1 & A2 & A3 & A4 & A5).
      rewrite E, E2. cbn [bind]. exists t. rewrite A1, A2. split; [reflexivity|]. split; [exact A3|]. split; [exact A4|].
      rewrite A3 in A5.
      eapply Rle_trans; [apply (mmd_triangle k _ _ (pt l') (ones (length l')) _ _ Hk)|].
      assert (LR : (INR (Nat.log2 ((length l' - 1) / mr_half leaf)) + 1 <= INR b)%R) by (rewrite <- S_INR; apply le_INR; lia).
      nra.
  Qed.
End Accuracy.
