(** * MapReduce over base solvers that pick distinct points of positive weight, for any
    arithmetic: the proof of [MapReduceProofs2.v] with the positivity of a weight as a
    parameter *)
From Coq Require Import List ZArith Bool Arith Lia Permutation.
From Verif Require Import Num Jax JaxFacts DataModel MapReduceModel MapReduceSpec MapReduceProofs MapReduceProofs2.
Import ListNotations.
Open Scope nat_scope.

(** no part of a data set is larger than a leaf *)
Lemma partition_small leaf n : leaf < n -> 2 <= leaf -> mr_partition leaf n <= leaf.
Proof.
  intros Hn Hl. pose proof (nleaves_pos leaf n) as Hp. pose proof (half_pos leaf) as Hh. pose proof (half_le leaf Hl) as HL.
  pose proof (padded_shape leaf n) as PS. pose proof (padding_small leaf n) as PD.
  assert (U : n <= 2 * mr_half leaf * mr_nleaves leaf n).
  { destruct (nleaves_bounds leaf n Hn Hl) as [_ B].
    assert (Q : 1 <= (n - 1) / mr_half leaf) by (apply Nat.div_le_lower_bound; lia).
    unfold mr_nleaves in *. destruct (Nat.log2_spec ((n - 1) / mr_half leaf) ltac:(lia)) as [_ B2].
    rewrite Nat.pow_succ_r' in B2. pose proof (Nat.mul_succ_div_gt (n - 1) (mr_half leaf) ltac:(lia)). nia. }
  assert (mr_partition leaf n * mr_nleaves leaf n < (leaf + 1) * mr_nleaves leaf n) by nia.
  apply Nat.mul_lt_mono_pos_r in H; lia.
Qed.

Section Picks.
  Context {V : Type} (O : FOps V) (good : V -> bool) (ok : V -> Prop).
  Context (Hz : good (f0 O) = false) (Hok : ok (f0 O)).
  Context {P Y : Type} (p0 : P) (y0 : Y).
  Notation data := (Data P Y V).
  Notation cs := (Coresubset P Y V).
  Notation unsup xs dw := (@mkData P Y V xs dw None).
  Notation z := (f0 O).
  Definition pw (v : V) : Prop := good v = true /\ ok v.
  Context (out : V -> Prop) (Hout : forall v, out v -> pw v).
  Definition npos (w : list V) : nat := length (filter good w).
  Definition picksV (N m : nat) (base : data -> result cs) : Prop :=
    forall xs w, length w = length xs -> length xs <= N -> Forall ok w -> m <= npos w ->
      exists s ws, base (unsup xs w) = Ok (mkCS (map Z.of_nat s) ws (unsup xs w)) /\
        length s = m /\ length ws = m /\ Forall out ws /\ NoDup s /\
        (forall i, In i s -> i < length xs /\ good (nth i w z) = true).

  Lemma npos_part w pad r : Forall pw w -> NoDup r -> (forall i, In i r -> i < length w + pad) ->
    length r - pad <= npos (map (fun i => nth i (w ++ repeat z pad) z) r).
  Proof.
    intros Hw Hn Hr.
    assert (B : length (filter (fun i => negb (i <? length w)) r) <= pad).
    { rewrite <- (seq_length pad (length w)). apply NoDup_incl_length; [now apply NoDup_filter|].
      intros i Hi. apply filter_In in Hi as [Hi1 Hi2]. apply in_seq. specialize (Hr i Hi1).
      destruct (Nat.ltb_spec i (length w)); [discriminate|lia]. }
    pose proof (filter_split_length (fun i => i <? length w) r) as FS.
    assert (C : length (filter (fun i => i <? length w) r) <= npos (map (fun i => nth i (w ++ repeat z pad) z) r)).
    { clear -Hw. induction r as [|a r IH]; simpl; auto. unfold npos in *. simpl.
      destruct (Nat.ltb_spec a (length w)) as [L|L].
      - rewrite app_nth1 by assumption. rewrite Forall_forall in Hw. destruct (Hw (nth a w z) (nth_In _ _ L)) as [G _].
        rewrite G. simpl; lia.
      - destruct (good _); simpl; lia. }
    lia.
  Qed.

  Lemma part_value xs w pad r : length w = length xs -> (forall i, In i r -> i < length xs + pad) ->
    d_getitem O p0 y0 (zero_pad O p0 y0 (unsup xs w) pad) (map Z.of_nat r)
    = unsup (map (fun i => nth i (xs ++ repeat p0 pad) p0) r) (map (fun i => nth i (w ++ repeat z pad) z) r).
  Proof.
    intros HL Hr. unfold d_getitem, zero_pad. cbn [d_x d_w d_y option_map]. f_equal.
    - apply gather_nats. intros i Hi. rewrite app_length, repeat_length. auto.
    - apply gather_nats. intros i Hi. rewrite app_length, repeat_length, HL. auto.
  Qed.

  Lemma picks_reduce m base tree leaf xs : picksV leaf m base -> tree_perm tree -> 1 <= m -> 2 <= leaf ->
    forall fuel l w idx c ix,
      length w = length l -> Forall pw w -> NoDup l -> (forall i, In i l -> i < length xs) -> m <= length l ->
      match idx with None => l = seq 0 (length xs) | Some i => i = map Z.of_nat l end ->
      never_starves leaf m fuel (length l) = true ->
      reduce_coreset O p0 y0 base tree leaf fuel (unsup (map (fun i => nth i xs p0) l) w) idx = Ok (c, ix) ->
      exists t ws, match ix with Some i => i | None => c_idx c end = map Z.of_nat t /\ NoDup t /\ length t = m /\
        (forall i, In i t -> i < length xs) /\ c_w c = ws /\ length ws = m /\ Forall out ws /\
        d_x (points O p0 y0 c) = map (fun i => nth i xs p0) t.
  Proof.
    intros HB HT Hm Hl. induction fuel as [|fuel IH]; intros l w idx c ix HL Hw Hnd Hr Hml Hix Hns E; [discriminate|].
    cbn [reduce_coreset] in E. cbn [never_starves] in Hns. rewrite padded_rows_eq, leaf_rows_eq, leaf_count_eq in Hns.
    set (d := unsup (map (fun i => nth i xs p0) l) w) in *.
    assert (DL : d_len d = length l) by (unfold d_len, d; cbn [d_x]; now rewrite map_length).
    rewrite DL in E.
    destruct (Nat.leb_spec (length l) leaf) as [Hle|Hgt].
    - destruct (HB (map (fun i => nth i xs p0) l) w) as [s [ws [E1 [L1 [L2 [F1 [N1 R1]]]]]]].
      + now rewrite map_length.
      + now rewrite map_length.
      + eapply Forall_impl; [|exact Hw]. intros v Hv. apply Hv.
      + pose proof (npos_part w 0 (seq 0 (length w)) Hw (seq_NoDup _ _)) as NP. rewrite seq_length in NP.
        assert (E0 : map (fun i => nth i (w ++ repeat z 0) z) (seq 0 (length w)) = w).
        { simpl. rewrite app_nil_r. clear. induction w as [|a w IH]; simpl; auto. f_equal. rewrite <- seq_shift, map_map. exact IH. }
        rewrite E0 in NP. apply Nat.le_trans with (length w - 0); [lia|]. apply NP. intros i Hi. apply in_seq in Hi. lia.
      + fold d in E1. rewrite E1 in E. cbn [bind] in E. injection E as <- <-. cbn [c_idx c_w].
        rewrite map_length in R1.
        exists (map (fun i => nth i l 0) s), ws. split; [|split; [|split; [|split; [|split; [|split; [|split]]]]]]; auto.
        * destruct idx as [i|]; subst.
          -- rewrite gather_nats by (intros i Hi; rewrite map_length; now apply R1). rewrite map_map. apply map_ext_in. intros i Hi.
             rewrite nth_indep with (d' := Z.of_nat 0) by (rewrite map_length; now apply R1). apply map_nth.
          -- f_equal. transitivity (map (fun i => i) s); [now rewrite map_id|]. apply map_ext_in. intros i Hi.
             rewrite seq_nth; [reflexivity|]. apply R1 in Hi as [Hi _]. now rewrite seq_length in Hi.
        * apply NoDup_map_nth; auto. intros; now apply R1.
        * now rewrite map_length.
        * intros i Hi. apply in_map_iff in Hi as [j [<- Hj]]. apply Hr, nth_In. now apply R1.
        * unfold points, d_getitem, d. cbn [c_pre c_idx d_x]. rewrite gather_nats by (intros i Hi; rewrite map_length; now apply R1).
          rewrite map_map. apply map_ext_in. intros i Hi.
          rewrite nth_indep with (d' := nth 0 xs p0) by (rewrite map_length; now apply R1).
          apply (map_nth (fun i => nth i xs p0)).
    - apply andb_true_iff in Hns as [NS1 NS2]. apply Nat.leb_le in NS1.
      unfold jit_tree in E. rewrite DL in E.
      set (n := length l) in *. set (pad := mr_padding leaf n) in *. set (pd := zero_pad O p0 y0 d pad) in *.
      set (tr := tree (d_x pd) (d_w pd) (mr_half leaf)) in *.
      assert (TP : Permutation tr (seq 0 (n + pad))).
      { unfold tr. replace (n + pad) with (length (d_x pd)); [apply HT|]. unfold pd, zero_pad, d. cbn [d_x].
        rewrite app_length, map_length, repeat_length. reflexivity. }
      set (p := mr_partition leaf n) in *.
      pose proof (partition_large leaf n Hgt Hl) as PL. fold p in PL.
      destruct (chunks_mult p (mr_nleaves leaf n) tr) as [C1 C2]; [lia| |].
      { rewrite (Permutation_length TP), seq_length. apply padded_shape. }
      rewrite map_chunks in E.
      set (rs := chunks p tr) in *.
      assert (RC : concat rs = tr) by (apply chunks_concat; lia).
      assert (RN : NoDup (concat rs)) by (rewrite RC; eapply Permutation_NoDup; [symmetry; exact TP|apply seq_NoDup]).
      assert (RR : forall r, In r rs -> NoDup r /\ length r = p /\ forall i, In i r -> i < n + pad).
      { intros r Hrr. split; [|split].
        - clear -RN Hrr. induction rs as [|r' rs IH]; [contradiction|]. simpl in RN. apply NoDup_app_iff' in RN as [A1 [A2 A3]].
          destruct Hrr as [<-|Hrr]; auto.
        - now apply C2.
        - intros i Hi. assert (I : In i tr) by (rewrite <- RC; apply in_concat; eauto).
          apply (Permutation_in _ TP) in I. apply in_seq in I. lia. }
      rewrite !map_map in E.
      (* every leaf *)
      assert (LEAF : forall r, In r rs -> exists s ws,
        base (d_getitem O p0 y0 pd (map Z.of_nat r))
        = Ok (mkCS (map Z.of_nat s) ws (d_getitem O p0 y0 pd (map Z.of_nat r)))
        /\ length s = m /\ length ws = m /\ Forall out ws /\ NoDup s
        /\ (forall i, In i s -> i < length r /\ nth i r 0 < n)).
      { intros r Hrr. destruct (RR r Hrr) as [Q1 [Q2 Q3]].
        assert (PV : d_getitem O p0 y0 pd (map Z.of_nat r)
          = unsup (map (fun i => nth i (map (fun i => nth i xs p0) l ++ repeat p0 pad) p0) r) (map (fun i => nth i (w ++ repeat z pad) z) r)).
        { unfold pd, d. apply part_value; rewrite map_length; auto. }
        rewrite PV.
        destruct (HB (map (fun i => nth i (map (fun i => nth i xs p0) l ++ repeat p0 pad) p0) r) (map (fun i => nth i (w ++ repeat z pad) z) r))
          as [s [ws [E1 [L1 [L2 [F1 [N1 R1]]]]]]].
        - now rewrite !map_length.
        - rewrite map_length, Q2. apply partition_small; assumption.
        - apply Forall_forall. intros v Hv. apply in_map_iff in Hv as [i [<- Hi]].
          assert (I : In (nth i (w ++ repeat z pad) z) (w ++ repeat z pad)).
          { apply nth_In. rewrite app_length, repeat_length, HL. auto. }
          apply in_app_iff in I as [I|I]; [rewrite Forall_forall in Hw; apply Hw in I; apply I|apply repeat_spec in I; rewrite I; exact Hok].
        - eapply Nat.le_trans; [|apply npos_part; auto; rewrite HL; auto]. lia.
        - exists s, ws. split; [exact E1|]. split; auto. split; auto. split; auto. split; auto.
          intros i Hi. destruct (R1 i Hi) as [R2 R3]. rewrite map_length in R2. split; auto.
          rewrite nth_indep with (d' := (fun i => nth i (w ++ repeat z pad) z) 0) in R3 by (rewrite map_length; lia).
          rewrite (map_nth (fun i => nth i (w ++ repeat z pad) z)) in R3.
          destruct (Nat.lt_ge_cases (nth i r 0) n) as [G|G]; [assumption|]. rewrite app_nth2 in R3 by lia.
          exfalso. assert (Z : nth (nth i r 0 - length w) (repeat z pad) z = z).
          { destruct (nth_in_or_default (nth i r 0 - length w) (repeat z pad) z) as [I|I]; auto. now apply repeat_spec in I. }
          rewrite Z in R3. congruence. }
      (* all leaves together *)
      assert (ALL : forall rs', (forall r, In r rs' -> In r rs) -> exists outs gs ws,
        mapM base (map (fun r => d_getitem O p0 y0 pd (map Z.of_nat r)) rs') = Ok outs /\
        Forall2 (fun g r => NoDup g /\ incl g r) gs rs' /\ (forall g, In g gs -> length g = m /\ forall i, In i g -> i < n) /\
        length gs = length rs' /\
        concat (map2 (fun i c0 => gather 0%Z i (c_idx c0)) (map (fun r => gather 0%Z (map Z.of_nat (seq 0 n)) (map Z.of_nat r)) rs') outs)
          = map Z.of_nat (concat gs) /\
        concat (map d_x (map (points O p0 y0) outs)) = map (fun i => nth i xs p0) (map (fun i => nth i l 0) (concat gs)) /\
        concat (map d_w (map (points O p0 y0) outs)) = ws /\ Forall out ws /\
        length ws = length (concat gs) /\
        match map (points O p0 y0) outs with [] => True | d0 :: _ => d_y d0 = None end).
      { induction rs' as [|r rs' IHr]; intros Hin.
        - exists [], [], []. simpl. repeat split; auto; try constructor; contradiction.
        - destruct IHr as [outs [gs [ws [A1 [A2 [A3 [A4 [A5 [A6 [A7 [A8 [A9 A10]]]]]]]]]]]]; [intros; apply Hin; now right|].
          destruct (LEAF r (Hin r (or_introl eq_refl))) as [s [ws1 [E1 [L1 [L2 [F1 [N1 R1]]]]]]].
          destruct (RR r (Hin r (or_introl eq_refl))) as [Q1 [Q2 Q3]].
          set (g := map (fun i => nth i r 0) s).
          assert (GN : forall i, In i g -> i < n).
          { intros i Hi. apply in_map_iff in Hi as [j [<- Hj]]. now apply R1. }
          eexists (_ :: outs), (g :: gs), (ws1 ++ ws). cbn [map mapM]. rewrite E1. cbn [bind]. rewrite A1. cbn [bind].
          split; [reflexivity|]. split; [|split; [|split; [|split; [|split; [|split; [|split; [|split]]]]]]].
          + constructor; auto. split; [apply NoDup_map_nth; auto; intros; now apply R1|].
            intros i Hi. apply in_map_iff in Hi as [j [<- Hj]]. apply nth_In. now apply R1.
          + intros g' [<-|Hg']; auto. split; auto. unfold g. now rewrite map_length.
          + simpl. now rewrite A4.
          + cbn [map2 concat]. rewrite A5, map_app. f_equal. cbn [c_idx]. unfold gather at 1. rewrite map_map. unfold g. rewrite map_map.
            apply map_ext_in. intros i Hi. destruct (R1 i Hi) as [R2 R3].
            rewrite jget_nat by (rewrite gather_length, map_length; assumption). unfold gather.
            rewrite nth_indep with (d' := jget 0%Z (map Z.of_nat (seq 0 n)) (Z.of_nat 0)) by (rewrite !map_length; assumption).
            rewrite (map_map Z.of_nat), (map_nth (fun x => jget 0%Z (map Z.of_nat (seq 0 n)) (Z.of_nat x))).
            rewrite jget_nat by (rewrite map_length, seq_length; assumption).
            rewrite nth_indep with (d' := Z.of_nat 0) by (rewrite map_length, seq_length; assumption).
            rewrite (map_nth Z.of_nat), seq_nth by assumption. reflexivity.
          + cbn [map concat]. rewrite A6, !map_app. f_equal. unfold points. cbn [d_x c_idx c_pre].
            assert (PV : d_getitem O p0 y0 pd (map Z.of_nat r)
              = unsup (map (fun i => nth i (map (fun i => nth i xs p0) l ++ repeat p0 pad) p0) r) (map (fun i => nth i (w ++ repeat z pad) z) r)).
            { unfold pd, d. apply part_value; rewrite map_length; auto. }
            rewrite PV. unfold d_getitem. cbn [d_x]. rewrite gather_nats by (intros i Hi; rewrite map_length; now apply R1).
            unfold g. rewrite !map_map. apply map_ext_in. intros i Hi. destruct (R1 i Hi) as [R2 R3].
            rewrite nth_indep with (d' := (fun i => nth i (map (fun i => nth i xs p0) l ++ repeat p0 pad) p0) 0) by (rewrite map_length; assumption).
            rewrite (map_nth (fun i => nth i (map (fun i => nth i xs p0) l ++ repeat p0 pad) p0)).
            rewrite app_nth1 by (rewrite map_length; assumption).
            rewrite nth_indep with (d' := (fun i => nth i xs p0) 0) by (rewrite map_length; assumption).
            apply (map_nth (fun i => nth i xs p0)).
          + cbn [map concat]. rewrite A7. reflexivity.
          + apply Forall_app; split; auto.
          + simpl. rewrite !app_length, A9. unfold g. rewrite map_length. lia.
          + cbn [map]. reflexivity. }
      destruct (ALL rs (fun r H => H)) as [outs [gs [ws [A1 [A2 [A3 [A4 [A5 [A6 [A7 [A8 [A9 A10]]]]]]]]]]]].
      rewrite A1 in E. cbn [bind] in E. rewrite A5 in E.
      set (l' := map (fun i => nth i l 0) (concat gs)) in *.
      assert (CD : cat_data (map (points O p0 y0) outs) = unsup (map (fun i => nth i xs p0) l') ws).
      { unfold cat_data. rewrite A6, A7. f_equal. destruct (map (points O p0 y0) outs); auto. now rewrite A10. }
      rewrite CD in E.
      assert (GI : forall i, In i (concat gs) -> i < n).
      { intros i Hi. apply in_concat in Hi as [g [G1 G2]]. apply A3 in G1 as [_ G1]. auto. }
      assert (GL : length (concat gs) = mr_nleaves leaf n * m).
      { rewrite <- C1, <- A4. rewrite <- (map_id gs) at 1. apply (concat_length_const (fun g => g)). intros g Hg. now apply A3. }
      assert (LL : length l' = mr_nleaves leaf n * m) by (unfold l'; rewrite map_length; exact GL).
      apply IH in E; auto.
      + rewrite LL, <- GL. exact A9.
      + eapply Forall_impl; [|exact A8]. exact Hout.
      + apply NoDup_map_nth; auto. now apply (NoDup_concat_sub gs rs).
      + intros i Hi. apply in_map_iff in Hi as [j [<- Hj]]. apply Hr, nth_In. auto.
      + rewrite LL. pose proof (nleaves_pos leaf n). nia.
      + cbv beta iota. destruct idx as [i|].
        * subst i. rewrite gather_nats by (intros i Hi; rewrite map_length; auto). unfold l'. rewrite map_map. apply map_ext_in. intros i Hi.
          rewrite nth_indep with (d' := Z.of_nat 0) by (rewrite map_length; auto). apply (map_nth Z.of_nat).
        * f_equal. unfold l'. transitivity (map (fun i => i) (concat gs)); [now rewrite map_id|]. apply map_ext_in. intros i Hi.
          unfold n in *. rewrite Hix in *. rewrite seq_length in *. rewrite seq_nth; auto.
      + rewrite LL. exact NS2.
  Qed.

  Lemma picks_map_reduce m base tree leaf fuel xs w r : picksV leaf m base -> tree_perm tree -> 1 <= m -> 2 <= leaf ->
    length w = length xs -> Forall pw w -> m <= length xs ->
    never_starves leaf m fuel (length xs) = true ->
    map_reduce O p0 y0 base tree leaf fuel (unsup xs w) = Ok r ->
    exists t ws, r = mkCS (map Z.of_nat t) ws (unsup xs w) /\ NoDup t /\ length t = m /\
      (forall i, In i t -> i < length xs) /\ length ws = m /\ Forall out ws.
  Proof.
    intros HB HT Hm Hl HL Hw Hml Hns E. unfold map_reduce in E.
    destruct (reduce_coreset O p0 y0 base tree leaf fuel (unsup xs w) None) as [[c ix]|] eqn:ER; cbn [bind] in E; [|discriminate].
    injection E as <-.
    assert (EX : map (fun i => nth i xs p0) (seq 0 (length xs)) = xs).
    { clear. induction xs as [|a xs IH]; simpl; auto. f_equal. rewrite <- seq_shift, map_map. exact IH. }
    rewrite <- EX in ER at 1.
    apply (picks_reduce m base tree leaf xs HB HT Hm Hl fuel (seq 0 (length xs)) w None) in ER; auto.
    - destruct ER as [t [ws [B1 [B2 [B3 [B4 [B5 [B6 [B7 _]]]]]]]]]. exists t, ws. rewrite B1, B5. repeat split; auto.
    - now rewrite seq_length.
    - apply seq_NoDup.
    - intros i Hi. apply in_seq in Hi. lia.
    - now rewrite seq_length.
    - now rewrite seq_length.
  Qed.
End Picks.
