(** * Kernel thinning and Compress++ in any arithmetic

    The proofs of [KTProofs2.v] and [KTProofs3.v] with the arithmetic as a parameter: all
    that is needed of it is that the final herding refinement returns distinct indices. *)
From Coq Require Import List ZArith Lia Bool Permutation.
From Verif Require Import Num Jax JaxFacts DataModel MeanModel GreedyModel MetricModel CholModel CholSpec
  MapReduceModel MapReduceSpec MapReduceProofs MapReduceProofs2 KTModel KTSpec KTProofs KTProofs2 KTProofs3.
From Verif Require BenchSized.
Import ListNotations.
Open Scope nat_scope.

Section Thin.
  Context {V : Type} (O : FOps V) {P Y K : Type} (p0 : P) (y0 : Y) (wok : V -> Prop) (N : nat) (s : kthin V P K).
  Notation unsup xs dw := (@mkData P Y V xs dw None).
  (** the refinement of [size] indices on [size] or more, and at most [N], weighted points *)
  Hypothesis refine_ok : forall size best xs dw, 1 <= size -> length best = size -> size <= length xs -> length xs <= N ->
    length dw = length xs -> Forall wok dw ->
    exists l, kt_refine O p0 y0 (with_size s size) (mkCS best (repeat (f1 O) size) (unsup xs dw))
                = Ok (mkCS (map Z.of_nat l) (repeat (f1 O) size) (unsup xs dw)) /\
      length l = size /\ NoDup l /\ forall i, In i l -> i < length xs.
  Hypothesis choice : CholSpec.choice_ok (kt_choice s).
  Hypothesis depth : forall n size, 1 <= size <= n -> size * 2 ^ (kt_depth s n size) <= n.

  Lemma cands_ok size xs dw : 1 <= size -> size <= length xs ->
    exists cands cl base,
      kt_candidates O p0 y0 (with_size s size) (unsup xs dw) = Ok cands /\
      (forall c, In c cands -> c_pre c = unsup xs dw) /\
      map c_idx cands = map (map Z.of_nat) (cl ++ [base]) /\
      splits cl (2 ^ kt_depth s (length xs) size) size (seq 0 (size * 2 ^ kt_depth s (length xs) size)) /\
      kt_choice s (length xs) size None false = Ok base /\
      (forall l, In l (cl ++ [base]) -> length l = size /\ NoDup l /\ forall i, In i l -> i < length xs).
  Proof.
    intros K1 Hn. unfold kt_candidates. change (d_len (unsup xs dw)) with (length xs). cbn [with_size kt_size kt_depth].
    pose proof (depth (length xs) size (conj K1 Hn)) as K3.
    set (m := kt_depth s (length xs) size) in *. cbv zeta.
    destruct (partition_ok O p0 y0 (with_size s size) (unsup xs dw) size m K3) as [parts [E [Q [cl [M S]]]]].
    rewrite E. cbn [bind]. unfold baseline, random_reduce. cbn [rs_weighted rs_choice rs_size rs_unique negb with_size kt_choice].
    change (d_len (unsup xs dw)) with (length xs).
    destruct (choice (length xs) size None false) as [_ C].
    destruct C as [base [Eb [Lb [Rb Nb]]]]; [lia|]. rewrite Eb. cbn [bind]. unfold cs_init.
    set (cb := mkCS _ _ _).
    assert (Lp : d_len (points O p0 y0 cb) = size).
    { unfold points, d_len, d_getitem, cb. cbn [d_x c_idx c_pre]. now rewrite gather_length, map_length. }
    rewrite Lp, (proj2 (Nat.ltb_ge _ _)) by assumption. cbn [bind].
    exists (parts ++ [cb]), cl, base. split; [reflexivity|]. split; [|split; [|split; [exact S|split; [reflexivity|]]]].
    - intros c Hc. apply in_app_iff in Hc as [Hc|[<-|[]]]; [auto|reflexivity].
    - rewrite !map_app, M. reflexivity.
    - intros l H. split; [|split].
      { apply in_app_iff in H as [H|[<-|[]]]; [now apply S|assumption]. }
      2: { intros i Hi. apply in_app_iff in H as [H|[<-|[]]]; [|now apply Rb].
        destruct S as [_ [_ S]]. assert (I : In i (concat cl)) by (apply in_concat; eauto).
        apply (Permutation_in _ S) in I. apply in_seq in I. lia. }
      apply in_app_iff in H as [H|[<-|[]]]; [|now apply Nb].
      destruct S as [_ [_ S]]. apply in_split in H as [a [b ->]]. rewrite concat_app in S. cbn [concat] in S.
      assert (ND : NoDup (concat a ++ l ++ concat b)) by (eapply Permutation_NoDup; [symmetry; exact S|apply seq_NoDup]).
      apply NoDup_app_iff' in ND as [_ [ND _]]. apply NoDup_app_iff' in ND as [ND _]. exact ND.
  Qed.

  (** the reported MMD of a candidate *)
  Definition cand_mmd (xs : list P) (dw : list V) (c : list nat) : result V :=
    mmd_compute O p0 y0 (kt_kernel s) (as_data O (map (fun j => nth j xs p0) c)) (unsup xs dw) (BOne None).

  Lemma chosen_ok size xs dw cands (cl : list (list nat)) : 1 <= size -> cl <> [] -> xs <> [] ->
    (forall c, In c cands -> c_pre c = unsup xs dw) -> map c_idx cands = map (map Z.of_nat) cl ->
    (forall l, In l cl -> length l = size /\ forall i, In i l -> i < length xs) ->
    exists mm, mapM (cand_mmd xs dw) cl = Ok mm /\ length mm = length cl /\ argmin O mm < length cl /\
      kt_choose O p0 y0 (with_size s size) cands (unsup xs dw) = Ok (map Z.of_nat (nth (argmin O mm) cl [])).
  Proof.
    intros Hm Hcl Hxs Hpre Hidx Hl.
    assert (Lc : length cands = length cl).
    { rewrite <- (map_length c_idx), Hidx, map_length. reflexivity. }
    assert (Lx : 0 < length xs) by (destruct xs; [congruence|cbn; lia]).
    unfold kt_choose.
    assert (SL : same_lengths cands = true).
    { assert (A : forall c, In c cands -> length (c_idx c) = size).
      { intros c Hc. apply (in_map c_idx) in Hc. rewrite Hidx in Hc. apply in_map_iff in Hc as [l [E I]].
        rewrite <- E, map_length. now apply Hl. }
      destruct cands as [|c t]; [reflexivity|]. cbn [same_lengths]. apply forallb_forall. intros c' Hc'.
      apply Nat.eqb_eq. rewrite (A c), (A c'); cbn; auto. }
    rewrite SL. cbn [negb with_size kt_kernel].
    destruct (BenchSized.mapM_ok (cand_mmd xs dw) cl) as [mm [EM LM]].
    { intros l Hin. unfold cand_mmd. apply BenchSized.mmd_ok; [|exact Lx].
      unfold as_data, d_len. cbn [d_x]. rewrite map_length. destruct (Hl l Hin). lia. }
    assert (EQ : mapM (fun c => mmd_compute O p0 y0 (kt_kernel s) (as_data O (d_x (points O p0 y0 c))) (unsup xs dw) (BOne None)) cands
                 = mapM (cand_mmd xs dw) cl).
    { clear SL Hcl EM LM mm. revert cl Hidx Hl Lc. induction cands as [|c t IH]; intros cl Hidx Hl Lc.
      - destruct cl; [reflexivity|discriminate].
      - destruct cl as [|l cl]; [discriminate|]. cbn [map] in Hidx. injection Hidx as E1 E2.
        cbn [mapM map]. rewrite (IH (fun c' H => Hpre c' (or_intror H)) cl E2 (fun l' H => Hl l' (or_intror H)))
          by (injection Lc; auto).
        destruct (Hl l (or_introl eq_refl)) as [L1 L2]. unfold cand_mmd at 1.
        unfold points, d_getitem. cbn [d_x]. rewrite (Hpre c (or_introl eq_refl)), E1. cbn [d_x].
        now rewrite gather_nats by assumption. }
    rewrite EQ, EM. cbn [bind]. exists mm. split; [reflexivity|]. split; [exact LM|].
    assert (LB : argmin O mm < length cl).
    { rewrite <- LM. apply BenchSized.argmin_lt. intro Z. rewrite Z in LM. destruct cl; [congruence|discriminate]. }
    split; [exact LB|]. rewrite Hidx. f_equal. change (@nil Z) with (map Z.of_nat []). now rewrite map_nth.
  Qed.

  Lemma reduce_ok size xs dw : 1 <= size -> size <= length xs -> length xs <= N -> length dw = length xs -> Forall wok dw ->
    exists l, kt_reduce O p0 y0 (with_size s size) (unsup xs dw)
              = Ok (mkCS (map Z.of_nat l) (repeat (f1 O) size) (unsup xs dw)) /\
      length l = size /\ NoDup l /\ forall i, In i l -> i < length xs.
  Proof.
    intros Hm Hn HN Hdw Hw.
    assert (Hxs : xs <> []) by (destruct xs; [cbn in Hn; lia|discriminate]).
    destruct (cands_ok size xs dw Hm Hn) as [cands [cl [base [E [Q [M [S [Eb Hl]]]]]]]].
    unfold kt_reduce. change (d_len (unsup xs dw)) with (length xs). cbn [with_size kt_size].
    rewrite (proj2 (Nat.ltb_ge _ _)) by assumption. fold (with_size s size). rewrite E. cbn [bind].
    destruct (chosen_ok size xs dw cands (cl ++ [base]) Hm) as [mm [EM [LM [LB Ec]]]]; auto.
    { destruct cl; discriminate. }
    { intros l Hin. split; apply Hl; assumption. }
    rewrite Ec. cbn [bind]. set (best := nth _ _ _) in *. destruct (Hl best (nth_In _ _ LB)) as [Lb [Nb Rb]]. unfold cs_init.
    replace (d_len (points O p0 y0 _)) with size
      by (unfold points, d_len, d_getitem; cbn [d_x c_idx c_pre]; now rewrite gather_length, map_length).
    change (d_len (unsup xs dw)) with (length xs).
    rewrite (proj2 (Nat.ltb_ge _ _)) by assumption. cbn [bind]. rewrite map_length, Lb.
    apply refine_ok; auto. now rewrite map_length.
  Qed.

  Lemma thin_any size xs dw l : length dw = length xs -> Forall wok dw -> rows (length xs) l -> 1 <= size <= length l -> length l <= N ->
    exists l', compress_thin O p0 y0 s (unsup xs dw) size (map Z.of_nat l) = Ok (map Z.of_nat l') /\
      length l' = size /\ NoDup l' /\ incl l' l.
  Proof.
    intros Hdw Hpos [Hnd Hr] Hs HN. unfold compress_thin.
    assert (EG : d_getitem O p0 y0 (unsup xs dw) (map Z.of_nat l)
      = unsup (map (fun i => nth i xs p0) l) (map (fun i => nth i dw (f0 O)) l)).
    { unfold d_getitem. cbn [d_x d_w d_y option_map]. rewrite gather_nats by assumption.
      now rewrite gather_nats by (rewrite Hdw; assumption). }
    rewrite EG.
    destruct (reduce_ok size (map (fun i => nth i xs p0) l) (map (fun i => nth i dw (f0 O)) l)) as [q [E [L [ND R]]]].
    - lia.
    - rewrite map_length. lia.
    - rewrite map_length. lia.
    - now rewrite !map_length.
    - apply Forall_forall. intros v Hv. apply in_map_iff in Hv as [i [<- Hi]].
      rewrite Forall_forall in Hpos. apply Hpos, nth_In. rewrite Hdw. auto.
    - rewrite map_length in R. rewrite E. cbn [bind c_idx].
      exists (map (fun i => nth i l 0) q). rewrite gather_of_nat by assumption.
      split; [reflexivity|]. split; [now rewrite map_length|]. split; [now apply NoDup_map_nth|].
      intros a Ha. apply in_map_iff in Ha as [i [<- Hi]]. apply nth_In. auto.
  Qed.

  Lemma rec_ok xs dw g : length dw = length xs -> Forall wok dw -> length xs <= N ->
    forall j fuel l, rows (length xs) l -> length l = 4 ^ (g + j) -> j <= fuel ->
    exists l', compress_rec O p0 y0 s (unsup xs dw) g fuel (map Z.of_nat l) = Ok (map Z.of_nat l') /\
      length l' = 2 ^ (g + (g + j)) /\ NoDup l' /\ incl l' l.
  Proof.
    intros Hdw Hpos HN. induction j as [|j IH]; intros fuel l Hrows HL Hf.
    - rewrite Nat.add_0_r in *. exists l. split.
      + destruct fuel; cbn [compress_rec]; rewrite map_length, HL, Nat.eqb_refl; reflexivity.
      + split; [rewrite HL, pow4_2; f_equal; lia|]. split; [apply Hrows|apply incl_refl].
    - destruct fuel as [|fuel]; [lia|]. cbn [compress_rec]. rewrite map_length, HL.
      assert (EP : 4 ^ (g + S j) = 4 ^ (g + j) * 4) by (rewrite Nat.add_succ_r; cbn [Nat.pow]; lia).
      pose proof (pow4_pos (g + j)) as P1.
      assert (NE : (4 ^ (g + S j) =? 4 ^ g) = false).
      { apply Nat.eqb_neq. intros E. apply Nat.pow_inj_r in E; lia. }
      rewrite NE. assert (M4 : 4 ^ (g + S j) mod 4 = 0) by (rewrite EP; apply Nat.mod_mul; lia).
      rewrite M4. cbn [Nat.eqb negb].
      assert (D4 : 4 ^ (g + S j) / 4 = 4 ^ (g + j)) by (rewrite EP; apply Nat.div_mul; lia).
      rewrite D4, map_chunks, mapM_map.
      destruct (chunks_mult (4 ^ (g + j)) 4 l ltac:(lia) ltac:(lia)) as [C1 C2].
      destruct (mapM_ok (fun a => compress_rec O p0 y0 s (unsup xs dw) g fuel (map Z.of_nat a))
        (chunks (4 ^ (g + j)) l)
        (fun r z => exists q, z = map Z.of_nat q /\ length q = 2 ^ (g + (g + j)) /\ NoDup q /\ incl q r)) as [outs [EO FO]].
      { intros a Ha. destruct (IH fuel a) as [q [E [L [ND I]]]].
        - split.
          + destruct Hrows as [Hn _]. rewrite <- (chunks_concat (4 ^ (g + j)) l) in Hn by lia.
            apply in_split in Ha as [u [v Ev]]. rewrite Ev, concat_app in Hn. cbn [concat] in Hn.
            apply NoDup_app_iff' in Hn as [_ [Hn _]]. apply NoDup_app_iff' in Hn as [Hn _]. exact Hn.
          + intros i Hi. apply Hrows. rewrite <- (chunks_concat (4 ^ (g + j)) l) by lia. apply in_concat. eauto.
        - auto.
        - lia.
        - exists (map Z.of_nat q). split; [exact E|]. exists q. auto. }
      rewrite EO. cbn [bind].
      assert (EX : exists qs, outs = map (map Z.of_nat) qs /\
        Forall2 (fun q r => NoDup q /\ incl q r) qs (chunks (4 ^ (g + j)) l) /\
        (forall q, In q qs -> length q = 2 ^ (g + (g + j)))).
      { clear -FO. induction FO as [|r z rs zs [q [E [L [ND I]]]] F [qs [A [B C]]]].
        - exists []. repeat split; [constructor|intros q []].
        - exists (q :: qs). subst. repeat split; [constructor; auto|]. intros q' [<-|H]; auto. }
      destruct EX as [qs [-> [FQ LQ]]]. rewrite <- concat_map.
      assert (NQ : NoDup (concat qs)).
      { eapply NoDup_concat_sub; [exact FQ|]. rewrite chunks_concat by lia. apply Hrows. }
      assert (IQ : incl (concat qs) l).
      { rewrite <- (chunks_concat (4 ^ (g + j)) l) by lia. clear -FQ.
        induction FQ as [|q r qs rs [_ H] F IHF]; cbn [concat]; [apply incl_refl|].
        apply incl_app; [now apply incl_appl|now apply incl_appr]. }
      assert (LC : length (concat qs) = 4 * 2 ^ (g + (g + j))).
      { assert (L4 : length qs = 4) by (rewrite (Forall2_len _ _ _ FQ); assumption).
        rewrite <- L4. clear -LQ. induction qs as [|q qs IHq]; [reflexivity|]. cbn [concat length].
        rewrite app_length, (LQ q) by (now left). rewrite IHq by (intros; apply LQ; now right). lia. }
      unfold compress_half. rewrite map_length, LC.
      assert (DH : 4 * 2 ^ (g + (g + j)) / 2 = 2 ^ (g + (g + S j))).
      { replace (4 * 2 ^ (g + (g + j))) with (2 ^ (g + (g + S j)) * 2)
          by (replace (g + (g + S j)) with (S (g + (g + j))) by lia; cbn [Nat.pow]; lia).
        apply Nat.div_mul. lia. }
      rewrite DH.
      assert (RC : rows (length xs) (concat qs)) by (split; [exact NQ|]; intros i Hi; apply Hrows, IQ, Hi).
      assert (LX : length (concat qs) <= length xs).
      { rewrite <- (seq_length (length xs) 0). apply NoDup_incl_length; [exact NQ|]. intros i Hi. apply in_seq. pose proof (proj2 RC i Hi). lia. }
      destruct (thin_any (2 ^ (g + (g + S j))) xs dw (concat qs) Hdw Hpos RC) as [l' [E [L [ND I]]]].
      + rewrite LC. pose proof (pow2_pos (g + (g + S j))). split; [lia|].
        replace (g + (g + S j)) with (S (g + (g + j))) by lia. cbn [Nat.pow]. lia.
      + lia.
      + exists l'. repeat split; auto. eapply incl_tran; eauto.
  Qed.

  Lemma compress_any (c : compress V P K) xs dw p fuel : cp_kt c = s -> 1 <= kt_size s ->
    length dw = length xs -> Forall wok dw -> length xs <= N ->
    cp_log4 c (length xs) = p -> 4 ^ p <= length xs -> (0 <= cp_g c <= Z.of_nat p)%Z ->
    kt_size s <= 2 ^ (Z.to_nat (cp_g c) + p) -> kt_size s <= length xs -> p <= fuel ->
    exists l, compress_reduce O p0 y0 c fuel (unsup xs dw)
              = Ok (mkCS (map Z.of_nat l) (repeat (f1 O) (kt_size s)) (unsup xs dw)) /\
      length l = kt_size s /\ NoDup l /\ forall i, In i l -> i < length xs.
  Proof.
    intros Es Hm Hdw Hpos HN Hp H4 Hg Hsz Hn Hf.
    unfold compress_reduce. change (d_len (unsup xs dw)) with (length xs). rewrite Es.
    rewrite (proj2 (Nat.ltb_ge _ _)) by assumption.
    rewrite (proj2 (Nat.eqb_neq (length xs) 0)) by lia. rewrite Hp.
    rewrite (proj2 (Z.leb_le 0 (cp_g c))), (proj2 (Z.leb_le (cp_g c) (Z.of_nat p))) by lia. cbn [andb negb].
    set (g := Z.to_nat (cp_g c)) in *. rewrite <- Nat.pow_add_r.
    rewrite (proj2 (Nat.leb_le _ _)) by assumption. cbn [negb].
    destruct (choice (length xs) (4 ^ p) None false) as [_ C].
    destruct C as [cl [E [L [R ND]]]]; [split; [auto|left; lia]|]. rewrite E. cbn [bind].
    destruct (rec_ok xs dw g Hdw Hpos HN (p - g) fuel cl) as [l1 [E1 [L1 [N1 I1]]]].
    { split; auto. } { rewrite L. f_equal. lia. } { lia. }
    rewrite E1. cbn [bind]. replace (g + (p - g)) with p in L1 by lia.
    assert (R1 : rows (length xs) l1) by (split; auto).
    assert (LX : length l1 <= length xs).
    { rewrite <- (seq_length (length xs) 0). apply NoDup_incl_length; [exact N1|]. intros i Hi. apply in_seq. pose proof (proj2 R1 i Hi). lia. }
    destruct (thin_any (kt_size s) xs dw l1 Hdw Hpos R1) as [l2 [E2 [L2 [N2 I2]]]]; [lia|lia|].
    rewrite E2. cbn [bind]. unfold cs_init.
    replace (d_len (points O p0 y0 _)) with (kt_size s)
      by (unfold points, d_len, d_getitem; cbn [d_x c_idx c_pre]; now rewrite gather_length, map_length).
    change (d_len (unsup xs dw)) with (length xs). rewrite (proj2 (Nat.ltb_ge _ _)) by assumption.
    rewrite map_length, L2. exists l2. split; [reflexivity|]. repeat split; auto.
  Qed.
End Thin.
