(** * Proofs about KernelThinning.reduce *)
From Coq Require Import List ZArith Lia Bool Permutation Reals Lra.
From Verif Require Import Num Jax RSum JaxFacts ArgFacts DataModel MeanModel GreedyModel GreedySpec MetricModel MetricSpec
  MetricProofs CholModel CholSpec MapReduceModel MapReduceProofs MapReduceProofs2 CholProofs GreedyProofs4 GreedyProofs5
  DataMeanLemmas KTModel KTSpec KTProofs.
Import ListNotations.
Open Scope nat_scope.

Section Reduce.
  Context {P Y K : Type} (p0 : P) (y0 : Y).
  Notation data := (Data P Y ER).
  Notation cs := (Coresubset P Y ER).
  Notation kE := (fun k (a b : P) => Fin (k a b : R) : ER).
  Notation unsup xs dw := (@mkData P Y ER xs (map Fin dw) None).

  (** what is assumed of the external functions of the solver *)
  Record kt_ok (s : kthin ER P K) : Prop := {
    ko_size : 1 <= kt_size s;
    ko_choice : CholSpec.choice_ok (kt_choice s);
    ko_depth : forall n size, 1 <= size <= n -> size * 2 ^ (kt_depth s n size) <= n;
    ko_ord : forall size i, Permutation (kt_ord s size i) (seq 0 size) }.

  Definition pts (xs : list P) (l : list nat) : list P := map (fun j => nth j xs p0) l.

  Lemma gather_pts xs l : (forall i, In i l -> i < length xs) -> gather p0 xs (map Z.of_nat l) = pts xs l.
  Proof. intros H. unfold gather, pts. rewrite map_map. apply map_ext_in. intros i Hi. now apply jget_nat, H. Qed.

  Lemma candidates_ok (s : kthin ER P K) xs dw :
    kt_ok s -> kt_size s <= length xs -> 
    exists cands cl base,
      kt_candidates EROps p0 y0 s (unsup xs dw) = Ok cands /\
      (forall c, In c cands -> c_pre c = unsup xs dw) /\
      map c_idx cands = map (map Z.of_nat) (cl ++ [base]) /\
      splits cl (2 ^ kt_depth s (length xs) (kt_size s)) (kt_size s)
             (seq 0 (kt_size s * 2 ^ kt_depth s (length xs) (kt_size s))) /\
      kt_choice s (length xs) (kt_size s) None false = Ok base /\
      (forall l, In l (cl ++ [base]) -> length l = kt_size s /\ NoDup l /\ forall i, In i l -> i < length xs).
  Proof.
    intros [K1 K2 K3 K4] Hn. unfold kt_candidates. change (d_len (unsup xs dw)) with (length xs).
    specialize (K3 (length xs) (kt_size s) (conj K1 Hn)).
    set (m := kt_depth s (length xs) (kt_size s)) in *. cbv zeta.
    destruct (partition_ok EROps p0 y0 s (unsup xs dw) (kt_size s) m K3) as [parts [E [Q [cl [M S]]]]].
    rewrite E. cbn [bind]. unfold baseline, random_reduce. cbn [rs_weighted rs_choice rs_size rs_unique negb].
    change (d_len (unsup xs dw)) with (length xs).
    destruct (K2 (length xs) (kt_size s) None false) as [_ C].
    destruct C as [base [Eb [Lb [Rb Nb]]]]; [lia|]. rewrite Eb. cbn [bind]. unfold cs_init.
    set (cb := mkCS _ _ _).
    assert (Lp : d_len (points EROps p0 y0 cb) = kt_size s).
    { unfold points, d_len, d_getitem, cb. cbn [d_x c_idx c_pre]. now rewrite gather_length, map_length. }
    rewrite Lp, (proj2 (Nat.ltb_ge _ _)) by assumption. cbn [bind].
    exists (parts ++ [cb]), cl, base. split; [reflexivity|]. split; [|split; [|split; [exact S|split; [reflexivity|]]]].
    - intros c Hc. apply in_app_iff in Hc as [Hc|[<-|[]]]; [auto|reflexivity].
    - rewrite !map_app, M. reflexivity.
    - intros l H. split; [|split].
      { apply in_app_iff in H as [H|[<-|[]]]; [now apply S|assumption]. }
      2: { intros i Hi. apply in_app_iff in H as [H|[<-|[]]]; [|now apply Rb].
        destruct S as [_ [_ S]]. assert (I : In i (concat cl)) by (apply in_concat; eauto).
        apply (Permutation_in _ S) in I. apply in_seq in I. lia. }
      apply in_app_iff in H as [H|[<-|[]]]; [|now apply Nb].
      destruct S as [_ [_ S]]. apply in_split in H as [a [b ->]]. rewrite concat_app in S. cbn [concat] in S.
      assert (ND : NoDup (concat a ++ l ++ concat b)) by (eapply Permutation_NoDup; [symmetry; exact S|apply seq_NoDup]).
      apply NoDup_app_iff' in ND as [_ [ND _]]. apply NoDup_app_iff' in ND as [ND _]. exact ND.
  Qed.

  Lemma choose_ok (s : kthin ER P K) k xs dw cands (cl : list (list nat)) :
    kt_kernel s = kE k -> 1 <= kt_size s -> cl <> [] -> xs <> [] -> length dw = length xs -> Rsum dw <> 0%R ->
    (forall c, In c cands -> c_pre c = unsup xs dw) -> map c_idx cands = map (map Z.of_nat) cl ->
    (forall l, In l cl -> length l = kt_size s /\ forall i, In i l -> i < length xs) ->
    exists best, In best cl /\
      kt_choose EROps p0 y0 s cands (unsup xs dw) = Ok (map Z.of_nat best) /\
      forall l, In l cl ->
        (Rmax 0 (mmd2 k (pts xs best) (repeat 1 (kt_size s)) xs dw)
         <= Rmax 0 (mmd2 k (pts xs l) (repeat 1 (kt_size s)) xs dw))%R.
  Proof.
    intros Hk Hm Hcl Hxs Hdw Hs Hpre Hidx Hl.
    assert (Lc : length cands = length cl).
    { rewrite <- (map_length c_idx), Hidx, map_length. reflexivity. }
    unfold kt_choose.
    assert (SL : same_lengths cands = true).
    { assert (A : forall c, In c cands -> length (c_idx c) = kt_size s).
      { intros c Hc. apply (in_map c_idx) in Hc. rewrite Hidx in Hc. apply in_map_iff in Hc as [l [E I]].
        rewrite <- E, map_length. now apply Hl. }
      destruct cands as [|c t]; [reflexivity|]. cbn [same_lengths]. apply forallb_forall. intros c' Hc'.
      apply Nat.eqb_eq. rewrite (A c), (A c'); cbn; auto. }
    rewrite SL. cbn [negb].
    set (val := fun l : list nat => sqrt (Rmax 0 (mmd2 k (pts xs l) (repeat 1%R (kt_size s)) xs dw))).
    assert (EM : mapM (fun c => mmd_compute EROps p0 y0 (kt_kernel s)
                        (as_data EROps (d_x (points EROps p0 y0 c))) (unsup xs dw) (BOne None)) cands
                 = Ok (map (fun l => Fin (val l)) cl)).
    { clear SL Hcl. revert cl Hidx Hl Lc. induction cands as [|c t IH]; intros cl Hidx Hl Lc.
      - destruct cl; [reflexivity|discriminate].
      - destruct cl as [|l cl]; [discriminate|]. cbn [map] in Hidx. injection Hidx as E1 E2.
        cbn [mapM map]. rewrite (IH (fun c' H => Hpre c' (or_intror H)) cl E2 (fun l' H => Hl l' (or_intror H)))
          by (injection Lc; auto).
        destruct (Hl l (or_introl eq_refl)) as [L1 L2].
        unfold points, d_getitem. cbn [d_x]. rewrite (Hpre c (or_introl eq_refl)), E1. cbn [d_x].
        rewrite gather_pts by assumption. unfold as_data.
        replace (length (pts xs l)) with (kt_size s) by (unfold pts; now rewrite map_length).
        rewrite Hk. change (f1 EROps) with (Fin 1%R : ER). rewrite <- map_Fin_repeat.
        rewrite mmd_compute_value; cbn [bind]; auto.
        + intros E. unfold pts in E. apply map_eq_nil in E. subst l. cbn in L1. lia.
        + unfold pts. now rewrite map_length, repeat_length.
        + rewrite Rsum_repeat. rewrite Rmult_1_r. apply not_0_INR. lia. }
    rewrite EM. cbn [bind].
    destruct (argmin_spec ROps ROps_laws (map (fun l => Fin (val l) : ER) cl)) as [A [B _]].
    { destruct cl; [congruence|discriminate]. }
    { apply Forall_forall. intros v Hv. apply in_map_iff in Hv as [l [<- _]]. discriminate. }
    change (extOps ROps) with EROps in *. cbv zeta in A, B.
    set (r := argmin EROps (map (fun l => Fin (val l) : ER) cl)) in *. rewrite map_length in A, B.
    exists (nth r cl []). split; [now apply nth_In|]. split.
    { rewrite Hidx. f_equal. change (@nil Z) with (map Z.of_nat []). now rewrite map_nth. }
    intros l Hin. apply (In_nth _ _ []) in Hin as [j [Hj Ej]]. specialize (B j Hj).
    assert (NM : forall i, i < length cl -> nth i (map (fun l => Fin (val l) : ER) cl) NaN = Fin (val (nth i cl []))).
    { intros i Hi. now rewrite (GreedyProofs.nth_map_lt _ cl i []). }
    rewrite !NM, Ej in B by assumption. cbn [eltb nltb ROps] in B. apply Rltb_false in B.
    unfold val in B. apply sqrt_le_0 in B; auto; apply Rmax_l.
  Qed.

  Lemma npos_all dw : Forall (fun v => 0 < v)%R dw -> npos dw = length dw.
  Proof.
    intros H. unfold npos. f_equal. induction H as [|a l Ha _ IH]; cbn [filter]; [reflexivity|].
    destruct (Rlt_dec 0 a); [|contradiction]. now f_equal.
  Qed.
  Lemma sum_pos dw : dw <> [] -> Forall (fun v => 0 < v)%R dw -> (0 < Rsum dw)%R.
  Proof.
    intros Hn H. induction H as [|a l Ha Hl IH]; [congruence|]. cbn [Rsum].
    destruct l; [cbn; lra|]. specialize (IH ltac:(discriminate)). lra.
  Qed.

  (** size, range and distinctness, for every real-valued kernel *)
  Lemma kt_reduce_sized (s : kthin ER P K) k xs dw :
    kt_ok s -> kt_kernel s = kE k -> length dw = length xs -> Forall (fun v => 0 < v)%R dw ->
    kt_size s <= length xs ->
    exists l, kt_reduce EROps p0 y0 s (unsup xs dw)
              = Ok (mkCS (map Z.of_nat l) (repeat (Fin 1%R) (kt_size s)) (unsup xs dw)) /\
      length l = kt_size s /\ NoDup l /\ forall i, In i l -> i < length xs.
  Proof.
    intros Ho Hk Hdw Hpos Hn. pose proof (ko_size s Ho) as Hm.
    assert (Hxs : xs <> []) by (destruct xs; [cbn in Hn; lia|discriminate]).
    assert (Hs : Rsum dw <> 0%R).
    { apply Rgt_not_eq, sum_pos; auto. destruct dw; [destruct xs; [congruence|discriminate]|discriminate]. }
    destruct (candidates_ok s xs dw Ho Hn) as [cands [cl [base [E [Q [M [S [Eb Hl]]]]]]]].
    unfold kt_reduce. change (d_len (unsup xs dw)) with (length xs).
    rewrite (proj2 (Nat.ltb_ge _ _)) by assumption. rewrite E. cbn [bind].
    destruct (choose_ok s k xs dw cands (cl ++ [base]) Hk Hm) as [best [Ib [Ec _]]]; auto.
    { destruct cl; discriminate. }
    { intros l Hin. split; apply Hl; assumption. }
    rewrite Ec. cbn [bind]. destruct (Hl best Ib) as [Lb [Nb Rb]]. unfold cs_init.
    replace (d_len (points EROps p0 y0 _)) with (kt_size s)
      by (unfold points, d_len, d_getitem; cbn [d_x c_idx c_pre]; now rewrite gather_length, map_length).
    change (d_len (unsup xs dw)) with (length xs).
    rewrite (proj2 (Nat.ltb_ge _ _)) by assumption. cbn [bind].
    unfold kt_refine. rewrite Hk, map_length, Lb. change (f1 EROps) with (Fin 1%R : ER).
    destruct (herding_refine_outcome p0 y0 k (kt_size s) true (BOne None) (kt_ord s (kt_size s)) (map Z.of_nat best)
      (repeat 1%R (kt_size s)) xs dw None) as [l [E2 [L2 [R2 N2]]]]; auto.
    - now rewrite map_length, repeat_length.
    - intros i. rewrite map_length, Lb, Nat.max_id. apply (ko_ord s Ho).
    - rewrite npos_all by assumption. lia.
    - intros _. rewrite npos_all by assumption. rewrite map_length. lia.
    - discriminate.
    - cbn [option_map] in E2. rewrite map_Fin_repeat in E2. rewrite E2. cbn [bind fst]. exists l. split; [reflexivity|]. split; [auto|]. split; [auto|]. intros i Hi. now apply R2.
  Qed.

  (** the best candidate is chosen and improved *)
  Lemma kt_reduce_best (s : kthin ER P K) k xs dw :
    kt_ok s -> kt_kernel s = kE k -> psd k -> (forall a b, In a xs -> In b xs -> k a a = k b b) ->
    length dw = length xs -> Forall (fun v => 0 < v)%R dw -> kt_size s <= length xs ->
    let d := unsup xs dw in
    let m := kt_depth s (length xs) (kt_size s) in
    let mmd l := mmd2 k xs dw (pts xs l) (repeat 1%R (kt_size s)) in
    exists cl base cands best l,
      kt_candidates EROps p0 y0 s d = Ok cands /\ map c_idx cands = map (map Z.of_nat) (cl ++ [base]) /\
      splits cl (2 ^ m) (kt_size s) (seq 0 (kt_size s * 2 ^ m)) /\
      kt_choice s (length xs) (kt_size s) None false = Ok base /\
      kt_choose EROps p0 y0 s cands d = Ok (map Z.of_nat best) /\ In best (cl ++ [base]) /\
      (forall c, In c (cl ++ [base]) -> mmd best <= mmd c)%R /\
      kt_reduce EROps p0 y0 s d = Ok (mkCS (map Z.of_nat l) (repeat (Fin 1%R) (kt_size s)) d) /\
      length l = kt_size s /\ NoDup l /\ (forall i, In i l -> i < length xs) /\
      (mmd l <= mmd best)%R.
  Proof.
    intros Ho Hk Hpsd Hdiag Hdw Hpos Hn d m mmd. pose proof (ko_size s Ho) as Hm.
    assert (Hxs : xs <> []) by (destruct xs; [cbn in Hn; lia|discriminate]).
    assert (Hs : Rsum dw <> 0%R).
    { apply Rgt_not_eq, sum_pos; auto. destruct dw; [destruct xs; [congruence|discriminate]|discriminate]. }
    destruct (candidates_ok s xs dw Ho Hn) as [cands [cl [base [E [Q [M [S [Eb Hl]]]]]]]].
    destruct (choose_ok s k xs dw cands (cl ++ [base]) Hk Hm) as [best [Ib [Ec Bc]]]; auto.
    { destruct cl; discriminate. }
    { intros l Hin. split; apply Hl; assumption. }
    destruct (Hl best Ib) as [Lb [Nb Rb]].
    destruct (herding_refine_mono p0 y0 k best 1 xs dw true (BOne None) (kt_ord s (kt_size s)))
      as [l [E2 [L2 [R2 [N2 M2]]]]]; auto; try lra; try lia.
    { apply Hpsd. }
    { rewrite Lb. apply (ko_ord s Ho). }
    { intros i Hi. split; [now apply Rb|]. rewrite Forall_forall in Hpos. apply Hpos, nth_In. rewrite Hdw. now apply Rb. }
    rewrite Lb in *.
    exists cl, base, cands, best, l. fold d in E, Ec. split; [exact E|]. split; [exact M|]. split; [exact S|].
    split; [exact Eb|]. split; [exact Ec|]. split; [exact Ib|]. split; [|split; [|split; [auto|split; [auto|split; [|exact M2]]]]].
    - intros c Hc. unfold mmd. specialize (Bc c Hc).
      rewrite !(mmd2_sym k xs dw _ _ (proj1 Hpsd)).
      rewrite !Rmax_right in Bc by (now apply mmd2_nonneg). exact Bc.
    - unfold kt_reduce. change (d_len d) with (length xs).
      rewrite (proj2 (Nat.ltb_ge _ _)) by assumption. rewrite E. cbn [bind]. rewrite Ec. cbn [bind]. unfold cs_init.
      replace (d_len (points EROps p0 y0 _)) with (kt_size s)
        by (unfold points, d_len, d_getitem; cbn [d_x c_idx c_pre]; now rewrite gather_length, map_length).
      change (d_len d) with (length xs).
      rewrite (proj2 (Nat.ltb_ge _ _)) by assumption. cbn [bind].
      unfold kt_refine. rewrite Hk, map_length, Lb. change (f1 EROps) with (Fin 1%R : ER).
      rewrite map_Fin_repeat in E2. unfold d. rewrite E2. reflexivity.
    - intros i Hi. now apply R2.
  Qed.
End Reduce.
