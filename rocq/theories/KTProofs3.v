(** * Proofs about CompressPlusPlus *)
From Coq Require Import List ZArith Lia Bool Permutation Reals Lra.
From Verif Require Import Num Jax RSum JaxFacts DataModel MeanModel GreedyModel MetricModel CholModel CholSpec
  MapReduceModel MapReduceProofs MapReduceProofs2 KTModel KTSpec KTProofs KTProofs2.
Import ListNotations.
Open Scope nat_scope.

Lemma pow4_2 n : 4 ^ n = 2 ^ (2 * n).
Proof. change 4 with (2 ^ 2). now rewrite <- Nat.pow_mul_r. Qed.
Lemma pow2_pos n : 1 <= 2 ^ n.
Proof. pose proof (Nat.pow_nonzero 2 n ltac:(lia)). lia. Qed.
Lemma pow4_pos n : 1 <= 4 ^ n.
Proof. pose proof (Nat.pow_nonzero 4 n ltac:(lia)). lia. Qed.

Section Compress.
  Context {P Y K : Type} (p0 : P) (y0 : Y).
  Notation data := (Data P Y ER).
  Notation cs := (Coresubset P Y ER).
  Notation kE := (fun k (a b : P) => Fin (k a b : R) : ER).
  Notation unsup xs dw := (@mkData P Y ER xs (map Fin dw) None).

  Lemma with_size_ok (s : kthin ER P K) size : kt_ok s -> 1 <= size -> kt_ok (with_size s size).
  Proof. intros [A B C D] H. constructor; cbn; auto. Qed.

  (** a list of distinct row numbers of a data set of [n] rows *)
  Definition rows (n : nat) (l : list nat) : Prop := NoDup l /\ forall i, In i l -> i < n.

  Lemma thin_ok (s : kthin ER P K) k xs dw size l :
    kt_ok s -> kt_kernel s = kE k -> length dw = length xs -> Forall (fun v => 0 < v)%R dw ->
    rows (length xs) l -> 1 <= size <= length l ->
    exists l', compress_thin EROps p0 y0 s (unsup xs dw) size (map Z.of_nat l) = Ok (map Z.of_nat l') /\
      length l' = size /\ NoDup l' /\ incl l' l.
  Proof.
    intros Ho Hk Hdw Hpos [Hnd Hr] Hs. unfold compress_thin.
    assert (EG : d_getitem EROps p0 y0 (unsup xs dw) (map Z.of_nat l)
      = unsup (map (fun i => nth i xs p0) l) (map (fun i => nth i dw 0%R) l)).
    { unfold d_getitem. cbn [d_x d_w d_y option_map]. rewrite gather_nats by assumption.
      rewrite gather_nats by (rewrite map_length, Hdw; assumption). f_equal.
      rewrite map_map. apply map_ext_in. intros i _. change (f0 EROps) with (Fin 0%R : ER). apply map_nth. }
    rewrite EG.
    destruct (kt_reduce_sized p0 y0 (with_size s size) k (map (fun i => nth i xs p0) l) (map (fun i => nth i dw 0%R) l))
      as [q [E [L [N R]]]].
    - apply with_size_ok; auto. lia.
    - exact Hk.
    - now rewrite !map_length.
    - apply Forall_forall. intros v Hv. apply in_map_iff in Hv as [i [<- Hi]].
      rewrite Forall_forall in Hpos. apply Hpos, nth_In. rewrite Hdw. auto.
    - rewrite map_length. cbn. lia.
    - rewrite map_length in R. cbn [with_size kt_size] in *. rewrite E. cbn [bind c_idx].
      exists (map (fun i => nth i l 0) q). rewrite gather_of_nat by assumption.
      split; [reflexivity|]. split; [now rewrite map_length|]. split; [now apply NoDup_map_nth|].
      intros a Ha. apply in_map_iff in Ha as [i [<- Hi]]. apply nth_In. auto.
  Qed.

  Lemma mapM_map {A B C} (f : B -> result C) (g : A -> B) l : mapM f (map g l) = mapM (fun a => f (g a)) l.
  Proof. induction l as [|a l IH]; cbn [map mapM]; [reflexivity|]. now rewrite IH. Qed.

  Lemma compress_rec_ok (s : kthin ER P K) k xs dw g :
    kt_ok s -> kt_kernel s = kE k -> length dw = length xs -> Forall (fun v => 0 < v)%R dw ->
    forall j fuel l, rows (length xs) l -> length l = 4 ^ (g + j) -> j <= fuel ->
    exists l', compress_rec EROps p0 y0 s (unsup xs dw) g fuel (map Z.of_nat l) = Ok (map Z.of_nat l') /\
      length l' = 2 ^ (g + (g + j)) /\ NoDup l' /\ incl l' l.
  Proof.
    intros Ho Hk Hdw Hpos. induction j as [|j IH]; intros fuel l Hrows HL Hf.
    - rewrite Nat.add_0_r in *. exists l. split.
      + destruct fuel; cbn [compress_rec]; rewrite map_length, HL, Nat.eqb_refl; reflexivity.
      + split; [rewrite HL, pow4_2; f_equal; lia|]. split; [apply Hrows|apply incl_refl].
    - destruct fuel as [|fuel]; [lia|]. cbn [compress_rec]. rewrite map_length, HL.
      assert (EP : 4 ^ (g + S j) = 4 ^ (g + j) * 4) by (rewrite Nat.add_succ_r; cbn [Nat.pow]; lia).
      pose proof (pow4_pos (g + j)) as P1.
      assert (NE : (4 ^ (g + S j) =? 4 ^ g) = false).
      { apply Nat.eqb_neq. intros E. apply Nat.pow_inj_r in E; lia. }
      rewrite NE. assert (M4 : 4 ^ (g + S j) mod 4 = 0) by (rewrite EP; apply Nat.mod_mul; lia).
      rewrite M4. cbn [Nat.eqb negb].
      assert (D4 : 4 ^ (g + S j) / 4 = 4 ^ (g + j)) by (rewrite EP; apply Nat.div_mul; lia).
      rewrite D4, map_chunks, mapM_map.
      destruct (chunks_mult (4 ^ (g + j)) 4 l ltac:(lia) ltac:(lia)) as [C1 C2].
      destruct (mapM_ok (fun a => compress_rec EROps p0 y0 s (unsup xs dw) g fuel (map Z.of_nat a))
        (chunks (4 ^ (g + j)) l)
        (fun r z => exists q, z = map Z.of_nat q /\ length q = 2 ^ (g + (g + j)) /\ NoDup q /\ incl q r)) as [outs [EO FO]].
      { intros a Ha. destruct (IH fuel a) as [q [E [L [N I]]]].
        - split.
          + destruct Hrows as [Hn _]. rewrite <- (chunks_concat (4 ^ (g + j)) l) in Hn by lia.
            apply in_split in Ha as [u [v Ev]]. rewrite Ev, concat_app in Hn. cbn [concat] in Hn.
            apply NoDup_app_iff' in Hn as [_ [Hn _]]. apply NoDup_app_iff' in Hn as [Hn _]. exact Hn.
          + intros i Hi. apply Hrows. rewrite <- (chunks_concat (4 ^ (g + j)) l) by lia. apply in_concat. eauto.
        - auto.
        - lia.
        - exists (map Z.of_nat q). split; [exact E|]. exists q. auto. }
      rewrite EO. cbn [bind].
      assert (EX : exists qs, outs = map (map Z.of_nat) qs /\
        Forall2 (fun q r => NoDup q /\ incl q r) qs (chunks (4 ^ (g + j)) l) /\
        (forall q, In q qs -> length q = 2 ^ (g + (g + j)))).
      { clear -FO. induction FO as [|r z rs zs [q [E [L [N I]]]] F [qs [A [B C]]]].
        - exists []. repeat split; [constructor|intros q []].
        - exists (q :: qs). subst. repeat split; [constructor; auto|]. intros q' [<-|H]; auto. }
      destruct EX as [qs [-> [FQ LQ]]]. rewrite <- concat_map.
      assert (NQ : NoDup (concat qs)).
      { eapply NoDup_concat_sub; [exact FQ|]. rewrite chunks_concat by lia. apply Hrows. }
      assert (IQ : incl (concat qs) l).
      { rewrite <- (chunks_concat (4 ^ (g + j)) l) by lia. clear -FQ.
        induction FQ as [|q r qs rs [_ H] F IHF]; cbn [concat]; [apply incl_refl|].
        apply incl_app; [now apply incl_appl|now apply incl_appr]. }
      assert (LC : length (concat qs) = 4 * 2 ^ (g + (g + j))).
      { assert (L4 : length qs = 4) by (rewrite (Forall2_len _ _ _ FQ); assumption).
        rewrite <- L4. clear -LQ. induction qs as [|q qs IHq]; [reflexivity|]. cbn [concat length].
        rewrite app_length, (LQ q) by (now left). rewrite IHq by (intros; apply LQ; now right). lia. }
      unfold compress_half. rewrite map_length, LC.
      assert (DH : 4 * 2 ^ (g + (g + j)) / 2 = 2 ^ (g + (g + S j))).
      { replace (4 * 2 ^ (g + (g + j))) with (2 ^ (g + (g + S j)) * 2)
          by (replace (g + (g + S j)) with (S (g + (g + j))) by lia; cbn [Nat.pow]; lia).
        apply Nat.div_mul. lia. }
      rewrite DH.
      destruct (thin_ok s k xs dw (2 ^ (g + (g + S j))) (concat qs) Ho Hk Hdw Hpos) as [l' [E [L [N I]]]].
      + split; [exact NQ|]. intros i Hi. apply Hrows, IQ, Hi.
      + rewrite LC. pose proof (pow2_pos (g + (g + S j))). split; [lia|].
        replace (g + (g + S j)) with (S (g + (g + j))) by lia. cbn [Nat.pow]. lia.
      + exists l'. repeat split; auto. eapply incl_tran; eauto.
  Qed.

  Lemma compress_reduce_ok (c : compress ER P K) k xs dw p fuel :
    let s := cp_kt c in
    kt_ok s -> kt_kernel s = kE k -> length dw = length xs -> Forall (fun v => 0 < v)%R dw ->
    cp_log4 c (length xs) = p -> 4 ^ p <= length xs -> (0 <= cp_g c <= Z.of_nat p)%Z ->
    kt_size s <= 2 ^ (Z.to_nat (cp_g c) + p) -> kt_size s <= length xs -> p <= fuel ->
    exists l, compress_reduce EROps p0 y0 c fuel (unsup xs dw)
              = Ok (mkCS (map Z.of_nat l) (repeat (Fin 1%R) (kt_size s)) (unsup xs dw)) /\
      length l = kt_size s /\ NoDup l /\ forall i, In i l -> i < length xs.
  Proof.
    intros s Ho Hk Hdw Hpos Hp H4 Hg Hsz Hn Hf. pose proof (ko_size s Ho) as Hm.
    unfold compress_reduce. change (d_len (unsup xs dw)) with (length xs). fold s.
    rewrite (proj2 (Nat.ltb_ge _ _)) by assumption.
    rewrite (proj2 (Nat.eqb_neq (length xs) 0)) by lia. rewrite Hp.
    rewrite (proj2 (Z.leb_le 0 (cp_g c))), (proj2 (Z.leb_le (cp_g c) (Z.of_nat p))) by lia. cbn [andb negb].
    set (g := Z.to_nat (cp_g c)) in *. rewrite <- Nat.pow_add_r.
    rewrite (proj2 (Nat.leb_le _ _)) by assumption. cbn [negb].
    destruct (ko_choice s Ho (length xs) (4 ^ p) None false) as [_ C].
    destruct C as [cl [E [L [R N]]]]; [split; [auto|left; lia]|]. rewrite E. cbn [bind].
    destruct (compress_rec_ok s k xs dw g Ho Hk Hdw Hpos (p - g) fuel cl) as [l1 [E1 [L1 [N1 I1]]]].
    { split; auto. } { rewrite L. f_equal. lia. } { lia. }
    rewrite E1. cbn [bind]. replace (g + (p - g)) with p in L1 by lia.
    destruct (thin_ok s k xs dw (kt_size s) l1 Ho Hk Hdw Hpos) as [l2 [E2 [L2 [N2 I2]]]].
    { split; auto. } { lia. }
    rewrite E2. cbn [bind]. unfold cs_init.
    replace (d_len (points EROps p0 y0 _)) with (kt_size s)
      by (unfold points, d_len, d_getitem; cbn [d_x c_idx c_pre]; now rewrite gather_length, map_length).
    change (d_len (unsup xs dw)) with (length xs). rewrite (proj2 (Nat.ltb_ge _ _)) by assumption.
    rewrite map_length, L2. exists l2. split; [reflexivity|]. repeat split; auto.
  Qed.

  Lemma compress_invalid (c : compress ER P K) fuel (d : data) :
    let s := cp_kt c in let n := d_len d in let p := cp_log4 c n in
    n < kt_size s \/ n = 0 \/ ~ (0 <= cp_g c <= Z.of_nat p)%Z \/ 2 ^ (Z.to_nat (cp_g c) + p) < kt_size s ->
    compress_reduce EROps p0 y0 c fuel d = Err ValueError.
  Proof.
    intros s n p H. unfold compress_reduce. fold s. fold n. cbv zeta.
    destruct (Nat.ltb_spec n (kt_size s)); [reflexivity|].
    destruct (Nat.eqb_spec n 0); [reflexivity|]. fold p.
    destruct (Z.leb_spec 0 (cp_g c)); cbn [andb negb]; [|reflexivity].
    destruct (Z.leb_spec (cp_g c) (Z.of_nat p)); cbn [negb]; [|reflexivity].
    rewrite <- Nat.pow_add_r. destruct (Nat.leb_spec (kt_size s) (2 ^ (Z.to_nat (cp_g c) + p))); cbn [negb]; [|reflexivity].
    exfalso. destruct H as [H|[H|[H|H]]]; try lia.
  Qed.
End Compress.

Section Supervised.
  Context {V : Type} (O : FOps V) {P Y K : Type} (p0 : P) (y0 : Y).
  Lemma kt_supervised (s : kthin V P K) x w (y : list Y) r :
    kt_reduce O p0 y0 s (mkData x w (Some y)) <> Ok r.
  Proof.
    unfold kt_reduce. destruct (_ <? _); [discriminate|].
    destruct (kt_candidates _ _ _ _ _) as [cands|]; cbn [bind]; [|discriminate].
    destruct (kt_choose _ _ _ _ _ _) as [best|]; cbn [bind]; [|discriminate].
    unfold cs_init. destruct (_ <? _); [discriminate|]. cbn [bind]. unfold kt_refine, herding_refine.
    cbn [h_kernel c_pre h_bs h_mode h_size h_unique].
    destruct (gramian_row_mean _ _ _ _ _ _) as [[v|g]|]; cbn [bind]; try discriminate.
  Qed.
  Lemma compress_supervised (c : compress V P K) fuel x w (y : list Y) r :
    compress_reduce O p0 y0 c fuel (mkData x w (Some y)) <> Ok r.
  Proof.
    unfold compress_reduce. destruct (_ <? _); [discriminate|]. destruct (_ =? _); [discriminate|].
    cbv zeta. destruct (negb _); [discriminate|]. destruct (negb _); [discriminate|].
    destruct (kt_choice _ _ _ _ _) as [cl|]; cbn [bind]; [|discriminate].
    destruct (compress_rec _ _ _ _ _ _ _ _) as [q|]; cbn [bind]; [|discriminate].
    unfold compress_thin. unfold d_getitem. cbn [d_y option_map].
    destruct (kt_reduce _ _ _ _ _) as [z|] eqn:E; cbn [bind]; [|discriminate].
    exfalso. exact (kt_supervised _ _ _ _ _ E).
  Qed.
End Supervised.
