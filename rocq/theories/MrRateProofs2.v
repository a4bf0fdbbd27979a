(** * Kernel herding on equally weighted rows and padding rows of weight zero *)
From Coq Require Import List ZArith Reals Lra Lia Bool Permutation.
From Verif Require Import Num Jax RSum JaxFacts DataModel MeanModel MeanSpec GreedySpec GreedyModel MetricSpec MetricProofs PropGreedy
  KernelProofs7 RateProofs RateProofs2 MapReduceModel MapReduceProofs3 MrRateSpec.
Import ListNotations.
Open Scope R_scope.

Lemma Rsum_npos dw : (forall v, In v dw -> v = 0 \/ v = 1) -> Rsum dw = INR (npos dw).
Proof.
  unfold npos. induction dw as [|a dw IH]; intros H; [reflexivity|]. cbn [Rsum filter].
  rewrite IH by (intros v Hv; apply H; now right). destruct (H a (or_introl eq_refl)) as [->| ->]; destruct (Rlt_dec 0 _); try lra.
  cbn [length]. rewrite S_INR. lra.
Qed.
Lemma npos_le dw : (npos dw <= length dw)%nat.
Proof. unfold npos. induction dw as [|a w IH]; cbn; auto. destruct (Rlt_dec 0 a); cbn; lia. Qed.
Lemma wsum_seq {P} (p0 : P) (f : P -> R) xs w : length w = length xs ->
  wsum f xs w = Rsum (map (fun j => nth j w 0 * f (nth j xs p0)) (seq 0 (length xs))).
Proof.
  unfold wsum. revert w. induction xs as [|a xs IH]; intros [|b w] H; try discriminate; [reflexivity|].
  cbn [combine map Rsum length seq fst snd]. rewrite <- seq_shift, map_map. rewrite IH by (cbn in H; lia). reflexivity.
Qed.

Section Gap.
  Context {P : Type} (p0 : P) (k : P -> P -> R) (Hk : psd k) (xs : list P) (dw : list R) (kappa : R).
  Notation x := (fun j => nth j xs p0).
  Notation p := (nm xs dw).
  Notation score := (herding_score k (fun j => wavg (fun b => k (nth j xs p0) b) xs dw) x).
  Hypothesis HL : length dw = length xs.
  Hypothesis H01 : forall v, In v dw -> v = 0 \/ v = 1.
  Hypothesis Hd : forall a, In a xs -> k a a <= kappa.
  Lemma HN : forall a, In a dw -> 0 <= a. Proof. intros a Ha. destruct (H01 a Ha); lra. Qed.
  Lemma gap_unique01 l t : (length l <= npos dw)%nat ->
    greedy_argmax (candidate dw true) score l -> (t < length l)%nat ->
    2 * (bil k p (wv x p (firstn t l)) - bil k [(x (nth t l 0%nat), 1)] (wv x p (firstn t l))) <= kappa / 2.
  Proof using p0 HL H01 Hk Hd.
    intros Hll HG Ht. set (n := length xs) in *.
    assert (HS : Rsum dw = INR (npos dw)) by now apply Rsum_npos.
    assert (HSp : 0 < Rsum dw) by (rewrite HS; apply lt_0_INR; lia).
    assert (HND : NoDup (firstn t l) /\ forall i, In i (firstn t l) -> (i < n)%nat).
    { rewrite <- HL. apply (greedy_prefix dw score); [exact HG|lia]. }
    destruct HND as [HND HI].
    assert (H1 : forall i, In i (firstn t l) -> nth i dw 0 = 1).
    { intros i Hi. apply (In_nth _ _ 0%nat) in Hi. destruct Hi as (s & Hs & <-). rewrite firstn_length in Hs.
      destruct (HG s ltac:(lia)) as [(C1 & C2 & _) _].
      assert (EN : nth s (firstn t l) 0%nat = nth s l 0%nat).
      { rewrite <- (firstn_skipn t l) at 2. rewrite app_nth1; [reflexivity|]. rewrite firstn_length. lia. }
      rewrite EN. destruct (H01 (nth (nth s l 0%nat) dw 0)); [now apply nth_In|lra|assumption]. }
    destruct (HG t Ht) as [_ HM].
    assert (Hlt : length (firstn t l) = t) by (apply firstn_length_le; lia).
    set (l' := firstn t l) in *. set (c := nth t l 0%nat) in *. set (w := wv x p l').
    set (F := fun j : nat => bil k [(nth j xs p0, 1)] w).
    set (G := fun j : nat => nth j dw 0 * F j).
    assert (E1 : Rsum (map G (seq 0 n)) = Rsum dw * bil k p w).
    { rewrite (bil_as_lin k p). rewrite <- wavg_lin_nm. unfold wavg. rewrite (wsum_seq p0) by exact HL. fold n. unfold G, F. field. lra. }
    assert (E2 : Rsum (map G l') = (INR t + 1) * bil k p w - bil k w w).
    { unfold G. rewrite (Rsum_map_ext _ F) by (intros i Hi; rewrite H1 by exact Hi; ring).
      unfold F. rewrite <- (bil_phi k x l' w). unfold w at 3. rewrite bil_wv, Hlt. fold w. ring. }
    pose proof (Rsum_not_chosen G l' n HND HI) as E3.
    pose proof (Rsum_not_chosen (fun j => nth j dw 0) l' n HND HI) as E4.
    rewrite (Rsum_map_ext (fun j => nth j dw 0) (fun _ => 1) l') in E4 by (intros i Hi; now apply H1).
    rewrite Rsum_map_const, Hlt, Rmult_1_r in E4.
    assert (E5 : Rsum (map (fun j => nth j dw 0) (seq 0 n)) = Rsum dw).
    { rewrite <- HL. f_equal. clear. induction dw as [|a d IH]; [reflexivity|]. cbn [length seq map nth]. rewrite <- seq_shift, map_map. now rewrite IH. }
    rewrite E5, HS in E4.
    set (U := filter _ (seq 0 n)) in *.
    assert (HB : Rsum (map G U) <= Rsum (map (fun j => nth j dw 0) U) * F c).
    { rewrite <- Rsum_map_scal_r. apply Rsum_le. intros i Hi. destruct (in_not_chosen l' n i Hi) as [Hi1 Hi2]. unfold G.
      destruct (H01 (nth i dw 0)) as [E|E]; [apply nth_In; lia|rewrite E; lra|]. rewrite E, !Rmult_1_l. unfold F, w.
      rewrite (score_wv p0 k Hk xs dw l' i), (score_wv p0 k Hk xs dw l' c). apply Rmult_le_compat_l; [pose proof (pos_INR (length l')); lra|].
      apply HM. repeat split; [lia|lra|intros _; exact Hi2]. }
    assert (EU : INR (npos dw) - INR t = Rsum (map (fun j => nth j dw 0) U)) by lra.
    rewrite <- EU in HB.
    assert (HU : 1 <= INR (npos dw) - INR t).
    { assert (INR (S t) <= INR (npos dw)) by (apply le_INR; lia). rewrite S_INR in H. lra. }
    change (bil k [(nth c xs p0, 1)] w) with (F c). set (u := bil k p w) in *. set (Wn := bil k w w) in *.
    rewrite HS in E1. set (NN := INR (npos dw)) in *.
    assert (GG : (NN - INR t) * (u - F c) <= u - Wn) by nra.
    pose proof (A_le p0 k Hk xs dw kappa HL HN HSp Hd) as AL.
    assert (Q : u - Wn <= kappa / 4).
    { pose proof (proj2 Hk (scal 2 w ++ scal (-1) p)) as PS.
      rewrite bil_app_l, !bil_app_r, !bil_scal_l, !bil_scal_r, (sym k Hk w p) in PS. fold u Wn in PS. lra. }
    assert (HK : 0 <= kappa). { pose proof (proj2 Hk p). lra. }
    destruct (Rle_dec (u - F c) 0); [lra|]. assert (u - F c <= (NN - INR t) * (u - F c)) by nra. lra.
  Qed.
  Lemma herding_rate01 l (unique : bool) : l <> [] -> (length l <= npos dw)%nat ->
    greedy_argmax (candidate dw unique) score l ->
    sqrt (mmd2 k xs dw (map x l) (repeat 1 (length l))) <= 7 / 2 * sqrt (kappa / INR (length l)).
  Proof using p0 HL H01 Hk Hd.
    intros Hl Hlen HG. rewrite mmd2_bil by apply Hk. rewrite (nm_ones p0) by exact Hl.
    assert (HS : 0 < Rsum dw). { rewrite Rsum_npos by exact H01. apply lt_0_INR. destruct l; [congruence|cbn in Hlen; lia]. }
    assert (HI : forall c, In c l -> (c < length xs)%nat).
    { intros c Hc. apply (In_nth _ _ 0%nat) in Hc. destruct Hc as (t & Ht & <-). destruct (HG t Ht) as [(C1 & _) _]. lia. }
    pose proof (A_le p0 k Hk xs dw kappa HL HN HS Hd) as AL.
    assert (HK : 0 <= kappa). { pose proof (proj2 Hk p). lra. }
    assert (HT : 1 <= INR (length l)). { change 1 with (INR 1). apply le_INR. destruct l; [congruence|cbn; lia]. }
    eapply Rle_trans.
    - apply (herding_bound k Hk x p kappa (kappa / 2) l AL); [intros c Hc; apply Hd, nth_In, HI, Hc| |exact Hl].
      intros t Ht. destruct unique.
      + now apply gap_unique01.
      + eapply Rle_trans; [apply (gap_repeats p0 k Hk xs dw HL HN HS); assumption|]. lra.
    - set (T := INR (length l)) in *. rewrite sqrt_div_alt by lra.
      replace (7 / 2 * (sqrt kappa / sqrt T)) with (7 / 2 * sqrt T * sqrt kappa / T).
      2:{ rewrite <- (sqrt_sqrt T) at 2 by lra. field. apply Rgt_not_eq, sqrt_lt_R0. lra. }
      unfold Rdiv. apply Rmult_le_compat_r; [left; apply Rinv_0_lt_compat; lra|].
      assert (S1 : 1 <= sqrt T) by (rewrite <- sqrt_1; now apply sqrt_le_1_alt).
      assert (S2 : sqrt (kappa + T * (4 * kappa + kappa * / 2)) <= 5 / 2 * sqrt T * sqrt kappa).
      { rewrite <- (sqrt_square (5 / 2)) by lra. rewrite <- !sqrt_mult_alt by nra. apply sqrt_le_1_alt. nra. }
      pose proof (sqrt_pos kappa). nra.
  Qed.
End Gap.

Lemma herding_accurate {P Y} (p0 : P) (y0 : Y) (k : P -> P -> R) kappa m unique bs ord : psd k -> (1 <= m)%nat ->
  (forall i, Permutation (ord i) (seq 0 m)) ->
  accurate p0 k kappa m (7 / 2 * sqrt (kappa / INR m)) (herding_base EROps p0 y0 (mkHerding m (kE k) unique bs Greedy) ord).
Proof.
  intros Hk Hm Ho xs w HL H01 Hp Hd. pose proof (npos_le w) as NL.
  assert (HS : 0 < Rsum w) by (rewrite Rsum_npos by exact H01; apply lt_0_INR; lia).
  destruct (C18_herding_greedy P Y p0 y0 k m unique bs ord xs w HL ltac:(lra) ltac:(lia) Ho ltac:(lia) ltac:(auto)) as (l & g & R & Hl & HG).
  exists l. unfold herding_base. rewrite R. cbn [bind]. split; [reflexivity|]. split; [exact Hl|]. split.
  - intros i Hi. apply (In_nth _ _ 0%nat) in Hi. destruct Hi as (t & Ht & <-). destruct (HG t Ht) as [(C1 & C2 & _) _]. split; [lia|exact C2].
  - rewrite <- Hl. apply (herding_rate01 p0 k Hk xs w kappa HL H01 Hd l unique); [|lia|exact HG]. intros ->. cbn in Hl. lia.
Qed.
