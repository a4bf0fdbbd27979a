(** * Cold limit of a whole run of probabilistic herding *)
From Coq Require Import List ZArith Reals Lra Lia Bool Permutation.
From Verif Require Import Num Jax RSum JaxFacts DataModel MeanModel MeanSpec GreedySpec GreedyModel GreedyProofs GreedyProofs2 GreedyProofs3 GreedyProofs4 TempSpec TempProofs.
From Coquelicot Require Import Coquelicot.
Import ListNotations.
Open Scope R_scope.

Lemma score_length grm pens size : length grm = length pens -> length (score_list grm pens size) = length grm.
Proof. intro H. unfold score_list. rewrite map2_length. lia. Qed.
Lemma residual_scores grm pens size : (0 < size)%Z ->
  map2 (fun g p => fsub EROps g (fdiv EROps p (fofZ EROps size))) (map Fin grm) (map penE pens)
  = map metricE (score_list grm pens size).
Proof.
  intro Hs. apply IZR_lt in Hs. unfold score_list. revert pens. induction grm as [|g grm IH]; intros [|o pens]; try reflexivity.
  cbn [map map2]. f_equal; [|apply IH].
  change (fofZ EROps size) with (Fin (IZR size) : ER).
  destruct o as [p|]; cbn [penE option_map metricE].
  - rewrite fdiv_fin by lra. reflexivity.
  - cbn. rewrite nsign_R. destruct (Rlt_dec 0 (IZR size)); [reflexivity|lra].
Qed.
Lemma select_share grm pens size T choice i r : (0 < size)%Z -> 0 < T -> length grm = length pens ->
  In (Some r) (score_list grm pens size) ->
  herding_select EROps (Prob expE (Fin T) choice) (map Fin grm) i (map penE pens) size
  = choice i (map Fin (map (share (score_list grm pens size) T) (seq 0 (length grm)))).
Proof.
  intros Hs HT HL Hr. unfold herding_select. rewrite residual_scores by assumption.
  rewrite (softmax_share _ T r) by assumption. rewrite score_length by assumption. now rewrite map_map.
Qed.
Lemma share_nonneg (s : scores) T r j : In (Some r) s -> 0 <= share s T j.
Proof.
  intro Hr. unfold share. pose proof (boltz_sum_pos T s r Hr). pose proof (boltz_nonneg T (nth j s None)).
  apply Rmult_le_pos; [assumption|]. left. now apply Rinv_0_lt_compat.
Qed.

(** a strict maximum has all the probability at low temperature *)
Lemma ties_one (s : scores) j r : nth j s None = Some r ->
  (forall i x, nth i s None = Some x -> i <> j -> x < r) -> ties s r = 1%nat.
Proof.
  unfold ties. revert j. induction s as [|o s IH]; intros j Hj H; [destruct j; discriminate|].
  destruct j as [|j].
  - cbn in Hj. subst o. cbn [filter]. destruct (Req_EM_T r r); [|congruence]. cbn [length]. f_equal.
    rewrite filter_none; [reflexivity|]. intros [x|] Hx; [|reflexivity]. apply (In_nth _ _ None) in Hx.
    destruct Hx as (i & Hi & E). specialize (H (S i) x E ltac:(lia)). destruct (Req_EM_T x r); [lra|reflexivity].
  - cbn [filter]. assert (E : (match o with Some x => if Req_EM_T x r then true else false | None => false end) = false).
    { destruct o as [x|]; [|reflexivity]. specialize (H 0%nat x eq_refl ltac:(lia)). destruct (Req_EM_T x r); [lra|reflexivity]. }
    rewrite E. apply (IH j Hj). intros i x Hi Hn. apply (H (S i) x Hi). lia.
Qed.
Lemma share_cold_eventually (s : scores) j r eps : nth j s None = Some r ->
  (forall i x, nth i s None = Some x -> i <> j -> x < r) -> 0 < eps ->
  exists T0, 0 < T0 /\ forall T, 0 < T < T0 -> 1 - eps < share s T j.
Proof.
  intros Hj H He. pose proof (ties_one s j r Hj H) as E1.
  assert (B : best s r).
  { split; [now apply (nth_some_in s j)|]. intros x Hx. apply (In_nth _ _ None) in Hx. destruct Hx as (i & _ & Ei).
    destruct (Nat.eq_dec i j) as [->|N]; [rewrite Hj in Ei; injection Ei; lra|]. specialize (H i x Ei N). lra. }
  pose proof (share_cold_best s j r Hj B) as L. rewrite E1 in L. cbn [INR] in L. rewrite Rinv_1 in L.
  assert (Q : locally 1 (fun y => 1 - eps < y)).
  { exists (mkposreal eps He). intros y Hy. change (Rabs (y - 1) < eps) in Hy. apply Rabs_def2 in Hy. lra. }
  specialize (L _ Q). destruct L as [d Hd]. exists d. split; [apply cond_pos|].
  intros T [H1 H2]. apply (Hd T); [|assumption]. change (Rabs (T - 0) < d). rewrite Rabs_right; lra.
Qed.

Lemma uniform_T0 (Q : nat -> R -> Prop) m :
  (forall t, (t < m)%nat -> exists T0, 0 < T0 /\ forall T, 0 < T < T0 -> Q t T) ->
  exists T0, 0 < T0 /\ forall T t, 0 < T < T0 -> (t < m)%nat -> Q t T.
Proof.
  induction m as [|m IH]; intro H.
  - exists 1. split; [lra|]. intros; lia.
  - destruct IH as (A & PA & HA); [intros; apply H; lia|]. destruct (H m ltac:(lia)) as (B & PB & HB).
    exists (Rmin A B). split; [now apply Rmin_pos|]. intros T t [H1 H2] Ht.
    pose proof (Rmin_l A B). pose proof (Rmin_r A B).
    destruct (Nat.eq_dec t m) as [->|N]; [apply HB; lra|apply HA; [lra|lia]].
Qed.

Section Cold.
  Context {P Y : Type} (p0 : P) (y0 : Y) (k : P -> P -> R).
  Variables (xs : list P) (dw : list R) (m : nat) (unique : bool) (ord : nat -> list nat).
  Lemma gst_agree cw idx0 pen sel sel' init M :
    (forall t, (t < M)%nat -> let s := gst p0 k xs dw cw idx0 pen sel unique ord init t in
      sel' t (gvalid p0 k xs dw cw unique ord t s) (size1 cw t s) = sel t (gvalid p0 k xs dw cw unique ord t s) (size1 cw t s)) ->
    forall t, (t <= M)%nat -> gst p0 k xs dw cw idx0 pen sel' unique ord init t = gst p0 k xs dw cw idx0 pen sel unique ord init t.
  Proof.
    intros H. induction t as [|t IH]; intro Ht; [reflexivity|]. rewrite !gst_S, IH by lia. rewrite !gbody_unfold.
    unfold gchoice. now rewrite (H t ltac:(lia)).
  Qed.

  Definition pens_of (v : list ER) : list (option R) := map (fun e => match e with Fin q => Some q | _ => None end) v.
  Lemma pens_back v : (forall e, In e v -> e <> NaN /\ e <> NInf) -> map penE (pens_of v) = v.
  Proof.
    intro H. unfold pens_of. rewrite map_map. rewrite <- (map_id v) at 2. apply map_ext_in. intros e He.
    destruct (H e He) as [A B]. destruct e; try reflexivity; congruence.
  Qed.
  Lemma nth_scores grm v size j : length grm = length v -> (j < length v)%nat ->
    nth j (score_list grm (pens_of v) size) None
    = match nth j v NaN with Fin q => Some (nth j grm 0 - q / IZR size) | _ => None end.
  Proof.
    intros HL Hj. unfold score_list. rewrite (nth_map2 _ _ _ _ 0 None) by (unfold pens_of; rewrite ?map_length; lia).
    unfold pens_of. rewrite (nth_map_lt _ _ _ NaN) by assumption. now destruct (nth j v NaN).
  Qed.
  Lemma cold_step grm v size choice i r q : length grm = length v -> (0 < size)%Z ->
    (forall j, (j < length v)%nat -> nth j v NaN <> NaN /\ nth j v NaN <> NInf) ->
    (r < length v)%nat -> nth r v NaN = Fin q ->
    (forall j x, (j < length v)%nat -> nth j v NaN = Fin x -> j <> r -> nth j grm 0 - x / IZR size < nth r grm 0 - q / IZR size) ->
    choice_concentrates choice ->
    exists T0, 0 < T0 /\ forall T, 0 < T < T0 ->
      herding_select EROps (Prob expE (Fin T) choice) (map Fin grm) i v size = Z.of_nat r.
  Proof.
    intros HL Hs Hv Hr Eq Hmax Hc. destruct (Hc i (length grm)) as (eps & He & Hch).
    set (s := score_list grm (pens_of v) size).
    assert (Er : nth r s None = Some (nth r grm 0 - q / IZR size)).
    { unfold s. rewrite nth_scores by assumption. now rewrite Eq. }
    assert (HLp : length grm = length (pens_of v)) by (unfold pens_of; now rewrite map_length).
    assert (Ls : length s = length grm) by (unfold s; now apply score_length).
    destruct (share_cold_eventually s r _ eps Er) as (T0 & P0 & HT); [|assumption|].
    { intros j x Hj Hn. destruct (le_lt_dec (length v) j) as [L|L].
      - rewrite nth_overflow in Hj by lia. discriminate.
      - unfold s in Hj. rewrite nth_scores in Hj by assumption. destruct (nth j v NaN) as [y| | |] eqn:Ej; try discriminate.
        injection Hj as <-. now apply Hmax. }
    exists T0. split; [assumption|]. intros T H.
    pose proof (nth_some_in s r _ Er) as Hin.
    rewrite <- (pens_back v) at 1.
    2:{ intros e Hin'. apply (In_nth _ _ NaN) in Hin'. destruct Hin' as (j & Hj & <-). now apply Hv. }
    rewrite (select_share grm (pens_of v) size T choice i _ Hs ltac:(lra) HLp Hin).
    apply Hch.
    - now rewrite map_length, seq_length.
    - intros x Hx. apply in_map_iff in Hx. destruct Hx as (j & <- & _). now apply (share_nonneg s T (nth r grm 0 - q / IZR size)).
    - rewrite <- Ls. now apply (share_sum s T (nth r grm 0 - q / IZR size)).
    - lia.
    - rewrite (nth_map_lt _ _ _ 0%nat) by (rewrite seq_length; lia). rewrite seq_nth by lia. apply HT. assumption.
  Qed.

  Lemma cold_reduce bs choice st l :
    length dw = length xs -> (1 <= m <= length xs)%nat -> (forall i, Permutation (ord i) (seq 0 m)) ->
    (forall a, In a dw -> 0 < a) -> (forall g, st = Some g -> length g = length xs) ->
    choice_concentrates choice -> length l = m ->
    (forall t, (t < m)%nat -> candidate dw unique (firstn t l) (nth t l 0%nat) /\
       forall j, candidate dw unique (firstn t l) j -> j <> nth t l 0%nat ->
         herding_score k (fun j => nth j (used_grm k xs dw st) 0) (fun j => nth j xs p0) (firstn t l) j
         < herding_score k (fun j => nth j (used_grm k xs dw st) 0) (fun j => nth j xs p0) (firstn t l) (nth t l 0%nat)) ->
    exists T0, 0 < T0 /\ forall T, 0 < T < T0 ->
      herding_reduce EROps p0 y0 (mkHerding m (fun a b => Fin (k a b) : ER) unique bs (Prob expE (Fin T) choice)) ord
        (mkData xs (map Fin dw) (@None (list Y))) (option_map (map Fin) st)
      = Ok (mkCS (map Z.of_nat l) (repeat (Fin 1) m) (mkData xs (map Fin dw) None), map Fin (used_grm k xs dw st)).
  Proof.
    intros Hdw Hm Hord Hall Hst Hc Hl Hstrict.
    assert (Hnp : npos dw = length xs).
    { unfold npos. rewrite filter_all; [assumption|]. intros a Ha. specialize (Hall a Ha). now destruct (Rlt_dec 0 a). }
    assert (Hp1 : (1 <= npos dw)%nat) by lia. assert (Hp : unique = true -> (m <= npos dw)%nat) by (intros; lia).
    set (grm := used_grm k xs dw st) in *. pose proof (used_grm_len k xs dw st Hst) as Hg. fold grm in Hg.
    pose proof (herding_sel_ok xs dw (pidx (repeat 0%Z m) m) grm Hg) as Hsel.
    set (sel := herding_select EROps Greedy (map Fin grm)) in *.
    pose proof (Hordm xs dw m unique ord Hdw (proj1 Hm) Hord Hp1 Hp) as HoM. pose proof (Hposm xs dw m unique Hdw (proj1 Hm) Hp1 Hp) as HpM.
    assert (Hcw' : length (repeat 0 m) = length (repeat 0%Z m)) by now rewrite !repeat_length.
    assert (Hrule := herding_rule p0 k xs dw m unique ord Hdw (proj1 Hm) Hord Hp1 Hp grm Hg). fold sel in Hrule.
    set (RES := res p0 k (repeat 0%Z m) (repeat 0 m) xs dw sel m unique ord) in *.
    assert (HRL : length RES = m) by (apply reduce_res_len; auto; lia).
    (* the greedy run selects l *)
    assert (El : RES = l).
    { assert (G : forall t, (t <= m)%nat -> firstn t RES = firstn t l).
      { induction t as [|t IH]; intro Ht; [reflexivity|]. specialize (IH ltac:(lia)).
        assert (N : nth t RES 0%nat = nth t l 0%nat).
        { destruct (Hrule t ltac:(lia)) as [A B]. cbv zeta in A, B. rewrite IH in A, B.
          destruct (Hstrict t ltac:(lia)) as [C D]. destruct (Nat.eq_dec (nth t RES 0%nat) (nth t l 0%nat)) as [|N]; [assumption|exfalso].
          specialize (D _ A N). destruct (B _ C) as [B1 _]. lra. }
        rewrite (firstn_map_nth RES (S t) 0%nat), (firstn_map_nth l (S t) 0%nat) by lia.
        rewrite seq_S, !map_app. cbn [map Nat.add]. rewrite N. f_equal.
        rewrite <- !firstn_map_nth by lia. exact IH. }
      rewrite <- (firstn_all RES), <- (firstn_all l), HRL, Hl. now apply G. }
    pose proof (fun t Ht => reduce_values p0 k xs dw sel m unique ord Hdw (proj1 Hm) Hord Hp1 Hp Hsel t Ht) as RV.
    pose proof (fun t Ht => reduce_size p0 k xs dw sel m unique ord Hdw (proj1 Hm) Hord Hp1 Hp Hsel t Ht) as RS.
    pose proof (fun t Ht => reduce_choice p0 k xs dw sel m unique ord Hdw (proj1 Hm) Hord Hp1 Hp Hsel t Ht) as RC.
    fold RES in RV, RC. rewrite El in RV, RC.
    set (W := pcw (repeat 0 m) (repeat 0%Z m) m) in *. set (I := pidx (repeat 0%Z m) m) in *.
    set (ST := gst p0 k xs dw W I (ipen p0 k xs W I) sel unique ord (Z.of_nat (npos W))) in *.
    destruct (uniform_T0 (fun t T => herding_select EROps (Prob expE (Fin T) choice) (map Fin grm) t
        (gvalid p0 k xs dw W unique ord t (ST t)) (Z.of_nat (t + 1)) = Z.of_nat (nth t l 0%nat)) m) as (T0 & P0 & HT).
    { intros t Ht. destruct (RV t Ht) as (V1 & V2 & V3 & V4 & V5). set (v := gvalid p0 k xs dw W unique ord t (ST t)) in *.
      destruct (Hstrict t Ht) as [C D].
      assert (HL : length (firstn t l) = t) by (rewrite firstn_length; lia).
      assert (HI : INR (t + 1) = IZR (Z.of_nat (t + 1))) by apply INR_IZR_INZ.
      eapply (cold_step grm v (Z.of_nat (t + 1)) choice t (nth t l 0%nat)).
      - lia.
      - lia.
      - intros j Hj. rewrite V1 in Hj. split; [|now apply V2].
        assert (HIl : (t <= length I)%nat) by (unfold I; rewrite I0_zero, repeat_length; lia).
        pose proof (run_inv p0 k (repeat 0%Z m) (repeat 0 m) xs dw sel m unique ord Hdw Hcw' (proj1 Hm)
          HoM Hp1 HpM Hsel t HIl) as Hinv.
        destruct (step_values p0 k xs dw W I (ipen p0 k xs W I) unique ord (Z.of_nat (npos W))
           Hdw ltac:(unfold W, I; rewrite W0_zero, I0_zero, !repeat_length; reflexivity) (map_length _ _)
           ltac:(intros; unfold I; rewrite I0_zero, repeat_length; apply Hord)
           (Henough' (repeat 0%Z m) (repeat 0 m) xs dw m unique Hdw Hcw' (proj1 Hm) Hp1 HpM) t (ST t)
           ltac:(unfold I; rewrite I0_zero, repeat_length; lia) Hinv) as (_ & _ & S3 & _).
        intro E. apply (S3 j Hj E). apply Hall, nth_In. lia.
      - destruct C as [C _]. lia.
      - now apply V5.
      - intros j x Hj Ej Hn. rewrite V1 in Hj. destruct (V4 j x Hj Ej) as [Cj ->]. specialize (D j Cj Hn).
        unfold herding_score in D. rewrite HL, HI in D. exact D.
      - assumption. }
    exists T0. split; [assumption|]. intros T H.
    unfold herding_reduce. cbn [h_size]. rewrite initial_ok by lia. cbn [bind].
    rewrite herding_refine_unfold by assumption. fold grm.
    assert (Hx : xs <> []) by (intros ->; cbn in Hm; lia).
    rewrite greedy_selection_unfold by (auto; lia). fold W. fold I.
    rewrite (gst_agree W I (ipen p0 k xs W I) sel _ (Z.of_nat (npos W)) m) ; [|intros t Ht; cbv zeta; fold (ST t)|lia].
    2:{ unfold ST. rewrite RS by assumption. fold (ST t).  rewrite <- RC by assumption. now apply HT. }
    cbv zeta. fold (ST m). pose proof (out_res p0 k (repeat 0%Z m) (repeat 0 m) xs dw sel m unique ord Hdw Hcw' (proj1 Hm)
      HoM Hp1 HpM Hsel) as E.
    unfold out_idx in E. fold W I ST RES in E. rewrite E, El. cbn [bind]. now rewrite map_length, Hl.
  Qed.
End Cold.
