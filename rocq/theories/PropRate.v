(** * Property theorems: how fast greedy coresets approach the data (C65, C66)

    The data set has feature rows [xs], weights [dw] and no supervision; [k] is a
    positive semi-definite kernel whose values [k(x, x)] on the data are at most
    [kappa]; [ord i] is the unspecified order in which the scatter of loop iteration [i]
    applies its updates. *)
From Coq Require Import List ZArith QArith Reals Lra Lia Bool Permutation.
From Verif Require Import Num Jax RSum JaxFacts DataModel MeanModel MeanSpec GreedySpec GreedyModel MetricSpec MetricModel
  MetricProofs PropMetric PropGreedy KernelModel KernelSpec KernelProofs7 PsdSpec PsdProofs4 PropKernel KTProofs2
  GreedyProofs2 RateProofs RateProofs2 RateProofs3.
Import ListNotations.
Open Scope R_scope.

(** ** C65: kernel herding.  The MMD between the data and the coreset, as
    [coreset.compute_metric(MMD(kernel))] reports it, is at most 3.5 sqrt(kappa / m). *)
Definition reported_mmd {P Y} (p0 : P) (y0 : Y) (k : P -> P -> R) bs (c : Coresubset P Y ER) : result ER :=
  cs_compute_metric EROps p0 y0 (fun a b => mmd_compute EROps p0 y0 (kE k) a b bs) c.
Lemma reported_value {P Y} (p0 : P) (y0 : Y) k bs xs dw l :
  psd k -> length dw = length xs -> Rsum dw <> 0 -> l <> [] -> (forall i, In i l -> (i < length xs)%nat) ->
  reported_mmd p0 y0 k bs (mkCS (map Z.of_nat l) (repeat (Fin 1) (length l)) (unsup xs dw))
  = Ok (Fin (sqrt (mmd2 k xs dw (map (fun j => nth j xs p0) l) (repeat 1 (length l))))).
Proof.
  intros Hk HL HS Hl HI. unfold reported_mmd, cs_compute_metric, points, d_getitem. cbn [c_pre c_idx c_w d_x d_w d_y option_map].
  rewrite (gather_pts p0) by exact HI.
  assert (E1 : forall n, repeat (Fin 1 : ER) n = map Fin (repeat 1 n)) by (induction n as [|n IH]; cbn; [|rewrite IH]; reflexivity).
  rewrite E1.
  apply C12_mmd_value; [exact Hk| |].
  - repeat split; [|now symmetry|exact HS]. intro E. destruct l as [|a l]; [congruence|]. specialize (HI a (or_introl eq_refl)). rewrite E in HI. cbn in HI. lia.
  - repeat split; [destruct l; [congruence|discriminate]|now rewrite map_length, repeat_length|].
    rewrite Rsum_repeat, Rmult_1_r. apply not_0_INR. destruct l; [congruence|discriminate].
Qed.

Theorem C65_herding_rate :
  forall P Y (p0 : P) (y0 : Y) (k : P -> P -> R) (kappa : R) (m : nat) (unique : bool) (bs bs' : bsarg)
         (ord : nat -> list nat) (xs : list P) (dw : list R),
    psd k -> (forall a, In a xs -> k a a <= kappa) ->
    length dw = length xs -> (forall w, In w dw -> 0 <= w) -> 0 < Rsum dw ->
    (unique = true -> exists w, dw = repeat w (length xs)) ->
    (1 <= m <= length xs)%nat -> (forall i, Permutation (ord i) (seq 0 m)) ->
    exists coreset row_mean mmd,
      herding_reduce EROps p0 y0 (mkHerding m (kE k) unique bs Greedy) ord (unsup xs dw) None = Ok (coreset, row_mean) /\
      reported_mmd p0 y0 k bs' coreset = Ok (Fin mmd) /\
      mmd <= 7 / 2 * sqrt (kappa / INR m).
Proof.
  intros P Y p0 y0 k kappa m unique bs bs' ord xs dw Hk Hd HL HN HS HU Hm HO.
  assert (Hpos : (1 <= npos dw)%nat).
  { destruct (npos dw) eqn:E; [|lia]. exfalso. unfold npos in E. clear - HN HS E. induction dw as [|a dw IH]; cbn in *; [lra|].
    destruct (Rlt_dec 0 a); [discriminate|]. pose proof (HN a (or_introl eq_refl)). apply IH; auto. lra. }
  assert (Hun : unique = true -> (m <= npos dw)%nat).
  { intro Hu. destruct (HU Hu) as [w E]. enough (npos dw = length xs) by lia. rewrite E, Rsum_repeat in HS.
    assert (0 < INR (length xs)) by (apply lt_0_INR; lia). assert (Hw : 0 < w) by nra. rewrite E. clear - Hw.
    unfold npos. induction (length xs) as [|n IH]; [reflexivity|]. cbn. destruct (Rlt_dec 0 w); [|contradiction]. cbn. now rewrite IH. }
  destruct (C18_herding_greedy P Y p0 y0 k m unique bs ord xs dw HL ltac:(lra) Hm HO Hpos Hun) as (l & g & R & Hl & HG).
  eexists _, _, _. split; [exact R|].
  assert (Hne : l <> []) by (intros ->; cbn in Hl; lia).
  assert (HI : forall i, In i l -> (i < length xs)%nat).
  { intros i Hi. apply (In_nth _ _ 0%nat) in Hi. destruct Hi as (t & Ht & <-). destruct (HG t Ht) as [(C1 & _) _]. lia. }
  rewrite <- Hl. split; [apply reported_value; auto; lra|].
  apply (herding_rate p0 k Hk xs dw kappa HL HN HS Hd l unique Hne ltac:(lia) HU HG).
Qed.
Print Assumptions C65_herding_rate.

(** The kernels the library ships (outside the cases excluded by C50): [kv] is what the
    kernel returns for two [d]-dimensional points. *)
Theorem C65_shipped_kernels :
  forall Y (y0 : Y) jgrad keq (d : nat) (p0 : point d) (k : kern R) (kv : point d -> point d -> R)
         (kappa : R) (m : nat) (unique : bool) (bs bs' : bsarg)
         (ord : nat -> list nat) (xs : list (point d)) (dw : list R),
    (forall k k', keq k k' = true -> k = k') -> well_formed k -> one_dim_ok d k ->
    (forall p q, m_val (methods EROps ERT jgrad keq (lift k)) (map Fin (pt p)) (map Fin (pt q)) = Sc (Fin (kv p q))) ->
    (forall a, In a xs -> kv a a <= kappa) ->
    length dw = length xs -> (forall w, In w dw -> 0 <= w) -> 0 < Rsum dw ->
    (unique = true -> exists w, dw = repeat w (length xs)) ->
    (1 <= m <= length xs)%nat -> (forall i, Permutation (ord i) (seq 0 m)) ->
    exists coreset row_mean mmd,
      herding_reduce EROps p0 y0 (mkHerding m (kE kv) unique bs Greedy) ord (unsup xs dw) None = Ok (coreset, row_mean) /\
      reported_mmd p0 y0 kv bs' coreset = Ok (Fin mmd) /\
      mmd <= 7 / 2 * sqrt (kappa / INR m).
Proof.
  intros Y y0 jgrad keq d p0 k kv kappa m unique bs bs' ord xs dw K W OD V Hd. intros.
  apply C65_herding_rate; try assumption.
  pose proof (kernel_psd d k W OD) as [S1 S2].
  assert (E : forall p q, kv p q = kfun k (pt p) (pt q)).
  { intros p q. pose proof (V p q) as X. rewrite (kernel_value jgrad keq K k) in X by exact W. congruence. }
  split; [intros a b; rewrite !E; apply S1|]. intro ms. replace (bil kv ms ms) with (bil (fun p q => kfun k (pt p) (pt q)) ms ms); [apply S2|].
  unfold bil. apply Rsum_map_ext. intros a _. f_equal. apply Rsum_map_ext. intros b _. now rewrite E.
Qed.
Print Assumptions C65_shipped_kernels.
(** a squared exponential kernel with output scale 3 on the plane; [kappa] is 3 *)
Example C65_applies :
  exists (kv : point 2 -> point 2 -> R) (xs : list (point 2)),
    well_formed (KSE 1 3) /\ one_dim_ok 2 (KSE 1 3) /\
    (forall p q, m_val (methods EROps ERT (fun _ x => x) ex_keq (lift (KSE 1 3))) (map Fin (pt p)) (map Fin (pt q)) = Sc (Fin (kv p q))) /\
    (forall a, kv a a <= 3) /\ length xs = 3%nat /\ (forall w, In w [2; 2; 2] -> 0 <= w) /\ 0 < Rsum [2; 2; 2] /\ [2; 2; 2] = repeat 2 (length xs).
Proof.
  exists (fun p q => kfun (KSE 1 3) (pt p) (pt q)),
    [exist _ [0; 1] eq_refl; exist _ [2; 1] eq_refl; exist _ [0; 5] eq_refl].
  assert (W : well_formed (KSE 1 3)) by (cbn; repeat split; lra).
  split; [exact W|]. split; [exact I|]. split; [intros; apply (kernel_value _ _ ex_keq_sound); exact W|].
  split.
  { intros a. cbn [kfun]. assert (X : sqdist (pt a) (pt a) = 0).
    { generalize (pt a). clear a. induction l as [|b l IH]; [reflexivity|]. unfold sqdist, vsub in *. change (map2 Rminus (b :: l) (b :: l)) with ((b - b) :: map2 Rminus l l).
      unfold Rdot in *. cbn [map2 Rsum]. rewrite IH. ring. }
    rewrite X. unfold Rdiv. rewrite Rmult_0_l, Ropp_0, exp_0. lra. }
  repeat split; cbn; try lra. intros w [<-|[<-|[<-|[]]]]; lra.
Qed.

(** With [unique] and non-uniform weights the coreset may stay far from the data: 49
    points, all of them selected, and an MMD above 1/2 (the bound is 3.5/7 = 1/2). *)
Definition heavy_xs : list R := 1 :: repeat 0 48.
Definition heavy_w : list R := 1 :: repeat (/ 480) 48.
Theorem C65_unique_weighted_refuted :
  psd lin1 /\ (forall a, In a heavy_xs -> lin1 a a <= 1) /\ length heavy_w = length heavy_xs /\
  (forall w, In w heavy_w -> 0 < w) /\ length heavy_xs = 49%nat /\
  forall Y (y0 : Y) (bs bs' : bsarg) (ord : nat -> list nat), (forall i, Permutation (ord i) (seq 0 49)) ->
    exists coreset row_mean mmd,
      herding_reduce EROps 0 y0 (mkHerding 49 (kE lin1) true bs Greedy) ord (unsup heavy_xs heavy_w) None = Ok (coreset, row_mean) /\
      reported_mmd 0 y0 lin1 bs' coreset = Ok (Fin mmd) /\
      7 / 2 * sqrt (1 / INR 49) < mmd.
Proof.
  split; [exact lin1_psd|].
  assert (HL : length heavy_w = length heavy_xs) by reflexivity.
  assert (HP : forall w, In w heavy_w -> 0 < w).
  { intros w [<-|H]; [lra|]. apply repeat_spec in H. lra. }
  split; [intros a [<-|H]; [unfold lin1; lra|apply repeat_spec in H; subst; unfold lin1; lra]|].
  split; [exact HL|]. split; [exact HP|]. split; [reflexivity|]. intros Y y0 bs bs' ord HO.
  assert (HS : Rsum heavy_w = 11 / 10) by (unfold heavy_w; cbn [Rsum]; rewrite Rsum_repeat; cbn [INR]; lra).
  assert (NP : npos heavy_w = 49%nat).
  { unfold npos. assert (X : forall w, (forall a, In a w -> 0 < a) -> length (filter (fun a => if Rlt_dec 0 a then true else false) w) = length w).
    { induction w as [|a w IH]; intro H; [reflexivity|]. cbn. destruct (Rlt_dec 0 a) as [|N]; [cbn; f_equal; apply IH; intros; apply H; now right|].
      exfalso. apply N, H. now left. }
    now rewrite X. }
  destruct (C18_herding_greedy R Y 0 y0 lin1 49 true bs ord heavy_xs heavy_w HL ltac:(lra) ltac:(change (length heavy_xs) with 49%nat; lia) HO ltac:(lia) ltac:(intro; lia)) as (l & g & R & Hl & HG).
  destruct (greedy_prefix heavy_w _ l (length l) HG (le_n _)) as [ND HI]. rewrite firstn_all in ND, HI. rewrite HL in HI.
  eexists _, _, _. split; [exact R|]. rewrite <- Hl. split.
  { apply reported_value; [exact lin1_psd|exact HL|lra|intros ->; discriminate|exact HI]. }
  assert (PL : Permutation (seq 0 49) l).
  { apply NoDup_Permutation_bis; [apply seq_NoDup|rewrite seq_length; lia|].
    assert (X : incl l (seq 0 49)) by (intros i Hi; apply in_seq; specialize (HI i Hi); change (length heavy_xs) with 49%nat in HI; lia).
    apply (NoDup_length_incl ND); [rewrite seq_length; lia|exact X]. }
  rewrite Hl. rewrite mmd2_bil by apply lin1_psd.
  assert (B : forall ms, bil lin1 ms ms = lin ms (fun p => p) * lin ms (fun p => p)).
  { intro ms. unfold bil, lin, lin1. rewrite <- Rsum_map_scal_r. apply Rsum_map_ext. intros a _.
    rewrite (Rsum_map_ext _ (fun n => fst a * (snd n * fst n))) by (intros; ring). rewrite Rsum_map_scal. ring. }
  rewrite B, lin_app, lin_scal, <- !wavg_lin_nm.
  assert (E1 : wavg (fun p => p) heavy_xs heavy_w = 10 / 11).
  { unfold wavg. rewrite HS. unfold wsum, heavy_xs, heavy_w. cbn [combine map Rsum fst snd].
    replace (Rsum (map (fun p => snd p * fst p) (combine (repeat 0 48) (repeat (/ 480) 48)))) with 0; [field|].
    symmetry. apply Rsum_zero. intros z Hz. apply in_map_iff in Hz. destruct Hz as ([u v] & <- & Hz). apply in_combine_l, repeat_spec in Hz. subst. cbn. ring. }
  assert (E2 : wavg (fun p => p) (map (fun j => nth j heavy_xs 0) l) (repeat 1 49) = / 49).
  { unfold wavg. rewrite Rsum_repeat. replace (wsum (fun p => p) (map (fun j => nth j heavy_xs 0) l) (repeat 1 49)) with (Rsum (map (fun j => nth j heavy_xs 0) l)).
    - rewrite <- (Rsum_perm _ _ (Permutation_map (fun j => nth j heavy_xs 0) PL)). change 49%nat with (length heavy_xs) at 1.
      rewrite map_nth_seq. unfold heavy_xs. cbn [Rsum]. rewrite Rsum_repeat. cbn [INR]. field.
    - rewrite <- Hl. unfold wsum. clear. induction l as [|a l IH]; [reflexivity|]. cbn [length map repeat combine Rsum fst snd]. rewrite <- IH. ring. }
  rewrite E1, E2. rewrite sqrt_square by lra.
  replace (1 / INR 49) with (/ 7 * / 7) by (cbn [INR]; field). rewrite sqrt_square by lra. lra.
Qed.
Print Assumptions C65_unique_weighted_refuted.

(** ** C66: Stein thinning.  [q] is any re-weighting of the rows that the solver may
    choose; the kernel Stein discrepancy of a weighted point set is the weighted mean of
    the Stein kernel [k] over pairs of its points. *)
Definition ksd2 {P} (k : P -> P -> R) (xs : list P) (w : list R) : R := wavg (fun a => wavg (fun b => k a b) xs w) xs w.
(** what the coreset is compared with: any weights on the rows of positive weight if rows
    may repeat, equal weights on all rows if they may not *)
Definition comparator (unique : bool) (dw q : list R) : Prop :=
  length q = length dw /\ (forall a, In a q -> 0 <= a) /\ 0 < Rsum q /\ (forall j, 0 < nth j q 0 -> 0 < nth j dw 0) /\
  (unique = true -> exists w, q = repeat w (length dw)).
Theorem C66_stein_rate :
  forall P Y (p0 : P) (y0 : Y) (k : P -> P -> R) (kappa : R) (m : nat) (unique : bool) (bs : bsarg)
         (ord : nat -> list nat) (xs : list P) (dw : list R),
    psd k -> (forall a, In a xs -> k a a <= kappa) ->
    length dw = length xs -> (1 <= m <= length xs)%nat -> (forall i, Permutation (ord i) (seq 0 m)) ->
    (1 <= npos dw)%nat -> (unique = true -> (m <= npos dw)%nat) ->
    exists l,
      stein_reduce EROps p0 y0 (mkStein m (kE k) unique bs None) ord (unsup xs dw)
      = Ok (mkCS (map Z.of_nat l) (repeat (Fin 1) m) (unsup xs dw)) /\
      forall q, comparator unique dw q ->
        ksd2 k (map (fun j => nth j xs p0) l) (repeat 1 m) <= ksd2 k xs q + kappa * (1 + ln (INR m)) / INR m.
Proof.
  intros P Y p0 y0 k kappa m unique bs ord xs dw Hk Hd HL Hm HO Hp HU.
  destruct (C22_stein_greedy_unregularised_partial P Y p0 y0 k m unique bs ord xs dw HL Hm HO Hp HU) as (l & R & Hl & HI & HN & HG).
  exists l. split; [exact R|]. intros q (Q1 & Q2 & Q3 & Q4 & Q5). rewrite HL in Q1, Q5. rewrite <- Hl.
  replace kappa with (kappa + 0) by lra.
  apply (stein_rate p0 k Hk xs dw kappa 0 (fun _ => 0) (fun _ => 0) HL Hd (Rle_refl 0) l) with (unique := unique); auto.
  - intros. lra.
  - intros i Hi. now apply HI.
  - intros ->. cbn in Hl. lia.
  - intro Hu. repeat split; auto. lia.
Qed.
Print Assumptions C66_stein_rate.
(** the same with the regularisation terms (the default): [L] bounds the Laplacian terms,
    [M] the logarithm of the density estimate, on the data *)
Theorem C66_regularised_stein_rate :
  forall P Y (p0 : P) (y0 : Y) (k : P -> P -> R) (kappa L M : R) (m : nat) (unique : bool) (bs : bsarg)
         (ord : nat -> list nat) (xs : list P) (dw : list R)
         (lam : option R) (logpdf : list P -> list ER -> list ER) (lapl : list P -> list ER) (lp lap : list R),
    psd k -> (forall a, In a xs -> k a a <= kappa) ->
    length dw = length xs -> (1 <= m <= length xs)%nat -> (forall i, Permutation (ord i) (seq 0 m)) ->
    (1 <= npos dw)%nat -> (unique = true -> (m <= npos dw)%nat) ->
    logpdf xs (map Fin dw) = map Fin lp -> length lp = length xs ->
    lapl xs = map Fin lap -> length lap = length xs ->
    (forall a, In a lap -> Rabs a <= L) -> (forall a, In a lp -> Rabs a <= M) ->
    let strength := match lam with Some l => Rabs l * INR m | None => 1 end in
    exists l,
      stein_reduce EROps p0 y0 (mkStein m (kE k) unique bs (Some (option_map Fin lam, logpdf, lapl))) ord (unsup xs dw)
      = Ok (mkCS (map Z.of_nat l) (repeat (Fin 1) m) (unsup xs dw)) /\
      forall q, comparator unique dw q ->
        ksd2 k (map (fun j => nth j xs p0) l) (repeat 1 m)
        <= ksd2 k xs q + (kappa + 2 * L + 2 * strength * M) * (1 + ln (INR m)) / INR m.
Proof.
  intros P Y p0 y0 k kappa L M m unique bs ord xs dw lam logpdf lapl lp lap Hk Hd HL Hm HO Hp HU E1 N1 E2 N2 BL BM strength.
  destruct (C22_stein_greedy_partial P Y p0 y0 k m unique bs ord xs dw lam logpdf lapl lp lap HL Hm HO Hp HU E1 N1 E2 N2) as (l & R & Hl & HI & HN & HG).
  exists l. split; [exact R|]. intros q (Q1 & Q2 & Q3 & Q4 & Q5). rewrite HL in Q1, Q5. rewrite <- Hl.
  assert (HM : 1 <= INR m) by (change 1 with (INR 1); apply le_INR; lia).
  set (lm := match lam with Some l => l | None => 1 / INR m end) in *.
  assert (ES : strength = Rabs lm * INR m).
  { unfold strength, lm. destruct lam; [reflexivity|]. unfold Rdiv. rewrite Rmult_1_l, Rabs_inv, Rabs_pos_eq by lra. field. lra. }
  assert (L0 : 0 <= L). { eapply Rle_trans; [apply Rabs_pos|]. apply (BL (nth 0 lap 0)), nth_In. lia. }
  assert (M0 : 0 <= M). { eapply Rle_trans; [apply Rabs_pos|]. apply (BM (nth 0 lp 0)), nth_In. lia. }
  assert (S0 : 0 <= strength). { rewrite ES. apply Rmult_le_pos; [apply Rabs_pos|lra]. }
  replace (kappa + 2 * L + 2 * strength * M) with (kappa + (2 * L + 2 * strength * M)) by ring.
  apply (stein_rate p0 k Hk xs dw kappa (2 * L + 2 * strength * M) (fun j => nth j lap 0) (fun j => lm * nth j lp 0) HL Hd) with (unique := unique); auto.
  - assert (0 <= strength * M) by (now apply Rmult_le_pos). lra.
  - intros t i j Ht Hi Hj.
    assert (X : forall j, (j < length xs)%nat -> Rabs (INR (t + 1) * (lm * nth j lp 0)) <= strength * M).
    { intros j' Hj'. rewrite !Rabs_mult, ES, (Rabs_pos_eq (INR _)) by apply pos_INR.
      assert (Y1 : INR (t + 1) <= INR m) by (apply le_INR; lia). assert (Y2 : Rabs (nth j' lp 0) <= M) by (apply BM, nth_In; lia).
      rewrite <- Rmult_assoc, (Rmult_comm (Rabs lm)).
      apply Rmult_le_compat; [|apply Rabs_pos| |exact Y2].
      - apply Rmult_le_pos; [apply pos_INR|apply Rabs_pos].
      - apply Rmult_le_compat_r; [apply Rabs_pos|exact Y1]. }
    pose proof (X i Hi) as Xi. pose proof (X j Hj) as Xj.
    assert (Li : Rabs (nth i lap 0) <= L) by (apply BL, nth_In; lia). assert (Lj : Rabs (nth j lap 0) <= L) by (apply BL, nth_In; lia).
    assert (BT : forall a b, Rabs a <= b -> - b <= a <= b) by (intros a b; unfold Rabs; destruct (Rcase_abs a); lra).
    apply BT in Li. apply BT in Lj. apply BT in Xi. apply BT in Xj. lra.
  - intros i Hi. now apply HI.
  - intros ->. cbn in Hl. lia.
  - intro Hu. repeat split; auto. lia.
Qed.
Print Assumptions C66_regularised_stein_rate.
Example C66_applies :
  psd lin1 /\ (forall a, In a [2; -1; -2; 1] -> lin1 a a <= 4) /\ comparator true [1; 3; 1; 1] (repeat 1 4) /\
  comparator false [1; 3; 0; 1] [1; 0; 0; 2] /\ ksd2 lin1 [2; -1; -2; 1] (repeat 1 4) = 0 /\ ksd2 lin1 [2; -1; -2; 1] [1; 0; 0; 2] = 16 / 9.
Proof.
  split; [exact lin1_psd|]. split; [intros a [<-|[<-|[<-|[<-|[]]]]]; unfold lin1; lra|].
  split; [|split; [|split; unfold ksd2, wavg, wsum, lin1; cbn; field]].
  - split; [reflexivity|]. split; [intros a H; apply repeat_spec in H; lra|]. split; [cbn; lra|]. split; [|intros _; exists 1; reflexivity].
    intros [|[|[|[|[|j]]]]] H; cbn in *; lra.
  - split; [reflexivity|]. split; [intros a [<-|[<-|[<-|[<-|[]]]]]; lra|]. split; [cbn; lra|]. split; [|discriminate].
    intros [|[|[|[|[|j]]]]] H; cbn in *; lra.
Qed.
