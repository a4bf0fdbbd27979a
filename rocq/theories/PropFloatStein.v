(** * SteinThinning in floating point arithmetic: C81

    The statements hold for every binary format with rounding to nearest even.  The data
    set has feature rows [xs] and weights [dw]; the kernel function of the solver returns
    floats [k x y]; [kx] is the kernel in exact arithmetic and [eps] bounds the difference
    of the two on the data; [ord i] is the unspecified order in which the scatter of loop
    iteration [i] applies its updates. *)
From Coq Require Import List ZArith Bool Reals Permutation Lia Lra.
From Coq Require Import Floats.SpecFloat.
From Flocq Require Import Core.Core IEEE754.BinarySingleNaN.
From Verif Require Import Num Jax RSum JaxFacts DataModel MeanModel MeanSpec GreedySpec GreedyModel MetricSpec MetricModel MetricProofs GreedyProofs2
  RateProofs3 PropRate Float FloatIdxSpec FloatErrSpec FloatErr FloatRateSpec FloatRate FloatRate2 FloatRate3 FloatRate4 FloatStein FloatStein2 PropFloatMMD PropFloatRate.
Import ListNotations.
Open Scope R_scope.

Lemma near_unique dw score tol l : near_greedy (candidate dw true) score tol l -> NoDup l.
Proof.
  intros H. apply NoDup_nth with (d := 0%nat).
  assert (G : forall i j, (i < j < length l)%nat -> nth i l 0%nat <> nth j l 0%nat).
  { intros i j Hij E. destruct (H j ltac:(lia)) as [(_ & _ & N) _]. apply (N eq_refl). rewrite <- E. cbv zeta.
    replace (nth i l 0%nat) with (nth i (firstn j l) 0%nat); [apply nth_In; rewrite firstn_length; lia|].
    rewrite <- (firstn_skipn j l) at 2. rewrite app_nth1; [reflexivity|]. rewrite firstn_length. lia. }
  intros i j Hi Hj E. destruct (lt_eq_lt_dec i j) as [[X|X]|X]; auto; exfalso; [apply (G i j)|apply (G j i)]; auto.
Qed.

(** ** C81: without regularisation *)
Theorem C81_float_stein :
  forall prec emax (Hp : Prec_gt_0 prec) (Hm : Prec_lt_emax prec emax) (Sm : SumOrder prec emax) a e L,
  mean_room prec emax a e L -> (a + e + 4 <= emax)%Z ->
  forall {P Y} (p0 : P) (y0 : Y) (k : P -> P -> binary_float prec emax) (kx : P -> P -> R) (eps : R)
         (m : nat) (unique : bool) bs ord xs dw,
  length dw = length xs -> Forall weight_ok dw -> (1 <= positives dw)%nat ->
  (forall x y, In x (p0 :: xs) -> In y (p0 :: xs) -> at_most e (k x y)) ->
  (forall x y, In x xs -> In y xs -> Rabs (B2R (k x y) - kx x y) <= eps) ->
  (1 <= m <= length xs)%nat -> (m + 3 <= L)%nat -> (Z.of_nat m <= 2 ^ a)%Z ->
  (forall i, Permutation (ord i) (seq 0 m)) ->
  (unique = true -> (m <= positives dw)%nat) ->
  exists l,
    stein_reduce (FOpsIEEE prec emax) p0 y0 (mkStein m k unique bs None) ord (mkData xs dw None : Data P Y _)
      = Ok (mkCS (map Z.of_nat l) (repeat Bone m) (mkData xs dw None)) /\
    length l = m /\
    (* every choice is optimal up to the tolerance *)
    near_greedy (candidate (map B2R dw) unique) (stein_score kx (fun _ => 0) (fun _ => 0) (fun j => nth j xs p0))
      (fun _ => stein_tolerance prec e eps m) l /\
    (* and the bound of C66 holds with the tolerance added to [kappa] *)
    forall kappa q, psd kx -> (forall x, In x xs -> kx x x <= kappa) -> comparator unique (map B2R dw) q ->
      ksd2 kx (map (fun j => nth j xs p0) l) (repeat 1 m)
      <= ksd2 kx xs q + (kappa + stein_tolerance prec e eps m) * (1 + ln (INR m)) / INR m.
Proof.
  intros prec emax Hp Hmx Sm a e L HR HE P Y p0 y0 k kx eps m unique bs ord xs dw Hdw Wdw Hpos Hk Hkx Hm HN HA Hord HU.
  rewrite <- npos_positives in Hpos, HU.
  assert (Z0 : forall j, B2R (nth j (repeat (f0 (FOpsIEEE prec emax)) (length xs)) B754_nan) = 0).
  { intros j. destruct (nth_in_or_default j (repeat (f0 (FOpsIEEE prec emax)) (length xs)) B754_nan) as [I|E].
    - apply repeat_spec in I. rewrite I. reflexivity.
    - rewrite E. reflexivity. }
  assert (ZB : Forall (at_most e) (repeat (f0 (FOpsIEEE prec emax)) (length xs))).
  { apply Forall_forall. intros v Hv. apply repeat_spec in Hv. subst v. split; [reflexivity|]. cbn [B2R f0 FOpsIEEE]. rewrite Rabs_R0. apply bpow_ge_0. }
  destruct (fstein_reduce prec emax a e L HR HE p0 y0 k kx eps xs dw m unique bs ord Hdw Wdw Hpos Hk Hkx HN HA Hm Hord HU None) as (l & E & Hl & NG);
    try (apply repeat_length); try exact ZB.
  assert (NG' : near_greedy (candidate (map B2R dw) unique) (stein_score kx (fun _ => 0) (fun _ => 0) (fun j => nth j xs p0)) (fun _ => stein_tolerance prec e eps m) l).
  { intros t Ht. destruct (NG t Ht) as [C B]. split; [exact C|]. intros j Cj. specialize (B j Cj). cbv beta in B.
    cbn [terms_of stein_terms s_reg fst snd] in B. unfold stein_score in *. rewrite !Z0 in B. unfold fstein_err in B. unfold stein_tolerance. lra. }
  exists l. split; [exact E|]. split; [exact Hl|]. split; [exact NG'|].
  intros kappa q Hpsd Hd (Q1 & Q2 & Q3 & Q4 & Q5). rewrite map_length, Hdw in Q1, Q5.
  assert (HI : forall i, In i l -> (i < length xs)%nat).
  { intros i Hi. destruct (near_in _ _ _ _ _ _ NG' Hi) as [C _]. rewrite map_length, Hdw in C. exact C. }
  assert (EP : 0 <= eps) by (eapply Rle_trans; [apply Rabs_pos|apply (Hkx (nth 0 xs p0) (nth 0 xs p0)); apply nth_In; lia]).
  assert (TP : 0 <= stein_tolerance prec e eps m).
  { unfold stein_tolerance. pose proof (pos_INR (3 * m + 1)). pose proof (pos_INR (m + 3)). pose proof (pos_INR m). pose proof (bpow_ge_0 radix2 (e - prec)).
    apply Rplus_le_le_0_compat; repeat apply Rmult_le_pos; lra. }
  unfold ksd2, Rdiv. replace (repeat 1 m) with (repeat 1 (length l)) by now rewrite Hl. replace (ln (INR m)) with (ln (INR (length l))) by now rewrite Hl.
  replace (/ INR m) with (/ INR (length l)) by now rewrite Hl.
  apply (stein_rate_near p0 kx Hpsd xs (map B2R dw) kappa (stein_tolerance prec e eps m) (fun _ => 0) (fun _ => 0) (fun _ => stein_tolerance prec e eps m))
    with (unique := unique); auto.
  - now rewrite map_length.
  - intros. lra.
  - intros ->. cbn in Hl. lia.
  - intros U. subst unique. split; [eapply near_unique; exact NG'|]. split; [lia|]. auto.
Qed.
Print Assumptions C81_float_stein.

(** ** C81: with regularisation.  [lapl x] is the Laplacian term and [logpdf x w] the log
    density; the parameter is [lam], or one over the size of the coreset. *)
Theorem C81_float_regularised_stein :
  forall prec emax (Hp : Prec_gt_0 prec) (Hm : Prec_lt_emax prec emax) (Sm : SumOrder prec emax) a e L,
  mean_room prec emax a e L -> (a + e + 4 <= emax)%Z ->
  forall {P Y} (p0 : P) (y0 : Y) (k : P -> P -> binary_float prec emax) (kx : P -> P -> R) (eps : R)
         (m : nat) (unique : bool) bs ord xs dw (lam : option (binary_float prec emax)) logpdf lapl,
  length dw = length xs -> Forall weight_ok dw -> (1 <= positives dw)%nat ->
  (forall x y, In x (p0 :: xs) -> In y (p0 :: xs) -> at_most e (k x y)) ->
  (forall x y, In x xs -> In y xs -> Rabs (B2R (k x y) - kx x y) <= eps) ->
  (1 <= m <= length xs)%nat -> (m + 3 <= L)%nat -> (Z.of_nat m <= 2 ^ a)%Z ->
  (forall i, Permutation (ord i) (seq 0 m)) ->
  (unique = true -> (m <= positives dw)%nat) ->
  let parameter := match lam with Some l => l | None => Bdiv mode_NE Bone (binary_normalize prec emax _ _ mode_NE (Z.of_nat m) 0 false) end in
  let lap := lapl xs in let rl := map (Bmult mode_NE parameter) (logpdf xs dw) in
  length lap = length xs -> Forall (at_most e) lap ->
  length rl = length xs -> Forall (at_most e) rl ->
  exists l,
    stein_reduce (FOpsIEEE prec emax) p0 y0 (mkStein m k unique bs (Some (lam, logpdf, lapl))) ord (mkData xs dw None : Data P Y _)
      = Ok (mkCS (map Z.of_nat l) (repeat Bone m) (mkData xs dw None)) /\
    length l = m /\
    near_greedy (candidate (map B2R dw) unique)
      (stein_score kx (fun j => B2R (nth j lap B754_nan)) (fun j => B2R (nth j rl B754_nan)) (fun j => nth j xs p0))
      (fun _ => stein_tolerance prec e eps m) l /\
    forall kappa Lb M q, psd kx -> (forall x, In x xs -> kx x x <= kappa) ->
      (forall v, In v lap -> Rabs (B2R v) <= Lb) -> (forall v, In v rl -> INR m * Rabs (B2R v) <= M) ->
      comparator unique (map B2R dw) q ->
      ksd2 kx (map (fun j => nth j xs p0) l) (repeat 1 m)
      <= ksd2 kx xs q + (kappa + 2 * Lb + 2 * M + stein_tolerance prec e eps m) * (1 + ln (INR m)) / INR m.
Proof.
  intros prec emax Hp Hmx Sm a e L HR HE P Y p0 y0 k kx eps m unique bs ord xs dw lam logpdf lapl Hdw Wdw Hpos Hk Hkx Hm HN HA Hord HU parameter lap rl L1 B1 L2 B2.
  rewrite <- npos_positives in Hpos, HU.
  destruct (fstein_reduce prec emax a e L HR HE p0 y0 k kx eps xs dw m unique bs ord Hdw Wdw Hpos Hk Hkx HN HA Hm Hord HU (Some (lam, logpdf, lapl))) as (l & E & Hl & NG);
    try assumption.
  assert (NG' : near_greedy (candidate (map B2R dw) unique) (stein_score kx (fun j => B2R (nth j lap B754_nan)) (fun j => B2R (nth j rl B754_nan)) (fun j => nth j xs p0)) (fun _ => stein_tolerance prec e eps m) l).
  { intros t Ht. destruct (NG t Ht) as [C B]. split; [exact C|]. intros j Cj. specialize (B j Cj). cbv beta in B.
    cbn [terms_of stein_terms s_reg fst snd] in B. eapply Rle_trans; [exact B|]. unfold stein_tolerance, fstein_err. right. unfold rl, lap, parameter. cbn [fmul fdiv f1 fofZ FOpsIEEE]. ring. }
  exists l. split; [exact E|]. split; [exact Hl|]. split; [exact NG'|].
  intros kappa Lb M q Hpsd Hd BL BM (Q1 & Q2 & Q3 & Q4 & Q5). rewrite map_length, Hdw in Q1, Q5.
  assert (HI : forall i, In i l -> (i < length xs)%nat).
  { intros i Hi. destruct (near_in _ _ _ _ _ _ NG' Hi) as [C _]. rewrite map_length, Hdw in C. exact C. }
  assert (EP : 0 <= eps) by (eapply Rle_trans; [apply Rabs_pos|apply (Hkx (nth 0 xs p0) (nth 0 xs p0)); apply nth_In; lia]).
  assert (TP : 0 <= stein_tolerance prec e eps m).
  { unfold stein_tolerance. pose proof (pos_INR (3 * m + 1)). pose proof (pos_INR (m + 3)). pose proof (pos_INR m). pose proof (bpow_ge_0 radix2 (e - prec)).
    apply Rplus_le_le_0_compat; repeat apply Rmult_le_pos; lra. }
  assert (LB0 : 0 <= Lb). { eapply Rle_trans; [apply Rabs_pos|]. apply (BL (nth 0 lap B754_nan)), nth_In. lia. }
  assert (M0 : 0 <= M). { eapply Rle_trans; [|apply (BM (nth 0 rl B754_nan)), nth_In; lia]. apply Rmult_le_pos; [apply pos_INR|apply Rabs_pos]. }
  replace (kappa + 2 * Lb + 2 * M + stein_tolerance prec e eps m) with (kappa + (2 * Lb + 2 * M + stein_tolerance prec e eps m)) by ring.
  unfold ksd2, Rdiv. replace (repeat 1 m) with (repeat 1 (length l)) by now rewrite Hl. replace (ln (INR m)) with (ln (INR (length l))) by now rewrite Hl.
  replace (/ INR m) with (/ INR (length l)) by now rewrite Hl.
  apply (stein_rate_near p0 kx Hpsd xs (map B2R dw) kappa (2 * Lb + 2 * M + stein_tolerance prec e eps m) (fun j => B2R (nth j lap B754_nan)) (fun j => B2R (nth j rl B754_nan)) (fun _ => stein_tolerance prec e eps m))
    with (unique := unique); auto.
  - now rewrite map_length.
  - lra.
  - intros t i j Ht Hi Hj. cbv beta.
    assert (X : forall j, (j < length xs)%nat -> Rabs (INR (t + 1) * B2R (nth j rl B754_nan)) <= M).
    { intros j' Hj'. rewrite Rabs_mult, (Rabs_pos_eq (INR _)) by apply pos_INR. eapply Rle_trans; [|apply (BM (nth j' rl B754_nan)), nth_In; lia].
      apply Rmult_le_compat_r; [apply Rabs_pos|]. apply le_INR. lia. }
    pose proof (X i Hi) as Xi. pose proof (X j Hj) as Xj.
    assert (Li : Rabs (B2R (nth i lap B754_nan)) <= Lb) by (apply BL, nth_In; lia). assert (Lj : Rabs (B2R (nth j lap B754_nan)) <= Lb) by (apply BL, nth_In; lia).
    apply Rabs_le_inv in Li. apply Rabs_le_inv in Lj. apply Rabs_le_inv in Xi. apply Rabs_le_inv in Xj. lra.
  - intros ->. cbn in Hl. lia.
  - intros U. subst unique. split; [eapply near_unique; exact NG'|]. split; [lia|]. auto.
Qed.
Print Assumptions C81_float_regularised_stein.

(** ** the hypotheses are met: binary32, four points, a kernel of values 1 and -1 *)
Lemma ksgn_size a b : at_most 0 (ksgn a b).
Proof. destruct (ksgn_exact a b) as [F V]. split; [exact F|]. rewrite V. cbn [bpow]. unfold sgn. apply Rabs_le. destruct a, b; lra. Qed.
Example C81_applies : exists l,
  stein_reduce F32Ops true tt (mkStein 2 ksgn true (BOne None) None) (fun _ => seq 0 2) (mkData [true; true; false; false] (repeat Bone 4) None)
    = Ok (mkCS (map Z.of_nat l) (repeat Bone 2) (mkData [true; true; false; false] (repeat Bone 4) None)) /\
  ksd2 (fun a b => sgn a * sgn b) (map (fun j => nth j [true; true; false; false] true) l) (repeat 1 2)
  <= (1 + 140 * bpow radix2 (-24)) * (1 + ln (INR 2)) / INR 2.
Proof.
  assert (PS : positives (repeat (Bone : F32) 4) = 4%nat).
  { unfold positives. cbn [repeat filter]. rewrite Bone_correct. rewrite Rlt_bool_true by lra. reflexivity. }
  destruct (C81_float_stein 24 128 _ _ _ 10 0 100 ltac:(constructor; lia) ltac:(lia) true tt ksgn (fun a b => sgn a * sgn b) 0 2 true
    (BOne None) (fun _ => seq 0 2) [true; true; false; false] (repeat Bone 4)) as (l & E & _ & _ & B).
  - reflexivity.
  - apply Forall_forall. intros v Hv. apply repeat_spec in Hv. subst v. apply f32_ok.
  - rewrite PS. lia.
  - intros x y _ _. apply ksgn_size.
  - intros x y _ _. destruct (ksgn_exact x y) as [_ V]. rewrite V, Rminus_eq_0, Rabs_R0. lra.
  - cbn. lia.
  - lia.
  - cbn. lia.
  - intros i. apply Permutation_refl.
  - intros _. rewrite PS. lia.
  - exists l. split; [exact E|]. eapply Rle_trans; [apply (B 1 (repeat 1 4) sgn_psd)|].
    + intros x _. unfold sgn. destruct x; lra.
    + split; [reflexivity|]. split; [intros a H; apply repeat_spec in H; lra|]. split; [cbn; lra|]. split; [|intros _; exists 1; reflexivity].
      replace (map B2R (repeat (Bone : F32) 4)) with (repeat 1 4) by (cbn [repeat map]; now rewrite Bone_correct). auto.
    + assert (Z : ksd2 (fun a b => sgn a * sgn b) [true; true; false; false] (repeat 1 4) = 0) by (unfold ksd2, wavg, wsum, sgn; cbn; field).
      rewrite Z, Rplus_0_l. right. do 3 f_equal. unfold stein_tolerance. change (3 * 2 + 1)%nat with 7%nat. change (2 + 3)%nat with 5%nat. change (0 - 24)%Z with (-24)%Z.
      replace (INR 7) with 7 by (cbn [INR]; ring). replace (INR 5) with 5 by (cbn [INR]; ring). ring.
Qed.
Example C81_regularised_applies : exists l,
  stein_reduce F32Ops true tt (mkStein 2 ksgn true (BOne None) (Some (Some Bone, fun x _ => map (fun _ => Bone) x, map (fun b : bool => if b then Bone else B754_zero false))))
    (fun _ => seq 0 2) (mkData [true; true; false; false] (repeat Bone 4) None)
    = Ok (mkCS (map Z.of_nat l) (repeat Bone 2) (mkData [true; true; false; false] (repeat Bone 4) None)).
Proof.
  assert (PS : positives (repeat (Bone : F32) 4) = 4%nat).
  { unfold positives. cbn [repeat filter]. rewrite Bone_correct. rewrite Rlt_bool_true by lra. reflexivity. }
  assert (O1 : at_most 0 (Bone : F32)) by (split; [apply is_finite_Bone|rewrite Bone_correct, Rabs_R1; cbn [bpow]; lra]).
  assert (O2 : at_most 0 (B754_zero false : F32)) by (split; [reflexivity|cbn [B2R bpow]; rewrite Rabs_R0; lra]).
  destruct (C81_float_regularised_stein 24 128 _ _ _ 10 0 100 ltac:(constructor; lia) ltac:(lia) true tt ksgn (fun a b => sgn a * sgn b) 0 2 true
    (BOne None) (fun _ => seq 0 2) [true; true; false; false] (repeat Bone 4) (Some Bone) (fun x _ => map (fun _ => Bone) x) (map (fun b : bool => if b then Bone else B754_zero false))) as (l & E & _).
  - reflexivity.
  - apply Forall_forall. intros v Hv. apply repeat_spec in Hv. subst v. apply f32_ok.
  - rewrite PS. lia.
  - intros x y _ _. apply ksgn_size.
  - intros x y _ _. destruct (ksgn_exact x y) as [_ V]. rewrite V, Rminus_eq_0, Rabs_R0. lra.
  - cbn. lia.
  - lia.
  - cbn. lia.
  - intros i. apply Permutation_refl.
  - intros _. rewrite PS. lia.
  - reflexivity.
  - cbn [map]. repeat (constructor; [assumption|]). constructor.
  - reflexivity.
  - cbn [map]. replace (Bmult mode_NE Bone (Bone : F32)) with (Bone : F32) by (apply B2SF_inj; vm_compute; reflexivity). repeat (constructor; [assumption|]). constructor.
  - exists l. exact E.
Qed.
