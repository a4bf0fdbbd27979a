(** * KernelHerding in floating point arithmetic converges: C80

    The statements hold for every binary format with rounding to nearest even.  The data
    set has feature rows [xs] and weights [dw]; the kernel function of the solver returns
    floats [k x y]; [kx] is the kernel in exact arithmetic and [eps] bounds the difference
    of the two on the data; [ord i] is the unspecified order in which the scatter of loop
    iteration [i] applies its updates. *)
From Coq Require Import List ZArith Bool Reals Permutation Lia Lra.
From Coq Require Import Floats.SpecFloat.
From Flocq Require Import Core.Core IEEE754.BinarySingleNaN.
From Verif Require Import Num Jax RSum JaxFacts DataModel MeanModel MeanSpec GreedySpec GreedyModel MetricSpec MetricModel MetricProofs GreedyProofs2
  Float FloatIdxSpec FloatErrSpec FloatErr FloatRateSpec FloatRate FloatRate2 FloatRate3 FloatRate4 PropFloatMMD.
Import ListNotations.
Open Scope R_scope.

Lemma npos_positives {prec emax} (w : list (binary_float prec emax)) : npos (map B2R w) = positives w.
Proof.
  unfold npos, positives. induction w as [|v w IH]; cbn [map filter]; [reflexivity|].
  destruct (Rlt_dec 0 (B2R v)) as [H|H].
  - rewrite Rlt_bool_true by exact H. cbn [length]. now rewrite IH.
  - rewrite Rlt_bool_false by lra. exact IH.
Qed.

(** ** C80: every choice is optimal up to the tolerance *)
Theorem C80_float_herding_greedy :
  forall prec emax (Hp : Prec_gt_0 prec) (Hm : Prec_lt_emax prec emax) (Sm : SumOrder prec emax) a e L,
  mean_room prec emax a e L -> (a + e + 2 <= emax)%Z ->
  forall {P Y} (p0 : P) (y0 : Y) (k : P -> P -> binary_float prec emax) (kx : P -> P -> R) (eps : R)
         (m : nat) (unique : bool) bs ord xs dw,
  weighted_data a xs dw ->
  (forall x y, In x (p0 :: xs) -> In y (p0 :: xs) -> at_most e (k x y)) ->
  (forall x y, In x xs -> In y xs -> Rabs (B2R (k x y) - kx x y) <= eps) ->
  (1 <= m <= length xs)%nat -> (2 * length xs + m + 5 <= L)%nat ->
  (forall i, Permutation (ord i) (seq 0 m)) ->
  (unique = true -> (m <= positives dw)%nat) ->
  exists l row_mean,
    herding_reduce (FOpsIEEE prec emax) p0 y0 (mkHerding m k unique bs Greedy) ord (mkData xs dw None : Data P Y _) None
      = Ok (mkCS (map Z.of_nat l) (repeat Bone m) (mkData xs dw None), row_mean) /\
    length l = m /\
    near_greedy (candidate (map B2R dw) unique)
      (herding_score kx (fun j => wavg (fun b => kx (nth j xs p0) b) xs (map B2R dw)) (fun j => nth j xs p0))
      (fun _ => herding_tolerance prec e eps (length xs) m) l.
Proof.
  intros prec emax Hp Hmx Sm a e L HR HE P Y p0 y0 k kx eps m unique bs ord xs dw HX Hk Hkx Hm HN Hord HU.
  rewrite <- npos_positives in HU.
  destruct (fherding_reduce prec emax a e L HR HE p0 y0 k kx eps xs dw m unique bs ord HX Hk Hkx HN Hm Hord HU) as (l & g & E & Hl & NG).
  exists l, g. split; [exact E|]. split; [exact Hl|].
  intros t Ht. destruct (NG t Ht) as [C B]. split; [exact C|]. intros j Cj. specialize (B j Cj). cbv beta in B. unfold fscore_err in B. unfold herding_tolerance. lra.
Qed.
Print Assumptions C80_float_herding_greedy.

(** ** C80: the discrepancy of the coreset.  The bound of C65 for exact arithmetic, plus a
    term for rounding. *)
Theorem C80_float_herding_rate :
  forall prec emax (Hp : Prec_gt_0 prec) (Hm : Prec_lt_emax prec emax) (Sm : SumOrder prec emax) a e L,
  mean_room prec emax a e L -> (a + e + 2 <= emax)%Z ->
  forall {P Y} (p0 : P) (y0 : Y) (k : P -> P -> binary_float prec emax) (kx : P -> P -> R) (eps kappa : R)
         (m : nat) (unique : bool) bs ord xs dw,
  weighted_data a xs dw ->
  (forall x y, In x (p0 :: xs) -> In y (p0 :: xs) -> at_most e (k x y)) ->
  (forall x y, In x xs -> In y xs -> Rabs (B2R (k x y) - kx x y) <= eps) ->
  psd kx -> (forall x, In x xs -> kx x x <= kappa) ->
  (1 <= m <= length xs)%nat -> (2 * length xs + m + 5 <= L)%nat ->
  (forall i, Permutation (ord i) (seq 0 m)) ->
  (unique = true -> (m <= positives dw)%nat /\ exists c, 0 < c /\ forall v, In v dw -> B2R v = 0 \/ B2R v = c) ->
  exists l row_mean,
    herding_reduce (FOpsIEEE prec emax) p0 y0 (mkHerding m k unique bs Greedy) ord (mkData xs dw None : Data P Y _) None
      = Ok (mkCS (map Z.of_nat l) (repeat Bone m) (mkData xs dw None), row_mean) /\
    length l = m /\ (forall i, In i l -> (i < length xs)%nat) /\
    sqrt (mmd2 kx xs (map B2R dw) (map (fun j => nth j xs p0) l) (repeat 1 m))
    <= 7 / 2 * sqrt (kappa / INR m) + sqrt (2 * herding_tolerance prec e eps (length xs) m).
Proof.
  intros prec emax Hp Hmx Sm a e L HR HE P Y p0 y0 k kx eps kappa m unique bs ord xs dw HX Hk Hkx Hpsd Hd Hm HN Hord HU.
  destruct (C80_float_herding_greedy prec emax Hp Hmx Sm a e L HR HE p0 y0 k kx eps m unique bs ord xs dw HX Hk Hkx Hm HN Hord ltac:(intros U; apply HU, U))
    as (l & g & E & Hl & NG).
  destruct (dwR_pos prec emax a xs dw HX) as (W1 & W2 & W3).
  exists l, g. split; [exact E|]. split; [exact Hl|]. split.
  { intros i Hi. destruct (near_in _ _ _ _ _ _ NG Hi) as [C _]. rewrite W3 in C. exact C. }
  rewrite <- Hl. apply near_rate with (unique := unique); auto.
  - unfold herding_tolerance. pose proof (eps_pos prec emax a L p0 k kx eps xs dw m HX Hkx HN). pose proof (pos_INR (2 * length xs + length l + 5)). pose proof (bpow_gt_0 radix2 (e - prec)). nra.
  - intros ->. cbn in Hl. lia.
  - intros U. destruct (HU U) as [U1 (c & U2 & U3)]. split; [rewrite npos_positives; lia|]. exists c. split; [exact U2|].
    intros v Hv. apply in_map_iff in Hv as [u [<- Hu]]. auto.
  - rewrite Hl. exact NG.
Qed.
Print Assumptions C80_float_herding_rate.

(** ** the hypotheses are met: binary32, four points, a kernel of values 1 and -1 *)
Definition sgn (b : bool) : R := if b then 1 else - (1).
Definition ksgn (a b : bool) : F32 := if Bool.eqb a b then Bone else Bopp Bone.
Lemma ksgn_exact a b : is_finite (ksgn a b) = true /\ B2R (ksgn a b) = sgn a * sgn b.
Proof.
  unfold ksgn, sgn. destruct a, b; cbn [Bool.eqb]; rewrite ?is_finite_Bopp, ?B2R_Bopp, ?Bone_correct; (split; [apply is_finite_Bone|ring]).
Qed.
Lemma sgn_psd : psd (fun a b => sgn a * sgn b).
Proof.
  split; [intros; ring|]. intros ms.
  assert (E : bil (fun a b => sgn a * sgn b) ms ms = Rsum (map (fun p => snd p * sgn (fst p)) ms) * Rsum (map (fun p => snd p * sgn (fst p)) ms)).
  { unfold bil. rewrite <- Rsum_map_scal_r. apply Rsum_map_ext. intros p _.
    rewrite (Rmult_comm (snd p)), (Rmult_comm (snd p * sgn (fst p))). rewrite <- !Rsum_map_scal_r. apply Rsum_map_ext. intros q _. ring. }
  rewrite E. apply Rle_0_sqr.
Qed.
Example C80_applies : exists l row_mean,
  herding_reduce F32Ops true tt (mkHerding 2 ksgn true (BOne None) Greedy) (fun _ => seq 0 2) (mkData [true; true; false; false] (repeat Bone 4) None) None
    = Ok (mkCS (map Z.of_nat l) (repeat Bone 2) (mkData [true; true; false; false] (repeat Bone 4) None), row_mean) /\
  sqrt (mmd2 (fun a b => sgn a * sgn b) [true; true; false; false] (repeat 1 4) (map (fun j => nth j [true; true; false; false] true) l) (repeat 1 2))
  <= 7 / 2 * sqrt (1 / INR 2) + sqrt (2 * (9 * 15 * bpow radix2 (-24))).
Proof.
  assert (HX : weighted_data (prec := 24) (emax := 128) 10 [true; true; false; false] (repeat Bone 4)).
  { apply (ones_data [true; true; false; false]); [discriminate|cbn; lia]. }
  assert (PS : positives (repeat (Bone : F32) 4) = 4%nat).
  { unfold positives. cbn [repeat filter]. rewrite Bone_correct. rewrite Rlt_bool_true by lra. reflexivity. }
  destruct (C80_float_herding_rate 24 128 _ _ _ 10 0 100 ltac:(constructor; lia) ltac:(lia) true tt ksgn (fun a b => sgn a * sgn b) 0 1 2 true
    (BOne None) (fun _ => seq 0 2) [true; true; false; false] (repeat Bone 4) HX) as (l & g & E & _ & _ & B).
  - intros x y _ _. destruct (ksgn_exact x y) as [F V]. split; [exact F|]. rewrite V. cbn [bpow]. unfold sgn. apply Rabs_le. destruct x, y; lra.
  - intros x y _ _. destruct (ksgn_exact x y) as [_ V]. rewrite V, Rminus_eq_0, Rabs_R0. lra.
  - exact sgn_psd.
  - intros x _. unfold sgn. destruct x; lra.
  - cbn. lia.
  - cbn. lia.
  - intros i. apply Permutation_refl.
  - intros _. split; [rewrite PS; lia|]. exists 1. split; [lra|]. intros v Hv. apply repeat_spec in Hv. subst v. right. apply Bone_correct.
  - exists l, g. split; [exact E|].
    replace (map B2R (repeat (Bone : F32) 4)) with (repeat 1 4) in B by (cbn [repeat map]; now rewrite Bone_correct).
    eapply Rle_trans; [exact B|]. apply Rplus_le_compat_l. apply sqrt_le_1_alt. unfold herding_tolerance.
    change (2 * length [true; true; false; false] + 2 + 5)%nat with 15%nat. change (0 - 24)%Z with (-24)%Z.
    replace (INR 15) with 15 by (cbn [INR]; ring). lra.
Qed.
