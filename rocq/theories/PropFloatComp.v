(** * Sums, products and powers of kernels in floating point: C87

    The statements hold for every binary format with rounding to nearest even and every
    order of summation.  [T] is the library of elementary functions: of [exp] only its
    accuracy is assumed.  [keq] is the comparison of kernels made by the product kernel
    (to avoid evaluating equal factors twice): equal kernels have equal parameters. *)
From Coq Require Import List ZArith Bool Reals Permutation Lia Lra.
From Coq Require Import Floats.SpecFloat.
From Flocq Require Import Core.Core IEEE754.BinarySingleNaN.
From Verif Require BenchProofs2 GreedyProofs3.
From Verif Require Import Num Jax RSum JaxFacts DataModel MeanModel MeanSpec GreedySpec GreedyModel MetricSpec MetricModel UtilModel KernelModel KernelSpec PsdSpec PsdProofs4
  Float FloatIdxSpec FloatErrSpec FloatProofs2 FloatErr FloatRateSpec FloatRate FloatRate3 FloatKernSpec FloatKern3 FloatKern5 FloatCompSpec FloatComp PropFloatMMD PropFloatRate PropFloatKern.
Import ListNotations.
Open Scope R_scope.

(** ** C87: the value of a compound kernel *)
Theorem C87_compound_accurate :
  forall prec emax (Hp : Prec_gt_0 prec) (Hm : Prec_lt_emax prec emax) (Sm : SumOrder prec emax) q n b e c,
  compound_room prec emax q n b e c ->
  forall T jgrad keq (k : kern (binary_float prec emax)),
  exp_accurate c T -> (forall k1 k2, keq k1 k2 = true -> real_kernel k1 = real_kernel k2) -> compound n b e c q k ->
  forall x y, bounded_point n b x -> bounded_point n b y ->
  exists v, m_val (methods (FOpsIEEE prec emax) T jgrad keq k) x y = Sc v /\ is_finite v = true /\
    Rabs (kfun (real_kernel k) (map B2R x) (map B2R y)) <= size (kernel_acc n b e c k) /\
    Rabs (B2R v - kfun (real_kernel k) (map B2R x) (map B2R y)) <= error (kernel_acc n b e c k).
Proof.
  intros prec emax Hp Hm Sm q n b e c [H1 H2 H3 H4] T jgrad keq k HT HK HC x y X Y.
  destruct (comp_ok prec emax q b e n c T jgrad keq H1 H2 H3 HT H4 HK k x y HC X Y) as (v & E & F & S & B). exists v. auto.
Qed.
Print Assumptions C87_compound_accurate.

Lemma bounded_origin {prec emax} n b (xs : list (list (binary_float prec emax))) : Forall (bounded_point n b) xs ->
  forall x, In x (repeat (B754_zero false) n :: xs) -> bounded_point n b x.
Proof.
  intros H x [<-|Hx]; [|now apply (proj1 (Forall_forall _ _) H)]. split; [apply repeat_length|].
  apply Forall_forall. intros v Hv. apply repeat_spec in Hv. subst v. split; [reflexivity|]. cbn [B2R]. rewrite Rabs_R0. apply bpow_ge_0.
Qed.
Lemma comp_at_most prec emax (Hp : Prec_gt_0 prec) (Hm : Prec_lt_emax prec emax) (Sm : SumOrder prec emax) q n b e c g T jgrad keq (k : kern (binary_float prec emax)) :
  compound_room prec emax q n b e c -> exp_accurate c T -> (forall k1 k2, keq k1 k2 = true -> real_kernel k1 = real_kernel k2) -> compound n b e c q k ->
  size (kernel_acc n b e c k) + error (kernel_acc n b e c k) <= bpow radix2 g ->
  forall x y, bounded_point n b x -> bounded_point n b y ->
  at_most g (number (m_val (methods (FOpsIEEE prec emax) T jgrad keq k) x y)) /\
  Rabs (B2R (number (m_val (methods (FOpsIEEE prec emax) T jgrad keq k) x y)) - kfun (real_kernel k) (map B2R x) (map B2R y)) <= error (kernel_acc n b e c k).
Proof.
  intros HR HT HK HC HG x y X Y. destruct (C87_compound_accurate prec emax Hp Hm Sm q n b e c HR T jgrad keq k HT HK HC x y X Y) as (v & E & F & S & B).
  rewrite E. cbn [number]. split; [split; [exact F|]|exact B].
  replace (B2R v) with (kfun (real_kernel k) (map B2R x) (map B2R y) + (B2R v - kfun (real_kernel k) (map B2R x) (map B2R y))) by ring.
  eapply Rle_trans; [apply Rabs_triang|]. lra.
Qed.

(** ** C87: the MMD with a compound kernel, from the data to the documented formula *)
Theorem C87_mmd_compound :
  forall prec emax (Hp : Prec_gt_0 prec) (Hm : Prec_lt_emax prec emax) (Sm : SumOrder prec emax) q n b e c a g L,
  compound_room prec emax q n b e c -> mean_room prec emax a g (L + 2) ->
  forall T jgrad keq (k : kern (binary_float prec emax)),
  exp_accurate c T -> (forall k1 k2, keq k1 k2 = true -> real_kernel k1 = real_kernel k2) -> compound n b e c q k ->
  size (kernel_acc n b e c k) + error (kernel_acc n b e c k) <= bpow radix2 g ->
  forall {Y} (y0 : Y) xs w sx ys v sy bs b0 b1,
  weighted_data a xs w -> weighted_data a ys v -> Forall (bounded_point n b) xs -> Forall (bounded_point n b) ys ->
  bs = BTwo b0 b1 \/ bs = BOne b0 /\ b1 = b0 ->
  let bx := block_used (length xs) b0 in let by_ := block_used (length ys) b1 in
  (roundings (length xs) (length xs) bx bx <= L)%nat -> (roundings (length ys) (length ys) by_ by_ <= L)%nat -> (roundings (length xs) (length ys) bx by_ <= L)%nat ->
  exists z, mmd_compute (FOpsIEEE prec emax) (repeat (B754_zero false) n) y0
      (fun x y => number (m_val (methods (FOpsIEEE prec emax) T jgrad keq k) x y)) (mkData xs w sx) (mkData ys v sy) bs = Ok z /\
    is_finite z = true /\ 0 <= B2R z /\
    Rabs (B2R z - sqrt (mmd2 (kfun (real_kernel k)) (map (map B2R) xs) (map B2R w) (map (map B2R) ys) (map B2R v)))
    <= 2 * sqrt (14 * INR (L + 2) * bpow radix2 (g - prec)) + 2 * sqrt (error (kernel_acc n b e c k)).
Proof.
  intros prec emax Hp Hm Sm q n b e c a g L HR MR T jgrad keq k HT HK HC HG Y y0 xs w sx ys v sy bs b0 b1 HX HY RX RY Hbs bx by_ R1 R2 R3.
  assert (RR : Forall (bounded_point n b) (xs ++ ys)) by (apply Forall_app; auto).
  pose proof (bounded_origin n b _ RR) as RO. set (f := kfun (real_kernel k)).
  set (kk := fun x y => number (m_val (methods (FOpsIEEE prec emax) T jgrad keq k) x y)).
  assert (KK : forall x y, In x (repeat (B754_zero false) n :: xs ++ ys) -> In y (repeat (B754_zero false) n :: xs ++ ys) ->
    at_most g (kk x y) /\ Rabs (B2R (kk x y) - f (map B2R x) (map B2R y)) <= error (kernel_acc n b e c k)).
  { intros x y Hx Hy. exact (comp_at_most prec emax Hp Hm Sm q n b e c g T jgrad keq k HR HT HK HC HG x y (RO x Hx) (RO y Hy)). }
  destruct (C71_mmd_accurate prec emax Hp Hm Sm a g L MR (repeat (B754_zero false) n) y0 kk xs w sx ys v sy bs b0 b1 HX HY
    (fun x y Hx Hy => proj1 (KK x y Hx Hy)) Hbs R1 R2 R3) as (z & E & F & N & B & _).
  exists z. split; [exact E|]. split; [exact F|]. split; [exact N|].
  destruct (dwR_pos prec emax a xs w HX) as (N1 & S1 & L1). destruct (dwR_pos prec emax a ys v HY) as (N2 & S2 & L2).
  assert (Q : Rabs (mmd2 (fun x y => B2R (kk x y)) xs (map B2R w) ys (map B2R v) - mmd2 (fun x y => f (map B2R x) (map B2R y)) xs (map B2R w) ys (map B2R v))
    <= 4 * error (kernel_acc n b e c k)).
  { apply (mmd2_close (repeat (B754_zero false) n)); auto. intros x y Hx Hy. apply KK; right; auto. }
  apply sqrt_close_any in Q. rewrite <- (BenchProofs2.mmd2_pull (map B2R)) in Q.
  cbv zeta in B. replace (B2R z - sqrt (mmd2 f (map (map B2R) xs) (map B2R w) (map (map B2R) ys) (map B2R v))) with
    ((B2R z - sqrt (mmd2 (fun x y => B2R (kk x y)) xs (map B2R w) ys (map B2R v))) +
     (sqrt (mmd2 (fun x y => B2R (kk x y)) xs (map B2R w) ys (map B2R v)) - sqrt (mmd2 f (map (map B2R) xs) (map B2R w) (map (map B2R) ys) (map B2R v)))) by ring.
  eapply Rle_trans; [apply Rabs_triang|]. lra.
Qed.
Print Assumptions C87_mmd_compound.

(** ** C87: kernel herding with a compound kernel, from the data to the documented formula *)
Lemma comp_one_dim {prec emax} n b e c q d (k : kern (binary_float prec emax)) : compound n b e c q k -> one_dim_ok d (real_kernel k).
Proof.
  induction k as [v|s v|s v dd|l s|l s|l s|l s|l s a|l s p|l s p|i s|k1 IH1 k2 IH2|k1 IH1 k2 IH2|k1 IH1 dd|k1 IH1 score]; intros H;
    try (destruct H as (? & ? & ? & D & _); discriminate D); cbn [real_kernel one_dim_ok]; auto.
  - destruct H as (H1 & H2 & _). auto.
  - destruct H as (H1 & H2 & _). auto.
  - destruct H as (H1 & _). auto.
Qed.
Theorem C87_herding_compound :
  forall prec emax (Hp : Prec_gt_0 prec) (Hm : Prec_lt_emax prec emax) (Sm : SumOrder prec emax) q n b e c a g L,
  compound_room prec emax q n b e c -> mean_room prec emax a g L -> (a + g + 2 <= emax)%Z ->
  forall T jgrad keq (k : kern (binary_float prec emax)),
  exp_accurate c T -> (forall k1 k2, keq k1 k2 = true -> real_kernel k1 = real_kernel k2) -> compound n b e c q k ->
  size (kernel_acc n b e c k) + error (kernel_acc n b e c k) <= bpow radix2 g ->
  well_formed (real_kernel k) ->
  forall {Y} (y0 : Y) (m : nat) (unique : bool) bs ord xs dw,
  weighted_data a xs dw -> Forall (bounded_point n b) xs ->
  (1 <= m <= length xs)%nat -> (2 * length xs + m + 5 <= L)%nat ->
  (forall i, Permutation (ord i) (seq 0 m)) ->
  (unique = true -> (m <= positives dw)%nat /\ exists c, 0 < c /\ forall v, In v dw -> B2R v = 0 \/ B2R v = c) ->
  let origin := repeat (B754_zero false) n in
  exists l row_mean,
    herding_reduce (FOpsIEEE prec emax) origin y0
      (mkHerding m (fun x y => number (m_val (methods (FOpsIEEE prec emax) T jgrad keq k) x y)) unique bs Greedy) ord (mkData xs dw None : Data _ Y _) None
      = Ok (mkCS (map Z.of_nat l) (repeat Bone m) (mkData xs dw None), row_mean) /\
    length l = m /\ (forall i, In i l -> (i < length xs)%nat) /\
    sqrt (mmd2 (kfun (real_kernel k)) (map (map B2R) xs) (map B2R dw) (map (fun j => map B2R (nth j xs origin)) l) (repeat 1 m))
    <= 7 / 2 * sqrt (size (kernel_acc n b e c k) / INR m) + sqrt (2 * herding_tolerance prec g (error (kernel_acc n b e c k)) (length xs) m).
Proof.
  intros prec emax Hp Hm Sm q n b e c a g L HR MR HA T jgrad keq k HT HK HC HG WF Y y0 m unique bs ord xs dw HX RX Hmm HN Hord HU origin.
  pose proof (bounded_origin n b _ RX) as RO. set (f := kfun (real_kernel k)).
  set (kk := fun x y => number (m_val (methods (FOpsIEEE prec emax) T jgrad keq k) x y)).
  set (kx := fun x y : list (binary_float prec emax) => f (fit n (map B2R x)) (fit n (map B2R y))).
  assert (KX : forall x y, In x (origin :: xs) -> In y (origin :: xs) -> kx x y = f (map B2R x) (map B2R y)).
  { intros x y Hx Hy. unfold kx. rewrite !fit_id; auto; rewrite map_length; now apply RO. }
  assert (KK : forall x y, In x (origin :: xs) -> In y (origin :: xs) -> at_most g (kk x y) /\ Rabs (B2R (kk x y) - kx x y) <= error (kernel_acc n b e c k)).
  { intros x y Hx Hy. rewrite KX by auto. exact (comp_at_most prec emax Hp Hm Sm q n b e c g T jgrad keq k HR HT HK HC HG x y (RO x Hx) (RO y Hy)). }
  assert (PK : psd kx).
  { pose proof (kernel_psd n (real_kernel k) WF (comp_one_dim n b e c q n k HC)) as Q.
    exact (psd_comp (fun x => exist _ (fit n (map B2R x)) (fit_len n _) : point n) _ Q). }
  destruct (C80_float_herding_rate prec emax Hp Hm Sm a g L MR HA origin y0 kk kx (error (kernel_acc n b e c k)) (size (kernel_acc n b e c k)) m unique bs ord xs dw HX
    (fun x y Hx Hy => proj1 (KK x y Hx Hy)) (fun x y Hx Hy => proj2 (KK x y (or_intror Hx) (or_intror Hy))) PK) as (l & gg & E & Hl & HI & B); auto.
  { intros x Hx. rewrite KX by (right; auto). destruct (C87_compound_accurate prec emax Hp Hm Sm q n b e c HR T jgrad keq k HT HK HC x x (RO x (or_intror Hx)) (RO x (or_intror Hx))) as (v & _ & _ & S & _).
    eapply Rle_trans; [apply Rle_abs|exact S]. }
  exists l, gg. split; [exact E|]. split; [exact Hl|]. split; [exact HI|].
  rewrite <- (map_map (fun j => nth j xs origin) (map B2R)). rewrite BenchProofs2.mmd2_pull. destruct (dwR_pos prec emax a xs dw HX) as (_ & _ & L1).
  rewrite (mmd2_ext _ kx); [exact B| |exact L1|rewrite map_length, repeat_length; auto].
  intros x y Hx Hy. symmetry. apply KX.
  - apply in_app_or in Hx as [Hx|Hx]; [right; auto|]. apply in_map_iff in Hx as [j [<- Hj]]. right. apply nth_In. auto.
  - apply in_app_or in Hy as [Hy|Hy]; [right; auto|]. apply in_map_iff in Hy as [j [<- Hj]]. right. apply nth_In. auto.
Qed.
Print Assumptions C87_herding_compound.

(** the error is not relative to the value of the kernel: through cancellation the linear
    kernel of these two binary32 points is 0, the documented value is 2^-24 *)
Theorem C87_relative_error_refuted T jgrad keq :
  let x := [f32 4097 (-12); f32 1 0] in let y := [f32 4097 (-12); f32 (-2049) (-11)] in
  exists v, m_val (methods F32Ops T jgrad keq (KLinear Bone (B754_zero false))) x y = Sc v /\ B2R v = 0 /\
    kfun (real_kernel (KLinear (Bone : F32) (B754_zero false))) (map B2R x) (map B2R y) = bpow radix2 (-24).
Proof.
  intros x y. set (r := m_val _ _ _).
  assert (E : match r with Sc v => B2SF v | _ => S754_nan end = S754_zero false) by (vm_compute; reflexivity).
  destruct r as [v| |]; try discriminate E. exists v. split; [reflexivity|]. split; [destruct v; try discriminate E; reflexivity|].
  assert (Hx : map B2R x = [4097 / 4096; 1]).
  { unfold x. cbn [map]. replace (B2R (f32 4097 (-12))) with (SF2R radix2 (B2SF (f32 4097 (-12)))) by apply SF2R_B2SF. replace (B2R (f32 1 0)) with (SF2R radix2 (B2SF (f32 1 0))) by apply SF2R_B2SF.
    vm_compute B2SF. unfold SF2R, F2R. cbn -[IZR]. apply f_equal2; [|apply f_equal2; [|reflexivity]]; lra. }
  assert (Hy : map B2R y = [4097 / 4096; - (2049 / 2048)]).
  { unfold y. cbn [map]. replace (B2R (f32 4097 (-12))) with (SF2R radix2 (B2SF (f32 4097 (-12)))) by apply SF2R_B2SF. replace (B2R (f32 (-2049) (-11))) with (SF2R radix2 (B2SF (f32 (-2049) (-11)))) by apply SF2R_B2SF.
    vm_compute B2SF. unfold SF2R, F2R. cbn -[IZR]. apply f_equal2; [|apply f_equal2; [|reflexivity]]; lra. }
  rewrite Hx, Hy. cbn [real_kernel kfun]. rewrite Bone_correct. cbn [B2R]. unfold Rdot. cbn. field.
Qed.
Print Assumptions C87_relative_error_refuted.

(** ** the hypotheses are met *)
(** binary32, two features between -1 and 1: the product of a Gaussian kernel with length
    scale 1 and the affine kernel [x . y + 1] *)
Definition gauss_affine : kern F32 := KProd (KSE Bone Bone) (KLinear Bone Bone).
Lemma ga_room : compound_room 24 128 10 2 0 0 1.
Proof.
  constructor; [exact f32_room|lia|exact c_one|]. replace (INR 2) with (bpow radix2 1) by (cbn; lra).
  apply Rle_trans with (bpow radix2 1 * (bpow radix2 0 + bpow radix2 0)); [apply Rmult_le_compat_l; [apply bpow_ge_0|]; apply Rplus_le_compat; apply bpow_le; lia|].
  replace (bpow radix2 0 + bpow radix2 0) with (bpow radix2 1) by (cbn; lra). rewrite <- bpow_plus. apply bpow_le. lia.
Qed.
Lemma tiny_small : 0 < bpow radix2 (2 - 128) <= / 16777216.
Proof. split; [apply bpow_gt_0|]. change (/ 16777216) with (bpow radix2 (-24)). apply bpow_le. lia. Qed.
Ltac acc_values := unfold fits, add_acc, mul_acc, exactly, dot_acc, base_acc, kernel_error; cbn [size error]; rewrite ?Bone_correct, ?Rabs_R1;
  change (bpow radix2 (- (24))) with (/ 16777216); change (bpow radix2 (0 - 24)) with (/ 16777216); change (bpow radix2 (2 * 0)) with 1; change (bpow radix2 0) with 1;
  replace (INR 2) with 2 by (cbn; lra); replace (INR (2 + 1)) with 3 by (cbn; lra).
Lemma ga_lin : let a := add_acc (prec := 24) (mul_acc (prec := 24) (emax := 128) (exactly (Bone : F32)) (@dot_acc 24 128 2 0)) (exactly (Bone : F32)) in size a = 3 /\ 0 <= error a <= 18 / 16777216.
Proof. pose proof tiny_small as [T1 T2]. acc_values. set (t := bpow radix2 (2 - 128)) in *. clearbody t. split; lra. Qed.
Lemma ga_acc : size (@kernel_acc 24 128 2 0 0 1 gauss_affine) = 3 /\ 0 <= error (@kernel_acc 24 128 2 0 0 1 gauss_affine) <= 286 / 16777216.
Proof.
  unfold gauss_affine. cbn [kernel_acc]. destruct ga_lin as [S E]. cbv zeta in S, E. set (a := add_acc _ _) in *. clearbody a.
  pose proof tiny_small as [T1 T2]. acc_values. rewrite S. set (t := bpow radix2 (2 - 128)) in *. clearbody t. split; lra.
Qed.
Lemma big_128 : 8 <= bpow radix2 128.
Proof. change 8 with (bpow radix2 3). apply bpow_le. lia. Qed.
Lemma ga_compound : compound (prec := 24) (emax := 128) 2 0 0 1 10 gauss_affine.
Proof.
  pose proof big_128 as B. split; [|split; [split; [|split; [|split]]|]]; try apply is_finite_Bone.
  - exists Bone, Bone. eexists. split; [reflexivity|exact ones_sane].
  - pose proof tiny_small as [T1 T2]. acc_values. set (t := bpow radix2 (2 - 128)) in *. clearbody t. lra.
  - destruct ga_lin as [S E]. unfold fits. cbn [kernel_acc]. rewrite S. lra.
  - destruct ga_acc as [S E]. unfold fits. change (KProd (KSE Bone Bone) (KLinear Bone Bone)) with gauss_affine. rewrite S. lra.
Qed.
Example C87_compound_applies jgrad (x y : list F32) : bounded_point 2 0 x -> bounded_point 2 0 y ->
  exists v, m_val (methods F32Ops trunc_T jgrad (fun _ _ => false) gauss_affine) x y = Sc v /\ is_finite v = true /\
    Rabs (B2R v - 1 * exp (- (sqdist (map B2R x) (map B2R y) / (2 * 1 ^ 2))) * (1 * Rdot (map B2R x) (map B2R y) + 1)) <= 286 / 16777216.
Proof.
  intros X Y. destruct (C87_compound_accurate 24 128 _ _ _ 10 2 0 0 1 ga_room trunc_T jgrad (fun _ _ => false) gauss_affine trunc_accurate ltac:(discriminate) ga_compound x y X Y)
    as (v & E & F & _ & B).
  exists v. split; [exact E|]. split; [exact F|]. unfold gauss_affine in B at 1. cbn [real_kernel kfun] in B. rewrite !Bone_correct in B. eapply Rle_trans; [exact B|]. apply ga_acc.
Qed.
(** herding ten points out of any hundred points of the square *)
Example C87_herding_applies jgrad xs : length xs = 100%nat -> Forall (bounded_point (prec := 24) (emax := 128) 2 0) xs ->
  exists l row_mean,
    herding_reduce F32Ops (repeat (B754_zero false) 2) tt
      (mkHerding 10 (fun x y => number (m_val (methods F32Ops trunc_T jgrad (fun _ _ => false) gauss_affine) x y)) true (BOne None) Greedy) (fun _ => seq 0 10)
      (mkData xs (repeat Bone 100) None) None
      = Ok (mkCS (map Z.of_nat l) (repeat Bone 10) (mkData xs (repeat Bone 100) None), row_mean) /\ length l = 10%nat /\
    sqrt (mmd2 (kfun (KProd (KSE 1 1) (KLinear 1 1))) (map (map B2R) xs) (repeat 1 100) (map (fun j => map B2R (nth j xs (repeat (B754_zero false) 2))) l) (repeat 1 10))
    <= 7 / 2 * sqrt (3 / 10) + sqrt (2 * herding_tolerance 24 2 (286 / 16777216) 100 10).
Proof.
  intros HL RX.
  assert (HX : weighted_data (prec := 24) (emax := 128) 10 xs (repeat Bone 100)).
  { rewrite <- HL. apply (ones_data xs); [intros ->; discriminate HL|]. rewrite HL. change (2 ^ 10)%Z with 1024%Z. lia. }
  assert (PS : positives (repeat (Bone : F32) 100) = 100%nat).
  { unfold positives. rewrite (GreedyProofs3.filter_all (fun v => Rlt_bool 0 (B2R v))); [apply repeat_length|].
    intros v Hv. apply repeat_spec in Hv. subst v. rewrite Bone_correct. apply Rlt_bool_true. lra. }
  destruct ga_acc as [S ER].
  destruct (C87_herding_compound 24 128 _ _ _ 10 2 0 0 1 10 2 220 ga_room ltac:(constructor; [lia|lia|lia|apply Z.leb_le; reflexivity]) ltac:(lia) trunc_T jgrad (fun _ _ => false) gauss_affine
    trunc_accurate ltac:(discriminate) ga_compound) with (Y := unit) (y0 := tt) (m := 10%nat) (unique := true) (bs := BOne None) (ord := fun _ : nat => seq 0 10) (xs := xs) (dw := repeat (Bone : F32) 100) as (l & g & E & Hl & _ & B);
    [rewrite S; change (bpow radix2 2) with 4; lra| |exact HX|exact RX|lia|lia|intros; apply Permutation_refl| |].
  - unfold gauss_affine. cbn [real_kernel well_formed documented_params]. rewrite Bone_correct. repeat split; lra.
  - intros _. split; [rewrite PS; lia|]. exists 1. split; [lra|]. intros v Hv. apply repeat_spec in Hv. subst v. right. apply Bone_correct.
  - exists l, g. split; [exact E|]. split; [exact Hl|]. replace (map B2R (repeat (Bone : F32) 100)) with (repeat 1 100) in B by (symmetry; apply ones_real).
    unfold gauss_affine in B at 1. cbn [real_kernel] in B. rewrite !Bone_correct in B. eapply Rle_trans; [exact B|]. rewrite S, HL. replace (INR 10) with 10 by (cbn [INR]; ring). apply Rplus_le_compat_l. apply sqrt_le_1_alt.
    apply Rmult_le_compat_l; [lra|]. unfold herding_tolerance. lra.
Qed.
