(** * Built-in kernels, MMD and kernel herding in floating point against the documented
    formulas: C83

    The statements hold for every binary format with rounding to nearest even and every
    order of summation.  [T] is the library of elementary functions: of [exp] only its
    accuracy is assumed. *)
From Coq Require Import List ZArith Bool Reals Permutation Lia Lra.
From Coq Require Import Floats.SpecFloat.
From Flocq Require Import Core.Core IEEE754.BinarySingleNaN.
From Verif Require BenchProofs2 GreedyProofs3.
From Verif Require Import Num Jax RSum JaxFacts DataModel MeanModel MeanSpec GreedySpec GreedyModel MetricSpec MetricModel UtilModel KernelModel KernelSpec
  Float FloatIdxSpec FloatErrSpec FloatProofs2 FloatErr FloatRateSpec FloatRate FloatRate3 FloatKernSpec FloatKern3 FloatKern5 PropFloatMMD PropFloatRate.
Import ListNotations.
Open Scope R_scope.

(** ** C83: the value of a kernel *)
Theorem C83_kernel_accurate :
  forall prec emax (Hp : Prec_gt_0 prec) (Hm : Prec_lt_emax prec emax) (Sm : SumOrder prec emax) q n e c,
  kernel_room prec emax q n -> (2 - emax <= e /\ e + 1 <= emax)%Z -> 0 <= c <= bpow radix2 (prec - 1) ->
  forall T jgrad keq (k : kern (binary_float prec emax)) l s f,
  exp_accurate c T -> documented k = Some (l, s, f) -> sane_params q e l s ->
  forall x y, length x = n -> length y = n ->
  Forall (fun v => is_finite v = true) x -> Forall (fun v => is_finite v = true) y ->
  exists v, m_val (methods (FOpsIEEE prec emax) T jgrad keq k) x y = Sc v /\ is_finite v = true /\
    Rabs (B2R v - f (map B2R x) (map B2R y)) <= kernel_error prec n e c.
Proof.
  intros prec emax Hp Hm Sm q n e c HR HE HC T jgrad keq k l s f HT HK HS x y LX LY X Y.
  exact (kernel_acc prec emax q n e c T jgrad keq HR HE HC HT k l s f x y HK HS LX LY X Y).
Qed.
Print Assumptions C83_kernel_accurate.

(** the data points of a matrix with [n] columns and no infinities or NaN *)
Definition matrix_rows {prec emax} (n : nat) (xs : list (list (binary_float prec emax))) : Prop :=
  Forall (fun x => length x = n /\ Forall (fun v => is_finite v = true) x) xs.
Lemma rows_origin {prec emax} n (xs : list (list (binary_float prec emax))) : matrix_rows n xs ->
  forall x, In x (repeat (B754_zero false) n :: xs) -> length x = n /\ Forall (fun v => is_finite v = true) x.
Proof.
  intros H x [<-|Hx].
  - split; [apply repeat_length|]. apply Forall_forall. intros v Hv. apply repeat_spec in Hv. now subst v.
  - now apply (proj1 (Forall_forall _ _) H).
Qed.

(** ** C83: the MMD, from the data to the documented formula *)
Theorem C83_mmd_documented :
  forall prec emax (Hp : Prec_gt_0 prec) (Hm : Prec_lt_emax prec emax) (Sm : SumOrder prec emax) q n e c a L,
  kernel_room prec emax q n -> (2 - emax <= e)%Z -> 0 <= c <= bpow radix2 (prec - 1) -> mean_room prec emax a (e + 1) (L + 2) ->
  forall T jgrad keq (k : kern (binary_float prec emax)) l s f,
  exp_accurate c T -> documented k = Some (l, s, f) -> sane_params q e l s ->
  forall {Y} (y0 : Y) xs w sx ys v sy bs b0 b1,
  weighted_data a xs w -> weighted_data a ys v -> matrix_rows n xs -> matrix_rows n ys ->
  bs = BTwo b0 b1 \/ bs = BOne b0 /\ b1 = b0 ->
  let bx := block_used (length xs) b0 in let by_ := block_used (length ys) b1 in
  (roundings (length xs) (length xs) bx bx <= L)%nat -> (roundings (length ys) (length ys) by_ by_ <= L)%nat -> (roundings (length xs) (length ys) bx by_ <= L)%nat ->
  exists z, mmd_compute (FOpsIEEE prec emax) (repeat (B754_zero false) n) y0
      (fun x y => number (m_val (methods (FOpsIEEE prec emax) T jgrad keq k) x y)) (mkData xs w sx) (mkData ys v sy) bs = Ok z /\
    is_finite z = true /\ 0 <= B2R z /\
    Rabs (B2R z - sqrt (mmd2 f (map (map B2R) xs) (map B2R w) (map (map B2R) ys) (map B2R v)))
    <= 2 * sqrt (14 * INR (L + 2) * bpow radix2 (e + 1 - prec)) + 2 * sqrt (kernel_error prec n e c).
Proof.
  intros prec emax Hp Hm Sm q n e c a L HR HE HC MR T jgrad keq k l s f HT HK HS Y y0 xs w sx ys v sy bs b0 b1 HX HY RX RY Hbs bx by_ R1 R2 R3.
  assert (HE2 : (2 - emax <= e /\ e + 1 <= emax)%Z) by (destruct MR as [_ M2 _ _]; lia).
  assert (RR : matrix_rows n (xs ++ ys)) by (apply Forall_app; auto).
  pose proof (rows_origin n _ RR) as RO.
  set (kk := fun x y => number (m_val (methods (FOpsIEEE prec emax) T jgrad keq k) x y)).
  assert (KK : forall x y, In x (repeat (B754_zero false) n :: xs ++ ys) -> In y (repeat (B754_zero false) n :: xs ++ ys) ->
    at_most (e + 1) (kk x y) /\ Rabs (B2R (kk x y) - f (map B2R x) (map B2R y)) <= kernel_error prec n e c).
  { intros x y Hx Hy. destruct (RO x Hx) as [LX FX]. destruct (RO y Hy) as [LY FY].
    destruct (kernel_at_most prec emax q n e c T jgrad keq HR HE2 HC HT k l s f x y HK HS LX LY FX FY) as (F & B & E). split; [split; assumption|exact E]. }
  destruct (C71_mmd_accurate prec emax Hp Hm Sm a (e + 1) L MR (repeat (B754_zero false) n) y0 kk xs w sx ys v sy bs b0 b1 HX HY
    (fun x y Hx Hy => proj1 (KK x y Hx Hy)) Hbs R1 R2 R3) as (z & E & F & N & B & _).
  exists z. split; [exact E|]. split; [exact F|]. split; [exact N|].
  destruct (dwR_pos prec emax a xs w HX) as (N1 & S1 & L1). destruct (dwR_pos prec emax a ys v HY) as (N2 & S2 & L2).
  assert (Q : Rabs (mmd2 (fun x y => B2R (kk x y)) xs (map B2R w) ys (map B2R v) - mmd2 (fun x y => f (map B2R x) (map B2R y)) xs (map B2R w) ys (map B2R v))
    <= 4 * kernel_error prec n e c).
  { apply (mmd2_close (repeat (B754_zero false) n)); auto. intros x y Hx Hy. apply KK; right; auto. }
  apply sqrt_close_any in Q. rewrite <- (BenchProofs2.mmd2_pull (map B2R)) in Q.
  cbv zeta in B. replace (B2R z - sqrt (mmd2 f (map (map B2R) xs) (map B2R w) (map (map B2R) ys) (map B2R v))) with
    ((B2R z - sqrt (mmd2 (fun x y => B2R (kk x y)) xs (map B2R w) ys (map B2R v))) +
     (sqrt (mmd2 (fun x y => B2R (kk x y)) xs (map B2R w) ys (map B2R v)) - sqrt (mmd2 f (map (map B2R) xs) (map B2R w) (map (map B2R) ys) (map B2R v)))) by ring.
  eapply Rle_trans; [apply Rabs_triang|]. lra.
Qed.
Print Assumptions C83_mmd_documented.

(** ** C83: kernel herding, from the data to the documented formula *)
Theorem C83_herding_documented :
  forall prec emax (Hp : Prec_gt_0 prec) (Hm : Prec_lt_emax prec emax) (Sm : SumOrder prec emax) q n e c a L,
  kernel_room prec emax q n -> (2 - emax <= e)%Z -> 0 <= c <= bpow radix2 (prec - 1) -> mean_room prec emax a (e + 1) L -> (a + e + 3 <= emax)%Z ->
  forall T jgrad keq (k : kern (binary_float prec emax)) l s f,
  exp_accurate c T -> documented k = Some (l, s, f) -> sane_params q e l s ->
  forall {Y} (y0 : Y) (m : nat) (unique : bool) bs ord xs dw,
  weighted_data a xs dw -> matrix_rows n xs ->
  (1 <= m <= length xs)%nat -> (2 * length xs + m + 5 <= L)%nat ->
  (forall i, Permutation (ord i) (seq 0 m)) ->
  (unique = true -> (m <= positives dw)%nat /\ exists c, 0 < c /\ forall v, In v dw -> B2R v = 0 \/ B2R v = c) ->
  let origin := repeat (B754_zero false) n in
  exists l row_mean,
    herding_reduce (FOpsIEEE prec emax) origin y0
      (mkHerding m (fun x y => number (m_val (methods (FOpsIEEE prec emax) T jgrad keq k) x y)) unique bs Greedy) ord (mkData xs dw None : Data _ Y _) None
      = Ok (mkCS (map Z.of_nat l) (repeat Bone m) (mkData xs dw None), row_mean) /\
    length l = m /\ (forall i, In i l -> (i < length xs)%nat) /\
    sqrt (mmd2 f (map (map B2R) xs) (map B2R dw) (map (fun j => map B2R (nth j xs origin)) l) (repeat 1 m))
    <= 7 / 2 * sqrt (B2R s / INR m) + sqrt (2 * herding_tolerance prec (e + 1) (kernel_error prec n e c) (length xs) m).
Proof.
  intros prec emax Hp Hm Sm q n e c a L HR HE HC MR HA T jgrad keq k len s f HT HK HS Y y0 m unique bs ord xs dw HX RX Hmm HN Hord HU origin.
  assert (HE2 : (2 - emax <= e /\ e + 1 <= emax)%Z) by (destruct MR as [_ M2 _ _]; lia).
  pose proof (rows_origin n _ RX) as RO.
  set (kk := fun x y => number (m_val (methods (FOpsIEEE prec emax) T jgrad keq k) x y)).
  set (kx := fun x y : list (binary_float prec emax) => f (fit n (map B2R x)) (fit n (map B2R y))).
  assert (KX : forall x y, In x (origin :: xs) -> In y (origin :: xs) -> kx x y = f (map B2R x) (map B2R y)).
  { intros x y Hx Hy. unfold kx. rewrite !fit_id; auto; rewrite map_length; now apply RO. }
  assert (KK : forall x y, In x (origin :: xs) -> In y (origin :: xs) -> at_most (e + 1) (kk x y) /\ Rabs (B2R (kk x y) - kx x y) <= kernel_error prec n e c).
  { intros x y Hx Hy. rewrite KX by auto. destruct (RO x Hx) as [LX FX]. destruct (RO y Hy) as [LY FY].
    destruct (kernel_at_most prec emax q n e c T jgrad keq HR HE2 HC HT k len s f x y HK HS LX LY FX FY) as (F & B & E). split; [split; assumption|exact E]. }
  destruct HS as (FL & BL & FS & BS). assert (PL : 0 < B2R len) by (pose proof (bpow_gt_0 radix2 (- q)); lra). destruct BS as [PS BS].
  destruct (C80_float_herding_rate prec emax Hp Hm Sm a (e + 1) L MR ltac:(lia) origin y0 kk kx (kernel_error prec n e c) (B2R s) m unique bs ord xs dw HX
    (fun x y Hx Hy => proj1 (KK x y Hx Hy)) (fun x y Hx Hy => proj2 (KK x y (or_intror Hx) (or_intror Hy)))
    (documented_psd k len s f n HK PL PS) (fun x _ => proj2 (documented_range prec emax k len s f HK PL PS _ _)) Hmm HN Hord HU)
    as (l & g & E & Hl & HI & B).
  exists l, g. split; [exact E|]. split; [exact Hl|]. split; [exact HI|].
  rewrite <- (map_map (fun j => nth j xs origin) (map B2R)). rewrite BenchProofs2.mmd2_pull. destruct (dwR_pos prec emax a xs dw HX) as (_ & _ & L1).
  rewrite (mmd2_ext _ kx); [exact B| |exact L1|rewrite map_length, repeat_length; auto].
  intros x y Hx Hy. symmetry. apply KX.
  - apply in_app_or in Hx as [Hx|Hx]; [right; auto|]. apply in_map_iff in Hx as [j [<- Hj]]. right. apply nth_In. auto.
  - apply in_app_or in Hy as [Hy|Hy]; [right; auto|]. apply in_map_iff in Hy as [j [<- Hj]]. right. apply nth_In. auto.
Qed.
Print Assumptions C83_herding_documented.

(** ** the hypotheses are met *)
(** an [exp] that truncates the exact value to a multiple of [2^-24]: its error is below
    [2^-24] *)
Definition trunc_exp (v : F32) : F32 :=
  match v with
  | B754_infinity true => B754_zero false
  | _ => binary_normalize 24 128 _ _ mode_NE (Zfloor (exp (B2R v) * bpow radix2 24)) (-24) false
  end.
Definition trunc_T : TOps F32 := mkTOps _ trunc_exp (fun v => v) (fun v => v) Bone (fun a _ => a).
Lemma trunc_value v : is_finite v = true -> B2R v <= 0 ->
  is_finite (trunc_exp v) = true /\ Rabs (B2R (trunc_exp v) - exp (B2R v)) <= bpow radix2 (-24).
Proof.
  intros F N. replace (trunc_exp v) with (binary_normalize 24 128 (eq_refl : Prec_gt_0 24) (eq_refl : Prec_lt_emax 24 128) mode_NE (Zfloor (exp (B2R v) * bpow radix2 24)) (-24) false)
    by (destruct v as [|[]| |]; reflexivity || discriminate F).
  set (m := Zfloor (exp (B2R v) * bpow radix2 24)).
  assert (EX : 0 < exp (B2R v) <= 1). { split; [apply exp_pos|]. apply Rle_trans with (exp 0); [|rewrite exp_0; lra]. destruct N as [N|N]; [left; now apply exp_increasing|rewrite N; lra]. }
  assert (P : bpow radix2 24 * bpow radix2 (-24) = 1) by (rewrite <- bpow_plus; reflexivity).
  pose proof (bpow_gt_0 radix2 24) as P1. pose proof (bpow_gt_0 radix2 (-24)) as P2.
  assert (M : (0 <= m <= 2 ^ 24)%Z).
  { split.
    - apply (Zfloor_lub 0). nra.
    - apply Z.le_trans with (Zfloor (IZR (2 ^ 24))); [|rewrite Zfloor_IZR; lia]. apply Zfloor_le. change (IZR (2 ^ 24)) with (bpow radix2 24). nra. }
  assert (MV : F2R (Float radix2 m (-24)) = IZR m * bpow radix2 (-24)) by reflexivity.
  assert (BB : 0 <= IZR m * bpow radix2 (-24) <= 1).
  { destruct M as [M0 M1]. apply IZR_le in M0, M1. change (IZR (2 ^ 24)) with (bpow radix2 24) in M1. split; [apply Rmult_le_pos; lra|]. rewrite <- P. apply Rmult_le_compat_r; lra. }
  pose proof (binary_normalize_correct 24 128 eq_refl eq_refl mode_NE m (-24) false) as B. cbn zeta in B. rewrite MV in B.
  rewrite round_generic in B.
  - rewrite Rlt_bool_true in B.
    + destruct B as (B1 & B2 & _). split; [exact B2|]. rewrite B1. pose proof (Zfloor_lb (exp (B2R v) * bpow radix2 24)) as Q1. pose proof (Zfloor_ub (exp (B2R v) * bpow radix2 24)) as Q2. fold m in Q1, Q2.
      replace (exp (B2R v)) with (exp (B2R v) * bpow radix2 24 * bpow radix2 (-24)) by (rewrite Rmult_assoc, P; ring). rewrite <- Rmult_minus_distr_r, Rabs_mult, (Rabs_pos_eq (bpow radix2 (-24))) by lra.
      rewrite <- (Rmult_1_l (bpow radix2 (-24))) at 2. apply Rmult_le_compat_r; [lra|]. apply Rabs_le. lra.
    + rewrite Rabs_pos_eq by lra. apply Rle_lt_trans with 1; [lra|]. change 1 with (bpow radix2 0). apply bpow_lt. lia.
  - apply valid_rnd_round_mode.
  - change (SpecFloat.fexp 24 128) with (FLT_exp (3 - 128 - 24) 24).
    destruct (Z.eq_dec m (2 ^ 24)) as [E|E].
    + rewrite E. change (IZR (2 ^ 24)) with (bpow radix2 24). rewrite P. change 1 with (bpow radix2 0). apply generic_format_FLT_bpow; [reflexivity|lia].
    + apply generic_format_FLT. exists (Float radix2 m (-24)); [reflexivity| |cbn [Fexp]; lia]. cbn [Fnum]. change (radix2 ^ 24)%Z with (2 ^ 24)%Z. lia.
Qed.
Lemma trunc_accurate : exp_accurate 1 trunc_T.
Proof.
  constructor.
  - intros v F N. cbn [fexp trunc_T]. destruct (trunc_value v F N) as [F1 B]. split; [exact F1|]. rewrite Rmult_1_l. exact B.
  - cbn [fexp trunc_T trunc_exp]. split; [reflexivity|]. cbn [B2R]. rewrite Rabs_R0, Rmult_1_l. apply bpow_ge_0.
Qed.
(** binary32, two features, length scale and output scale 1: every value of the Gaussian
    kernel is within [88 * 2^-24] of the documented formula *)
Lemma f32_room : kernel_room 24 128 10 2.
Proof. constructor; [lia|]. change (2 ^ 24)%Z with 16777216%Z. lia. Qed.
Lemma ones_sane : sane_params (prec := 24) (emax := 128) 10 0 Bone Bone.
Proof.
  assert (B10 : bpow radix2 10 = 1024) by reflexivity. assert (B10' : bpow radix2 (-10) = / 1024) by reflexivity.
  unfold sane_params. change (- (10))%Z with (-10)%Z. rewrite Bone_correct, B10, B10'. change (bpow radix2 0) with 1. repeat split; try apply is_finite_Bone; lra.
Qed.
Lemma c_one : 0 <= 1 <= bpow radix2 (24 - 1).
Proof. split; [lra|]. change 1 with (bpow radix2 0) at 1. apply bpow_le. lia. Qed.
Example C83_kernel_applies jgrad keq (x y : list F32) : length x = 2%nat -> length y = 2%nat ->
  Forall (fun v => is_finite v = true) x -> Forall (fun v => is_finite v = true) y ->
  exists v, m_val (methods F32Ops trunc_T jgrad keq (KSE Bone Bone)) x y = Sc v /\ is_finite v = true /\
    Rabs (B2R v - 1 * exp (- (sqdist (map B2R x) (map B2R y) / (2 * 1 ^ 2)))) <= 88 * bpow radix2 (-24).
Proof.
  intros LX LY X Y.
  destruct (C83_kernel_accurate 24 128 _ _ _ 10 2 0 1 f32_room ltac:(lia) c_one trunc_T jgrad keq (KSE Bone Bone) Bone Bone _ trunc_accurate eq_refl ones_sane x y LX LY X Y)
    as (v & E & F & B).
  exists v. split; [exact E|]. split; [exact F|]. cbn [kfun] in B. rewrite Bone_correct in B. eapply Rle_trans; [exact B|]. unfold kernel_error.
  change (0 - 24)%Z with (-24)%Z. replace (INR 2) with 2 by (cbn [INR]; ring). lra.
Qed.
(** herding ten points out of any hundred points of the plane *)
Lemma ones_real n : map B2R (repeat (Bone : F32) n) = repeat 1 n.
Proof. induction n as [|n IH]; cbn [repeat map]; [reflexivity|]. now rewrite IH, Bone_correct. Qed.
Example C83_herding_applies jgrad keq xs : length xs = 100%nat -> matrix_rows (prec := 24) (emax := 128) 2 xs ->
  exists l row_mean,
    herding_reduce F32Ops (repeat (B754_zero false) 2) tt
      (mkHerding 10 (fun x y => number (m_val (methods F32Ops trunc_T jgrad keq (KSE Bone Bone)) x y)) true (BOne None) Greedy) (fun _ => seq 0 10)
      (mkData xs (repeat Bone 100) None) None
      = Ok (mkCS (map Z.of_nat l) (repeat Bone 10) (mkData xs (repeat Bone 100) None), row_mean) /\ length l = 10%nat /\
    sqrt (mmd2 (kfun (KSE 1 1)) (map (map B2R) xs) (repeat 1 100) (map (fun j => map B2R (nth j xs (repeat (B754_zero false) 2))) l) (repeat 1 10))
    <= 7 / 2 * sqrt (1 / 10) + sqrt (2 * (4222 * bpow radix2 (-24))).
Proof.
  intros HL RX.
  assert (HX : weighted_data (prec := 24) (emax := 128) 10 xs (repeat Bone 100)).
  { rewrite <- HL. apply (ones_data xs); [intros ->; discriminate HL|]. rewrite HL. change (2 ^ 10)%Z with 1024%Z. lia. }
  assert (PS : positives (repeat (Bone : F32) 100) = 100%nat).
  { unfold positives. rewrite (GreedyProofs3.filter_all (fun v => Rlt_bool 0 (B2R v))); [apply repeat_length|].
    intros v Hv. apply repeat_spec in Hv. subst v. rewrite Bone_correct. apply Rlt_bool_true. lra. }
  destruct (C83_herding_documented 24 128 _ _ _ 10 2 0 1 10 220 f32_room ltac:(lia) c_one ltac:(constructor; [lia|lia|lia|apply Z.leb_le; reflexivity]) ltac:(lia) trunc_T jgrad keq (KSE Bone Bone) Bone Bone _
    trunc_accurate eq_refl ones_sane tt 10 true (BOne None) (fun _ => seq 0 10) xs (repeat Bone 100) HX RX ltac:(lia) ltac:(lia)
    (fun _ => Permutation_refl _)) as (l & g & E & Hl & _ & B).
  - intros _. split; [rewrite PS; lia|]. exists 1. split; [lra|]. intros v Hv. apply repeat_spec in Hv. subst v. right. apply Bone_correct.
  - exists l, g. split; [exact E|]. split; [exact Hl|]. replace (map B2R (repeat (Bone : F32) 100)) with (repeat 1 100) in B by (symmetry; apply ones_real).
    rewrite Bone_correct in B. eapply Rle_trans; [exact B|]. replace (INR 10) with 10 by (cbn [INR]; ring). apply Rplus_le_compat_l. apply sqrt_le_1_alt.
    unfold herding_tolerance, kernel_error. rewrite HL. replace (INR (2 * 100 + 10 + 5)) with 215 by (rewrite INR_IZR_INZ; reflexivity). replace (INR 2) with 2 by (cbn [INR]; ring).
    change (0 + 1 - 24)%Z with (1 + -24)%Z. change (0 - 24)%Z with (-24)%Z. rewrite bpow_plus. change (bpow radix2 1) with 2. lra.
Qed.
