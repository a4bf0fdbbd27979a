(** * Accuracy of the joint maximum mean discrepancy and of the kernel Stein discrepancy in
      floating point: C85

    The statements hold for every binary format with rounding to nearest even and every
    order of summation. *)
From Coq Require Import List ZArith Bool Reals Lia Lra.
From Coq Require Import Floats.SpecFloat.
From Flocq Require Import Core.Core IEEE754.BinarySingleNaN.
From Verif Require BenchProofs2 FloatKern.
From Verif Require Import Num Jax RSum JaxFacts DataModel MeanModel MeanSpec GreedySpec MetricModel UtilModel KernelModel KernelSpec
  Float FloatProofs2 FloatIdxSpec FloatErrSpec FloatErr FloatMean FloatMMD FloatRateSpec FloatRate FloatRate3 FloatKernSpec FloatKern3 FloatKern5
  FloatJMMD PropFloatMMD PropFloatKern.
Import ListNotations.
Open Scope R_scope.

Lemma jmmd_unfold prec emax (Hp : Prec_gt_0 prec) (Hm : Prec_lt_emax prec emax) (Sm : SumOrder prec emax) {P Y}
    (k : P -> P -> binary_float prec emax) (r : Y -> Y -> binary_float prec emax) x1 y1 w1 x2 y2 w2 :
  jmmd_compute (FOpsIEEE prec emax) k r (mkData x1 w1 (Some y1)) (mkData x2 w2 (Some y2)) =
  Ok (root prec emax (sq_of prec emax
    (joint_mean (FOpsIEEE prec emax) k r x1 y1 (map (nw prec emax w1) w1) x1 y1 (map (nw prec emax w1) w1))
    (joint_mean (FOpsIEEE prec emax) k r x2 y2 (map (nw prec emax w2) w2) x2 y2 (map (nw prec emax w2) w2))
    (joint_mean (FOpsIEEE prec emax) k r x1 y1 (map (nw prec emax w1) w1) x2 y2 (map (nw prec emax w2) w2)))).
Proof.
  unfold jmmd_compute, normalize, normalize_w. cbn [d_x d_y d_w]. rewrite !map_map. reflexivity.
Qed.

(** ** C85: the joint discrepancy *)
(** [JMMD.compute] returns a number, never NaN, that is not negative.  It is compared with the
    exact discrepancy, for the product of the two kernels as computed, of the two weighted sets
    of feature and response pairs. *)
Theorem C85_jmmd_accurate :
  forall prec emax (Hp : Prec_gt_0 prec) (Hm : Prec_lt_emax prec emax) (Sm : SumOrder prec emax) a e1 e2 L, mean_room prec emax a (e1 + e2) (L + 2) ->
  forall {P Y} (k : P -> P -> binary_float prec emax) (r : Y -> Y -> binary_float prec emax) x1 y1 w1 x2 y2 w2,
  weighted_data a x1 w1 -> weighted_data a x2 w2 -> length y1 = length x1 -> length y2 = length x2 ->
  (forall x y, In x (x1 ++ x2) -> In y (x1 ++ x2) -> at_most e1 (k x y)) ->
  (forall x y, In x (y1 ++ y2) -> In y (y1 ++ y2) -> at_most e2 (r x y)) ->
  (4 * length x1 + 5 <= L)%nat -> (4 * length x2 + 5 <= L)%nat ->
  let D := 14 * INR (L + 2) * bpow radix2 (e1 + e2 - prec) in
  let joint := fun p q : P * Y => B2R (k (fst p) (fst q)) * B2R (r (snd p) (snd q)) in
  let exact := sqrt (mmd2 joint (combine x1 y1) (map B2R w1) (combine x2 y2) (map B2R w2)) in
  exists z, jmmd_compute (FOpsIEEE prec emax) k r (mkData x1 w1 (Some y1)) (mkData x2 w2 (Some y2)) = Ok z /\
    is_finite z = true /\ 0 <= B2R z /\
    Rabs (B2R z - exact) <= 2 * sqrt D /\ Rabs (B2R z - exact) * exact <= 2 * D.
Proof.
  intros prec emax Hp Hm Sm a e1 e2 L HR P Y k r x1 y1 w1 x2 y2 w2 H1 H2 E1 E2 Hk Hr L1 L2 D joint exact.
  assert (J : forall xa ya wa xb yb wb, weighted_data a xa wa -> weighted_data a xb wb -> length ya = length xa -> length yb = length xb ->
    incl xa (x1 ++ x2) -> incl xb (x1 ++ x2) -> incl ya (y1 ++ y2) -> incl yb (y1 ++ y2) -> (2 * length xa + 2 * length xb + 5 <= L)%nat ->
    apx prec emax L (joint_mean (FOpsIEEE prec emax) k r xa ya (map (nw prec emax wa) wa) xb yb (map (nw prec emax wb) wb))
      (wavg (fun p => wavg (fun q => joint p q) (combine xb yb) (map B2R wb)) (combine xa ya) (map B2R wa)) (3 / 2 * bpow radix2 (e1 + e2))).
  { intros xa ya wa xb yb wb HA HB EA EB I1 I2 I3 I4 HL.
    eapply apx_mono; [apply (joint_apx prec emax a (e1 + e2) (L + 2) HR k r e1 e2 eq_refl xa ya wa xb yb wb); auto; try lia|exact HL|lra]. }
  pose proof (incl_appl x2 (incl_refl x1)) as X1. pose proof (incl_appr x1 (incl_refl x2)) as X2.
  pose proof (incl_appl y2 (incl_refl y1)) as Y1. pose proof (incl_appr y1 (incl_refl y2)) as Y2.
  pose proof (J x1 y1 w1 x1 y1 w1 H1 H1 E1 E1 X1 X1 Y1 Y1 ltac:(lia)) as A1.
  pose proof (J x2 y2 w2 x2 y2 w2 H2 H2 E2 E2 X2 X2 Y2 Y2 ltac:(lia)) as A2.
  pose proof (J x1 y1 w1 x2 y2 w2 H1 H2 E1 E2 X1 X2 Y1 Y2 ltac:(lia)) as A3.
  rewrite jmmd_unfold. eexists. split; [reflexivity|].
  pose proof (sq_apx prec emax a _ _ HR L _ _ _ _ _ _ ltac:(lia) A1 A2 A3) as SA.
  exact (root_apx prec emax a _ _ HR (L + 2) _ _ ltac:(lia) SA).
Qed.
Print Assumptions C85_jmmd_accurate.

(** [JMMD.compute(d, d)] is exactly zero *)
Theorem C85_jmmd_self :
  forall prec emax (Hp : Prec_gt_0 prec) (Hm : Prec_lt_emax prec emax) (Sm : SumOrder prec emax) a e1 e2 L, mean_room prec emax a (e1 + e2) L ->
  forall {P Y} (k : P -> P -> binary_float prec emax) (r : Y -> Y -> binary_float prec emax) x1 y1 w1,
  weighted_data a x1 w1 -> length y1 = length x1 ->
  (forall x y, In x x1 -> In y x1 -> at_most e1 (k x y)) ->
  (forall x y, In x y1 -> In y y1 -> at_most e2 (r x y)) ->
  (4 * length x1 + 5 <= L)%nat ->
  exists z, jmmd_compute (FOpsIEEE prec emax) k r (mkData x1 w1 (Some y1)) (mkData x1 w1 (Some y1)) = Ok z /\ is_finite z = true /\ B2R z = 0.
Proof.
  intros prec emax Hp Hm Sm a e1 e2 L HR P Y k r x1 y1 w1 H1 E1 Hk Hr HL. rewrite jmmd_unfold. eexists. split; [reflexivity|].
  eapply self_zero; [exact HR| |].
  - apply (joint_apx prec emax a (e1 + e2) L HR k r e1 e2 eq_refl); auto; lia.
  - lia.
Qed.
Print Assumptions C85_jmmd_self.

(** with two of the built-in kernels: the result against the discrepancy for the product of the
    two documented formulas *)
Theorem C85_jmmd_documented :
  forall prec emax (Hp : Prec_gt_0 prec) (Hm : Prec_lt_emax prec emax) (Sm : SumOrder prec emax) q1 n1 e1 q2 n2 e2 c a L,
  kernel_room prec emax q1 n1 -> (2 - emax <= e1 /\ e1 + 1 <= emax)%Z ->
  kernel_room prec emax q2 n2 -> (2 - emax <= e2 /\ e2 + 1 <= emax)%Z ->
  0 <= c <= bpow radix2 (prec - 1) -> mean_room prec emax a ((e1 + 1) + (e2 + 1)) (L + 2) ->
  forall T jgrad keq (k1 : kern (binary_float prec emax)) l1 s1 f (k2 : kern (binary_float prec emax)) l2 s2 g,
  exp_accurate c T -> documented k1 = Some (l1, s1, f) -> sane_params q1 e1 l1 s1 -> documented k2 = Some (l2, s2, g) -> sane_params q2 e2 l2 s2 ->
  forall x1 y1 w1 x2 y2 w2,
  weighted_data a x1 w1 -> weighted_data a x2 w2 -> length y1 = length x1 -> length y2 = length x2 ->
  matrix_rows n1 x1 -> matrix_rows n1 x2 -> matrix_rows n2 y1 -> matrix_rows n2 y2 ->
  (4 * length x1 + 5 <= L)%nat -> (4 * length x2 + 5 <= L)%nat ->
  let val := fun k x y => number (m_val (methods (FOpsIEEE prec emax) T jgrad keq k) x y) in
  let pairs := fun (x y : list (list (binary_float prec emax))) => combine (map (map B2R) x) (map (map B2R) y) in
  let joint := fun p q : list R * list R => f (fst p) (fst q) * g (snd p) (snd q) in
  exists z, jmmd_compute (FOpsIEEE prec emax) (val k1) (val k2) (mkData x1 w1 (Some y1)) (mkData x2 w2 (Some y2)) = Ok z /\
    is_finite z = true /\ 0 <= B2R z /\
    Rabs (B2R z - sqrt (mmd2 joint (pairs x1 y1) (map B2R w1) (pairs x2 y2) (map B2R w2)))
    <= 2 * sqrt (14 * INR (L + 2) * bpow radix2 (e1 + e2 + 2 - prec))
       + 2 * sqrt (kernel_error prec n1 e1 c * bpow radix2 (e2 + 1) + bpow radix2 e1 * kernel_error prec n2 e2 c).
Proof.
  intros prec emax Hp Hm Sm q1 n1 e1 q2 n2 e2 c a L KR1 HE1 KR2 HE2 HC HR T jgrad keq k1 l1 s1 f k2 l2 s2 g HT D1 S1 D2 S2
    x1 y1 w1 x2 y2 w2 H1 H2 LY1 LY2 RX1 RX2 RY1 RY2 L1 L2 val pairs joint.
  assert (RX : matrix_rows n1 (x1 ++ x2)) by (apply Forall_app; auto). assert (RY : matrix_rows n2 (y1 ++ y2)) by (apply Forall_app; auto).
  assert (K1 : forall x y, In x (x1 ++ x2) -> In y (x1 ++ x2) -> at_most (e1 + 1) (val k1 x y) /\ Rabs (B2R (val k1 x y) - f (map B2R x) (map B2R y)) <= kernel_error prec n1 e1 c).
  { intros x y Hx Hy. unfold matrix_rows in RX. rewrite Forall_forall in RX. destruct (RX x Hx) as [LX FX]. destruct (RX y Hy) as [LY FY].
    destruct (kernel_at_most prec emax q1 n1 e1 c T jgrad keq KR1 HE1 HC HT k1 l1 s1 f x y D1 S1 LX LY FX FY) as (F & B & E). split; [split; assumption|exact E]. }
  assert (K2 : forall x y, In x (y1 ++ y2) -> In y (y1 ++ y2) -> at_most (e2 + 1) (val k2 x y) /\ Rabs (B2R (val k2 x y) - g (map B2R x) (map B2R y)) <= kernel_error prec n2 e2 c).
  { intros x y Hx Hy. unfold matrix_rows in RY. rewrite Forall_forall in RY. destruct (RY x Hx) as [LX FX]. destruct (RY y Hy) as [LY FY].
    destruct (kernel_at_most prec emax q2 n2 e2 c T jgrad keq KR2 HE2 HC HT k2 l2 s2 g x y D2 S2 LX LY FX FY) as (F & B & E). split; [split; assumption|exact E]. }
  destruct (C85_jmmd_accurate prec emax Hp Hm Sm a (e1 + 1) (e2 + 1) L HR (val k1) (val k2) x1 y1 w1 x2 y2 w2 H1 H2 LY1 LY2
    (fun x y Hx Hy => proj1 (K1 x y Hx Hy)) (fun x y Hx Hy => proj1 (K2 x y Hx Hy)) L1 L2) as (z & E & F & N & B & _).
  exists z. split; [exact E|]. split; [exact F|]. split; [exact N|]. cbv zeta in B.
  replace (e1 + 1 + (e2 + 1) - prec)%Z with (e1 + e2 + 2 - prec)%Z in B by ring.
  set (jv := fun p q : list (binary_float prec emax) * list (binary_float prec emax) => B2R (val k1 (fst p) (fst q)) * B2R (val k2 (snd p) (snd q))) in *.
  destruct (dwR_pos prec emax a x1 w1 H1) as (N1 & T1 & M1). destruct (dwR_pos prec emax a x2 w2 H2) as (N2 & T2 & M2).
  assert (C1 : length (combine x1 y1) = length x1) by (rewrite combine_length; lia). assert (C2 : length (combine x2 y2) = length x2) by (rewrite combine_length; lia).
  set (dev := kernel_error prec n1 e1 c * bpow radix2 (e2 + 1) + bpow radix2 e1 * kernel_error prec n2 e2 c).
  set (h := fun p : list (binary_float prec emax) * list (binary_float prec emax) => (map B2R (fst p), map B2R (snd p))).
  assert (Q : Rabs (mmd2 jv (combine x1 y1) (map B2R w1) (combine x2 y2) (map B2R w2)
    - mmd2 (fun p q => joint (h p) (h q)) (combine x1 y1) (map B2R w1) (combine x2 y2) (map B2R w2)) <= 4 * dev).
  { apply (mmd2_close ([], [])); try (rewrite ?C1, ?C2; assumption).
    intros [p p'] [q q'] Hp' Hq'. unfold jv, joint, h. cbn [fst snd].
    assert (I : forall u v, In (u, v) (combine x1 y1 ++ combine x2 y2) -> In u (x1 ++ x2) /\ In v (y1 ++ y2)).
    { intros u v Hu. apply in_app_or in Hu. split; apply in_or_app; (destruct Hu as [Hu|Hu]; [left|right]); eauto using in_combine_l, in_combine_r. }
    destruct (I _ _ Hp') as [I1 I2]. destruct (I _ _ Hq') as [I3 I4].
    destruct (K1 p q I1 I3) as [_ A1]. destruct (K2 p' q' I2 I4) as [[_ A2] A3].
    destruct S1 as (_ & Sl1 & _ & Ss1). assert (0 < B2R l1) by (pose proof (bpow_gt_0 radix2 (- q1)); lra).
    pose proof (documented_range prec emax k1 l1 s1 f D1 ltac:(assumption) ltac:(lra) (map B2R p) (map B2R q)) as FR.
    set (u := B2R (val k1 p q)) in *. set (u' := f (map B2R p) (map B2R q)) in *. set (v := B2R (val k2 p' q')) in *. set (v' := g (map B2R p') (map B2R q')) in *.
    replace (u * v - u' * v') with ((u - u') * v + u' * (v - v')) by ring. eapply Rle_trans; [apply Rabs_triang|]. rewrite !Rabs_mult. unfold dev.
    apply Rplus_le_compat; apply Rmult_le_compat; auto using Rabs_pos. rewrite Rabs_pos_eq; lra. }
  apply sqrt_close_any in Q. rewrite <- (BenchProofs2.mmd2_pull h) in Q.
  assert (PE : forall x y, map h (combine x y) = pairs x y) by (intros; unfold pairs; rewrite FloatKern.combine_map; reflexivity).
  rewrite !PE in Q.
  replace (B2R z - sqrt (mmd2 joint (pairs x1 y1) (map B2R w1) (pairs x2 y2) (map B2R w2))) with
    ((B2R z - sqrt (mmd2 jv (combine x1 y1) (map B2R w1) (combine x2 y2) (map B2R w2))) +
     (sqrt (mmd2 jv (combine x1 y1) (map B2R w1) (combine x2 y2) (map B2R w2)) - sqrt (mmd2 joint (pairs x1 y1) (map B2R w1) (pairs x2 y2) (map B2R w2)))) by ring.
  eapply Rle_trans; [apply Rabs_triang|]. lra.
Qed.
Print Assumptions C85_jmmd_documented.

(** ** C85: the kernel Stein discrepancy *)
(** [KSD.compute]: [conv x] is the Stein kernel of the reference points [x], [logpdf] and
    [laplace] the corrections, one number for every compared point.  The corrections are divided
    by the square of the number of points. *)
Theorem C85_ksd_accurate :
  forall prec emax (Hp : Prec_gt_0 prec) (Hm : Prec_lt_emax prec emax) (Sm : SumOrder prec emax) a e L, mean_room prec emax a e (L + 2) ->
  (a + e + 2 <= emax)%Z -> (2 * a < prec)%Z ->
  forall {P Y} (p0 : P) (y0 : Y) (conv : list P -> P -> P -> binary_float prec emax) logpdf laplace lc rg xs wx ys v sy bs b0 b1,
  weighted_data a ys v ->
  (forall x y, In x (p0 :: ys) -> In y (p0 :: ys) -> at_most e (conv xs x y)) ->
  length (laplace xs ys) = length ys -> Forall (at_most e) (laplace xs ys) ->
  length (logpdf xs wx ys) = length ys -> Forall (at_most e) (logpdf xs wx ys) ->
  bs = BTwo b0 b1 \/ bs = BOne b0 /\ b1 = b0 ->
  let m := length ys in
  (roundings m m (block_used m b0) (block_used m b1) <= L)%nat ->
  let D := 14 * INR (L + 2) * bpow radix2 (e - prec) in
  let correction := fun (on : bool) l => if on then Rsum (map B2R l) / INR m ^ 2 else 0 in
  let exact := sqrt (wavg (fun x => wavg (fun y => B2R (conv xs x y)) ys (map B2R v)) ys (map B2R v)
    + correction lc (laplace xs ys) - correction rg (logpdf xs wx ys)) in
  exists z, ksd_compute (FOpsIEEE prec emax) p0 y0 conv logpdf laplace lc rg bs (mkData xs wx None) (mkData ys v sy) = Ok z /\
    is_finite z = true /\ 0 <= B2R z /\
    Rabs (B2R z - exact) <= 2 * sqrt D /\ Rabs (B2R z - exact) * exact <= 2 * D.
Proof.
  intros prec emax Hp Hm Sm a e L HR HA2 HA3 P Y p0 y0 conv logpdf laplace lc rg xs wx ys v sy bs b0 b1 HY Hk LL FL LG FG Hbs m R1 D correction exact.
  pose proof (Nat.le_trans _ _ _ R1 (Nat.le_add_r L 2)) as Q1.
  assert (Kx : forall x y, In x (p0 :: ys ++ ys) -> In y (p0 :: ys ++ ys) -> at_most e (conv xs x y)).
  { intros x y Hx Hy. apply Hk; cbn in *; rewrite in_app_iff in *; tauto. }
  destruct (mean_apx prec emax a e _ HR p0 y0 (conv xs) ys v sy ys v sy b0 b1 HY HY Kx Q1) as [s [Es A]].
  set (K := bpow radix2 e). assert (KP : 0 < K) by apply bpow_gt_0.
  destruct (tau_room prec emax a e _ HR) as (T1 & T2 & T3 & T4). pose proof (tau_small prec emax a e _ HR) as TS. pose proof (tau_pos emax) as TP. fold K in T1, T3, TS.
  destruct (wdata_facts prec emax a e (L + 2) HR ys v HY) as (MP & _); [rewrite (wd_len _ _ _ HY); unfold roundings in R1; fold m; lia|]. fold m in MP.
  assert (ML : (2 * m + 4 <= L)%nat) by (unfold roundings in R1; lia).
  assert (MI : 1 <= INR m) by (change 1 with (INR 1); apply le_INR; lia).
  pose proof (wd_size _ _ _ HY) as MS. fold m in MS. destruct HR as [[HA0 HA1] HB HC HD] eqn:HRE. clear HRE. assert (HR' : mean_room prec emax a e (L + 2)) by exact HR.
  assert (MA : INR m <= bpow radix2 a) by (rewrite INR_IZR_INZ, <- IZR_Zpower by lia; now apply IZR_le).
  assert (PW : (2 ^ a * 2 ^ a < 2 ^ prec)%Z) by (rewrite <- Z.pow_add_r by lia; apply Z.pow_lt_mono_r; lia).
  assert (M1 : (0 <= Z.of_nat m < 2 ^ prec)%Z) by nia. assert (M2 : (0 <= Z.of_nat m ^ 2 < 2 ^ prec)%Z) by nia.
  destruct (ofZ_exact prec emax _ M1) as [Z1 Z2]. destruct (ofZ_exact prec emax _ M2) as [Z3 Z4].
  rewrite <- INR_IZR_INZ in Z2. replace (IZR (Z.of_nat m ^ 2)) with (INR m ^ 2) in Z4 by (rewrite INR_IZR_INZ, pow_IZR; reflexivity).
  assert (MK : INR m * K <= / 4 * bpow radix2 emax).
  { apply Rle_trans with (bpow radix2 a * K); [apply Rmult_le_compat_r; lra|]. unfold K. change (/ 4) with (bpow radix2 (-2)). rewrite <- !bpow_plus. apply bpow_le. lia. }
  assert (IM : 0 < / INR m <= 1) by (split; [apply Rinv_0_lt_compat; lra|pose proof (Rinv_le_contravar 1 (INR m) ltac:(lra) MI) as H; rewrite Rinv_1 in H; exact H]).
  assert (G : forall M S c, (M <= L + 2)%nat -> 0 <= S <= c -> 2 * c < bpow radix2 emax -> gg prec M * S < bpow radix2 emax).
  { intros M S c HM HS HC'. destruct (gg_room prec emax a e _ HR' M HM) as [_ GB]. pose proof (gg_ge1 prec M).
    apply Rle_lt_trans with (2 * c); [apply Rmult_le_compat; lra|lra]. }
  assert (SUM : forall l, length l = m -> Forall (at_most e) l -> apx prec emax m (fsum (FOpsIEEE prec emax) l) (Rsum (map B2R l)) (INR m * K)).
  { intros l Hl Fl. rewrite <- (map_id l) at 1. assert (E : Rsum (map (fun _ => K) l) = INR m * K).
    { rewrite <- Hl. clear. induction l; cbn [map Rsum length]; [cbn; ring|]. rewrite IHl, S_INR. ring. }
    rewrite <- E. rewrite <- Hl at 1. change (length l) with (0 + length l)%nat. apply apx_sum.
    - intros b Hb. rewrite Forall_forall in Fl. destruct (Fl b Hb). now apply apx_exact.
    - rewrite E. apply (G _ _ (/ 4 * bpow radix2 emax)); [lia| |]; pose proof (bpow_gt_0 radix2 emax); [|lra]. split; [apply Rmult_le_pos; lra|exact MK]. }
  assert (ZERO : forall N S, 0 <= S -> apx prec emax N (B754_zero false) 0 S).
  { intros N S HS. apply apx_mono with 0%nat S; [|lia|lra]. pose proof (apx_exact prec emax (B754_zero false) S eq_refl) as H. cbn [B2R] in H. apply H. rewrite Rabs_R0. lra. }
  set (lap := if lc then fdiv (FOpsIEEE prec emax) (fsum (FOpsIEEE prec emax) (laplace xs ys)) (fofZ (FOpsIEEE prec emax) (Z.of_nat m ^ 2)) else f0 (FOpsIEEE prec emax)).
  set (ent := if rg then fdiv (FOpsIEEE prec emax) (fdiv (FOpsIEEE prec emax) (fsum (FOpsIEEE prec emax) (logpdf xs wx ys)) (fofZ (FOpsIEEE prec emax) (Z.of_nat m)))
    (fofZ (FOpsIEEE prec emax) (Z.of_nat m)) else f0 (FOpsIEEE prec emax)).
  assert (AL : apx prec emax L lap (correction lc (laplace xs ys)) (17 / 16 * K)).
  { unfold lap, correction. destruct lc; [|apply ZERO; lra].
    assert (B : INR m * K / INR m ^ 2 <= K). { replace (INR m * K / INR m ^ 2) with (K * / INR m) by (field; lra). rewrite <- (Rmult_1_r K) at 2. apply Rmult_le_compat_l; lra. }
    assert (B0 : 0 <= INR m * K / INR m ^ 2). { replace (INR m * K / INR m ^ 2) with (K * / INR m) by (field; lra). apply Rmult_le_pos; lra. }
    apply apx_mono with (S m) (INR m * K / INR m ^ 2 + tau emax); [|lia|lra]. rewrite <- Z4.
    apply apx_div; [apply SUM; auto|exact Z3|rewrite Z4; apply pow_lt; lra|rewrite Z4; apply (G _ _ (17 / 16 * K)); [lia|lra|lra]]. }
  assert (AE : apx prec emax L ent (correction rg (logpdf xs wx ys)) (9 / 8 * K)).
  { unfold ent, correction. destruct rg; [|apply ZERO; lra].
    set (d := fofZ (FOpsIEEE prec emax) (Z.of_nat m)) in *.
    replace (Rsum (map B2R (logpdf xs wx ys)) / INR m ^ 2) with (Rsum (map B2R (logpdf xs wx ys)) / B2R d / B2R d) by (rewrite Z2; field; lra).
    assert (E1 : INR m * K / B2R d = K) by (rewrite Z2; field; lra).
    assert (B : 0 <= (K + tau emax) / B2R d <= K + tau emax).
    { rewrite Z2. split; [apply Rmult_le_pos; lra|]. rewrite <- (Rmult_1_r (K + tau emax)) at 2. apply Rmult_le_compat_l; lra. }
    apply apx_mono with (S (S m)) ((K + tau emax) / B2R d + tau emax); [|lia|lra].
    apply apx_div; [|exact Z1|rewrite Z2; lra|apply (G _ _ (9 / 8 * K)); [lia|lra|lra]].
    rewrite <- E1. apply apx_div; [apply SUM; auto|exact Z1|rewrite Z2; lra|rewrite E1; apply (G _ _ (17 / 16 * K)); [lia|lra|lra]]. }
  assert (A' : apx prec emax L s (wavg (fun x => wavg (fun y => B2R (conv xs x y)) ys (map B2R v)) ys (map B2R v)) (3 / 2 * K)) by (eapply apx_mono; [exact A|exact R1|fold K; lra]).
  pose proof (apx_add prec emax L _ _ _ _ (3 / 2 * K) (17 / 16 * K) A' AL (G (S L) (3 / 2 * K + 17 / 16 * K) (3 * K) ltac:(lia) ltac:(lra) ltac:(lra))) as A1.
  pose proof (apx_sub prec emax (S L) _ _ _ _ _ (9 / 8 * K) A1 (apx_mono prec emax _ (S L) _ _ _ _ AE ltac:(lia) (Rle_refl _))
    (G (S (S L)) (3 / 2 * K + 17 / 16 * K + 9 / 8 * K) (4 * K) ltac:(lia) ltac:(lra) ltac:(lra))) as A2.
  eexists. split.
  - unfold ksd_compute, unpack2. cbn [d_y d_x d_w bind]. unfold d_len. cbn [d_x]. fold m.
    assert (MS' : mean_scalar (FOpsIEEE prec emax) p0 y0 (conv xs) (mkData ys v sy) (mkData ys v sy) bs = Ok s).
    { rewrite <- Es. destruct Hbs as [->|[-> ->]]; reflexivity. }
    rewrite MS'. cbn [bind]. fold lap ent. reflexivity.
  - apply (root_apx prec emax a e (L + 2) HR' (L + 2)); [lia|].
    eapply apx_mono; [exact A2|lia|fold K; lra].
Qed.
Print Assumptions C85_ksd_accurate.

(** ** Examples *)
(** binary32, at most 1024 pairs on either side, kernels with values in [-1, 1] *)
Example C85_jmmd_applies : forall (k r : nat -> nat -> F32) x1 y1 x2 y2, (forall x y, at_most 0 (k x y)) -> (forall x y, at_most 0 (r x y)) ->
  x1 <> [] -> x2 <> [] -> (Z.of_nat (length x1) <= 2 ^ 10)%Z -> (Z.of_nat (length x2) <= 2 ^ 10)%Z -> length y1 = length x1 -> length y2 = length x2 ->
  exists z, jmmd_compute F32Ops k r (mkData x1 (repeat Bone (length x1)) (Some y1)) (mkData x2 (repeat Bone (length x2)) (Some y2)) = Ok z /\
    is_finite z = true /\ 0 <= B2R z /\
    Rabs (B2R z - sqrt (mmd2 (fun p q : nat * nat => B2R (k (fst p) (fst q)) * B2R (r (snd p) (snd q)))
      (combine x1 y1) (map B2R (repeat (Bone : F32) (length x1))) (combine x2 y2) (map B2R (repeat (Bone : F32) (length x2))))) <= / 8.
Proof.
  intros k r x1 y1 x2 y2 Hk Hr NX NY LX LY E1 E2.
  assert (HL : exists L, Z.of_nat L = 4101%Z) by (exists (Z.to_nat 4101); apply Z2Nat.id; lia). destruct HL as [L HL].
  assert (HR : mean_room 24 128 10 (0 + 0) (L + 2)) by (apply C71_room; lia).
  destruct (C85_jmmd_accurate 24 128 _ _ _ 10 0 0 L HR k r x1 y1 (repeat Bone (length x1)) x2 y2 (repeat Bone (length x2))
    (ones_data x1 NX LX) (ones_data x2 NY LY) E1 E2 (fun x y _ _ => Hk x y) (fun x y _ _ => Hr x y)) as (z & E & F & N & B & _).
  1,2: change (2 ^ 10)%Z with 1024%Z in *; lia.
  exists z. split; [exact E|]. split; [exact F|]. split; [exact N|]. eapply Rle_trans; [exact B|]. change (0 + 0 - 24)%Z with (-24)%Z.
  assert (Q : 14 * INR (L + 2) * bpow radix2 (-24) <= / 16 * / 16).
  { rewrite INR_IZR_INZ. replace (Z.of_nat (L + 2)) with 4103%Z by lia. cbn. lra. }
  apply sqrt_le_1_alt in Q. rewrite sqrt_square in Q by lra. lra.
Qed.
(** two pairs of features and responses on either side, with the same features: the discrepancy
    is the square root of one half *)
Definition eqk (x y : bool) : F32 := if Bool.eqb x y then Bone else B754_zero false.
Example C85_jmmd_case :
  match jmmd_compute F32Ops eqk eqk (mkData [true; true] [Bone; Bone] (Some [true; false])) (mkData [true; true] [Bone; Bone] (Some [true; true])) with
  | Ok z => B2SF z = B2SF (fsqrt F32Ops (f32 1 (-1))) | Err _ => False end.
Proof. vm_compute. reflexivity. Qed.
(** the Stein discrepancy of binary32 data with both corrections *)
Example C85_ksd_applies : forall (conv : list nat -> nat -> nat -> F32) (lp lap : nat -> F32) xs wx ys,
  (forall x y, at_most 0 (conv xs x y)) -> (forall x, at_most 0 (lp x)) -> (forall x, at_most 0 (lap x)) ->
  ys <> [] -> (Z.of_nat (length ys) <= 2 ^ 10)%Z ->
  exists z, ksd_compute F32Ops 0%nat tt conv (fun _ _ l => map lp l) (fun _ l => map lap l) true true (BOne None) (mkData xs wx None)
      (mkData ys (repeat Bone (length ys)) None) = Ok z /\ is_finite z = true /\ 0 <= B2R z.
Proof.
  intros conv lp lap xs wx ys Hk Hl1 Hl2 NY LY. assert (PY : (0 < length ys)%nat) by (destruct ys; [congruence|apply Nat.lt_0_succ]).
  set (L := (4 * length ys + 5)%nat).
  assert (HR : mean_room 24 128 10 0 (L + 2)) by (apply C71_room; unfold L; change (2 ^ 23)%Z with 8388608%Z; change (2 ^ 10)%Z with 1024%Z in *; lia).
  assert (FA : forall f : nat -> F32, (forall x, at_most 0 (f x)) -> Forall (at_most 0) (map f ys)) by (intros f Hf; apply Forall_forall; intros v Hv; apply in_map_iff in Hv as [x [<- _]]; auto).
  destruct (C85_ksd_accurate 24 128 _ _ _ 10 0 L HR ltac:(lia) ltac:(lia) 0%nat tt conv (fun _ _ l => map lp l) (fun _ l => map lap l) true true xs wx ys
    (repeat Bone (length ys)) None (BOne None) None None (ones_data ys NY LY) (fun x y _ _ => Hk x y) (map_length _ _) (FA _ Hl2) (map_length _ _) (FA _ Hl1)
    (or_intror (conj eq_refl eq_refl))) as (z & E & F & N & _).
  - unfold roundings, block_used, block_count. replace ((length ys + (length ys - 1)) / length ys)%nat with 1%nat.
    + unfold L. lia.
    + apply (Nat.div_unique _ _ 1 (length ys - 1)); lia.
  - exists z. split; [exact E|]. split; [exact F|exact N].
Qed.
