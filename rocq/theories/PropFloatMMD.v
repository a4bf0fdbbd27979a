(** * Accuracy of kernel means and of the maximum mean discrepancy in floating point: C71

    The statements hold for every binary format with rounding to nearest even. *)
From Coq Require Import List ZArith Bool Reals Lia Lra.
From Coq Require Import Floats.SpecFloat.
From Flocq Require Import Core.Core IEEE754.BinarySingleNaN.
From Verif Require Import Num Jax RSum JaxFacts DataModel MeanModel MeanGeneric MeanSpec GreedySpec MetricModel UtilModel KernelModel
  Float FloatProofs2 FloatIdxSpec FloatErrSpec FloatErr FloatMean FloatMMD PropFloat.
Import ListNotations.
Open Scope R_scope.

(** ** C71: means of the kernel matrix *)
(** [compute_mean(x, y, axis=None)]: finite, and as close to the weighted mean of the kernel
    matrix as the number of roundings allows *)
Theorem C71_mean_accurate :
  forall prec emax (Hp : Prec_gt_0 prec) (Hm : Prec_lt_emax prec emax) (Sm : SumOrder prec emax) a e L, mean_room prec emax a e L ->
  forall {P Y} (p0 : P) (y0 : Y) (k : P -> P -> binary_float prec emax) xs w sx ys v sy bx by_,
  weighted_data a xs w -> weighted_data a ys v ->
  (forall x y, In x (p0 :: xs ++ ys) -> In y (p0 :: xs ++ ys) -> at_most e (k x y)) ->
  let N := roundings (length xs) (length ys) (block_used (length xs) bx) (block_used (length ys) by_) in
  (N <= L)%nat ->
  exists z, compute_mean (FOpsIEEE prec emax) p0 y0 k (mkData xs w sx) (mkData ys v sy) AxisNone (BTwo bx by_) = Ok (MScalar z) /\
    is_finite z = true /\
    Rabs (B2R z - wavg (fun a => wavg (fun b => B2R (k a b)) ys (map B2R v)) xs (map B2R w)) <= 3 * INR N * bpow radix2 (e - prec).
Proof.
  intros prec emax Hp Hm Sm a e L HR P Y p0 y0 k xs w sx ys v sy bx by_ HX HY Hk N HN.
  destruct (mean_apx prec emax a e L HR p0 y0 k xs w sx ys v sy bx by_ HX HY Hk HN) as [z [E A]]. exists z.
  destruct (apx_error prec emax a e L HR _ _ _ (3 / 2 * bpow radix2 e) (3 / 2) HN ltac:(lra) ltac:(lra) A) as [F B].
  split; [|split; [exact F|]].
  - unfold mean_scalar in E. destruct (compute_mean _ _ _ _ _ _ _ _) as [[u|l]|]; cbn [bind] in E; try discriminate. congruence.
  - fold N in B. replace (3 * INR N * bpow radix2 (e - prec)) with (2 * (3 / 2) * INR N * bpow radix2 (e - prec)) by field. exact B.
Qed.
Print Assumptions C71_mean_accurate.

(** [compute_mean(x, y, axis=1)]: the same for every row *)
Theorem C71_row_means_accurate :
  forall prec emax (Hp : Prec_gt_0 prec) (Hm : Prec_lt_emax prec emax) (Sm : SumOrder prec emax) a e L, mean_room prec emax a e L ->
  forall {P Y} (p0 : P) (y0 : Y) (k : P -> P -> binary_float prec emax) xs w sx ys v sy bx by_,
  xs <> [] -> length w = length xs -> weighted_data a ys v ->
  (forall x y, In x (p0 :: xs ++ ys) -> In y (p0 :: xs ++ ys) -> at_most e (k x y)) ->
  let N := row_roundings (length ys) (block_used (length ys) by_) in
  (N <= L)%nat ->
  exists zs, compute_mean (FOpsIEEE prec emax) p0 y0 k (mkData xs w sx) (mkData ys v sy) Axis1 (BTwo bx by_) = Ok (MVec zs) /\
    length zs = length xs /\
    forall i, (i < length xs)%nat -> is_finite (nth i zs B754_nan) = true /\
      Rabs (B2R (nth i zs B754_nan) - wavg (fun b => B2R (k (nth i xs p0) b)) ys (map B2R v)) <= 9 / 4 * INR N * bpow radix2 (e - prec).
Proof.
  intros prec emax Hp Hm Sm a e L HR P Y p0 y0 k xs w sx ys v sy bx by_ HX WL HY Hk N HN.
  destruct (rows_apx prec emax a e L HR p0 y0 k xs w sx ys v sy bx by_ HX WL HY Hk HN) as [zs [E [EL A]]]. exists zs. split; auto. split; auto.
  intros i Hi. destruct (apx_error prec emax a e L HR _ _ _ (9 / 8 * bpow radix2 e) (9 / 8) HN ltac:(lra) ltac:(lra) (A i Hi)) as [F B]. split; auto.
  fold N in B. replace (9 / 4) with (2 * (9 / 8)) by field. exact B.
Qed.
Print Assumptions C71_row_means_accurate.

(** ** C71: the maximum mean discrepancy *)
(** [MMD.compute] returns a number, never NaN, that is not negative.  With [D] the rounding
    error of the squared discrepancy, the result is within [2 sqrt(D)] of the exact value [m],
    and within [2 D / m] of it when [m] is positive.  [bs] is the block size, one for both data
    sets or one for each. *)
Theorem C71_mmd_accurate :
  forall prec emax (Hp : Prec_gt_0 prec) (Hm : Prec_lt_emax prec emax) (Sm : SumOrder prec emax) a e L, mean_room prec emax a e (L + 2) ->
  forall {P Y} (p0 : P) (y0 : Y) (k : P -> P -> binary_float prec emax) xs w sx ys v sy bs b0 b1,
  weighted_data a xs w -> weighted_data a ys v ->
  (forall x y, In x (p0 :: xs ++ ys) -> In y (p0 :: xs ++ ys) -> at_most e (k x y)) ->
  bs = BTwo b0 b1 \/ bs = BOne b0 /\ b1 = b0 ->
  let n := length xs in let m := length ys in let bx := block_used n b0 in let by_ := block_used m b1 in
  (roundings n n bx bx <= L)%nat -> (roundings m m by_ by_ <= L)%nat -> (roundings n m bx by_ <= L)%nat ->
  let D := 14 * INR (L + 2) * bpow radix2 (e - prec) in
  let exact := sqrt (mmd2 (fun x y => B2R (k x y)) xs (map B2R w) ys (map B2R v)) in
  exists z, mmd_compute (FOpsIEEE prec emax) p0 y0 k (mkData xs w sx) (mkData ys v sy) bs = Ok z /\
    is_finite z = true /\ 0 <= B2R z /\
    Rabs (B2R z - exact) <= 2 * sqrt D /\ Rabs (B2R z - exact) * exact <= 2 * D.
Proof.
  intros prec emax Hp Hm Sm a e L HR P Y p0 y0 k xs w sx ys v sy bs b0 b1 HX HY Hk Hbs n m bx by_ R1 R2 R3 D exact.
  assert (Kx : forall x y, In x (p0 :: xs ++ xs) -> In y (p0 :: xs ++ xs) -> at_most e (k x y)).
  { intros x y Hx Hy. apply Hk; cbn in *; rewrite in_app_iff in *; tauto. }
  assert (Ky : forall x y, In x (p0 :: ys ++ ys) -> In y (p0 :: ys ++ ys) -> at_most e (k x y)).
  { intros x y Hx Hy. apply Hk; cbn in *; rewrite in_app_iff in *; tauto. }
  pose proof (Nat.le_trans _ _ _ R1 (Nat.le_add_r L 2)) as Q1. pose proof (Nat.le_trans _ _ _ R2 (Nat.le_add_r L 2)) as Q2.
  pose proof (Nat.le_trans _ _ _ R3 (Nat.le_add_r L 2)) as Q3.
  destruct (mean_apx prec emax a e _ HR p0 y0 k xs w sx xs w sx b0 b0 HX HX Kx Q1) as [xx [Ex Ax]].
  destruct (mean_apx prec emax a e _ HR p0 y0 k ys v sy ys v sy b1 b1 HY HY Ky Q2) as [yy [Ey Ay]].
  destruct (mean_apx prec emax a e _ HR p0 y0 k xs w sx ys v sy b0 b1 HX HY Hk Q3) as [xy [Exy Axy]].
  apply (apx_mono prec emax _ L _ _ _ (3 / 2 * bpow radix2 e)) in Ax; [|exact R1|lra].
  apply (apx_mono prec emax _ L _ _ _ (3 / 2 * bpow radix2 e)) in Ay; [|exact R2|lra].
  apply (apx_mono prec emax _ L _ _ _ (3 / 2 * bpow radix2 e)) in Axy; [|exact R3|lra].
  pose proof (sq_apx prec emax a e _ HR L xx yy xy _ _ _ (le_n _) Ax Ay Axy) as S.
  assert (L4 : (6 <= L + 2)%nat) by (unfold roundings in R1; lia).
  destruct (root_apx prec emax a e _ HR (L + 2) _ _ (conj L4 (le_n _)) S) as (F & N & B1 & B2).
  exists (root prec emax (sq_of prec emax xx yy xy)). split; [|split; [exact F|split; [exact N|split; [exact B1|exact B2]]]].
  unfold mmd_compute. destruct Hbs as [->|[-> ->]]; cbn [bs_leaves leaves_repeat app rev length Nat.sub repeat nth]; rewrite Ex, Ey, Exy; reflexivity.
Qed.
Print Assumptions C71_mmd_accurate.

(** [MMD.compute(x, x)] is exactly zero when the block sizes agree *)
Theorem C71_mmd_self :
  forall prec emax (Hp : Prec_gt_0 prec) (Hm : Prec_lt_emax prec emax) (Sm : SumOrder prec emax) a e L, mean_room prec emax a e (L + 2) ->
  forall {P Y} (p0 : P) (y0 : Y) (k : P -> P -> binary_float prec emax) xs w sx bs b,
  weighted_data a xs w ->
  (forall x y, In x (p0 :: xs) -> In y (p0 :: xs) -> at_most e (k x y)) ->
  bs = BTwo b b \/ bs = BOne b ->
  (roundings (length xs) (length xs) (block_used (length xs) b) (block_used (length xs) b) <= L)%nat ->
  exists z, mmd_compute (FOpsIEEE prec emax) p0 y0 k (mkData xs w sx) (mkData xs w sx) bs = Ok z /\ is_finite z = true /\ B2R z = 0.
Proof.
  intros prec emax Hp Hm Sm a e L HR P Y p0 y0 k xs w sx bs b HX Hk Hbs R1.
  assert (Kx : forall x y, In x (p0 :: xs ++ xs) -> In y (p0 :: xs ++ xs) -> at_most e (k x y)).
  { intros x y Hx Hy. apply Hk; cbn in *; rewrite in_app_iff in *; tauto. }
  pose proof (Nat.le_trans _ _ _ R1 (Nat.le_add_r L 2)) as Q1.
  destruct (mean_apx prec emax a e _ HR p0 y0 k xs w sx xs w sx b b HX HX Kx Q1) as [s [Es A]].
  destruct (self_zero prec emax a e _ HR _ s _ A Q1) as [F Z].
  exists (root prec emax (sq_of prec emax s s s)). split; [|split; [exact F|exact Z]].
  unfold mmd_compute. destruct Hbs as [->| ->]; cbn [bs_leaves leaves_repeat app rev length Nat.sub repeat nth]; rewrite !Es; reflexivity.
Qed.
Print Assumptions C71_mmd_self.

(** ** C71: the built-in kernels *)
(** for the kernels of C69 the output scale bounds the kernel values, so the discrepancy is
    accurate for all finite points.  [n_dim] is the number of features; padding adds points
    of zeros. *)
Definition sc_value {prec emax} (s : ten (binary_float prec emax)) : binary_float prec emax := match s with Sc v => v | _ => B754_nan end.
Theorem C71_mmd_of_kernels :
  forall prec emax (Hp : Prec_gt_0 prec) (Hm : Prec_lt_emax prec emax) (Sm : SumOrder prec emax) a e L, mean_room prec emax a e (L + 2) ->
  forall T jgrad keq (kn : kern (binary_float prec emax)) s d,
  elementary T -> scale_and_divisor (FOpsIEEE prec emax) kn = Some (s, d) ->
  is_finite s = true -> 0 < B2R s <= bpow radix2 e -> is_finite d = true -> 0 < B2R d ->
  (forall l s a, kn = KRQ l s a -> is_finite a = true /\ 0 <= B2R a) ->
  forall {Y} (y0 : Y) n_dim xs w sx ys v sy bs b0 b1,
  weighted_data a xs w -> weighted_data a ys v -> Forall (all_finite prec emax) xs -> Forall (all_finite prec emax) ys ->
  bs = BTwo b0 b1 \/ bs = BOne b0 /\ b1 = b0 ->
  let n := length xs in let m := length ys in let bx := block_used n b0 in let by_ := block_used m b1 in
  (roundings n n bx bx <= L)%nat -> (roundings m m by_ by_ <= L)%nat -> (roundings n m bx by_ <= L)%nat ->
  let k := fun x y => sc_value (m_val (methods (FOpsIEEE prec emax) T jgrad keq kn) x y) in
  let D := 14 * INR (L + 2) * bpow radix2 (e - prec) in
  let exact := sqrt (mmd2 (fun x y => B2R (k x y)) xs (map B2R w) ys (map B2R v)) in
  exists z, mmd_compute (FOpsIEEE prec emax) (repeat (B754_zero false) n_dim) y0 k (mkData xs w sx) (mkData ys v sy) bs = Ok z /\
    is_finite z = true /\ 0 <= B2R z /\ Rabs (B2R z - exact) <= 2 * sqrt D /\ Rabs (B2R z - exact) * exact <= 2 * D.
Proof.
  intros prec emax Hp Hm Sm a e L HR T jgrad keq kn s d ET SD Fs [Ps Bs] Fd Pd Ha Y y0 n_dim xs w sx ys v sy bs b0 b1 HX HY AX AY Hbs n m bx by_ R1 R2 R3 k D exact.
  apply (C71_mmd_accurate prec emax Hp Hm Sm a e L HR _ y0 k xs w sx ys v sy bs b0 b1 HX HY); auto.
  assert (AF : forall x, In x (repeat (B754_zero false) n_dim :: xs ++ ys) -> all_finite prec emax x).
  { intros x [<-|Hx]; [apply Forall_forall; intros u Hu; apply repeat_spec in Hu; now subst u|].
    apply in_app_or in Hx as [Hx|Hx]; [exact (proj1 (Forall_forall _ _) AX x Hx)|exact (proj1 (Forall_forall _ _) AY x Hx)]. }
  intros x y Hx Hy. destruct (C69_bounds prec emax Hp Hm Sm T jgrad keq kn s d ET SD Fs Ps Fd Pd Ha) as [_ B].
  destruct (B x y (AF x Hx) (AF y Hy)) as (u & E & Fu & Bu). unfold k. rewrite E. cbn [sc_value]. split; auto. rewrite Rabs_pos_eq by lra. lra.
Qed.
Print Assumptions C71_mmd_of_kernels.

(** binary32: 2^10 points, kernel values up to 1, 2^23 roundings *)
Example C71_room : forall L, (Z.of_nat L <= 2 ^ 23)%Z -> mean_room 24 128 10 0 L.
Proof. intros. constructor; lia. Qed.
(** binary64: 2^30 points, kernel values up to 2^500, 2^52 roundings *)
Example C71_room64 : forall L, (Z.of_nat L <= 2 ^ 52)%Z -> mean_room 53 1024 30 500 L.
Proof. intros. constructor; lia. Qed.
Lemma f32_ok : weight_ok (Bone : F32).
Proof. split; [apply is_finite_Bone|]. rewrite Bone_correct. lra. Qed.
Lemma ones_data {P} (xs : list P) : xs <> [] -> (Z.of_nat (length xs) <= 2 ^ 10)%Z -> weighted_data (prec := 24) (emax := 128) 10 xs (repeat Bone (length xs)).
Proof.
  intros NE HL. assert (T : total (repeat (Bone : F32) (length xs)) = INR (length xs)).
  { unfold total. generalize (length xs) as n. induction n; [reflexivity|]. cbn [repeat map Rsum]. rewrite IHn, Bone_correct, S_INR. ring. }
  constructor.
  - exact HL.
  - apply repeat_length.
  - apply Forall_forall. intros u Hu. apply repeat_spec in Hu. subst u. apply f32_ok.
  - rewrite T. apply lt_0_INR. destruct xs; [congruence|]. apply Nat.lt_0_succ.
  - rewrite T. apply Rle_trans with (bpow radix2 10); [|apply bpow_le; lia]. rewrite <- IZR_Zpower by lia. rewrite INR_IZR_INZ. now apply IZR_le.
Qed.
(** any two sets of at most 1024 points and any kernel with values of at most one *)
Example C71_mmd_applies : forall (k : nat -> nat -> F32) xs ys, (forall x y, at_most 0 (k x y)) -> xs <> [] -> ys <> [] ->
  (Z.of_nat (length xs) <= 2 ^ 10)%Z -> (Z.of_nat (length ys) <= 2 ^ 10)%Z ->
  exists z, mmd_compute F32Ops 0%nat tt k (mkData xs (repeat Bone (length xs)) None) (mkData ys (repeat Bone (length ys)) None) (BOne None) = Ok z /\
    is_finite z = true /\ 0 <= B2R z.
Proof.
  intros k xs ys Hk NX NY LX LY.
  assert (PX : (0 < length xs)%nat) by (destruct xs; [congruence|apply Nat.lt_0_succ]). assert (PY : (0 < length ys)%nat) by (destruct ys; [congruence|apply Nat.lt_0_succ]).
  set (L := (4 * (length xs + length ys) + 5)%nat).
  assert (R : forall n m, (0 < n)%nat -> (0 < m)%nat -> (2 * (n + m) + 5 <= L)%nat -> (roundings n m (block_used n None) (block_used m None) <= L)%nat).
  { intros n m Hn Hm H. unfold roundings, block_used, block_count.
    assert (D1 : forall q, (0 < q)%nat -> ((q + (q - 1)) / q = 1)%nat).
    { intros q Hq. symmetry. apply (Nat.div_unique _ _ 1 (q - 1)); lia. }
    rewrite !D1 by lia. lia. }
  assert (HR : mean_room 24 128 10 0 (L + 2)) by (apply C71_room; unfold L; change (2 ^ 23)%Z with 8388608%Z; change (2 ^ 10)%Z with 1024%Z in *; lia).
  destruct (C71_mmd_accurate 24 128 _ _ _ 10 0 L HR 0%nat tt k xs (repeat Bone (length xs)) None ys (repeat Bone (length ys)) None (BOne None) None None
    (ones_data xs NX LX) (ones_data ys NY LY) (fun x y _ _ => Hk x y) (or_intror (conj eq_refl eq_refl))) as (z & E & F & N & _); try (apply R; unfold L; lia).
  exists z. split; [exact E|]. split; [exact F|exact N].
Qed.

(** ** C71: what does not hold *)
Definition tenths (l : list Z) : list F32 := map (fun n => Bdiv mode_NE (f32 n 0) (f32 10 0)) l.
Definition uniform (l : list F32) : Data F32 unit F32 := mkData l (map (fun _ => Bone) l) None.
(** the discrepancy between a data set and a reordering of it is 11863283 * 2^-36, about
    0.00017, in binary32 with the linear kernel; it is zero in exact arithmetic *)
Theorem C71_reordering_refuted :
  exists z, mmd_compute F32Ops (f32 0 0) tt (fmul F32Ops) (uniform (tenths [1; 7; 3; 9]%Z)) (uniform (tenths [3; 1; 9; 7]%Z)) (BOne None) = Ok z /\
    B2SF z = S754_finite false 11863283 (-36).
Proof.
  set (r := mmd_compute _ _ _ _ _ _ _).
  assert (E : match r with Ok z => B2SF z | Err _ => S754_nan end = S754_finite false 11863283 (-36)) by (vm_compute; reflexivity).
  destruct r as [z|]; [exists z; split; [reflexivity|exact E]|discriminate].
Qed.
Print Assumptions C71_reordering_refuted.
(** [compute(x, y)] and [compute(y, x)] need not be the same number *)
Theorem C71_symmetry_refuted :
  let x := uniform (tenths [1; 2; 3]%Z) in let y := uniform (tenths [5; 7]%Z) in
  exists z1 z2, mmd_compute F32Ops (f32 0 0) tt (fmul F32Ops) x y (BOne None) = Ok z1 /\
    mmd_compute F32Ops (f32 0 0) tt (fmul F32Ops) y x (BOne None) = Ok z2 /\
    B2SF z1 = S754_finite false 13421773 (-25) /\ B2SF z2 = S754_finite false 13421772 (-25).
Proof.
  intros x y. set (r1 := mmd_compute _ _ _ _ x y _). set (r2 := mmd_compute _ _ _ _ y x _).
  assert (E1 : match r1 with Ok z => B2SF z | Err _ => S754_nan end = S754_finite false 13421773 (-25)) by (vm_compute; reflexivity).
  assert (E2 : match r2 with Ok z => B2SF z | Err _ => S754_nan end = S754_finite false 13421772 (-25)) by (vm_compute; reflexivity).
  clearbody r1 r2. destruct r1 as [z1|]; [|discriminate]. destruct r2 as [z2|]; [|discriminate]. exists z1, z2. split; [reflexivity|]. split; [reflexivity|]. split; [exact E1|exact E2].
Qed.
Print Assumptions C71_symmetry_refuted.
