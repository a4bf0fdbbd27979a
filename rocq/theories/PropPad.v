(** * Padding in blocked kernel means, and the Stein discrepancy with the default score: C99

    [compute_mean] pads each data set with all-zero rows of weight zero up to a multiple of the
    block size (kernels/util.py:29-47).  In floating point arithmetic zero times NaN is NaN, so
    the value of the kernel at the origin matters. *)
From Coq Require Import List ZArith Bool Reals Lia Lra.
From Coq Require Import Floats.SpecFloat.
From Flocq Require Import Core.Core IEEE754.BinarySingleNaN.
From Verif Require Import Num Jax RSum DataModel MeanModel MetricModel UtilModel KernelModel ApproxModel ScoreModel ThinModel KsdModel
  MeanSpec SumSpec SumProofs Float FloatProofs2 FloatIdxSpec FloatErrSpec PropFloat PropFloatMMD PropFloatJMMD FloatScore PropFloatScore FloatSteinK PropSteinDefault FloatPad.
Import ListNotations.
Open Scope R_scope.

(** the discrepancy between a data set and some of its rows, with the default score, is a finite
    number, close to the exact discrepancy of the Stein kernel, if the block sizes divide the
    number of rows *)
Theorem C99_ksd_default_partial :
  forall prec emax (Hp : Prec_gt_0 prec) (Hm : Prec_lt_emax prec emax) (Sm : SumOrder prec emax) T jgrad keq jac kde c l t p r u a L len s0 s
      (X : list (list (binary_float prec emax))) wx d stein {Y} p0 (y0 : Y) ys v sy bs b0 b1,
    elementary T -> kdm_init (FOpsIEEE prec emax) T len = Ok (KSE len s0) -> score_range c l t p len s0 X ->
    (0 <= c)%Z -> (l <= 0)%Z -> (0 <= u)%Z -> is_finite s = true -> 0 < B2R s <= bpow radix2 u ->
    (forall y, In y X -> length y = d) -> (1 <= r <= prec)%Z -> (Z.of_nat d < 2 ^ r)%Z ->
    let e := (r + u + 2 * (c + 2 - l + p) + 3)%Z in (a + e + 2 <= emax)%Z -> (2 * a < prec)%Z -> mean_room prec emax a e (L + 2) ->
    convert_stein_kernel (FOpsIEEE prec emax) T jgrad keq X (KSE len s) None = Ok stein ->
    weighted_data a ys v -> incl ys X ->
    bs = BTwo b0 b1 \/ bs = BOne b0 /\ b1 = b0 ->
    let m := length ys in
    (m mod block_used m b0 = 0)%nat -> (m mod block_used m b1 = 0)%nat ->
    (roundings m m (block_used m b0) (block_used m b1) <= L)%nat ->
    let exact := sqrt (wavg (fun x => wavg (fun y => B2R (unsc (FOpsIEEE prec emax) (m_val (methods (FOpsIEEE prec emax) T jgrad keq stein) x y))) ys (map B2R v))
      ys (map B2R v)) in
    exists z, ksd (FOpsIEEE prec emax) T jgrad keq jac kde p0 y0 (KSE len s) None false false bs (mkData X wx None) (mkData ys v sy) = Ok z /\
      is_finite z = true /\ 0 <= B2R z /\ Rabs (B2R z - exact) <= 2 * sqrt (14 * INR (L + 2) * bpow radix2 (e - prec)).
Proof.
  intros prec emax Hp Hm Sm T jgrad keq jac kde c l t p r u a L len s0 s X wx d stein Y p0 y0 ys v sy bs b0 b1
    E I R Hc Hl Hu Fs Bs HL Hr Hd e Ha1 Ha2 HR CV HY HI Hbs m M0 M1 HRd exact.
  assert (NE : ys <> []). { intros ->. pose proof (wd_pos _ _ _ HY) as TP. pose proof (wd_len _ _ _ HY) as WL. destruct v; [|discriminate]. unfold total in TP. cbn in TP. lra. }
  assert (HQ : exists q, In q ys) by (clear - NE; destruct ys as [|q ys]; [congruence|exists q; now left]). destruct HQ as [q Hq].
  set (k := fun x y => unsc (FOpsIEEE prec emax) (m_val (methods (FOpsIEEE prec emax) T jgrad keq stein) x y)) in *.
  assert (K : forall x y, In x (q :: ys) -> In y (q :: ys) -> at_most e (k x y)).
  { assert (Q : forall x, In x (q :: ys) -> In x X) by (intros x [<-|Hx]; apply HI; auto). intros x y Hx Hy.
    destruct (C98_default_stein_kernel prec emax Hp Hm Sm T jgrad keq c l t p r u len s0 s X d stein E I R Hc Hl Hu Fs Bs HL Hr Hd) with (x := x) (y := y) as (w & W & A); auto.
    { pose proof (mr_size _ _ _ _ _ HR). fold e. lia. }
    unfold k. rewrite W. exact A. }
  assert (FZ : Forall (at_most e) (map (fun _ => f0 (FOpsIEEE prec emax)) ys)).
  { apply Forall_forall. intros w Hw. apply in_map_iff in Hw as [x [<- _]]. split; [reflexivity|]. cbn [f0 FOpsIEEE B2R]. rewrite Rabs_R0. apply bpow_ge_0. }
  destruct (C85_ksd_accurate prec emax Hp Hm Sm a e L HR Ha1 Ha2 q y0 (fun _ => k) (fun _ _ l => map (fun _ => f0 (FOpsIEEE prec emax)) l)
    (fun _ l => map (fun _ => f0 (FOpsIEEE prec emax)) l) false false X wx ys v sy bs b0 b1 HY K (map_length _ _) FZ (map_length _ _) FZ Hbs HRd) as (z & Z1 & Z2 & Z3 & Z4 & _).
  exists z. rewrite Rplus_0_r, Rminus_0_r in Z4. split; [|split; [exact Z2|split; [exact Z3|exact Z4]]].
  rewrite <- Z1. unfold ksd, ksd_compute. cbn [unpack2 d_y d_x d_w bind]. rewrite CV. cbn [bind]. fold k.
  replace (mean_scalar (FOpsIEEE prec emax) p0 y0 k (mkData ys v sy) (mkData ys v sy) bs)
    with (mean_scalar (FOpsIEEE prec emax) q y0 k (mkData ys v sy) (mkData ys v sy) bs); [reflexivity|].
  destruct Hbs as [->|[-> ->]]; [|rewrite !mean_one_two]; apply mean_scalar_pad; cbn [d_x]; auto.
Qed.
Print Assumptions C99_ksd_default_partial.

(** with padding: a kernel mean is NaN as soon as the kernel is NaN at some pair of rows that the
    scan visits, the zero row [p0] being visited when the block size does not divide the number
    of rows *)
Theorem C99_padding_is_nan :
  forall prec emax (Hp : Prec_gt_0 prec) (Hm : Prec_lt_emax prec emax) (Sm : SumOrder prec emax) {P Y} (p0 : P) (y0 : Y) k xs w sx ys v sy b0 b1,
    xs <> [] -> ys <> [] -> length w = length xs -> length v = length ys ->
    (length xs mod block_used (length xs) b0 <> 0)%nat ->
    (exists y, k p0 y = B754_nan /\ (In y ys \/ y = p0 /\ (length ys mod block_used (length ys) b1 <> 0)%nat)) ->
    mean_scalar (FOpsIEEE prec emax) p0 y0 k (mkData xs w sx) (mkData ys v sy) (BTwo b0 b1) = Ok B754_nan.
Proof.
  intros prec emax Hp Hm Sm P Y p0 y0 k xs w sx ys v sy b0 b1 HX HY LX LY M (y & N & V).
  apply (mean_nan prec emax p0 y0 k (mkData xs w sx) (mkData ys v sy) b0 b1 p0 y); auto. right. auto.
Qed.
Print Assumptions C99_padding_is_nan.

(** so the discrepancy with the default score is NaN, whatever the comparison data and the
    corrections, when a block size leaves a remainder and the data are so far from the origin
    that the kernel values there underflow *)
Theorem C99_ksd_far_origin :
  forall prec emax (Hp : Prec_gt_0 prec) (Hm : Prec_lt_emax prec emax) (Sm : SumOrder prec emax) T jgrad keq jac kde len s0 s
      (X : list (list (binary_float prec emax))) wx d {Y} (y0 : Y) lc rg ys v sy b,
    kdm_init (FOpsIEEE prec emax) T len = Ok (KSE len s0) ->
    X <> [] -> (1 <= d)%nat -> (forall y, In y X -> length y = d) ->
    let origin := repeat (f0 (FOpsIEEE prec emax)) d in
    (forall y, In y X -> exists w, m_val (methods (FOpsIEEE prec emax) T jgrad keq (KSE len s0)) origin y = Sc w /\ is_finite w = true /\ B2R w = 0) ->
    ys <> [] -> length v = length ys -> (length ys mod block_used (length ys) b <> 0)%nat ->
    ksd (FOpsIEEE prec emax) T jgrad keq jac kde origin y0 (KSE len s) None lc rg (BOne b) (mkData X wx None) (mkData ys v sy) = Ok B754_nan.
Proof.
  intros prec emax Hp Hm Sm T jgrad keq jac kde len s0 s X wx d Y y0 lc rg ys v sy b I HX Hd HL origin HZ HY LV M.
  unfold ksd, convert_stein_kernel. cbn [unpack2 d_y d_x d_w bind length_scale_of]. rewrite I. cbn [bind].
  assert (LO : length origin = d) by apply repeat_length.
  assert (SC : kdm_match (FOpsIEEE prec emax) T jgrad keq (KSE len s0) X origin = repeat B754_nan d).
  { unfold kdm_match. rewrite (C97_underflow_is_nan prec emax Hp Hm Sm T jgrad keq len s0 X origin HX); [now rewrite LO|intros y Hy; now rewrite LO, HL|exact HZ]. }
  rewrite mean_one_two. rewrite C99_padding_is_nan; auto.
  exists origin. split; [|now right]. cbn [methods m_val auto_meth]. unfold stein_val. cbn [methods m_val m_gx m_gy m_div se_meth]. rewrite !SC.
  assert (GL : length (se_gy (FOpsIEEE prec emax) T len s origin origin) = d).
  { unfold se_gy, difference. rewrite map_length, map2_length, LO. apply Nat.min_id. }
  unfold tmatmul, tmul, tmap2, tadd, tmap2. rewrite !map_length, GL, !repeat_length, !Nat.eqb_refl. cbn [unsc].
  assert (IN : In B754_nan (repeat (B754_nan : binary_float prec emax) d)) by (destruct d; [lia|now left]).
  apply (nan_plus prec emax). right. apply nan_dot_r; [exact IN|]. now rewrite map_length.
Qed.
Print Assumptions C99_ksd_far_origin.

(** three points near 100 in binary32, bandwidth 1, compared with themselves: a number with
    blocks of one row, NaN with blocks of two; [exp] of anything below -104 is zero in binary32 *)
Definition far_rows : list (list F32) := [[f32 100 0]; [f32 101 0]; [f32 102 0]].
Lemma far_range : score_range 7 0 (-1) 2 (f32 1 0) scale32 far_rows.
Proof.
  destruct ex_range as [_ A2 A3 A4 _ A6 _ _ _ _ _]. constructor; auto; try lia.
  - intros y Hy. assert (AM : forall n e, (Z.abs n < 2 ^ 24)%Z -> (-149 <= e)%Z -> (e <= 100)%Z -> Rabs (IZR n * bpow radix2 e) <= 128 -> at_most 7 (f32 n e)).
    { intros n e H1 H2 H3 H4. destruct (f32_exact n e H1 H2 H3) as [F R]. split; [exact F|]. rewrite R. exact H4. }
    revert y Hy. apply Forall_forall. unfold far_rows. repeat (apply Forall_cons || apply Forall_nil); apply AM; try lia; apply Rabs_le; cbn; lra.
  - unfold far_rows. cbn [length]. lia.
Qed.
Lemma far_len y : In y far_rows -> length y = 1%nat.
Proof. intros Hy. repeat destruct Hy as [<-|Hy]; try destruct Hy; reflexivity. Qed.
Theorem C99_ksd_refuted :
  forall (T : TOps F32) jgrad keq jac kde wx, elementary T -> fpi T = pi32 ->
    (forall v, Bltb v (f32 (-104) 0) = true -> fexp T v = B754_zero false) ->
    let ones := repeat (f1 F32Ops) 3 in
    (exists z, ksd F32Ops T jgrad keq jac kde [f0 F32Ops] tt (KSE (f32 1 0) (f32 1 0)) None false false (BOne (Some 1%Z)) (mkData far_rows wx None) (mkData far_rows ones None) = Ok z /\
      is_finite z = true) /\
    ksd F32Ops T jgrad keq jac kde [f0 F32Ops] tt (KSE (f32 1 0) (f32 1 0)) None false false (BOne (Some 2%Z)) (mkData far_rows wx None) (mkData far_rows ones None) = Ok B754_nan.
Proof.
  intros T jgrad keq jac kde wx E P U ones.
  assert (I : kdm_init F32Ops T (f32 1 0) = Ok (KSE (f32 1 0) scale32)) by (unfold kdm_init; rewrite P; fold scale32; exact scale32_ok).
  destruct (f32_exact 1%Z 0%Z ltac:(lia) ltac:(lia) ltac:(lia)) as [F1 V1].
  assert (B1 : 0 < B2R (f32 1 0) <= bpow radix2 0) by (rewrite V1; cbn; lra).
  split.
  - set (k := kdm_match F32Ops T jgrad keq (KSE (f32 1 0) scale32) far_rows).
    assert (CV : convert_stein_kernel F32Ops T jgrad keq far_rows (KSE (f32 1 0) (f32 1 0)) None = Ok (KStein (KSE (f32 1 0) (f32 1 0)) k)).
    { unfold convert_stein_kernel. cbn [length_scale_of]. rewrite I. reflexivity. }
    assert (WD : weighted_data 10 far_rows ones) by (apply (ones_data far_rows); [discriminate|cbn; lia]).
    assert (HR : mean_room 24 128 10 26 (21 + 2)) by (constructor; lia).
    destruct (C99_ksd_default_partial 24 128 _ _ _ T jgrad keq jac kde 7 0 (-1) 2 1 0 10 21 (f32 1 0) scale32 (f32 1 0) far_rows wx 1 _
      [f0 F32Ops] tt far_rows ones None (BOne (Some 1%Z)) (Some 1%Z) (Some 1%Z) E I far_range ltac:(lia) ltac:(lia) ltac:(lia) F1 B1 far_len ltac:(lia) ltac:(lia)
      ltac:(lia) ltac:(lia) HR CV WD (incl_refl _) (or_intror (conj eq_refl eq_refl)) eq_refl eq_refl) as (z & Z1 & Z2 & _); [vm_compute; lia|].
    exists z. auto.
  - apply (C99_ksd_far_origin 24 128 _ _ _ T jgrad keq jac kde (f32 1 0) scale32 (f32 1 0) far_rows wx 1 tt false false far_rows ones None (Some 2%Z) I);
      [discriminate|lia|exact far_len| |discriminate|reflexivity|discriminate].
    assert (K : forall a : F32, Bltb (fdiv F32Ops (fneg F32Ops (squared_distance F32Ops [f0 F32Ops] [a])) (fmul F32Ops (fofZ F32Ops 2) (sq F32Ops (f32 1 0)))) (f32 (-104) 0) = true ->
        exists w, m_val (methods F32Ops T jgrad keq (KSE (f32 1 0) scale32)) (repeat (f0 F32Ops) 1) [a] = Sc w /\ is_finite w = true /\ B2R w = 0).
    { intros a H. exists (B754_zero false). split; [|split; reflexivity]. cbn [methods m_val se_meth]. unfold se_val. f_equal.
      set (q := fdiv F32Ops _ _). rewrite (U q H). apply B2SF_inj. vm_compute. reflexivity. }
    intros y Hy. repeat destruct Hy as [<-|Hy]; [| | |destruct Hy]; apply K; vm_compute; reflexivity.
Qed.
Print Assumptions C99_ksd_refuted.
(** a function that meets the assumptions on [exp] *)
Definition far_tops : TOps F32 :=
  mkTOps F32 (fun v => if Bltb v (f32 (-104) 0) then B754_zero false else fexp ex_tops v) (fsin ex_tops) (fcos ex_tops) pi32 (fpow ex_tops).
Example C99_ksd_refuted_applies : elementary far_tops /\ fpi far_tops = pi32 /\ (forall v, Bltb v (f32 (-104) 0) = true -> fexp far_tops v = B754_zero false).
Proof.
  split; [|split; [reflexivity|]].
  - destruct ex_elementary as [E0 E1 E2 E3]. constructor; auto; cbn [far_tops fexp].
    intros v V. destruct (Bltb v (f32 (-104) 0)); [|now apply E1]. unfold upto. cbn. repeat split; lra.
  - intros v H. cbn [far_tops fexp]. now rewrite H.
Qed.
(** the hypotheses of the first theorem: three rows with two coordinates each, compared with the
    last two in blocks of one *)
Example C99_ksd_default_applies :
  exists z, ksd F32Ops score_tops (fun _ z => z) (fun _ _ => false) (fun _ _ => []) (fun _ _ _ _ => []) [f0 F32Ops; f0 F32Ops] tt (KSE (f32 1 0) (f32 3 0)) None false false
      (BTwo (Some 1%Z) None) (mkData ex_rows [] None) (mkData (tl ex_rows) [f1 F32Ops; f1 F32Ops] None) = Ok z /\ is_finite z = true.
Proof.
  destruct (f32_exact 3%Z 0%Z ltac:(lia) ltac:(lia) ltac:(lia)) as [F3 V3].
  assert (B3 : 0 < B2R (f32 3 0) <= bpow radix2 2) by (rewrite V3; cbn; lra).
  assert (WD : weighted_data 10 (tl ex_rows) [f1 F32Ops; f1 F32Ops]) by (apply (ones_data (tl ex_rows)); [discriminate|cbn; lia]).
  assert (HR : mean_room 24 128 10 25 (21 + 2)) by (constructor; lia).
  destruct (C99_ksd_default_partial 24 128 _ _ _ score_tops (fun _ z => z) (fun _ _ => false) (fun _ _ => []) (fun _ _ _ _ => []) 5 0 (-1) 2 2 2 10 21
    (f32 1 0) scale32 (f32 3 0) ex_rows [] 2 ex_stein [f0 F32Ops; f0 F32Ops] tt (tl ex_rows) _ None (BTwo (Some 1%Z) None) (Some 1%Z) None
    score_elementary ex_init ex_range ltac:(lia) ltac:(lia) ltac:(lia) F3 B3 ex_rows_len ltac:(lia) ltac:(lia) ltac:(lia) ltac:(lia) HR ex_conv WD
    (fun x H => or_intror H) (or_introl eq_refl) eq_refl eq_refl) as (z & Z1 & Z2 & _); [vm_compute; lia|].
  exists z. auto.
Qed.
