(** * Kernel density scores in floating point arithmetic: C97

    [KernelDensityMatching(length_scale).match(X)] returns a function computing the score of
    the kernel density estimate of [X]; it divides a mean of kernel gradients by the mean of
    the kernel values at the query (score_matching.py:404-436). *)
From Coq Require Import List ZArith Bool Reals Lia Lra.
From Coq Require Import Floats.SpecFloat.
From Flocq Require Import Core.Core IEEE754.BinarySingleNaN.
From Verif Require Import Num Jax RSum DataModel MeanModel UtilModel KernelModel KernelSpec KernelProofs3 ApproxModel ScoreModel ScoreSpec ScoreProofs
  SumSpec SumProofs Float FloatProofs2 FloatIdxSpec PropFloat FloatScore.
Import ListNotations.
Open Scope R_scope.

(** the ranges of the data and of the bandwidth: coordinates at most [2^c] in size, a squared
    bandwidth of at least [2^l], an output scale between [2^(t-1)] and [2^t], fewer than [2^p]
    rows, and none of the sizes that follow from these outside the range of the format *)
Record score_range {prec emax} {Hp : Prec_gt_0 prec} {Hm : Prec_lt_emax prec emax} {Sm : SumOrder prec emax}
    (c l t p : Z) (len s : binary_float prec emax) (X : list (list (binary_float prec emax))) : Prop := mkScoreRange {
  sr_coord : forall y, In y X -> Forall (at_most c) y;
  sr_len : is_finite (sq (FOpsIEEE prec emax) len) = true /\ bpow radix2 l <= B2R (sq (FOpsIEEE prec emax) len);
  sr_divisor : is_finite (fmul (FOpsIEEE prec emax) (fofZ (FOpsIEEE prec emax) 2) (sq (FOpsIEEE prec emax) len)) = true /\
    0 < B2R (fmul (FOpsIEEE prec emax) (fofZ (FOpsIEEE prec emax) 2) (sq (FOpsIEEE prec emax) len));
  sr_scale : is_finite s = true /\ bpow radix2 (t - 1) <= B2R s <= bpow radix2 t;
  sr_rows : (Z.of_nat (length X) < 2 ^ p)%Z;
  sr_p : (1 <= p <= prec /\ p <= emax - 3)%Z;
  sr_1 : (3 - emax - prec <= c + 1 /\ c + 2 <= emax)%Z;
  sr_2 : (3 - emax - prec <= c + 1 - l /\ c + 2 - l <= emax)%Z;
  sr_3 : (3 - emax - prec <= c + 1 - l + t /\ c + 1 - l + t + p <= emax)%Z;
  sr_4 : (3 - emax - prec <= t - 1 - p /\ t + p <= emax)%Z;
  sr_5 : (3 - emax - prec <= c + 2 - l + p /\ c + 3 - l + p <= emax)%Z
}.

(** at every row of the data the score has the length of the row and finite entries, of size at
    most four times the number of rows times coordinate size over squared bandwidth *)
Theorem C97_score_at_data_partial :
  forall prec emax (Hp : Prec_gt_0 prec) (Hm : Prec_lt_emax prec emax) (Sm : SumOrder prec emax) T jgrad keq c l t p len s
      (X : list (list (binary_float prec emax))) x,
    elementary T -> kdm_init (FOpsIEEE prec emax) T len = Ok (KSE len s) -> score_range c l t p len s X ->
    In x X -> (forall y, In y X -> length y = length x) ->
    exists v, kdm_score (FOpsIEEE prec emax) T jgrad keq (KSE len s) X (IPoint x) = Ok (OVec v) /\
      length v = length x /\ Forall (at_most (c + 2 - l + p)) v.
Proof.
  intros prec emax Hp Hm Sm T jgrad keq c l t p len s X x E _ [A1 [A2 A3] [A4 A5] [A6 A7] A8 [A9 A10] B1 B2 B3 B4 B5] Hx HL.
  apply (row_score prec emax T jgrad keq c l t p len s); auto.
Qed.
Print Assumptions C97_score_at_data_partial.

(** pi and 1 in binary32; exp replaced by 1/(1-v), which meets [elementary] *)
Definition pi32 : F32 := f32 13176795 (-22).
Definition score_tops : TOps F32 := mkTOps F32 (fexp ex_tops) (fsin ex_tops) (fcos ex_tops) pi32 (fpow ex_tops).
Definition scale32 : F32 := fdiv F32Ops (f1 F32Ops) (fmul F32Ops (fsqrt F32Ops (fmul F32Ops (fofZ F32Ops 2) pi32)) (f32 1 0)).
Lemma scale32_ok : check_init F32Ops (KSE (f32 1 0) scale32) = Ok (KSE (f32 1 0) scale32).
Proof.
  unfold check_init. assert (L1 : le0 F32Ops (f32 1 0) = false) by (vm_compute; reflexivity).
  assert (L2 : le0 F32Ops scale32 = false) by (vm_compute; reflexivity). rewrite L1, L2. reflexivity.
Qed.
Lemma f32_exact n e : (Z.abs n < 2 ^ 24)%Z -> (-149 <= e)%Z -> (e <= 100)%Z -> is_finite (f32 n e) = true /\ B2R (f32 n e) = IZR n * bpow radix2 e.
Proof.
  intros Hn H1 H2. unfold f32. pose proof (binary_normalize_correct 24 128 _ _ mode_NE n e false) as C. cbn zeta in C.
  assert (G : generic_format radix2 (SpecFloat.fexp 24 128) (F2R (beta := radix2) {| Fnum := n; Fexp := e |})).
  { change (SpecFloat.fexp 24 128) with (FLT_exp (-149) 24). apply generic_format_FLT. exists (Float radix2 n e); auto. }
  rewrite round_generic in C by (auto with typeclass_instances; apply valid_rnd_round_mode).
  rewrite Rlt_bool_true in C.
  - destruct C as (C & F & _). split; auto.
  - unfold F2R. cbn [Fnum Fexp]. rewrite Rabs_mult, (Rabs_pos_eq (bpow radix2 e)) by apply bpow_ge_0. rewrite <- abs_IZR.
    apply Rlt_le_trans with (bpow radix2 24 * bpow radix2 e).
    + apply Rmult_lt_compat_r; [apply bpow_gt_0|]. change (bpow radix2 24) with (IZR (2 ^ 24)). now apply IZR_lt.
    + rewrite <- bpow_plus. apply bpow_le. lia.
Qed.
Lemma score_elementary : elementary score_tops.
Proof. destruct ex_elementary as [E0 E1 E2 E3]. constructor; auto. Qed.
Definition ex_rows : list (list F32) := [[f32 3 0; f32 (-1) (-5)]; [f32 0 0; f32 7 2]; [f32 3 0; f32 1 3]].
Lemma ex_init : kdm_init F32Ops score_tops (f32 1 0) = Ok (KSE (f32 1 0) scale32).
Proof. unfold kdm_init. change (fpi score_tops) with pi32. fold scale32. exact scale32_ok. Qed.
Lemma ex_range : score_range 5 0 (-1) 2 (f32 1 0) scale32 ex_rows.
Proof.
  assert (LE : forall a b : F32, is_finite a = true -> is_finite b = true -> Bleb a b = true -> B2R a <= B2R b).
  { intros a b FA FB H. rewrite Bleb_correct in H by auto. revert H. case Rle_bool_spec; [auto|discriminate]. }
  constructor; try lia.
  - intros y Hy. assert (AM : forall n e, (Z.abs n < 2 ^ 24)%Z -> (-149 <= e)%Z -> (e <= 100)%Z -> Rabs (IZR n * bpow radix2 e) <= 32 -> at_most 5 (f32 n e)).
    { intros n e H1 H2 H3 H4. destruct (f32_exact n e H1 H2 H3) as [F R]. split; [exact F|]. rewrite R. exact H4. }
    revert y Hy. apply Forall_forall. unfold ex_rows. repeat (apply Forall_cons || apply Forall_nil); apply AM; try lia; apply Rabs_le; cbn; lra.
  - split; [reflexivity|]. replace (sq (FOpsIEEE 24 128) (f32 1 0)) with (f32 1 0) by (apply B2SF_inj; vm_compute; reflexivity).
    rewrite (proj2 (f32_exact 1%Z 0%Z ltac:(lia) ltac:(lia) ltac:(lia))). cbn. lra.
  - split; [reflexivity|]. match goal with |- 0 < B2R ?a => replace a with (f32 2 0) by (apply B2SF_inj; vm_compute; reflexivity) end.
    rewrite (proj2 (f32_exact 2%Z 0%Z ltac:(lia) ltac:(lia) ltac:(lia))). cbn. lra.
  - assert (FS : is_finite scale32 = true) by (vm_compute; reflexivity). split; [exact FS|].
    destruct (f32_exact 1%Z (-2)%Z ltac:(lia) ltac:(lia) ltac:(lia)) as [F1 V1]. destruct (f32_exact 1%Z (-1)%Z ltac:(lia) ltac:(lia) ltac:(lia)) as [F2 V2].
    assert (L1 : B2R (f32 1 (-2)) <= B2R scale32) by (apply LE; auto; vm_compute; reflexivity).
    assert (L2 : B2R scale32 <= B2R (f32 1 (-1))) by (apply LE; auto; vm_compute; reflexivity).
    rewrite V1 in L1. rewrite V2 in L2. change (-1 - 1)%Z with (-2)%Z. lra.
  - unfold ex_rows. cbn [length]. lia.
Qed.
Lemma ex_rows_len y : In y ex_rows -> length y = 2%nat.
Proof. intros Hy. repeat destruct Hy as [<-|Hy]; try destruct Hy; reflexivity. Qed.
Example C97_score_at_data_applies :
  exists v, kdm_score F32Ops score_tops (fun _ z => z) (fun _ _ => false) (KSE (f32 1 0) scale32) ex_rows (IPoint [f32 0 0; f32 7 2]) = Ok (OVec v) /\
    length v = 2%nat /\ Forall (at_most 9) v.
Proof.
  apply (C97_score_at_data_partial 24 128 _ _ _ score_tops (fun _ z => z) (fun _ _ => false) 5 0 (-1) 2 (f32 1 0) scale32 ex_rows [f32 0 0; f32 7 2]
    score_elementary ex_init ex_range); [right; now left|exact ex_rows_len].
Qed.

(** but not at other points: wherever the kernel value of the query at every row of the data has
    underflowed to zero, every entry of the score is NaN *)
Theorem C97_underflow_is_nan :
  forall prec emax (Hp : Prec_gt_0 prec) (Hm : Prec_lt_emax prec emax) (Sm : SumOrder prec emax) T jgrad keq len s
      (X : list (list (binary_float prec emax))) x,
    X <> [] -> (forall y, In y X -> length y = length x) ->
    (forall y, In y X -> exists v, m_val (methods (FOpsIEEE prec emax) T jgrad keq (KSE len s)) x y = Sc v /\ is_finite v = true /\ B2R v = 0) ->
    kdm_score (FOpsIEEE prec emax) T jgrad keq (KSE len s) X (IPoint x) = Ok (OVec (repeat B754_nan (length x))).
Proof.
  intros prec emax Hp Hm Sm T jgrad keq len s X x HX HL HZ. apply far_nan; auto. intros y Hy. destruct (HZ y Hy) as (v & E & F & Z).
  change (Sc (kv prec emax T len s x y) = Sc v) in E. assert (E' : kv prec emax T len s x y = v) by congruence. rewrite E'. auto.
Qed.
Print Assumptions C97_underflow_is_nan.

(** binary32, bandwidth 1, data the single point 0, query 15: [exp(-112.5)] is below half the
    smallest positive number of the format and rounds to zero, so the score is NaN; it is -15 *)
Theorem C97_far_query_refuted :
  forall (T : TOps F32) jgrad keq, fpi T = pi32 -> fexp T (f32 (-225) (-1)) = B754_zero false ->
    kdm_init F32Ops T (f32 1 0) = Ok (KSE (f32 1 0) scale32) /\
    kdm_score F32Ops T jgrad keq (KSE (f32 1 0) scale32) [[f32 0 0]] (IPoint [f32 15 0]) = Ok (OVec [B754_nan]) /\
    kde_score_at 1 [[0]] [15] [-15].
Proof.
  intros T jgrad keq P E. split; [|split].
  - unfold kdm_init. rewrite P. fold scale32. exact scale32_ok.
  - pose proof (C97_underflow_is_nan 24 128 _ _ _ T jgrad keq (f32 1 0) scale32 [[f32 0 0]] [f32 15 0]) as U. cbn [length repeat] in U.
    apply U; [discriminate|intros y [<-|[]]; reflexivity|].
    intros y [<-|[]]. exists (B754_zero false). split; [|split; reflexivity].
    cbn [methods m_val se_meth]. unfold se_val. f_equal.
    set (a := fdiv (FOpsIEEE 24 128) _ _). assert (A : a = f32 (-225) (-1)) by (apply B2SF_inj; vm_compute; reflexivity).
    rewrite A, E. apply B2SF_inj. vm_compute. reflexivity.
  - replace [-15] with (score_real 1 [[0]] [15]); [apply score_real_spec; [lra|discriminate|intros c [<-|[]]; reflexivity]|].
    unfold score_real, ksum. cbn [length seq map Rsum GX kfun nth INR]. f_equal.
    set (d := KernelSpec.sqdist [15] [0]). pose proof (sc_pos 1 ltac:(lra)) as SP. set (q := 1 / (sqrt (2 * PI) * 1)) in *. clearbody q d.
    cbn [KernelProofs2.phi1]. replace (- (d / (2 * 1 ^ 2))) with (- d / 2) by field. set (z := exp (- d / 2)).
    assert (ZP : 0 < z) by apply exp_pos. clearbody z. field. lra.
Qed.
Print Assumptions C97_far_query_refuted.
