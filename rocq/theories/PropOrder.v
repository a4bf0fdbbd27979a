(** * The order in which sums are evaluated: C82 *)
From Coq Require Import List ZArith Bool Reals Permutation Lia Lra.
From Coq Require Import Floats.SpecFloat.
From Flocq Require Import Core.Core IEEE754.BinarySingleNaN.
From Verif Require Import Num Jax RSum JaxFacts SumSpec SumProofs DataModel MeanModel MeanSpec GreedySpec MetricModel
  Float FloatProofs2 FloatIdxSpec FloatErrSpec PropFloatMMD.
Import ListNotations.
Open Scope R_scope.

Lemma eadd_comm (a b : ER) : fadd EROps a b = fadd EROps b a.
Proof. destruct a, b; cbn; auto. f_equal. ring. Qed.
Lemma eadd_assoc (a b c : ER) : fadd EROps a (fadd EROps b c) = fadd EROps (fadd EROps a b) c.
Proof. destruct a, b, c; cbn; auto. f_equal. ring. Qed.
Lemma eadd_0 (a : ER) : fadd EROps a (f0 EROps) = a.
Proof. destruct a; cbn; auto. f_equal. ring. Qed.
Lemma esum_app l m : fsum EROps (l ++ m) = fadd EROps (fsum EROps l) (fsum EROps m).
Proof.
  rewrite !fsum_fold, fold_left_app. generalize (fold_left (fadd EROps) l (f0 EROps)) as a.
  induction m as [|x m IH] using rev_ind; intros a; [now rewrite eadd_0|].
  rewrite !fold_left_app. cbn [fold_left]. now rewrite IH, eadd_assoc.
Qed.
Lemma esum_perm l m : Permutation l m -> fsum EROps l = fsum EROps m.
Proof.
  induction 1 as [|x l m _ IH|x y l|l m p _ IH1 _ IH2]; auto; [| |congruence].
  - change (x :: l) with ([x] ++ l). change (x :: m) with ([x] ++ m). now rewrite !esum_app, IH.
  - change (y :: x :: l) with ([y] ++ [x] ++ l). change (x :: y :: l) with ([x] ++ [y] ++ l).
    rewrite !esum_app, !eadd_assoc. f_equal. apply eadd_comm.
Qed.

(** ** C82: exact arithmetic *)
(** Without rounding every order of summation gives the value used in the model, also when
    entries are infinite or NaN, so the theorems about exact arithmetic are about every
    order. *)
Theorem C82_exact_sum_any_order :
  forall (l : list ER) v, summed (fadd EROps) (f0 EROps) l v -> v = fsum EROps l.
Proof.
  intros l v H. induction H as [|v|l1 l2 l a b H1 IH1 H2 IH2 HP]; [reflexivity| |].
  - rewrite fsum_fold. cbn [fold_left]. now rewrite eadd_comm, eadd_0.
  - subst. rewrite <- esum_app. now apply esum_perm.
Qed.
Print Assumptions C82_exact_sum_any_order.
Example C82_exact_applies : summed (fadd EROps) (f0 EROps) [Fin 1; Fin 2; PInf] (fadd EROps PInf (fadd EROps (Fin 2) (Fin 1))).
Proof.
  apply summed_add with [PInf] [Fin 2; Fin 1]; [constructor|apply summed_add with [Fin 2] [Fin 1]; [constructor|constructor|reflexivity]|].
  cbn [app]. apply (Permutation_rev [PInf; Fin 2; Fin 1]).
Qed.

(** ** C82: two backends *)
(** The same mean of a kernel matrix, evaluated with two orders of summation and two choices
    of block sizes *)
Theorem C82_mean_two_backends :
  forall prec emax (Hp : Prec_gt_0 prec) (Hm : Prec_lt_emax prec emax) (S1 S2 : SumOrder prec emax) a e L, mean_room prec emax a e L ->
  forall {P Y} (p0 : P) (y0 : Y) (k : P -> P -> binary_float prec emax) xs w sx ys v sy bx by_ bx' by_',
  weighted_data a xs w -> weighted_data a ys v ->
  (forall x y, In x (p0 :: xs ++ ys) -> In y (p0 :: xs ++ ys) -> at_most e (k x y)) ->
  let n := length xs in let m := length ys in
  (roundings n m (block_used n bx) (block_used m by_) <= L)%nat -> (roundings n m (block_used n bx') (block_used m by_') <= L)%nat ->
  let mean (So : SumOrder prec emax) b c := compute_mean (@FOpsIEEE prec emax _ _ So) p0 y0 k (mkData xs w sx) (mkData ys v sy) AxisNone (BTwo b c) in
  exists z1 z2, mean S1 bx by_ = Ok (MScalar z1) /\ mean S2 bx' by_' = Ok (MScalar z2) /\
    is_finite z1 = true /\ is_finite z2 = true /\ Rabs (B2R z1 - B2R z2) <= 6 * INR L * bpow radix2 (e - prec).
Proof.
  intros prec emax Hp Hm S1 S2 a e L HR P Y p0 y0 k xs w sx ys v sy bx by_ bx' by_' HX HY Hk n m N1 N2 mean.
  destruct (C71_mean_accurate prec emax Hp Hm S1 a e L HR p0 y0 k xs w sx ys v sy bx by_ HX HY Hk N1) as (z1 & E1 & F1 & B1).
  destruct (C71_mean_accurate prec emax Hp Hm S2 a e L HR p0 y0 k xs w sx ys v sy bx' by_' HX HY Hk N2) as (z2 & E2 & F2 & B2).
  exists z1, z2. repeat (split; [assumption|]).
  set (x := wavg _ xs (map B2R w)) in *. replace (B2R z1 - B2R z2) with ((B2R z1 - x) - (B2R z2 - x)) by ring.
  eapply Rle_trans; [apply Rabs_triang|]. rewrite Rabs_Ropp. pose proof (bpow_ge_0 radix2 (e - prec)) as U.
  assert (M : forall N, (N <= L)%nat -> 3 * INR N * bpow radix2 (e - prec) <= 3 * INR L * bpow radix2 (e - prec)).
  { intros N HN. apply Rmult_le_compat_r; auto. apply Rmult_le_compat_l; [lra|]. now apply le_INR. }
  pose proof (M _ N1). pose proof (M _ N2). subst n m. lra.
Qed.
Print Assumptions C82_mean_two_backends.

(** ... and the maximum mean discrepancy *)
Theorem C82_mmd_two_backends :
  forall prec emax (Hp : Prec_gt_0 prec) (Hm : Prec_lt_emax prec emax) (S1 S2 : SumOrder prec emax) a e L, mean_room prec emax a e (L + 2) ->
  forall {P Y} (p0 : P) (y0 : Y) (k : P -> P -> binary_float prec emax) xs w sx ys v sy b0 b1 b0' b1',
  weighted_data a xs w -> weighted_data a ys v ->
  (forall x y, In x (p0 :: xs ++ ys) -> In y (p0 :: xs ++ ys) -> at_most e (k x y)) ->
  let n := length xs in let m := length ys in
  let fits b c := let bx := block_used n b in let by_ := block_used m c in
    (roundings n n bx bx <= L)%nat /\ (roundings m m by_ by_ <= L)%nat /\ (roundings n m bx by_ <= L)%nat in
  fits b0 b1 -> fits b0' b1' ->
  let D := 14 * INR (L + 2) * bpow radix2 (e - prec) in
  let mmd (So : SumOrder prec emax) b c := mmd_compute (@FOpsIEEE prec emax _ _ So) p0 y0 k (mkData xs w sx) (mkData ys v sy) (BTwo b c) in
  exists z1 z2, mmd S1 b0 b1 = Ok z1 /\ mmd S2 b0' b1' = Ok z2 /\
    is_finite z1 = true /\ is_finite z2 = true /\ Rabs (B2R z1 - B2R z2) <= 4 * sqrt D.
Proof.
  intros prec emax Hp Hm S1 S2 a e L HR P Y p0 y0 k xs w sx ys v sy b0 b1 b0' b1' HX HY Hk n m fits (A1 & A2 & A3) (A1' & A2' & A3') D mmd.
  destruct (C71_mmd_accurate prec emax Hp Hm S1 a e L HR p0 y0 k xs w sx ys v sy (BTwo b0 b1) b0 b1 HX HY Hk (or_introl eq_refl) A1 A2 A3) as (z1 & E1 & F1 & _ & B1 & _).
  destruct (C71_mmd_accurate prec emax Hp Hm S2 a e L HR p0 y0 k xs w sx ys v sy (BTwo b0' b1') b0' b1' HX HY Hk (or_introl eq_refl) A1' A2' A3') as (z2 & E2 & F2 & _ & B2 & _).
  exists z1, z2. repeat (split; [assumption|]). set (x := sqrt (mmd2 _ _ _ _ _)) in *.
  replace (B2R z1 - B2R z2) with ((B2R z1 - x) - (B2R z2 - x)) by ring.
  eapply Rle_trans; [apply Rabs_triang|]. rewrite Rabs_Ropp. fold D in B1, B2. lra.
Qed.
Print Assumptions C82_mmd_two_backends.

(** a second order of summation: from right to left *)
Lemma right_fold_summed {V} (add : V -> V -> V) zero l : summed add zero l (fold_right add zero l).
Proof.
  induction l as [|v l IH]; [constructor|]. cbn [fold_right]. apply summed_add with [v] l; auto. constructor.
Qed.
Definition right_to_left32 : SumOrder 24 128 :=
  {| sum_fun := fun l => fold_right (Bplus mode_NE) (B754_zero false) l; sum_fun_ok := right_fold_summed _ _ |}.

(** Results are not the same to the last bit: the total of the weights [1, 2^-24, 2^-24] *)
Theorem C82_not_bitwise_equal :
  ~ forall (S1 S2 : SumOrder 24 128) (w : list F32), Forall weight_ok w ->
      normalize_w (@FOpsIEEE 24 128 _ _ S1) true w = normalize_w (@FOpsIEEE 24 128 _ _ S2) true w.
Proof.
  intros H. specialize (H order32 right_to_left32 [f32 1 0; f32 1 (-24); f32 1 (-24)]).
  assert (W : Forall weight_ok [f32 1 0; f32 1 (-24); f32 1 (-24)]).
  { assert (W1 : weight_ok (f32 1 0)) by (split; [reflexivity|left; now apply pos_spec]).
    assert (W2 : weight_ok (f32 1 (-24))) by (split; [reflexivity|left; now apply pos_spec]). auto. }
  specialize (H W). apply (f_equal (map B2SF)) in H. vm_compute in H. discriminate.
Qed.
Print Assumptions C82_not_bitwise_equal.
(** the bound applies to both orders, with blocks of one and of three *)
Example C82_applies :
  mean_room 24 128 10 0 100 /\ weighted_data (prec := 24) (emax := 128) 10 [1; 2; 3]%nat (repeat Bone 3) /\
  (forall x y, In x (0 :: [1; 2; 3] ++ [1; 2; 3])%nat -> In y (0 :: [1; 2; 3] ++ [1; 2; 3])%nat -> at_most 0 ((fun _ _ => Bone : F32) x y)) /\
  (roundings 3 3 (block_used 3 (Some 1%Z)) (block_used 3 (Some 1%Z)) <= 98)%nat /\ (roundings 3 3 (block_used 3 None) (block_used 3 None) <= 98)%nat /\
  exists z, compute_mean (@FOpsIEEE 24 128 _ _ right_to_left32) 0%nat tt (fun _ _ => Bone) (mkData [1; 2; 3]%nat (repeat Bone 3) None) (mkData [1; 2; 3]%nat (repeat Bone 3) None) AxisNone (BOne (Some 1%Z)) = Ok (MScalar z).
Proof.
  assert (O1 : B2R (Bone : F32) = 1) by apply Bone_correct.
  split; [constructor; cbn; lia|]. split.
  - constructor; [cbn; lia|reflexivity| | |].
    + assert (weight_ok (Bone : F32)) by (split; [reflexivity|rewrite O1; lra]). cbn [repeat]. auto.
    + unfold total. cbn [repeat map Rsum]. rewrite O1. lra.
    + unfold total. cbn [repeat map Rsum]. rewrite O1. apply Rle_trans with (bpow radix2 2); [cbn; lra|apply bpow_le; lia].
  - split; [|split; [apply Nat.leb_le; reflexivity|split; [apply Nat.leb_le; reflexivity|]]].
    + intros x y _ _. split; [reflexivity|]. rewrite O1, Rabs_pos_eq by lra. cbn. lra.
    + eexists. reflexivity.
Qed.
