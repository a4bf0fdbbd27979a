(** * Normalised weights in floating point: C84

    The statements hold for every binary format with rounding to nearest even and every
    order of summation. *)
From Coq Require Import List ZArith Bool Reals Permutation Lia Lra.
From Coq Require Import Floats.SpecFloat.
From Flocq Require Import Core.Core IEEE754.BinarySingleNaN.
From Verif Require Import Num Jax RSum Float DataModel MeanModel MetricModel FloatIdxSpec FloatErrSpec FloatProofs2 FloatErr FloatRate3 FloatNorm.
Import ListNotations.
Open Scope R_scope.

(** the weights [w'] are a distribution proportional to [w], up to rounding *)
Record distribution_of {prec emax} (w w' : list (binary_float prec emax)) : Prop := mkDist {
  do_len : length w' = length w;
  do_unit : Forall (fun v => is_finite v = true /\ 0 <= B2R v <= 1) w';
  do_close : forall i, (i < length w)%nat ->
    Rabs (B2R (nth i w' B754_nan) - B2R (nth i w B754_nan) / total w)
    <= 2 * INR (length w + 1) * bpow radix2 (- prec) * (B2R (nth i w B754_nan) / total w + bpow radix2 (2 - emax));
  do_order : forall i j, (i < length w)%nat -> (j < length w)%nat ->
    B2R (nth i w B754_nan) <= B2R (nth j w B754_nan) -> B2R (nth i w' B754_nan) <= B2R (nth j w' B754_nan);
  do_zero : forall i, (i < length w)%nat -> B2R (nth i w B754_nan) = 0 -> B2R (nth i w' B754_nan) = 0;
  do_total : Rabs (total w' - 1) <= 4 * INR (length w + 1) * bpow radix2 (- prec)
}.

Lemma sum_close {A} (g h k : A -> R) c l : (forall v, In v l -> Rabs (g v - h v) <= c * k v) ->
  Rabs (Rsum (map g l) - Rsum (map h l)) <= c * Rsum (map k l).
Proof.
  intros H. induction l as [|a l IH]; cbn [map Rsum]; [rewrite Rminus_0_r, Rabs_R0; lra|].
  replace (g a + Rsum (map g l) - (h a + Rsum (map h l))) with ((g a - h a) + (Rsum (map g l) - Rsum (map h l))) by ring.
  eapply Rle_trans; [apply Rabs_triang|]. rewrite Rmult_plus_distr_l. apply Rplus_le_compat; [apply H; left; auto|apply IH; intros; apply H; right; auto].
Qed.
Lemma quotients_dist {prec emax} {Hp : Prec_gt_0 prec} {Hm : Prec_lt_emax prec emax} {Sm : SumOrder prec emax} (w : list (binary_float prec emax)) :
  Forall weight_ok w -> 0 < total w <= bpow radix2 (emax - 2) -> (2 * (Z.of_nat (length w) + 1) <= 2 ^ prec)%Z ->
  distribution_of w (map (fun v => fdiv (FOpsIEEE prec emax) v (fsum (FOpsIEEE prec emax) w)) w) /\
  map (fnan_to_num (FOpsIEEE prec emax)) (map (fun v => fdiv (FOpsIEEE prec emax) v (fsum (FOpsIEEE prec emax) w)) w)
  = map (fun v => fdiv (FOpsIEEE prec emax) v (fsum (FOpsIEEE prec emax) w)) w.
Proof.
  intros W T N. set (O := FOpsIEEE prec emax). set (f := fun v => fdiv O v (fsum O w)). destruct T as [TP TB].
  destruct (gg_n prec emax w N) as [G1 G2]. destruct (tau_half prec emax w (conj TP TB) N) as [[T0 T1] T2].
  pose proof (quotient_unit prec emax w W (conj TP TB) N) as QU. fold O in QU. change (forall v, In v w -> is_finite (f v) = true /\
    B2R (f v) = round radix2 (SpecFloat.fexp prec emax) (round_mode mode_NE) (B2R v / B2R (fsum O w)) /\ 0 <= B2R (f v) <= 1 /\ fnan_to_num O (f v) = f v) in QU.
  assert (NI : forall i, (i < length w)%nat -> nth i (map f w) B754_nan = f (nth i w B754_nan)).
  { intros i Hi. rewrite (nth_indep _ B754_nan (f B754_nan)) by (now rewrite map_length). apply map_nth. }
  destruct (s_pos prec emax w W (conj TP TB) N) as [FS PS]. fold O in FS, PS.
  assert (CL : forall v, In v w -> Rabs (B2R (f v) - B2R v / total w) <= (gg prec (length w + 1) - 1) * (B2R v / total w + tau emax)).
  { intros v Hv. destruct (nw_ok prec emax w W (conj TP TB) N v Hv) as (_ & _ & B). unfold nw in B. fold O in B. change (fdiv O v (fsum O w)) with (f v) in B.
    now rewrite (proj2 (proj2 (proj2 (QU v Hv)))) in B. }
  assert (PV : forall v, In v w -> 0 <= B2R v). { intros v Hv. exact (proj2 (proj1 (Forall_forall _ _) W v Hv)). }
  assert (PQ : forall v, In v w -> 0 <= B2R v / total w). { intros v Hv. apply Rmult_le_pos; auto. left. now apply Rinv_0_lt_compat. }
  split; [constructor|].
  - apply map_length.
  - apply Forall_forall. intros v Hv. apply in_map_iff in Hv as [u [<- Hu]]. destruct (QU u Hu) as (A & _ & B & _). auto.
  - intros i Hi. rewrite NI by auto. pose proof (nth_In w B754_nan Hi) as Hv. eapply Rle_trans; [apply CL, Hv|].
    apply Rmult_le_compat_r; [pose proof (PQ _ Hv); unfold tau in T0; lra|]. unfold uu in G1. lra.
  - intros i j Hi Hj L. rewrite !NI by auto. rewrite (proj1 (proj2 (QU _ (nth_In w B754_nan Hi)))), (proj1 (proj2 (QU _ (nth_In w B754_nan Hj)))).
    apply rnd_mono; auto. apply Rmult_le_compat_r; [left; now apply Rinv_0_lt_compat|exact L].
  - intros i Hi Z. rewrite NI by auto. rewrite (proj1 (proj2 (QU _ (nth_In w B754_nan Hi)))), Z. unfold Rdiv. rewrite Rmult_0_l. apply rnd_0; auto.
  - assert (S : Rabs (Rsum (map (fun v => B2R (f v)) w) - Rsum (map (fun v => B2R v / total w) w)) <= (gg prec (length w + 1) - 1) * Rsum (map (fun v => B2R v / total w + tau emax) w)).
    { apply sum_close. exact CL. }
    assert (E1 : Rsum (map (fun v => B2R v / total w) w) = 1).
    { unfold Rdiv. rewrite (Rsum_map_ext _ (fun v => / total w * B2R v)) by (intros; ring). rewrite (Rsum_map_scal (/ total w)). fold (total w). now apply Rinv_l, Rgt_not_eq. }
    assert (E2 : Rsum (map (fun v => B2R v / total w + tau emax) w) = 1 + INR (length w) * tau emax).
    { rewrite Rsum_map_add, E1. f_equal. apply Rsum_map_const. }
    unfold total at 1. rewrite map_map. rewrite E1, E2 in S. eapply Rle_trans; [exact S|].
    pose proof (gg_ge1 prec (length w + 1)).
    assert (0 <= INR (length w) * tau emax) by (apply Rmult_le_pos; [apply pos_INR|lra]). apply Rle_trans with (2 * (INR (length w + 1) * uu prec) * 2); [apply Rmult_le_compat; lra|]. unfold uu. right. ring.
  - rewrite map_map. apply map_ext_in. intros v Hv. apply QU, Hv.
Qed.

(** ** C84: [Data.normalize] *)
Theorem C84_normalize :
  forall prec emax (Hp : Prec_gt_0 prec) (Hm : Prec_lt_emax prec emax) (Sm : SumOrder prec emax) (w : list (binary_float prec emax)),
  Forall weight_ok w -> 0 < total w <= bpow radix2 (emax - 2) -> (2 * (Z.of_nat (length w) + 1) <= 2 ^ prec)%Z ->
  forall P Y (preserve_zeros : bool) (x : list P) (s : option (list Y)),
  exists w', normalize (FOpsIEEE prec emax) preserve_zeros (mkData x w s) = mkData x w' s /\ distribution_of w w'.
Proof.
  intros prec emax Hp Hm Sm w W T N P Y b x s. destruct (quotients_dist w W T N) as [D E].
  exists (normalize_w (FOpsIEEE prec emax) b w). split; [reflexivity|]. unfold normalize_w. destruct b; [rewrite E|]; exact D.
Qed.
Print Assumptions C84_normalize.

(** ** C84: the weights of [solve_qp].  Whatever finite numbers [sol] the external QP solver
    returns, some of them positive: the weights are a distribution, proportional to the
    positive parts of [sol] *)
Definition positive_parts {prec emax} (sol : list (binary_float prec emax)) : list (binary_float prec emax) :=
  map (fun v => if Rlt_bool 0 (B2R v) then v else B754_zero false) sol.
Theorem C84_qp_weights :
  forall prec emax (Hp : Prec_gt_0 prec) (Hm : Prec_lt_emax prec emax) (Sm : SumOrder prec emax)
         (osqp : @qp_solver (binary_float prec emax)) kmm grm sol,
  (forall c a b g h, osqp kmm c a b g h = sol) ->
  Forall (fun v => is_finite v = true) sol ->
  0 < total (positive_parts sol) <= bpow radix2 (emax - 2) -> (2 * (Z.of_nat (length sol) + 1) <= 2 ^ prec)%Z ->
  distribution_of (positive_parts sol) (solve_qp (FOpsIEEE prec emax) osqp kmm grm).
Proof.
  intros prec emax Hp Hm Sm osqp kmm grm sol E F T N. unfold solve_qp. rewrite E. cbv zeta.
  assert (EV : map (fun v => fmax (FOpsIEEE prec emax) (f0 (FOpsIEEE prec emax)) v) sol = positive_parts sol).
  { unfold positive_parts. apply map_ext_in. intros v Hv. pose proof (proj1 (Forall_forall _ _) F v Hv) as Fv. unfold fmax.
    change (fisnan (FOpsIEEE prec emax) (f0 (FOpsIEEE prec emax))) with false. cbv iota. replace (fisnan (FOpsIEEE prec emax) v) with false by (destruct v; try discriminate Fv; reflexivity).
    change (fltb (FOpsIEEE prec emax) (f0 (FOpsIEEE prec emax)) v) with (Bltb (B754_zero false) v). rewrite Bltb_correct by auto. reflexivity. }
  rewrite EV. assert (L : length (positive_parts sol) = length sol) by apply map_length.
  apply quotients_dist; [|exact T|now rewrite L]. apply Forall_forall. intros v Hv. apply in_map_iff in Hv as [u [<- Hu]].
  destruct (Rlt_bool_spec 0 (B2R u)) as [P|P]; [|split; [reflexivity|cbn; lra]]. split; [exact (proj1 (Forall_forall _ _) F u Hu)|lra].
Qed.
Print Assumptions C84_qp_weights.

(** ** C84: what does not hold *)
(** Finding: finite weights whose total overflows are all set to zero, with or without
    [preserve_zeros] *)
Theorem C84_overflow_refuted : exists v : F32, is_finite v = true /\ 0 < B2R v /\
  forall P Y preserve_zeros (x : list P) (s : option (list Y)),
    normalize F32Ops preserve_zeros (mkData x [v; v] s) = mkData x [B754_zero false; B754_zero false] s.
Proof.
  exists (f32 3 126). split; [reflexivity|]. split.
  - unfold f32. cbn. unfold F2R. cbn. lra.
  - intros P Y b x s. unfold normalize. cbn [d_x d_y d_w]. f_equal. assert (E : fdiv F32Ops (f32 3 126) (fsum F32Ops [f32 3 126; f32 3 126]) = B754_zero false) by (apply B2SF_inj; vm_compute; reflexivity).
    unfold normalize_w. cbn [map]. rewrite E. now destruct b.
Qed.
Print Assumptions C84_overflow_refuted.
(** the normalised weights of three equal points do not add up to one exactly *)
Theorem C84_exactly_one_refuted : exists w w' : list F32,
  w = [Bone; Bone; Bone] /\ normalize_w F32Ops false w = w' /\ total w' <> 1.
Proof.
  exists [Bone; Bone; Bone]. eexists. split; [reflexivity|]. split; [reflexivity|].
  assert (E : B2R (fdiv F32Ops Bone (fsum F32Ops [Bone; Bone; Bone])) = IZR 11184811 * / IZR (2 ^ 25)).
  { replace (fdiv F32Ops Bone (fsum F32Ops [Bone; Bone; Bone])) with (f32 11184811 (-25)) by (apply B2SF_inj; vm_compute; reflexivity).
    unfold f32. cbn. unfold F2R. cbn. lra. }
  unfold normalize_w, total. cbn [map Rsum]. rewrite E. change (2 ^ 25)%Z with 33554432%Z. lra.
Qed.
Print Assumptions C84_exactly_one_refuted.

(** ** the hypotheses are met: three weights in binary32; a QP solution with a negative
    component *)
Example C84_normalize_applies : exists w', normalize_w F32Ops true [f32 1 0; f32 0 0; f32 3 0] = w' /\ distribution_of [f32 1 0; f32 0 0; f32 3 0] w'.
Proof.
  assert (E : forall z, (0 <= z < 2 ^ 24)%Z -> is_finite (f32 z 0) = true /\ B2R (f32 z 0) = IZR z) by (intros; now apply (FloatRate3.ofZ_exact 24 128)).
  destruct (E 0%Z ltac:(lia)) as [F0 E0]. destruct (E 1%Z ltac:(lia)) as [F1 E1]. destruct (E 3%Z ltac:(lia)) as [F3 E3].
  destruct (C84_normalize 24 128 _ _ _ [f32 1 0; f32 0 0; f32 3 0]) with (P := unit) (Y := unit) (preserve_zeros := true) (x := [tt; tt; tt]) (s := None : option (list unit)) as [w' [EQ D]].
  - repeat apply Forall_cons; try apply Forall_nil; (split; [assumption|]); rewrite ?E0, ?E1, ?E3; lra.
  - unfold total. cbn [map Rsum]. rewrite E0, E1, E3. split; [lra|]. apply Rle_trans with (bpow radix2 2); [change (bpow radix2 2) with 4; lra|apply bpow_le; lia].
  - apply Z.leb_le. reflexivity.
  - exists w'. split; [|exact D]. injection EQ as EQ. exact EQ.
Qed.
Example C84_qp_applies : 0 < total (positive_parts [f32 2 0; f32 (-1) 0]) <= bpow radix2 (128 - 2).
Proof.
  assert (E2 : B2R (f32 2 0) = 2) by (unfold f32; cbn; unfold F2R; cbn; lra). assert (E1 : B2R (f32 (-1) 0) = -1) by (unfold f32; cbn; unfold F2R; cbn; lra).
  unfold total, positive_parts. cbn [map Rsum]. rewrite E1, E2, Rlt_bool_true, Rlt_bool_false by lra. rewrite E2. cbn [B2R]. split; [lra|].
  apply Rle_trans with (bpow radix2 2); [change (bpow radix2 2) with 4; lra|apply bpow_le; lia].
Qed.
