(** * Rounding errors of the built-in kernels: accuracy *)
From Coq Require Import List ZArith Bool Reals Lia Lra.
From Coq Require Import Floats.SpecFloat.
From Flocq Require Import Core.Core IEEE754.BinarySingleNaN.
From Verif Require Import Num Jax RSum SumSpec SumProofs Float MeanModel UtilModel KernelModel KernelSpec FloatProofs2 FloatGreedy FloatErr FloatRate3 FloatKern FloatKern2 FloatKernSpec.
Import ListNotations.
Open Scope R_scope.

Section Kern3.
  Context (prec emax : Z) {Hprec : Prec_gt_0 prec} {Hmax : Prec_lt_emax prec emax} {Sm : SumOrder prec emax}.
  Notation flt := (binary_float prec emax).
  Notation O := (FOpsIEEE prec emax).
  Notation rnd := (round radix2 (SpecFloat.fexp prec emax) (round_mode mode_NE)).
  Notation big := (bpow radix2 emax).
  Notation uu := (uu prec).
  Notation tau := (tau emax).
  Notation gg := (gg prec).
  Notation apx := (apx prec emax).
  Notation apxo := (apxo prec emax).
  Notation rel := (rel prec emax).

  Variables (q : Z) (n : nat).
  Hypothesis HR : kernel_room prec emax q n.

  Lemma prec_ge : (8 <= prec)%Z.
  Proof using HR Hprec.
    destruct HR as [_ D]. assert (0 < prec)%Z by assumption. destruct (Z_lt_le_dec prec 8) as [L|L]; auto.
    assert (2 ^ prec <= 2 ^ 7)%Z by (apply Z.pow_le_mono_r; lia). change (2 ^ 7)%Z with 128%Z in *. lia.
  Qed.
  Lemma uu_small : INR (n + 10) * uu <= / 16.
  Proof using HR Hprec.
    destruct HR as [_ D]. assert (P : (0 < prec)%Z) by assumption. unfold FloatErr.uu. rewrite INR_IZR_INZ.
    apply Rmult_le_reg_r with (bpow radix2 prec); [apply bpow_gt_0|]. rewrite Rmult_assoc, <- bpow_plus. replace (- prec + prec)%Z with 0%Z by lia. cbn [bpow].
    rewrite Rmult_1_r. rewrite <- IZR_Zpower by lia. apply Rmult_le_reg_l with 16; [lra|]. replace (16 * (/ 16 * IZR (radix2 ^ prec))) with (IZR (radix2 ^ prec)) by field.
    rewrite <- mult_IZR. apply IZR_le. change (radix_val radix2) with 2%Z. lia.
  Qed.
  (** [M] roundings *)
  Lemma gg_small M : (M <= n + 10)%nat -> gg M - 1 <= 2 * (INR M * uu) /\ gg M <= 9 / 8.
  Proof using HR Hprec.
    intros H. pose proof uu_small as U. pose proof (uu_pos prec) as P. apply le_INR in H. pose proof (pos_INR M).
    assert (INR M * uu <= / 16) by nra. pose proof (gg_bound prec M ltac:(lra)). lra.
  Qed.
  Lemma tau_small : tau <= / 16 * uu.
  Proof using HR Hprec.
    pose proof prec_ge. destruct HR as [[A B] _]. unfold FloatErr.tau, FloatErr.uu. change (/ 16) with (bpow radix2 (-4)). rewrite <- bpow_plus. apply bpow_le. lia.
  Qed.
  Lemma uu_tiny : uu <= / 256.
  Proof using HR Hprec. pose proof prec_ge. unfold FloatErr.uu. change (/ 256) with (bpow radix2 (-8)). apply bpow_le. lia. Qed.

  (** ** the divisor *)
  Section Divisor.
    Variable l : flt.
    Hypothesis FL : is_finite l = true.
    Hypothesis BL : bpow radix2 (- q) <= B2R l <= bpow radix2 q.
    Definition DD : R := 2 * B2R l ^ 2.
    Lemma DD_bounds : bpow radix2 (1 - 2 * q) <= DD <= bpow radix2 (2 * q + 1).
    Proof using BL.
      clear - BL. unfold DD. pose proof (bpow_gt_0 radix2 (- q)) as P.
      replace (1 - 2 * q)%Z with (1 + (- q + - q))%Z by lia. replace (2 * q + 1)%Z with (1 + (q + q))%Z by lia. rewrite !bpow_plus. change (bpow radix2 1) with 2. cbn [pow].
      rewrite Rmult_1_r. split; (apply Rmult_le_compat_l; [lra|]); apply Rmult_le_compat; lra.
    Qed.
    Lemma DD_pos : 0 < DD.
    Proof using BL. pose proof DD_bounds. pose proof (bpow_gt_0 radix2 (1 - 2 * q)). lra. Qed.
    Lemma divisor_rel : rel 4 (fmul O (fofZ O 2) (sq O l)) DD.
    Proof using HR Hprec Hmax FL BL.
      pose proof prec_ge as P8. pose proof DD_bounds as [B1 B2]. pose proof (bpow_gt_0 radix2 (- q)) as PQ.
      assert (PL : pos prec emax l) by (apply pos_spec; split; auto; lra).
      assert (SQ : sq O l = Bmult mode_NE l l).
      { transitivity (Bmult mode_NE l (Bmult mode_NE l Bone)); [reflexivity|]. now rewrite mult_one. }
      rewrite SQ. unfold DD in *. assert (E : B2R l ^ 2 = B2R l * B2R l) by ring. rewrite E in *. clear E.
      destruct HR as [[A B] _].
      assert (T2 : tau <= / 16 * bpow radix2 (1 - 2 * q)).
      { unfold FloatErr.tau. change (/ 16) with (bpow radix2 (-4)). rewrite <- bpow_plus. apply bpow_le. lia. }
      assert (BB : 16 * bpow radix2 (2 * q + 1) <= big).
      { change 16 with (bpow radix2 4). rewrite <- bpow_plus. apply bpow_le. lia. }
      destruct (gg_small 2 ltac:(lia)) as [_ G2]. destruct (gg_small 4 ltac:(lia)) as [_ G4]. pose proof (gg_ge1 prec 2). pose proof (gg_ge1 prec 4).
      pose proof (tau_pos emax) as TP. pose proof (bpow_gt_0 radix2 (1 - 2 * q)).
      assert (G0 : gg 0 = 1) by reflexivity.
      assert (L0 : 0 < B2R l) by lra. assert (LL : 0 < B2R l * B2R l) by (apply Rmult_lt_0_compat; lra).
      pose proof (rel_mult prec emax 0 0 l l (B2R l) (B2R l) L0 L0 (rel_exact prec emax l FL) (rel_exact prec emax l FL)) as R1. cbn [plus] in R1.
      assert (W2 : gg 2 * (B2R l * B2R l) <= 9 / 8 * (B2R l * B2R l)) by (apply Rmult_le_compat_r; lra).
      assert (W4 : gg 4 * (2 * (B2R l * B2R l)) <= 9 / 8 * (2 * (B2R l * B2R l))) by (apply Rmult_le_compat_r; lra).
      assert (WT : gg 2 * tau <= 9 / 8 * tau) by (apply Rmult_le_compat_r; lra).
      specialize (R1 ltac:(rewrite G0; lra) ltac:(lra)).
      assert (Z2 : (0 <= 2 < 2 ^ prec)%Z) by (split; [lia|]; apply Z.lt_le_trans with (2 ^ 2)%Z; [reflexivity|apply Z.pow_le_mono_r; lia]).
      destruct (ofZ_exact prec emax 2 Z2) as [F2 E2].
      assert (R2 : rel 0 (fofZ O 2) 2) by (pose proof (rel_exact prec emax _ F2) as R2; now rewrite E2 in R2).
      pose proof (rel_mult prec emax 0 2 _ _ 2 (B2R l * B2R l) ltac:(lra) LL R2 R1) as R3. cbn [plus] in R3. apply R3; lra.
    Qed.
  End Divisor.

  (** ** the scaled distance *)
  Definition HH : R := bpow radix2 (prec - 2).
  Definition dl : R := gg (n + 9) - 1.
    Lemma dl_bounds : 0 <= dl <= / 8 /\ dl <= 2 * (INR (n + 9) * uu).
    Proof using HR Hprec. unfold dl. pose proof (gg_ge1 prec (n + 9)). destruct (gg_small (n + 9) ltac:(lia)). lra. Qed.
  Section Scaled.
    Variables (l : flt) (a : flt) (r eta : R) (N : nat).
    Hypothesis FL : is_finite l = true.
    Hypothesis BL : bpow radix2 (- q) <= B2R l <= bpow radix2 q.
    Notation D := (DD l).
    Notation dv := (fmul O (fofZ O 2) (sq O l)).
    Hypothesis NA : nn prec emax a.
    Hypothesis R0 : 0 <= r.
    Hypothesis E0 : 0 <= eta.
    Hypothesis ED : eta / D <= / 4.
    Hypothesis HN : (N + 5 <= n + 9)%nat.
    Variable H : R.
    Hypothesis HH1 : H <= big / 4.
    Hypothesis CA : apx N a r (r + eta) \/ is_finite a = false /\ H <= r / D.
    Lemma quotient b x : is_finite b = is_finite a -> (is_finite a = true -> apx N b x (r + eta)) ->
      is_finite (Bdiv mode_NE b dv) = true /\ Rabs (B2R (Bdiv mode_NE b dv) - x / D) <= dl * (r / D + / 2) \/
      is_finite (Bdiv mode_NE b dv) = false /\ H <= r / D.
    Proof using HR Hprec Hmax FL BL R0 E0 ED HN HH1 CA.
      intros FB AB. pose proof (divisor_rel l FL BL) as RD. pose proof (DD_pos l BL) as DP. pose proof (rel_pos _ _ _ _ _ DP RD) as PD.
      pose proof tau_small as TS. pose proof uu_tiny as UT. destruct dl_bounds as [[D1 D2] _]. pose proof (tau_pos emax) as TP.
      assert (RR : (r + eta) / D + tau <= r / D + / 2) by (unfold Rdiv in *; rewrite Rmult_plus_distr_r; lra).
      destruct CA as [A|[F L]].
      - assert (FA : is_finite a = true) by now destruct A. specialize (AB FA).
        destruct (div_apxo prec emax N 4 b dv x (r + eta) D AB DP RD) as [(F & _ & B)|(F & P & B)].
        + left. split; auto. eapply Rle_trans; [exact B|]. apply Rmult_le_compat; try lra.
          * pose proof (gg_ge1 prec (N + 4 + 1)). lra.
          * assert (0 <= (r + eta) / D) by (apply Rmult_le_pos; [lra|left; now apply Rinv_0_lt_compat]). lra.
          * unfold dl. apply Rplus_le_compat_r. apply gg_mono. lia.
        + right. split; auto. destruct (gg_small (N + 4 + 1) ltac:(lia)) as [_ G]. pose proof (big_ge2 prec emax) as B2.
          assert (big <= 9 / 8 * (r / D + / 2)) by (eapply Rle_trans; [exact B|]; pose proof (gg_ge1 prec (N + 4 + 1)); apply Rmult_le_compat; lra).
          assert (BB : 16 <= big). { change 16 with (bpow radix2 4). apply bpow_le. pose proof prec_ge. assert (prec < emax)%Z by assumption. lia. }
          lra.
      - right. split; auto. rewrite F in FB. clear - FB PD. destruct b as [[]|[]| |[] ? ? ?]; cbn in FB; try discriminate FB;
          destruct dv as [[]|[]| |[] ? ? ?]; cbn in *; try reflexivity; lra.
    Qed.
    (** the argument of [exp] *)
    Lemma exponent : let v := fdiv O (fneg O a) dv in
      is_finite v = true /\ B2R v <= 0 /\ Rabs (- B2R v - r / D) <= dl * (r / D + / 2) \/
      v = B754_infinity true /\ H <= r / D.
    Proof using HR Hprec Hmax FL BL R0 E0 ED HN HH1 CA NA.
      intros v. pose proof (divisor_rel l FL BL) as RD. pose proof (DD_pos l BL) as DP. pose proof (rel_pos _ _ _ _ _ DP RD) as PD.
      assert (PV : pos prec emax dv) by (apply pos_spec; split; [apply RD|auto]).
      assert (NV : np prec emax v) by (apply np_div; auto; now apply np_opp).
      destruct (quotient (fneg O a) (- r)) as [[F B]|[F L]].
      - destruct a as [[]|[]| |[] ? ? ?]; reflexivity.
      - intros FA. destruct CA as [A|[F _]]; [|congruence]. now apply neg_apx.
      - left. change (Bdiv mode_NE (fneg O a) dv) with v in *. split; auto. split; [now apply (np_finite prec emax v F)|].
        replace (- B2R v - r / D) with (- (B2R v - - r / D)) by (unfold Rdiv; ring). rewrite Rabs_Ropp. exact B.
      - right. split; auto. change (Bdiv mode_NE (fneg O a) dv) with v in F. destruct v as [[]|[]| |[] ? ? ?]; cbn in *; try discriminate; try contradiction; reflexivity.
    Qed.
    Lemma ratio : let v := fdiv O a dv in
      is_finite v = true /\ 0 <= B2R v /\ Rabs (B2R v - r / D) <= dl * (r / D + / 2) \/
      v = B754_infinity false /\ H <= r / D.
    Proof using HR Hprec Hmax FL BL R0 E0 ED HN HH1 CA NA.
      intros v. pose proof (divisor_rel l FL BL) as RD. pose proof (DD_pos l BL) as DP. pose proof (rel_pos _ _ _ _ _ DP RD) as PD.
      assert (PV : pos prec emax dv) by (apply pos_spec; split; [apply RD|auto]).
      assert (NV : nn prec emax v) by (apply nn_div; auto).
      destruct (quotient a r eq_refl) as [[F B]|[F L]].
      - intros FA. destruct CA as [A|[F _]]; [|congruence]. exact A.
      - left. change (Bdiv mode_NE a dv) with v in *. split; auto. split; [now apply (nn_finite prec emax v F)|]. exact B.
      - right. split; auto. change (Bdiv mode_NE a dv) with v in F. destruct v as [[]|[]| |[] ? ? ?]; cbn in *; try discriminate; try contradiction; reflexivity.
    Qed.
  End Scaled.

  (** ** the three distances, with the size that makes them overflow *)
  Lemma bpow_div a b : bpow radix2 a / bpow radix2 b = bpow radix2 (a - b).
  Proof. unfold Rdiv. rewrite <- bpow_opp, <- bpow_plus. reflexivity. Qed.
  Lemma H1_le : bpow radix2 (2 * prec - 3) <= big / 4 /\ HH <= big / 4.
  Proof using HR Hprec.
    pose proof prec_ge. destruct HR as [[A B] _]. change 4 with (bpow radix2 2). rewrite bpow_div. unfold HH. split; apply bpow_le; lia.
  Qed.
  Lemma Rdiv_le_bpow a b r D : bpow radix2 a <= r -> 0 < D -> D <= bpow radix2 b -> bpow radix2 (a - b) <= r / D.
  Proof.
    intros A P B. rewrite <- bpow_div. pose proof (bpow_gt_0 radix2 a). pose proof (bpow_gt_0 radix2 b).
    apply Rmult_le_compat; try lra. { left. now apply Rinv_0_lt_compat. } now apply Rinv_le_contravar.
  Qed.
  Lemma len_small (x y : list flt) : length x = n -> (length (combine x y) <= n)%nat.
  Proof. intros E. rewrite combine_length. lia. Qed.
  Lemma dim_bound m : (m <= n)%nat -> INR m <= bpow radix2 (prec - 4).
  Proof using HR Hprec.
    intros Hm. pose proof prec_ge as P. destruct HR as [_ D]. rewrite INR_IZR_INZ, <- IZR_Zpower by lia. apply IZR_le.
    change (radix_val radix2) with 2%Z. replace (2 ^ prec)%Z with (2 ^ 4 * 2 ^ (prec - 4))%Z in D by (rewrite <- Z.pow_add_r by lia; f_equal; lia).
    change (2 ^ 4)%Z with 16%Z in D. lia.
  Qed.
  Section Distances.
    Variables (l : flt) (x y : list flt).
    Hypothesis FL : is_finite l = true.
    Hypothesis BL : bpow radix2 (- q) <= B2R l <= bpow radix2 q.
    Hypothesis X : all_finite prec emax x.
    Hypothesis Y : all_finite prec emax y.
    Hypothesis LX : length x = n.
    Notation xr := (map B2R x). Notation yr := (map B2R y).
    Notation D := (DD l).
    Let m := length (combine x y).
    Definition eta2 : R := INR m * tau.
    Lemma eta2_small : 0 <= eta2 /\ eta2 / D <= / 4 /\ eta2 <= / 4.
    Proof using HR Hprec BL LX.
      pose proof (dim_bound m (len_small x y LX)) as B. pose proof (tau_pos emax) as TP. pose proof (pos_INR m) as PM. pose proof (DD_bounds l BL) as [B1 _].
      pose proof prec_ge as P8. destruct HR as [[A C] _]. unfold eta2. assert (ET : INR m * tau <= bpow radix2 (prec - 4 + (2 - emax))) by (rewrite bpow_plus; apply Rmult_le_compat; unfold FloatErr.tau in *; lra).
      split; [nra|]. split.
      - apply Rle_trans with (bpow radix2 (prec - 4 + (2 - emax)) / bpow radix2 (1 - 2 * q)).
        + apply Rmult_le_compat; auto; [nra| |]. { left. apply Rinv_0_lt_compat. pose proof (bpow_gt_0 radix2 (1 - 2 * q)). lra. } apply Rinv_le_contravar; auto. apply bpow_gt_0.
        + rewrite bpow_div. change (/ 4) with (bpow radix2 (-2)). apply bpow_le. lia.
      - eapply Rle_trans; [exact ET|]. change (/ 4) with (bpow radix2 (-2)). apply bpow_le. lia.
    Qed.
    Lemma sqdist_nonneg : 0 <= sqdist xr yr.
    Proof.
      unfold sqdist, Rdot. rewrite map2_diag. apply Rsum_nonneg. intros v Hv. apply in_map_iff in Hv as [w [<- _]]. apply Rle_0_sqr.
    Qed.
    (** overflow of the squared distance *)
    Lemma sqd_over : apx (n + 3) (squared_distance O x y) (sqdist xr yr) (sqdist xr yr + eta2) \/
      is_finite (squared_distance O x y) = false /\ bpow radix2 (emax - 1) <= sqdist xr yr.
    Proof using HR Hprec Hmax X Y BL LX.
      pose proof (len_small x y LX) as ML. pose proof eta2_small as (E0 & _ & E1). pose proof sqdist_nonneg as S0.
      destruct (apxo_mono prec emax _ (n + 3) _ _ _ _ (sqd_apxo prec emax x y X Y) ltac:(lia) (Rle_refl _)) as [A|(F & P & B)]; [now left|right].
      split; auto. fold m eta2 in B, P. destruct (gg_small (n + 3) ltac:(lia)) as [_ G]. pose proof (gg_ge1 prec (n + 3)).
      assert (big <= 9 / 8 * (sqdist xr yr + eta2)) by (eapply Rle_trans; [exact B|]; apply Rmult_le_compat_r; lra).
      assert (BB : 16 <= big). { change 16 with (bpow radix2 4). apply bpow_le. pose proof prec_ge. assert (prec < emax)%Z by assumption. lia. }
      unfold Zminus. rewrite bpow_plus. change (bpow radix2 (-(1))) with (/ 2). lra.
    Qed.
    Lemma sqd_ok : apx (n + 3) (squared_distance O x y) (sqdist xr yr) (sqdist xr yr + eta2) \/
      is_finite (squared_distance O x y) = false /\ bpow radix2 (2 * prec - 3) <= sqdist xr yr / D.
    Proof using HR Hprec Hmax X Y BL LX.
      destruct sqd_over as [A|[F B]]; [now left|right]. split; auto.
      pose proof (DD_bounds l BL) as [_ B2]. eapply Rle_trans; [|apply (Rdiv_le_bpow _ _ _ _ B (DD_pos l BL) B2)]. apply bpow_le. destruct HR as [[A C] _]. lia.
    Qed.
    Lemma norm1_ok : apx (n + 3) (norm1 O (difference O x y)) (dist1 xr yr) (dist1 xr yr + 0) \/
      is_finite (norm1 O (difference O x y)) = false /\ HH <= dist1 xr yr / D.
    Proof using HR Hprec Hmax X Y BL LX.
      pose proof (len_small x y LX) as ML. rewrite Rplus_0_r.
      destruct (apxo_mono prec emax _ (n + 3) _ _ _ _ (norm1_apxo prec emax x y X Y) ltac:(lia) (Rle_refl _)) as [A|(F & P & B)]; [now left|right].
      split; auto. destruct (gg_small (n + 3) ltac:(lia)) as [_ G]. pose proof (gg_ge1 prec (n + 3)).
      assert (big <= 9 / 8 * dist1 xr yr) by (eapply Rle_trans; [exact B|]; apply Rmult_le_compat_r; lra).
      assert (BB : bpow radix2 (emax - 1) <= dist1 xr yr).
      { unfold Zminus. rewrite bpow_plus. change (bpow radix2 (-(1))) with (/ 2). pose proof (bpow_gt_0 radix2 emax). lra. }
      pose proof (DD_bounds l BL) as [_ B2]. eapply Rle_trans; [|apply (Rdiv_le_bpow _ _ _ _ BB (DD_pos l BL) B2)]. unfold HH. apply bpow_le. destruct HR as [[A C] _]. pose proof prec_ge. lia.
    Qed.
    Definition eta1 : R := sqrt (eta2 / uu) + tau.
    Lemma eta1_small : 0 <= eta1 /\ eta1 / D <= / 4.
    Proof using HR Hprec BL LX.
      destruct eta2_small as (E0 & _ & _). pose proof (tau_pos emax) as TP. pose proof (DD_bounds l BL) as [B1 _]. pose proof (DD_pos l BL) as DP. pose proof prec_ge as P8.
      pose proof (dim_bound m (len_small x y LX)) as B. pose proof (pos_INR m) as PM. destruct HR as [[A C] _].
      assert (S1 : sqrt (eta2 / uu) <= bpow radix2 (- 2 * q - 2)).
      { rewrite <- (sqrt_square (bpow radix2 (-2 * q - 2))) by apply bpow_ge_0. apply sqrt_le_1_alt. rewrite <- bpow_plus.
        assert (ET : INR m * tau <= bpow radix2 (prec - 4 + (2 - emax))) by (rewrite bpow_plus; apply Rmult_le_compat; unfold FloatErr.tau in *; lra).
        unfold eta2, FloatErr.uu, Rdiv. rewrite <- bpow_opp. apply Rle_trans with (bpow radix2 (prec - 4 + (2 - emax)) * bpow radix2 (- - prec)).
        - apply Rmult_le_compat_r; [apply bpow_ge_0|exact ET].
        - rewrite <- bpow_plus. apply bpow_le. lia. }
      split; [unfold eta1; pose proof (sqrt_pos (eta2 / uu)); lra|].
      apply Rmult_le_reg_r with D; auto. unfold Rdiv. rewrite Rmult_assoc, Rinv_l, Rmult_1_r by lra.
      apply Rle_trans with (/ 4 * bpow radix2 (1 - 2 * q)); [|lra]. unfold eta1.
      assert (T1 : tau <= bpow radix2 (-2 * q - 2)) by (unfold FloatErr.tau; apply bpow_le; lia).
      replace (1 - 2 * q)%Z with (3 + (-2 * q - 2))%Z by lia. rewrite bpow_plus. change (bpow radix2 3) with 8. lra.
    Qed.
    Lemma norm2_ok : apx (n + 4) (norm2 O (difference O x y)) (dist2 xr yr) (dist2 xr yr + eta1) \/
      is_finite (norm2 O (difference O x y)) = false /\ HH <= dist2 xr yr / D.
    Proof using HR Hprec Hmax X Y BL LX.
      pose proof eta2_small as (E0 & _ & _). pose proof sqdist_nonneg as S0. pose proof (nn_sqd prec emax x y X Y) as NS.
      unfold norm2, dist2. change (fdot O (difference O x y) (difference O x y)) with (squared_distance O x y).
      destruct sqd_over as [A|[F B]].
      - left. replace (n + 4)%nat with (S (n + 3)) by lia. unfold eta1. rewrite <- Rplus_assoc. apply sqrt_apx; auto; [lia|].
        destruct (gg_small (n + 3) ltac:(lia)). lra.
      - right. split.
        + destruct (squared_distance O x y) as [[]|[]| |[] ? ? ?]; cbn in *; try discriminate; try contradiction; reflexivity.
        + pose proof (DD_bounds l BL) as [_ B2]. pose proof (DD_pos l BL) as DP. pose proof (bpow_gt_0 radix2 (prec - 2)).
          apply Rmult_le_reg_r with D; auto. unfold Rdiv. rewrite Rmult_assoc, Rinv_l, Rmult_1_r by lra.
          apply Rle_trans with (bpow radix2 (prec - 2 + (2 * q + 1))); [rewrite bpow_plus; apply Rmult_le_compat; unfold HH; lra|].
          rewrite <- (sqrt_square (bpow radix2 (prec - 2 + (2 * q + 1)))) by apply bpow_ge_0. apply sqrt_le_1_alt. rewrite <- bpow_plus.
          eapply Rle_trans; [|exact B]. apply bpow_le. destruct HR as [[A C] _]. lia.
    Qed.
  End Distances.
End Kern3.
