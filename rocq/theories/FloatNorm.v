(** * Normalised weights in floating point: proofs *)
From Coq Require Import List ZArith Bool Reals Permutation Lia Lra.
From Coq Require Import Floats.SpecFloat.
From Flocq Require Import Core.Core IEEE754.BinarySingleNaN.
From Verif Require Import Num Jax RSum SumSpec SumProofs Float DataModel FloatIdxSpec FloatErrSpec FloatProofs2 FloatErr.
Import ListNotations.
Open Scope R_scope.

Section Norm.
  Context (prec emax : Z) {Hprec : Prec_gt_0 prec} {Hmax : Prec_lt_emax prec emax} {Sm : SumOrder prec emax}.
  Notation flt := (binary_float prec emax).
  Notation O := (FOpsIEEE prec emax).
  Notation rnd := (round radix2 (SpecFloat.fexp prec emax) (round_mode mode_NE)).
  Notation big := (bpow radix2 emax).
  Notation uu := (uu prec).
  Notation tau := (tau emax).
  Notation gg := (gg prec).
  Lemma rnd_plus_ge (a b : flt) : 0 <= B2R a -> 0 <= B2R b -> B2R a <= rnd (B2R a + B2R b) /\ B2R b <= rnd (B2R a + B2R b).
  Proof using Hprec. intros A B. split; [rewrite <- (rnd_id prec emax a) at 1|rewrite <- (rnd_id prec emax b) at 1]; apply rnd_mono; auto; lra. Qed.
  (** the float sum of weights is at least every weight *)
  Lemma sum_ge l : Forall weight_ok l -> is_finite (fsum O l) = true -> forall v, In v l -> B2R v <= B2R (fsum O l).
  Proof using Hprec Hmax Sm.
    pose proof (sum_fun_ok l) as H. change (sum_fun l) with (fsum O l) in H. rewrite <- (map_id l) in H at 1. revert H. generalize (fsum O l) as s. intros s H. revert l s H.
    assert (K : forall l s, summed (Bplus mode_NE) (B754_zero false) (map (fun v : flt => v) l) s ->
      Forall weight_ok l -> (is_finite s = true -> 0 <= B2R s /\ forall v, In v l -> B2R v <= B2R s) /\ (is_finite s = true \/ s = B754_infinity false)).
    { apply (summed_map_ind _ _ (fun v : flt => v) (fun l s => Forall weight_ok l -> (is_finite s = true -> 0 <= B2R s /\ forall v, In v l -> B2R v <= B2R s) /\ (is_finite s = true \/ s = B754_infinity false))).
      - intros _. split; [intros _; split; [cbn; lra|intros v []]|now left].
      - intros a F. inversion F as [|? ? [FA PA] _]; subst. split; [|now left]. intros _. split; auto. intros v [->|[]]. lra.
      - intros l1 l2 a b H1 H2 F. apply Forall_app in F as [F1 F2]. destruct (H1 F1) as [A1 A2]. destruct (H2 F2) as [B1 B2].
        destruct A2 as [FA| ->].
        + destruct B2 as [FB| ->].
          * destruct (A1 FA) as [PA QA]. destruct (B1 FB) as [PB QB]. destruct (rnd_plus_ge a b PA PB) as [G1 G2].
            destruct (plus_cases prec emax a b FA FB) as [[R FS]|(E & S & C)].
            -- split; [|now left]. intros _. rewrite R. split; [lra|]. intros v Hv. apply in_app_or in Hv as [Hv|Hv]; [specialize (QA v Hv)|specialize (QB v Hv)]; lra.
            -- split; [|right]; rewrite E; [discriminate|]. f_equal. destruct a as [[]| | |[] ? ? ?], b as [[]| | |[] ? ? ?]; try discriminate; cbn in S; try reflexivity; try discriminate S;
                 cbn in E; try discriminate E; try (exfalso; cbn in C; rewrite ?Rplus_0_l, ?rnd_0, ?Rabs_R0 in C by auto; pose proof (bpow_gt_0 radix2 emax); lra);
                 exfalso; match goal with H : 0 <= B2R (B754_finite true ?m ?e ?h) |- _ => pose proof (neg_lt0 m e); cbn in H; lra end.
          * destruct a as [[]|[]| |[] ? ? ?]; try discriminate FA; cbn; split; auto; discriminate.
        + destruct B2 as [FB| ->]; [destruct b as [[]|[]| |[] ? ? ?]; try discriminate FB|]; cbn; split; auto; discriminate.
      - intros l l' v HP H F. destruct (H (Permutation_Forall (Permutation_sym HP) F)) as [A B]. split; [|exact B]. intros FV. destruct (A FV) as [P Q]. split; auto.
        intros u Hu. apply Q. eapply Permutation_in; [apply Permutation_sym; exact HP|exact Hu]. }
    intros l s H F FS v Hv. apply (proj1 (K l s H F) FS). exact Hv.
  Qed.

  Section Weights.
    Variable w : list flt.
    Hypothesis W : Forall weight_ok w.
    Hypothesis T : 0 < total w <= bpow radix2 (emax - 2).
    Hypothesis N : (2 * (Z.of_nat (length w) + 1) <= 2 ^ prec)%Z.
    Notation n := (length w).
    Lemma n_small : INR (n + 1) * uu <= / 2.
    Proof using N Hprec.
      assert (P : (0 < prec)%Z) by assumption. replace (/ 2) with (IZR (2 ^ (prec - 1)) * uu).
      - apply Rmult_le_compat_r; [unfold FloatErr.uu; apply bpow_ge_0|]. rewrite INR_IZR_INZ. apply IZR_le. replace (2 ^ prec)%Z with (2 * 2 ^ (prec - 1))%Z in N by (rewrite <- Z.pow_succ_r by lia; f_equal; lia). lia.
      - change 2%Z with (radix_val radix2). rewrite IZR_Zpower by lia. unfold FloatErr.uu. rewrite <- bpow_plus. replace (prec - 1 + - prec)%Z with (-1)%Z by lia. reflexivity.
    Qed.
    Lemma gg_n : gg (n + 1) - 1 <= 2 * (INR (n + 1) * uu) /\ gg (n + 1) <= 2.
    Proof using N Hprec. pose proof (gg_bound prec (n + 1) n_small). pose proof n_small. lra. Qed.
    Lemma w_ne : w <> [].
    Proof using T. clear - T. intros ->. unfold total in T. cbn in T. lra. Qed.
    Lemma prec2 : (2 <= prec)%Z.
    Proof using N T Hprec.
      assert (P : (0 < prec)%Z) by assumption. destruct (Z.eq_dec prec 1) as [E|]; [|lia]. assert (N' : (2 ^ prec = 2)%Z) by (rewrite E; reflexivity).
      pose proof w_ne as NE. clear - N N' NE. destruct w; [congruence|]. cbn [length] in N. lia.
    Qed.
    Lemma tau_half : 0 < tau <= / 2 /\ INR n * tau <= 1.
    Proof using N T Hprec Hmax.
      assert (PE : (prec < emax)%Z) by assumption. pose proof prec2 as P2. unfold FloatErr.tau.
      split; [split; [apply bpow_gt_0|change (/ 2) with (bpow radix2 (-1)); apply bpow_le; lia]|].
      assert (B : INR n <= bpow radix2 (prec - 1)).
      { rewrite INR_IZR_INZ, <- IZR_Zpower by lia. apply IZR_le. change (radix_val radix2) with 2%Z.
        replace (2 ^ prec)%Z with (2 * 2 ^ (prec - 1))%Z in N by (rewrite <- Z.pow_succ_r by lia; f_equal; lia). lia. }
      apply Rle_trans with (bpow radix2 (prec - 1) * bpow radix2 (2 - emax)); [apply Rmult_le_compat_r; [apply bpow_ge_0|exact B]|].
      rewrite <- bpow_plus. change 1 with (bpow radix2 0). apply bpow_le. lia.
    Qed.
    Lemma nw_ok v : In v w -> apx prec emax (n + 1) (nw prec emax w v) (B2R v / total w) (B2R v / total w + tau).
    Proof using W T N Hprec Hmax.
      intros Hv. destruct gg_n as [_ G]. destruct tau_half as [T1 _]. apply nw_apx; auto.
      - apply T.
      - pose proof (gg_mono prec n (n + 1) ltac:(lia)). apply Rle_lt_trans with (2 * bpow radix2 (emax - 2)).
        + apply Rmult_le_compat; try lra; [pose proof (gg_ge1 prec n); lra| |apply T]. apply Rlt_le, T.
        + change 2 with (bpow radix2 1) at 1. rewrite <- bpow_plus. apply bpow_lt. lia.
      - assert (8 <= big). { change 8 with (bpow radix2 3). apply bpow_le. assert (prec < emax)%Z by assumption. pose proof prec2. lia. }
        assert (gg (n + 1) * (1 + tau) <= 2 * (1 + tau)) by (apply Rmult_le_compat_r; lra). lra.
    Qed.
    Lemma s_pos : is_finite (fsum O w) = true /\ 0 < B2R (fsum O w).
    Proof using W T N Hprec Hmax.
      destruct (sum_nonneg prec emax w W) as ([F P] & S1 & S2).
      - destruct gg_n as [_ G]. pose proof (gg_mono prec n (n + 1) ltac:(lia)). apply Rle_lt_trans with (2 * bpow radix2 (emax - 2)).
        + apply Rmult_le_compat; try lra; [pose proof (gg_ge1 prec n); lra| |apply T]. apply Rlt_le, T.
        + change 2 with (bpow radix2 1) at 1. rewrite <- bpow_plus. apply bpow_lt. lia.
      - split; [exact F|]. destruct T as [TP _]. unfold total in TP. destruct P as [P|P]; [exact P|]. rewrite <- P, Rmult_0_r in S1. lra.
    Qed.
    (** the quotient is a number between 0 and 1 *)
    Lemma quotient_unit v : In v w -> let x := fdiv O v (fsum O w) in
      is_finite x = true /\ B2R x = rnd (B2R v / B2R (fsum O w)) /\ 0 <= B2R x <= 1 /\ fnan_to_num O x = x.
    Proof using W T N Hprec Hmax.
      intros Hv x. destruct s_pos as [FS PS]. pose proof (sum_ge w W FS v Hv) as LE. pose proof (proj1 (Forall_forall _ _) W v Hv) as [FV PV].
      assert (Q : 0 <= B2R v / B2R (fsum O w) <= 1).
      { split; [apply Rmult_le_pos; auto; left; now apply Rinv_0_lt_compat|]. apply Rmult_le_reg_r with (B2R (fsum O w)); auto. unfold Rdiv. rewrite Rmult_assoc, Rinv_l; lra. }
      assert (R : 0 <= rnd (B2R v / B2R (fsum O w)) <= 1).
      { split; [apply rnd_ge0; auto; lra|]. rewrite <- (rnd_1 prec emax). apply rnd_mono; auto. lra. }
      assert (B1 : 1 < big) by (change 1 with (bpow radix2 0); apply bpow_lt; assert (prec < emax)%Z by assumption; pose proof prec2; lia).
      destruct (div_cases prec emax v (fsum O w) FV (Rgt_not_eq _ _ PS)) as [[E F]|[_ C]]; [|rewrite Rabs_pos_eq in C; lra].
      change (Bdiv mode_NE v (fsum O w)) with x in *. split; [exact F|]. split; [exact E|]. split; [rewrite E; exact R|]. destruct x; try discriminate F; reflexivity.
    Qed.
  End Weights.
End Norm.
