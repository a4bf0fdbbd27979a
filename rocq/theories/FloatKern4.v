(** * Rounding errors of the built-in kernels: the kernel values *)
From Coq Require Import List ZArith Bool Reals Lia Lra.
From Coq Require Import Floats.SpecFloat.
From Flocq Require Import Core.Core IEEE754.BinarySingleNaN.
From Verif Require Import Num Jax RSum SumSpec SumProofs Float MeanModel UtilModel KernelModel KernelSpec FloatProofs2 FloatGreedy FloatErr FloatRate3 FloatKern FloatKern2 FloatKern3 FloatKernSpec.
Import ListNotations.
Open Scope R_scope.

Section Kern4.
  Context (prec emax : Z) {Hprec : Prec_gt_0 prec} {Hmax : Prec_lt_emax prec emax} {Sm : SumOrder prec emax}.
  Notation flt := (binary_float prec emax).
  Notation O := (FOpsIEEE prec emax).
  Notation rnd := (round radix2 (SpecFloat.fexp prec emax) (round_mode mode_NE)).
  Notation big := (bpow radix2 emax).
  Notation uu := (uu prec).
  Notation tau := (tau emax).
  Notation gg := (gg prec).
  Variables (q : Z) (n : nat).
  Hypothesis HR : kernel_room prec emax q n.
  Notation dl := (dl prec n).
  Notation HH := (HH prec).

  Lemma HH_inv t : HH <= t -> / (1 + t) <= 4 * uu.
  Proof.
    intros H. unfold FloatKern3.HH in H. pose proof (bpow_gt_0 radix2 (prec - 2)) as P. apply Rle_trans with (/ bpow radix2 (prec - 2)); [apply Rinv_le_contravar; lra|].
    rewrite <- bpow_opp. replace (- (prec - 2))%Z with (2 + - prec)%Z by lia. rewrite bpow_plus. change (bpow radix2 2) with 4. unfold FloatErr.uu. lra.
  Qed.
  Variables (s : flt) (e : Z).
  Hypothesis FS : is_finite s = true.
  Hypothesis BS : 0 < B2R s <= bpow radix2 e.
  Hypothesis HE : (2 - emax <= e /\ e + 1 <= emax)%Z.
  Lemma tau_e : tau <= bpow radix2 e.
  Proof using HE. clear - HE. unfold FloatErr.tau. apply bpow_le. lia. Qed.
  (** rounding of the final operation: [x] exact, [y] its argument-perturbed value *)
  Lemma final_round y x E : 0 <= E <= 3 / 4 -> 0 <= x <= B2R s -> Rabs (y - x) <= E * B2R s ->
    Rabs (rnd y - x) <= (E + 3 * uu) * bpow radix2 e /\ Rabs (rnd y) < big.
  Proof using BS HE HR Hprec.
    intros HE' X B. pose proof (rnd_err prec emax y) as RE. pose proof tau_e as TE. pose proof (uu_pos prec) as U. pose proof (uu_tiny prec emax q n HR) as U2.
    assert (Y : Rabs y <= (1 + E) * B2R s). { replace y with (y - x + x) by ring. eapply Rle_trans; [apply Rabs_triang|]. rewrite (Rabs_pos_eq x) by lra. lra. }
    assert (Q1 : uu * Rabs y <= uu * (2 * bpow radix2 e)) by (apply Rmult_le_compat_l; [lra|]; nra).
    assert (Q2 : uu * tau <= uu * bpow radix2 e) by (apply Rmult_le_compat_l; lra).
    assert (Q3 : E * B2R s <= E * bpow radix2 e) by (apply Rmult_le_compat_l; lra).
    split.
    - replace (rnd y - x) with ((rnd y - y) + (y - x)) by ring. eapply Rle_trans; [apply Rabs_triang|]. lra.
    - apply Rle_lt_trans with (Rabs (rnd y - y) + Rabs y); [replace (rnd y) with (rnd y - y + y) at 1 by ring; apply Rabs_triang|].
      assert (BB : 2 * bpow radix2 e <= big). { change 2 with (bpow radix2 1). rewrite <- bpow_plus. apply bpow_le. lia. }
      assert (E * B2R s <= 3 / 4 * B2R s) by (apply Rmult_le_compat_r; lra). assert (uu * bpow radix2 e <= / 256 * bpow radix2 e) by (apply Rmult_le_compat_r; lra).
      pose proof (bpow_gt_0 radix2 e). lra.
  Qed.

  (** ** [scale * exp(-t)] *)
  Variables (c : R) (T : TOps flt).
  Hypothesis HC : 0 <= c /\ c * uu <= / 2.
  Hypothesis HT : exp_accurate c T.
  Lemma exp_value v t : 0 <= t ->
    is_finite v = true /\ B2R v <= 0 /\ Rabs (- B2R v - t) <= dl * (t + / 2) \/ v = B754_infinity true /\ HH <= t ->
    is_finite (fmul O s (fexp T v)) = true /\
    Rabs (B2R (fmul O s (fexp T v)) - B2R s * exp (- t)) <= (4 * INR (n + 9) + c + 3) * bpow radix2 (e - prec).
  Proof using HT HC BS HE HR FS Hprec Hmax.
    intros T0 HV. destruct (dl_bounds prec emax q n HR) as [[D0 D1] D2]. pose proof (uu_pos prec) as U. pose proof (uu_tiny prec emax q n HR) as U2.
    pose proof (uu_small prec emax q n HR) as US.
    assert (N9 : INR (n + 9) * uu <= / 16). { eapply Rle_trans; [|exact US]. apply Rmult_le_compat_r; [lra|]. apply le_INR. lia. }
    assert (N1 : 1 <= INR (n + 9)) by (apply (le_INR 1); lia).
    assert (X : 0 <= exp (- t) <= 1).
    { split; [left; apply exp_pos|]. rewrite <- exp_0. destruct T0 as [P| <-]; [left; apply exp_increasing; lra|rewrite Ropp_0; lra]. }
    assert (EX : is_finite (fexp T v) = true /\ Rabs (B2R (fexp T v) - exp (- t)) <= (4 * INR (n + 9) + c) * uu).
    { destruct HV as [(FV & NV & B)|[-> L]].
      - destruct (ea_exp _ _ HT v FV NV) as [F E]. split; auto. fold uu in E.
        replace (B2R (fexp T v) - exp (- t)) with ((B2R (fexp T v) - exp (B2R v)) + (exp (B2R v) - exp (- t))) by ring.
        eapply Rle_trans; [apply Rabs_triang|]. pose proof (exp_rel dl t (- B2R v) (/ 2) ltac:(lra) T0 ltac:(lra) B) as ER. rewrite Ropp_involutive in ER.
        change (bpow radix2 (- prec)) with uu in E. lra.
      - destruct (ea_inf _ _ HT) as [F E]. split; auto. change (bpow radix2 (- prec)) with uu in E.
        eapply Rle_trans; [apply Rabs_triang|]. rewrite Rabs_Ropp, (Rabs_pos_eq (exp (- t))) by lra.
        pose proof (exp_lower t T0). pose proof (HH_inv t L). nra. }
    destruct EX as [FE EE]. set (E := (4 * INR (n + 9) + c) * uu) in *.
    assert (E34 : 0 <= E <= 3 / 4) by (unfold E; nra).
    destruct (final_round (B2R s * B2R (fexp T v)) (B2R s * exp (- t)) E E34) as [B1 B2].
    - nra.
    - replace (B2R s * B2R (fexp T v) - B2R s * exp (- t)) with (B2R s * (B2R (fexp T v) - exp (- t))) by ring. rewrite Rabs_mult, (Rabs_pos_eq (B2R s)), (Rmult_comm E) by lra. apply Rmult_le_compat_l; lra.
    - destruct (mult_cases prec emax s (fexp T v) FS FE) as [[R F]|[_ C]]; [|lra]. cbn [fmul FOpsIEEE]. split; auto. rewrite R. eapply Rle_trans; [exact B1|].
      unfold E, Zminus. rewrite bpow_plus. change (bpow radix2 (- prec)) with uu. right. ring.
  Qed.
End Kern4.

Section Kern5.
  Context (prec emax : Z) {Hprec : Prec_gt_0 prec} {Hmax : Prec_lt_emax prec emax} {Sm : SumOrder prec emax}.
  Notation flt := (binary_float prec emax).
  Notation O := (FOpsIEEE prec emax).
  Notation rnd := (round radix2 (SpecFloat.fexp prec emax) (round_mode mode_NE)).
  Notation big := (bpow radix2 emax).
  Notation uu := (uu prec).
  Notation tau := (tau emax).
  Notation gg := (gg prec).
  Variables (q : Z) (n : nat).
  Hypothesis HR : kernel_room prec emax q n.
  Notation dl := (dl prec n).
  Variables (s : flt) (e : Z).
  Hypothesis FS : is_finite s = true.
  Hypothesis BS : 0 < B2R s <= bpow radix2 e.
  Hypothesis HE : (2 - emax <= e /\ e + 1 <= emax)%Z.

  Lemma inv_close x th : 0 <= th <= / 2 -> Rabs (x - 1) <= th -> Rabs (/ x - 1) <= 2 * th.
  Proof.
    intros H B. apply Rabs_le_inv in B. replace (/ x - 1) with ((1 - x) * / x) by (field; lra). rewrite Rabs_mult.
    assert (I : 0 < / x <= 2). { split; [apply Rinv_0_lt_compat; lra|]. replace 2 with (/ / 2) by field. apply Rinv_le_contravar; lra. }
    rewrite (Rabs_pos_eq (/ x)) by lra. assert (Rabs (1 - x) <= th) by (apply Rabs_le; lra). rewrite Rmult_comm. apply Rmult_le_compat; auto using Rabs_pos; lra.
  Qed.
  (** [scale / sqrt(1 + t)] *)
  Lemma imq_value v t : 0 <= t ->
    is_finite v = true /\ 0 <= B2R v /\ Rabs (B2R v - t) <= dl * (t + / 2) \/ v = B754_infinity false /\ bpow radix2 (2 * prec - 3) <= t ->
    let k := fdiv O s (fsqrt O (fadd O (f1 O) v)) in
    is_finite k = true /\ Rabs (B2R k - B2R s / sqrt (1 + t)) <= (6 * INR (n + 9) + 21) * bpow radix2 (e - prec).
  Proof using BS HE HR FS Hprec Hmax.
    intros T0 HV k. destruct (dl_bounds prec emax q n HR) as [[D0 D1] D2]. pose proof (uu_pos prec) as U. pose proof (uu_tiny prec emax q n HR) as U2.
    pose proof (uu_small prec emax q n HR) as US. pose proof (tau_small prec emax q n HR) as TS.
    assert (N9 : INR (n + 9) * uu <= / 16). { eapply Rle_trans; [|exact US]. apply Rmult_le_compat_r; [lra|]. apply le_INR. lia. }
    assert (N1 : 1 <= INR (n + 9)) by (apply (le_INR 1); lia).
    assert (S1 : 1 <= sqrt (1 + t)) by (rewrite <- sqrt_1 at 1; apply sqrt_le_1_alt; lra).
    assert (SI : 0 < / sqrt (1 + t) <= 1). { split; [apply Rinv_0_lt_compat; lra|]. apply Rle_trans with (/ 1); [apply Rinv_le_contravar; lra|rewrite Rinv_1; lra]. }
    assert (PS : pos prec emax s) by (apply pos_spec; split; auto; lra).
    assert (UE : bpow radix2 (e - prec) = uu * bpow radix2 e) by (unfold Zminus; rewrite bpow_plus; unfold FloatErr.uu; ring).
    pose proof (bpow_gt_0 radix2 e) as EP. pose proof (tau_pos emax) as TP.
    (* the base is infinite *)
    assert (INF : forall b : flt, b = B754_infinity false -> bpow radix2 (2 * prec - 3) <= 2 * (1 + t) -> k = fdiv O s (fsqrt O b) ->
      is_finite k = true /\ Rabs (B2R k - B2R s / sqrt (1 + t)) <= (6 * INR (n + 9) + 21) * bpow radix2 (e - prec)).
    { intros b -> L ->. destruct s as [| | |? ? ? ?]; try contradiction. split; [reflexivity|]. cbn [fdiv fsqrt FOpsIEEE Bsqrt Bdiv]. set (sv := B2R (B754_finite _ _ _ _)) in *. change (B2R (B754_zero _)) with 0.
      rewrite Rminus_0_l, Rabs_Ropp, Rabs_pos_eq by (apply Rmult_le_pos; lra).
      assert (Q : / sqrt (1 + t) <= 4 * uu).
      { apply Rle_trans with (/ bpow radix2 (prec - 2)).
        - apply Rinv_le_contravar; [apply bpow_gt_0|]. rewrite <- (sqrt_square (bpow radix2 (prec - 2))) by apply bpow_ge_0. apply sqrt_le_1_alt.
          rewrite <- bpow_plus. replace (2 * prec - 3)%Z with (1 + (prec - 2 + (prec - 2)))%Z in L by lia. rewrite bpow_plus in L. change (bpow radix2 1) with 2 in L. lra.
        - rewrite <- bpow_opp. replace (- (prec - 2))%Z with (2 + - prec)%Z by lia. rewrite bpow_plus. change (bpow radix2 2) with 4. unfold FloatErr.uu. lra. }
      rewrite UE. apply Rle_trans with (bpow radix2 e * (4 * uu)); [apply Rmult_le_compat; lra|]. assert (0 < uu * bpow radix2 e) by (apply Rmult_lt_0_compat; lra). nra. }
    destruct HV as [(FV & NV & B)|[-> L]].
    - set (b := fadd O (f1 O) v) in *.
      assert (AX : Rabs (1 + B2R v - (1 + t)) <= dl * (1 + t)). { replace (1 + B2R v - (1 + t)) with (B2R v - t) by ring. nra. }
      destruct (plus_cases prec emax Bone v (is_finite_Bone prec emax _ _) FV) as [[R F]|(E & _ & C)]; rewrite ?Bone_correct in *.
      + change (Bplus mode_NE Bone v) with b in *.
        pose proof (rnd_add prec emax Bone v) as RA. rewrite Bone_correct in RA. rewrite (Rabs_pos_eq (1 + B2R v)) in RA by lra. rewrite <- R in RA.
        set (th := 9 / 8 * uu + dl) in *.
        assert (TH : 0 <= th <= / 7) by (unfold th; lra).
        assert (RB : Rabs (B2R b / (1 + t) - 1) <= th).
        { replace (B2R b / (1 + t) - 1) with ((B2R b - (1 + t)) * / (1 + t)) by (field; lra). rewrite Rabs_mult, (Rabs_pos_eq (/ (1 + t))) by (left; apply Rinv_0_lt_compat; lra).
          apply Rmult_le_reg_r with (1 + t); [lra|]. rewrite Rmult_assoc, Rinv_l, Rmult_1_r by lra.
          replace (B2R b - (1 + t)) with ((B2R b - (1 + B2R v)) + (1 + B2R v - (1 + t))) by ring. eapply Rle_trans; [apply Rabs_triang|].
          assert (1 + B2R v <= 9 / 8 * (1 + t)). { apply Rabs_le_inv in AX. nra. } unfold th. nra. }
        assert (B1 : 1 <= B2R b). { rewrite R. rewrite <- (rnd_1 prec emax) at 1. apply rnd_mono; auto. lra. }
        set (r := fsqrt O b) in *. assert (RR : is_finite r = true /\ B2R r = rnd (sqrt (B2R b))).
        { destruct (Bsqrt_correct prec emax _ _ mode_NE b) as (R' & FF & _). unfold r. cbn [fsqrt FOpsIEEE]. split; [|exact R'].
          rewrite FF. clear - F B1. destruct b as [[]|[]| |[] m ee H]; try discriminate F; try reflexivity. pose proof (neg_lt0 m ee). cbn in B1. lra. }
        destruct RR as [FR RV].
        assert (SB : 1 <= sqrt (B2R b)) by (rewrite <- sqrt_1 at 1; apply sqrt_le_1_alt; lra).
        assert (SC : Rabs (sqrt (B2R b) / sqrt (1 + t) - 1) <= th).
        { rewrite <- sqrt_div by lra. eapply Rle_trans; [apply sqrt_close|exact RB]. apply Rmult_le_pos; [lra|left; apply Rinv_0_lt_compat; lra]. }
        assert (RC : Rabs (B2R r - sqrt (B2R b)) <= uu * sqrt (B2R b)).
        { rewrite RV. pose proof (rnd_rel prec emax (sqrt (B2R b))) as Q. rewrite (Rabs_pos_eq (sqrt (B2R b))) in Q by lra. apply Q. lra. }
        set (th2 := th + 9 / 7 * uu) in *.
        assert (RQ : Rabs (B2R r / sqrt (1 + t) - 1) <= th2).
        { replace (B2R r / sqrt (1 + t) - 1) with ((B2R r - sqrt (B2R b)) * / sqrt (1 + t) + (sqrt (B2R b) / sqrt (1 + t) - 1)) by (field; lra).
          eapply Rle_trans; [apply Rabs_triang|]. rewrite Rabs_mult, (Rabs_pos_eq (/ sqrt (1 + t))) by lra.
          assert (Rabs (B2R r - sqrt (B2R b)) * / sqrt (1 + t) <= uu * (sqrt (B2R b) / sqrt (1 + t))).
          { unfold Rdiv. rewrite <- Rmult_assoc. apply Rmult_le_compat_r; lra. }
          pose proof (Rabs_le_inv _ _ SC). unfold th2. nra. }
        assert (T2 : 0 <= th2 <= / 2) by (unfold th2; lra).
        pose proof (inv_close _ _ T2 RQ) as RI. rewrite Rinv_div in RI.
        assert (R1 : 1 <= B2R r). { rewrite RV. rewrite <- (rnd_1 prec emax) at 1. apply rnd_mono; auto. }
        set (E := 2 * th2) in *.
        assert (E34 : 0 <= E <= 3 / 4) by (unfold E, th2, th; lra).
        destruct (final_round prec emax q n HR s e BS HE (B2R s / B2R r) (B2R s / sqrt (1 + t)) E E34) as [Q1 Q2].
        * split; [apply Rmult_le_pos; lra|]. unfold Rdiv. rewrite <- (Rmult_1_r (B2R s)) at 2. apply Rmult_le_compat_l; lra.
        * replace (B2R s / B2R r - B2R s / sqrt (1 + t)) with (B2R s / sqrt (1 + t) * (sqrt (1 + t) / B2R r - 1)) by (field; lra). rewrite Rabs_mult.
          rewrite (Rabs_pos_eq (B2R s / sqrt (1 + t))) by (apply Rmult_le_pos; lra). rewrite (Rmult_comm E). apply Rmult_le_compat; auto using Rabs_pos.
          -- apply Rmult_le_pos; lra.
          -- unfold Rdiv. rewrite <- (Rmult_1_r (B2R s)) at 2. apply Rmult_le_compat_l; lra.
        * destruct (div_cases prec emax s r FS ltac:(lra)) as [[R' F']|[_ C]]; [|lra]. unfold k. cbn [fdiv FOpsIEEE]. split; auto. rewrite R'. eapply Rle_trans; [exact Q1|].
          rewrite UE, <- Rmult_assoc. apply Rmult_le_compat_r; [lra|]. unfold E, th2, th. lra.
      + apply (INF b); auto.
        * unfold b. cbn [fadd f1 FOpsIEEE]. rewrite E. now rewrite (Bsign_Bone prec emax _ _).
        * pose proof (H1_le prec emax q n HR) as [HL _]. pose proof (rnd_add prec emax Bone v) as RA. rewrite Bone_correct, (Rabs_pos_eq (1 + B2R v)) in RA by lra.
          apply Rabs_le_inv in RA. rewrite Rabs_pos_eq in C by (apply rnd_ge0; auto; lra). apply Rabs_le_inv in AX.
          assert (uu * (1 + B2R v) <= / 256 * (1 + B2R v)) by (apply Rmult_le_compat_r; lra). nra.
    - apply (INF (fadd O (f1 O) (B754_infinity false))); auto; [|lra]. cbn [fadd f1 FOpsIEEE]. pose proof (is_finite_strict_Bone prec emax _ _) as F. destruct (Bone : flt); try discriminate F. reflexivity.
  Qed.
End Kern5.
