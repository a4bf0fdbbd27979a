(** * Accuracy of the joint maximum mean discrepancy and of the kernel Stein discrepancy in
      IEEE arithmetic *)
From Coq Require Import List ZArith Bool Reals Lia Lra.
From Coq Require Import Floats.SpecFloat.
From Flocq Require Import Core.Core IEEE754.BinarySingleNaN.
From Verif Require Import Num Jax RSum JaxFacts DataModel MeanModel MeanGeneric MeanSpec GreedySpec MetricModel GreedyProofs GreedyProofs2 MetricProofs
  Float FloatProofs2 FloatGreedy FloatGreedy2 FloatIdxSpec FloatErrSpec FloatErr FloatMean FloatMMD.
Import ListNotations.
Open Scope R_scope.

(** ** The joint mean as one sum over pairs *)
Section Shape.
  Context {V : Type} (O : FOps V) {P Y : Type}.
  Variables (k : P -> P -> V) (r : Y -> Y -> V).
  Definition kk (p q : P * Y) : V := fmul O (k (fst p) (fst q)) (r (snd p) (snd q)).
  Lemma mat2_pairs x1 y1 x2 y2 : length x1 = length y1 -> length x2 = length y2 ->
    mat2 (fmul O) (pairwise k x1 x2) (pairwise r y1 y2) = pairwise kk (combine x1 y1) (combine x2 y2).
  Proof.
    intros H1 H2. unfold mat2, pairwise. revert y1 H1; induction x1 as [|a x1 IH]; intros [|b y1] H1; simpl in *; try discriminate; auto.
    f_equal; [|apply IH; lia]. clear - H2. revert y2 H2; induction x2 as [|c x2 IH]; intros [|d y2] H2; simpl in *; try discriminate; auto.
    f_equal. apply IH. lia.
  Qed.
  Lemma vecmat_pairs {Q} (w : list V) (ps qs : list Q) (g : Q -> Q -> V) :
    vecmat O (length qs) w (pairwise g ps qs) = map (fun q => fdot O w (map (fun p => g p q) ps)) qs.
  Proof.
    destruct qs as [|q0 qs']; [reflexivity|]. set (qs := q0 :: qs'). unfold vecmat.
    transitivity (map (fun q => fdot O w (map (fun p => g p q) ps)) (map (fun j => nth j qs q0) (seq 0 (length qs)))).
    2:{ now rewrite map_nth_seq. }
    rewrite map_map. apply map_ext_in. intros j Hj. apply in_seq in Hj. f_equal.
    unfold mcol, pairwise. rewrite map_map. apply map_ext. intros p. rewrite (nth_map_lt _ _ _ q0) by lia. reflexivity.
  Qed.
  Lemma map2_combine {A B C} (f : A -> B -> C) l m : map2 f l m = map (fun p => f (fst p) (snd p)) (combine l m).
  Proof. revert m. induction l as [|a l IH]; intros [|b m]; cbn; auto. now rewrite IH. Qed.
  Lemma map2_flip {A B C} (f : A -> B -> C) l m : map2 f l m = map2 (fun b a => f a b) m l.
  Proof. revert m. induction l as [|a l IH]; intros [|b m]; cbn; auto. now rewrite IH. Qed.
  Lemma joint_mean_sum (h1 h2 : V -> V) x1 y1 w1 x2 y2 w2 : length x1 = length y1 -> length x2 = length y2 ->
    joint_mean O k r x1 y1 (map h1 w1) x2 y2 (map h2 w2) =
    fsum O (map (fun d => fmul O (fsum O (map (fun c => fmul O (h1 (snd c)) (kk (fst c) (fst d))) (combine (combine x1 y1) w1))) (h2 (snd d)))
      (combine (combine x2 y2) w2)).
  Proof.
    intros H1 H2. unfold joint_mean. rewrite mat2_pairs by auto.
    replace (length x2) with (length (combine x2 y2)) by (rewrite combine_length; lia). rewrite vecmat_pairs.
    unfold fdot. rewrite map2_map, map2_combine. f_equal. apply map_ext. intros [q v]. cbn [fst snd]. f_equal. f_equal.
    rewrite map2_map, map2_flip, map2_combine. reflexivity.
  Qed.
End Shape.

(** ** Weighted averages as sums *)
Section Avg.
  Context {prec emax : Z} {Q : Type}.
  Notation flt := (binary_float prec emax).
  Lemma wavg_pairs (f : Q -> R) ps (w : list flt) :
    wavg f ps (map B2R w) = Rsum (map (fun c => B2R (snd c) / Rsum (map B2R w) * f (fst c)) (combine ps w)).
  Proof.
    unfold wavg. set (W := Rsum (map B2R w)). clearbody W. unfold wsum. revert w. induction ps as [|p ps IH]; intros w; [cbn; unfold Rdiv; ring|].
    destruct w as [|a w]; [cbn; unfold Rdiv; ring|]. cbn [map combine Rsum fst snd]. rewrite <- IH. unfold Rdiv. ring.
  Qed.
  Lemma wavg_exchange (j : Q -> Q -> R) ps w qs v :
    wavg (fun q => wavg (fun p => j p q) ps w) qs v = wavg (fun p => wavg (fun q => j p q) qs v) ps w.
  Proof.
    rewrite !wavg_lin_nm.
    rewrite (lin_ext (nm qs v) _ (fun q => lin (nm ps w) (fun p => j p q))) by (intros; apply wavg_lin_nm).
    rewrite (lin_ext (nm ps w) _ (fun p => lin (nm qs v) (fun q => j p q))) by (intros; apply wavg_lin_nm).
    rewrite <- bil_swap. reflexivity.
  Qed.
  Lemma weights_sum (ps : list Q) (w : list flt) W c d : length w = length ps -> W <> 0 -> Rsum (map B2R w) = W ->
    Rsum (map (fun x => (B2R (snd x) / W + c) * d + c) (combine ps w)) = (1 + INR (length ps) * c) * d + INR (length ps) * c.
  Proof.
    intros HL HW HS. replace 1 with (Rsum (map B2R w) / W) by (rewrite HS; field; auto). clear HS. revert w HL.
    induction ps as [|p ps IH]; intros [|a w] HL; try discriminate; cbn [map combine Rsum fst snd length].
    - cbn. field. auto.
    - rewrite (IH w) by (cbn in HL; lia). rewrite S_INR. field. auto.
  Qed.
End Avg.

Section JMMD.
  Context (prec emax : Z) {Hprec : Prec_gt_0 prec} {Hmax : Prec_lt_emax prec emax} {Sm : SumOrder prec emax}.
  Notation flt := (binary_float prec emax).
  Notation O := (FOpsIEEE prec emax).
  Notation big := (bpow radix2 emax).
  Notation gg := (gg prec). Notation tau := (tau emax). Notation apx := (apx prec emax). Notation uu := (uu prec).
  Lemma apx_div N v x S d : apx N v x S -> is_finite d = true -> 0 < B2R d -> gg (Datatypes.S N) * (S / B2R d + tau) < big ->
    apx (Datatypes.S N) (Bdiv mode_NE v d) (x / B2R d) (S / B2R d + tau).
  Proof.
    intros (FV & A & B) FD DP L. pose proof (tau_pos emax) as TP. set (D := B2R d) in *.
    assert (IP : 0 < / D) by now apply Rinv_0_lt_compat.
    destruct (apx_round prec N (B2R v / D) (x / D) (S / D) tau (round radix2 (SpecFloat.fexp prec emax) (round_mode mode_NE) (B2R v / D))) as [R1 R2].
    - unfold Rdiv. rewrite Rabs_mult, (Rabs_pos_eq (/ D)) by lra. apply Rmult_le_compat_r; lra.
    - replace (B2R v / D - x / D) with ((B2R v - x) * / D) by (unfold Rdiv; ring). rewrite Rabs_mult, (Rabs_pos_eq (/ D)) by lra.
      apply Rle_trans with ((gg N - 1) * S * / D); [apply Rmult_le_compat_r; lra|]. unfold Rdiv. lra.
    - lra.
    - apply rnd_err; assumption.
    - destruct (div_cases prec emax v d FV ltac:(fold D; lra)) as [[R F]|(_ & C)]; [|fold D in C; lra].
      split; auto. rewrite R. fold D. split; auto. unfold Rdiv. rewrite Rabs_mult, (Rabs_pos_eq (/ D)) by lra.
      assert (Rabs x * / D <= S * / D) by (apply Rmult_le_compat_r; lra). lra.
  Qed.

  Section Room.
    Variables (a e : Z) (L : nat).
    Hypothesis HR : mean_room prec emax a e L.
    Notation K := (bpow radix2 e).
    Context {P Y : Type} (k : P -> P -> flt) (r : Y -> Y -> flt) (e1 e2 : Z).
    Hypothesis HE : (e1 + e2 = e)%Z.
    Notation wdata := (weighted_data (prec := prec) (emax := emax) a).
    Notation jR := (fun p q : P * Y => B2R (k (fst p) (fst q)) * B2R (r (snd p) (snd q))).
    Lemma n_room n : (Z.of_nat n <= 2 ^ a)%Z -> 0 <= INR n * tau <= / 16 /\ INR n * tau <= / 16 * K.
    Proof using HR.
      clear HE. intros Hn. destruct HR as [[A1 A2] B C _].
      assert (T : INR n * tau <= bpow radix2 (a + 2 - emax)).
      { unfold FloatErr.tau. replace (a + 2 - emax)%Z with (a + (2 - emax))%Z by lia. rewrite bpow_plus.
        apply Rmult_le_compat_r; [apply bpow_ge_0|]. rewrite INR_IZR_INZ, <- IZR_Zpower by lia. now apply IZR_le. }
      repeat split.
      - apply Rmult_le_pos; [apply pos_INR|left; apply tau_pos].
      - eapply Rle_trans; [exact T|]. change (/ 16) with (bpow radix2 (-4)). apply bpow_le. lia.
      - eapply Rle_trans; [exact T|]. change (/ 16) with (bpow radix2 (-4)). rewrite <- bpow_plus. apply bpow_le. lia.
    Qed.
    Lemma tau_small : tau <= / 16 * K.
    Proof using HR.
      clear HE. destruct HR as [[A1 A2] B C _]. unfold FloatErr.tau. change (/ 16) with (bpow radix2 (-4)). rewrite <- bpow_plus. apply bpow_le. lia.
    Qed.
    Lemma joint_apx x1 y1 w1 x2 y2 w2 : wdata x1 w1 -> wdata x2 w2 -> length y1 = length x1 -> length y2 = length x2 ->
      (forall x y, In x x1 -> In y x2 -> at_most e1 (k x y)) -> (forall x y, In x y1 -> In y y2 -> at_most e2 (r x y)) ->
      (2 * length x1 + 2 * length x2 + 5 <= L)%nat ->
      apx (2 * length x1 + 2 * length x2 + 5) (joint_mean O k r x1 y1 (map (nw prec emax w1) w1) x2 y2 (map (nw prec emax w2) w2))
        (wavg (fun p => wavg (fun q => jR p q) (combine x2 y2) (map B2R w2)) (combine x1 y1) (map B2R w1)) (3 / 2 * K).
    Proof using HR HE Hprec Hmax.
      intros H1 H2 E1 E2 Hk Hr HL. set (n := length x1) in *. set (m := length x2) in *.
      pose proof (wd_len _ _ _ H1) as L1. pose proof (wd_len _ _ _ H2) as L2. fold n in L1. fold m in L2.
      destruct (wdata_facts prec emax a e L HR x1 w1 H1 ltac:(lia)) as (_ & _ & F1 & P1 & G1).
      destruct (wdata_facts prec emax a e L HR x2 w2 H2 ltac:(lia)) as (_ & _ & F2 & P2 & G2).
      unfold tot in *. destruct (n_room n (wd_size _ _ _ H1)) as [[N0 N1] N2]. destruct (n_room m (wd_size _ _ _ H2)) as [[M0 M1] M2].
      destruct (tau_room prec emax a e L HR) as (T1 & T2 & T3 & T4). pose proof (tau_pos emax) as TP. pose proof tau_small as TS.
      pose proof (bpow_gt_0 radix2 e) as KP.
      assert (G : forall M S c, (M <= L)%nat -> 0 <= S <= c -> 2 * c < big -> gg M * S < big).
      { intros M S c HM HS HC. destruct (gg_room prec emax a e L HR M HM) as [_ GB]. pose proof (gg_ge1 prec M).
        apply Rle_lt_trans with (2 * c); [apply Rmult_le_compat; lra|lra]. }
      rewrite <- wavg_exchange, wavg_pairs. rewrite (joint_mean_sum O k r _ _ x1 y1 w1 x2 y2 w2) by (unfold n, m in *; congruence).
      set (ps := combine x1 y1). set (qs := combine x2 y2).
      assert (Lp : length ps = n) by (unfold ps; rewrite combine_length; unfold n in *; lia).
      assert (Lq : length qs = m) by (unfold qs; rewrite combine_length; unfold m in *; lia).
      set (W1 := Rsum (map B2R w1)) in *. set (W2 := Rsum (map B2R w2)) in *.
      set (S1 := (1 + INR n * tau) * (K + tau) + INR n * tau).
      assert (S1B : 0 <= S1 <= 5 / 4 * K).
      { unfold S1. set (c := INR n * tau) in *. assert (0 <= c * (K + tau) <= / 16 * (17 / 16 * K)) by (split; [apply Rmult_le_pos; lra|apply Rmult_le_compat; lra]). lra. }
      assert (NW1 : forall v, In v w1 -> apx (n + 1) (nw prec emax w1 v) (B2R v / W1) (B2R v / W1 + tau)).
      { intros v Hv. rewrite <- L1. apply nw_apx; auto. rewrite L1. apply (G _ _ 2); [lia|lra|lra]. }
      assert (NW2 : forall v, In v w2 -> apx (m + 1) (nw prec emax w2 v) (B2R v / W2) (B2R v / W2 + tau)).
      { intros v Hv. rewrite <- L2. apply nw_apx; auto. rewrite L2. apply (G _ _ 2); [lia|lra|lra]. }
      assert (Q : forall w (W : R), W = Rsum (map B2R w) -> 0 < W -> Forall (wok prec emax) w -> forall v : flt, In v w -> 0 <= B2R v / W <= 1).
      { clear. intros w W E WP Fw v Hv. pose proof (proj1 (Forall_forall _ _) Fw v Hv) as [_ PV].
        assert (VW : B2R v <= W).
        { subst W. clear WP PV. induction w as [|b w IH]; [destruct Hv|]. cbn [map Rsum]. inversion Fw as [|? ? [_ PA] Fw']; subst.
          assert (0 <= Rsum (map B2R w)).
          { apply Rsum_nonneg. intros x Hx. apply in_map_iff in Hx as [c [<- Hc]]. rewrite Forall_forall in Fw'. now apply Fw'. }
          destruct Hv as [->|Hv]; [lra|]. specialize (IH Fw' Hv). lra. }
        pose proof (Rinv_0_lt_compat W WP). split; [apply Rmult_le_pos; lra|]. apply Rmult_le_reg_r with W; auto. unfold Rdiv. rewrite Rmult_assoc, Rinv_l; lra. }
      assert (INN : forall q, In q qs -> apx (2 * n + 3) (fsum O (map (fun c => fmul O (nw prec emax w1 (snd c)) (kk O k r (fst c) q)) (combine ps w1)))
                (wavg (fun p => jR p q) ps (map B2R w1)) S1).
      { intros [q z] Hq. apply in_combine_l in Hq as Hq1. apply in_combine_r in Hq as Hq2. rewrite wavg_pairs. fold W1.
        unfold S1. rewrite <- Lp. rewrite <- (weights_sum ps w1 W1 tau (K + tau)) by (auto; try lra; rewrite Lp; auto). rewrite Lp.
        replace (2 * n + 3)%nat with ((n + 3) + length (combine ps w1))%nat by (rewrite combine_length; lia).
        apply apx_sum.
        2:{ rewrite (weights_sum ps w1 W1 tau (K + tau)) by (auto; try lra; rewrite Lp; auto). rewrite Lp. fold S1.
            apply (G _ _ (5 / 4 * K)); [rewrite combine_length; lia|lra|lra]. }
        intros [[p y] v] Hc. apply in_combine_l in Hc as Hp. apply in_combine_r in Hc as Hv. apply in_combine_l in Hp as Hp1. apply in_combine_r in Hp as Hp2.
        cbn [fst snd]. pose proof (Q w1 W1 eq_refl P1 F1 v Hv) as QV.
        replace (n + 3)%nat with (S ((n + 1) + 1)) by lia. change (fmul O) with (@Bmult prec emax _ _ mode_NE). unfold kk. cbn [fst snd].
        destruct (Hk p q Hp1 Hq1) as [KF KB]. destruct (Hr y z Hp2 Hq2) as [RF RB].
        apply apx_mult; auto.
        - change 1%nat with (S (0 + 0)). replace K with (bpow radix2 e1 * bpow radix2 e2) by (rewrite <- bpow_plus; now f_equal).
          apply apx_mult; try (apply apx_exact; auto).
          rewrite <- bpow_plus. replace (bpow radix2 (e1 + e2)) with K by (f_equal; now symmetry). apply (G _ _ (17 / 16 * K)); [lia|lra|lra].
        - apply (G _ _ ((1 + / 16) * (17 / 16 * K) + / 16 * K)); [lia| |lra].
          assert (0 <= (B2R v / W1 + tau) * (K + tau) <= (1 + / 16) * (17 / 16 * K)) by (split; [apply Rmult_le_pos; lra|apply Rmult_le_compat; lra]). lra. }
      rewrite (map_ext (fun c => B2R (snd c) / W2 * wavg (fun p => jR p (fst c)) ps (map B2R w1))
                       (fun c => wavg (fun p => jR p (fst c)) ps (map B2R w1) * (B2R (snd c) / W2))) by (intros; apply Rmult_comm).
      set (S2 := (1 + INR m * tau) * S1 + INR m * tau).
      assert (S2B : 0 <= S2 <= 3 / 2 * K).
      { unfold S2. set (c := INR m * tau) in *. assert (0 <= c * S1 <= / 16 * (5 / 4 * K)) by (split; [apply Rmult_le_pos; lra|apply Rmult_le_compat; lra]). lra. }
      assert (SE : Rsum (map (fun x => S1 * (B2R (snd x) / W2 + tau) + tau) (combine qs w2)) = S2).
      { unfold S2. rewrite <- Lq. rewrite <- (weights_sum qs w2 W2 tau S1) by (auto; try lra; rewrite Lq; auto). f_equal. apply map_ext. intros. ring. }
      apply apx_mono with (2 * n + 2 * m + 5)%nat S2; [|lia|lra]. rewrite <- SE.
      replace (2 * n + 2 * m + 5)%nat with ((2 * n + m + 5) + length (combine qs w2))%nat by (rewrite combine_length; lia).
      apply apx_sum.
      2:{ rewrite SE. apply (G _ _ (3 / 2 * K)); [rewrite combine_length; lia|lra|lra]. }
      intros [q v] Hc. apply in_combine_l in Hc as Hq. apply in_combine_r in Hc as Hv. cbn [fst snd].
      pose proof (Q w2 W2 eq_refl P2 F2 v Hv) as QV.
      replace (2 * n + m + 5)%nat with (S ((2 * n + 3) + (m + 1))) by lia. change (fmul O) with (@Bmult prec emax _ _ mode_NE).
      apply apx_mult; auto.
      - exact (INN q Hq).
      - apply (G _ _ (5 / 4 * K * (1 + / 16) + / 16 * K)); [lia| |lra].
        assert (0 <= S1 * (B2R v / W2 + tau) <= 5 / 4 * K * (1 + / 16)) by (split; [apply Rmult_le_pos; lra|apply Rmult_le_compat; lra]). lra.
    Qed.
  End Room.
End JMMD.
