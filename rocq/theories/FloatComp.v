(** * Compound kernels in floating point: proofs *)
From Coq Require Import List ZArith Bool Reals Lia Lra.
From Coq Require Import Floats.SpecFloat.
From Flocq Require Import Core.Core IEEE754.BinarySingleNaN.
From Verif Require Import Num Jax RSum SumSpec Float KernelModel KernelSpec FloatProofs2 FloatErr FloatKernSpec FloatKern FloatKern2 FloatKern3 FloatKern5 FloatCompSpec.
Import ListNotations.
Open Scope R_scope.

Section Comp.
  Context (prec emax : Z) {Hprec : Prec_gt_0 prec} {Hmax : Prec_lt_emax prec emax} {Sm : SumOrder prec emax}.
  Notation flt := (binary_float prec emax).
  Notation O := (FOpsIEEE prec emax).
  Notation rnd := (round radix2 (SpecFloat.fexp prec emax) (round_mode mode_NE)).
  Notation big := (bpow radix2 emax).
  Notation uu := (uu prec).
  Notation tau := (tau emax).
  Notation fits := (@fits emax).
  Notation add_acc := (@add_acc prec).
  Notation mul_acc := (@mul_acc prec emax).
  Notation pow_acc := (@pow_acc prec emax).

  Lemma acc_nonneg a (v : flt) x : computes a v x -> 0 <= size a /\ 0 <= error a /\ Rabs (B2R v) <= size a + error a.
  Proof using.
    clear. intros (_ & S & E). pose proof (Rabs_pos x). pose proof (Rabs_pos (B2R v - x)). split; [lra|]. split; [lra|].
    replace (B2R v) with (x + (B2R v - x)) by ring. eapply Rle_trans; [apply Rabs_triang|]. lra.
  Qed.
  Lemma exactly_ok (v : flt) : is_finite v = true -> computes (exactly v) v (B2R v).
  Proof using. clear. intros F. split; [exact F|]. cbn. replace (B2R v - B2R v) with 0 by ring. rewrite Rabs_R0. lra. Qed.
  Lemma add_ok a b (v w : flt) x y : computes a v x -> computes b w y -> fits (add_acc a b) -> computes (add_acc a b) (Bplus mode_NE v w) (x + y).
  Proof using Hprec Hmax.
    intros A B F. destruct (acc_nonneg _ _ _ A) as (A1 & A2 & A3). destruct (acc_nonneg _ _ _ B) as (B1 & B2 & B3).
    destruct A as (FA & SA & EA), B as (FB & SB & EB). unfold FloatCompSpec.fits, FloatCompSpec.add_acc in F. cbn [size error] in F. fold (FloatErr.uu prec) in F.
    pose proof (uu_pos prec) as U.
    assert (S : Rabs (x + y) <= size a + size b) by (eapply Rle_trans; [apply Rabs_triang|]; lra).
    assert (E : Rabs (rnd (B2R v + B2R w) - (x + y)) <= error a + error b + uu * (size a + error a + (size b + error b))).
    { replace (rnd (B2R v + B2R w) - (x + y)) with ((rnd (B2R v + B2R w) - (B2R v + B2R w)) + ((B2R v - x) + (B2R w - y))) by ring.
      eapply Rle_trans; [apply Rabs_triang|]. pose proof (Rabs_triang (B2R v - x) (B2R w - y)).
      pose proof (rnd_add prec emax v w) as R. pose proof (Rabs_triang (B2R v) (B2R w)).
      assert (uu * Rabs (B2R v + B2R w) <= uu * (size a + error a + (size b + error b))) by (apply Rmult_le_compat_l; lra). lra. }
    assert (M : Rabs (rnd (B2R v + B2R w)) < big).
    { replace (rnd (B2R v + B2R w)) with ((x + y) + (rnd (B2R v + B2R w) - (x + y))) by ring. eapply Rle_lt_trans; [apply Rabs_triang|]. lra. }
    destruct (plus_cases prec emax v w FA FB) as [[R FR]|(_ & _ & C)]; [|lra]. split; [exact FR|]. cbn [size error FloatCompSpec.add_acc]. rewrite R. split; [exact S|exact E].
  Qed.
  Lemma mul_ok a b (v w : flt) x y : computes a v x -> computes b w y -> fits (mul_acc a b) -> computes (mul_acc a b) (Bmult mode_NE v w) (x * y).
  Proof using Hprec Hmax.
    intros A B F. destruct (acc_nonneg _ _ _ A) as (A1 & A2 & A3). destruct (acc_nonneg _ _ _ B) as (B1 & B2 & B3).
    destruct A as (FA & SA & EA), B as (FB & SB & EB). unfold FloatCompSpec.fits, FloatCompSpec.mul_acc in F. cbn [size error] in F. fold (FloatErr.uu prec) in F. fold (FloatErr.tau emax) in F.
    pose proof (uu_pos prec) as U. pose proof (tau_pos emax) as TP.
    assert (S : Rabs (x * y) <= size a * size b) by (rewrite Rabs_mult; apply Rmult_le_compat; auto using Rabs_pos).
    assert (E : Rabs (rnd (B2R v * B2R w) - x * y) <= (size a + error a) * error b + size b * error a + uu * ((size a + error a) * (size b + error b) + tau)).
    { replace (rnd (B2R v * B2R w) - x * y) with ((rnd (B2R v * B2R w) - B2R v * B2R w) + (B2R v * (B2R w - y) + (B2R v - x) * y)) by ring.
      eapply Rle_trans; [apply Rabs_triang|]. pose proof (Rabs_triang (B2R v * (B2R w - y)) ((B2R v - x) * y)) as T.
      assert (R : Rabs (rnd (B2R v * B2R w) - B2R v * B2R w) <= uu * Rabs (B2R v * B2R w) + uu * tau) by (apply rnd_err; assumption).
      assert (Rabs (B2R v * B2R w) <= (size a + error a) * (size b + error b)) by (rewrite Rabs_mult; apply Rmult_le_compat; auto using Rabs_pos).
      assert (uu * Rabs (B2R v * B2R w) <= uu * ((size a + error a) * (size b + error b))) by (apply Rmult_le_compat_l; lra).
      assert (Rabs (B2R v * (B2R w - y)) <= (size a + error a) * error b) by (rewrite Rabs_mult; apply Rmult_le_compat; auto using Rabs_pos).
      assert (Rabs ((B2R v - x) * y) <= size b * error a) by (rewrite Rabs_mult, Rmult_comm; apply Rmult_le_compat; auto using Rabs_pos). lra. }
    assert (M : Rabs (rnd (B2R v * B2R w)) < big).
    { replace (rnd (B2R v * B2R w)) with (x * y + (rnd (B2R v * B2R w) - x * y)) by ring. eapply Rle_lt_trans; [apply Rabs_triang|]. lra. }
    destruct (mult_cases prec emax v w FA FB) as [[R FR]|(_ & C)]; [|lra]. split; [exact FR|]. cbn [size error FloatCompSpec.mul_acc]. rewrite R. split; [exact S|exact E].
  Qed.
  (** multiplication by one is exact *)
  Lemma mult_one a (v : flt) x : computes a v x -> computes a (Bmult mode_NE v Bone) x.
  Proof using Hprec Hmax.
    intros (F & S & E). destruct (mult_cases prec emax v Bone F) as [[R FR]|(_ & C)]; [now rewrite is_finite_Bone| |].
    - rewrite Bone_correct, Rmult_1_r, rnd_id in R by auto. split; auto. rewrite R. auto.
    - exfalso. rewrite Bone_correct, Rmult_1_r, rnd_id in C by auto. pose proof (abs_B2R_lt_emax prec emax v). lra.
  Qed.
  Lemma pow_ok a (v : flt) x d : computes a v x -> (1 <= d <= 3)%Z -> @pow_fits prec emax a d ->
    computes (pow_acc a d) (fpowi O v d) (x ^ Z.to_nat d).
  Proof using Hprec Hmax.
    intros A D [F1 F2]. pose proof (mult_one _ _ _ A) as A1. assert (E : d = 1%Z \/ d = 2%Z \/ d = 3%Z) by lia. destruct E as [->|[->| ->]].
    - change (computes a (Bmult mode_NE v Bone) (x * 1)). rewrite Rmult_1_r. exact A1.
    - change (computes (mul_acc a a) (Bmult mode_NE v (Bmult mode_NE v Bone)) (x * (x * 1))). rewrite Rmult_1_r. apply mul_ok; auto.
    - change (computes (mul_acc a (mul_acc a a)) (Bmult mode_NE v (Bmult mode_NE v (Bmult mode_NE v Bone))) (x * (x * (x * 1)))). rewrite Rmult_1_r. apply mul_ok; auto. apply mul_ok; auto.
  Qed.

  Lemma dot_size b (x y : list flt) : Forall (fun v : flt => is_finite v = true /\ Rabs (B2R v) <= bpow radix2 b) x -> Forall (fun v : flt => is_finite v = true /\ Rabs (B2R v) <= bpow radix2 b) y ->
    Rabs (Rsum (map (fun p => B2R (fst p) * B2R (snd p)) (combine x y))) <= INR (length (combine x y)) * bpow radix2 (2 * b).
  Proof using.
    clear. intros X. revert y. induction x as [|a l IH]; intros y Y; [cbn; rewrite Rabs_R0; lra|]. destruct y as [|a' l']; [cbn; rewrite Rabs_R0; lra|].
    inversion X as [|? ? [_ H1] X']; subst. inversion Y as [|? ? [_ H2] Y']; subst. cbn [combine map Rsum fst snd length]. rewrite S_INR. eapply Rle_trans; [apply Rabs_triang|].
    specialize (IH X' l' Y'). assert (Rabs (B2R a * B2R a') <= bpow radix2 (2 * b)); [|lra].
    rewrite Rabs_mult. replace (bpow radix2 (2 * b)) with (bpow radix2 b * bpow radix2 b) by (rewrite <- bpow_plus; f_equal; lia). apply Rmult_le_compat; auto using Rabs_pos.
  Qed.

  Section Kernel.
    Variables (q b e : Z) (n : nat) (c : R) (T : TOps flt) (jgrad : (list flt -> flt) -> list flt -> list flt) (keq : kern flt -> kern flt -> bool).
    Hypothesis HR : kernel_room prec emax q n.
    Hypothesis HE : (2 - emax <= e /\ e + 1 <= emax)%Z.
    Hypothesis HC : 0 <= c <= bpow radix2 (prec - 1).
    Hypothesis HT : exp_accurate c T.
    Hypothesis HB : INR n * (bpow radix2 (2 * b) + bpow radix2 (2 - emax)) <= bpow radix2 (emax - 2).
    Hypothesis HK : forall k1 k2, keq k1 k2 = true -> real_kernel k1 = real_kernel k2.
    Notation kernel_acc := (@kernel_acc prec emax n b e c).
    Lemma acc_real k1 : @compound prec emax n b e c q k1 -> forall k2, @compound prec emax n b e c q k2 -> real_kernel k1 = real_kernel k2 -> kernel_acc k1 = kernel_acc k2.
    Proof using.
      clear.
      induction k1 as [v|s v|s v d|l s|l s|l s|l s|l s a|l s p|l s p|i s|k1 IH1 k2 IH2|k1 IH1 k2 IH2|k1 IH1 d|k1 IH1 score]; intros H1 k' H2 E; try (destruct H1 as (? & ? & ? & D & _); discriminate D);
        destruct k'; try (destruct H2 as (? & ? & ? & D & _); discriminate D); try discriminate E; try reflexivity; cbn [real_kernel] in E; cbn [FloatCompSpec.kernel_acc]; unfold exactly; injection E; intros; subst.
      - congruence.
      - congruence.
      - congruence.
      - f_equal; [apply IH1|apply IH2]; try assumption; [apply H1|apply H2|apply H1|apply H2].
      - f_equal; [apply IH1|apply IH2]; try assumption; [apply H1|apply H2|apply H1|apply H2].
      - f_equal. apply IH1; try assumption; [apply H1|apply H2].
    Qed.
    Lemma dot_ok (x y : list flt) : bounded_point n b x -> bounded_point n b y ->
      computes (@dot_acc prec emax n b) (fdot O x y) (Rdot (map B2R x) (map B2R y)).
    Proof using HR HB Hprec Hmax.
      intros [LX X] [LY Y]. set (ps := combine x y). assert (LP : length ps = n) by (unfold ps; rewrite combine_length; lia).
      assert (E1 : fdot O x y = fsum O (map (fun p => Bmult mode_NE (fst p) (snd p)) ps)) by (unfold fdot, ps; now rewrite map2_combine).
      assert (E2 : Rdot (map B2R x) (map B2R y) = Rsum (map (fun p => B2R (fst p) * B2R (snd p)) ps)).
      { unfold Rdot, ps. rewrite map2_combine, combine_map, map_map. reflexivity. }
      pose proof (gg_small prec emax q n HR (n + 1) ltac:(lia)) as [G1 G2]. pose proof (uu_pos prec) as U. pose proof (tau_pos emax) as TP. pose proof (bpow_gt_0 radix2 (2 * b)) as PB.
      set (S0 := bpow radix2 (2 * b) + tau) in *. fold (FloatErr.tau emax) in HB. fold S0 in HB.
      assert (BG : 4 * bpow radix2 (emax - 2) = big) by (change 4 with (bpow radix2 2); rewrite <- bpow_plus; f_equal; lia).
      assert (PBG : 0 < bpow radix2 (emax - 2)) by apply bpow_gt_0.
      assert (SS : Rsum (map (fun _ : flt * flt => S0) ps) = INR n * S0) by (rewrite (Rsum_const S0 ps), LP; reflexivity).
      assert (PN : 0 <= INR n) by apply pos_INR. assert (PS : 0 <= INR n * S0) by (apply Rmult_le_pos; unfold S0; lra).
      destruct (Nat.eq_dec n 0) as [Z|NZ].
      { assert (ps = []) as PE by (destruct ps; auto; cbn in LP; lia). rewrite E1, E2, PE. cbn [map Rsum].
        assert (ES : fsum O [] = B754_zero false \/ True) by auto. pose proof (apx_sum prec emax (fun p : flt * flt => Bmult mode_NE (fst p) (snd p)) (fun p => B2R (fst p) * B2R (snd p)) (fun _ => S0) 1 []) as A.
        cbn [map Rsum length] in A. destruct A as (F & _ & E); [intros a []|rewrite Rmult_0_r; apply bpow_gt_0|]. split; [exact F|]. cbn [size error dot_acc]. rewrite Z. cbn. rewrite Rabs_R0 in *.
        change (1 + 0)%nat with 1%nat in E. rewrite Rmult_0_r in E. rewrite !Rmult_0_l, Rmult_0_r. split; [lra|exact E]. }
      assert (PN1 : 1 <= INR n) by (change 1 with (INR 1); apply le_INR; lia).
      assert (S0B : S0 <= bpow radix2 (emax - 2)) by (apply Rle_trans with (INR n * S0); [|exact HB]; rewrite <- (Rmult_1_l S0) at 1; apply Rmult_le_compat_r; unfold S0; lra).
      assert (A : apx prec emax (1 + length ps) (fsum O (map (fun p => Bmult mode_NE (fst p) (snd p)) ps)) (Rsum (map (fun p => B2R (fst p) * B2R (snd p)) ps)) (Rsum (map (fun _ => S0) ps))).
      { apply apx_sum.
        - intros p Hp. assert (BP : (is_finite (fst p) = true /\ Rabs (B2R (fst p)) <= bpow radix2 b) /\ (is_finite (snd p) = true /\ Rabs (B2R (snd p)) <= bpow radix2 b)).
          { destruct p as [a d]. pose proof (in_combine_l _ _ _ _ Hp). pose proof (in_combine_r _ _ _ _ Hp). rewrite Forall_forall in X, Y. split; [apply X|apply Y]; assumption. }
          destruct BP as [[F1 B1] [F2 B2]]. unfold S0. replace (bpow radix2 (2 * b)) with (bpow radix2 b * bpow radix2 b) by (rewrite <- bpow_plus; f_equal; lia).
          apply (apx_mult prec emax 0 0); try (apply apx_exact; assumption).
          replace (bpow radix2 b * bpow radix2 b) with (bpow radix2 (2 * b)) by (rewrite <- bpow_plus; f_equal; lia). fold S0. cbn [plus].
          eapply Rle_lt_trans; [apply Rmult_le_compat; [pose proof (gg_ge1 prec 1); lra|unfold S0; lra|eapply Rle_trans; [apply (gg_mono prec 1 (n + 1)); lia|exact G2]|exact S0B]|]. lra.
        - rewrite SS, LP. eapply Rle_lt_trans; [apply Rmult_le_compat; [pose proof (gg_ge1 prec (1 + n)); lra|exact PS|rewrite Nat.add_comm; exact G2|exact HB]|]. lra. }
      rewrite E1, E2. rewrite SS, LP in A. destruct A as (F & _ & E). split; [exact F|]. cbn [size error dot_acc]. split.
      - rewrite <- LP. unfold ps. apply dot_size; assumption.
      - eapply Rle_trans; [exact E|]. fold (FloatErr.uu prec). fold (FloatErr.tau emax). fold S0. rewrite Nat.add_comm. apply Rmult_le_compat_r; [exact PS|]. rewrite Rmult_assoc. exact G1.
    Qed.
    Lemma base_ok k x y : (exists l s f, documented k = Some (l, s, f) /\ sane_params q e l s) -> bounded_point n b x -> bounded_point n b y ->
      exists v, m_val (methods O T jgrad keq k) x y = Sc v /\ computes (@base_acc prec n e c) v (kfun (real_kernel k) (map B2R x) (map B2R y)).
    Proof using HR HE HC HT Hprec Hmax.
      intros (l & s & f & D & SP) [LX X] [LY Y].
      assert (FX : Forall (fun v : flt => is_finite v = true) x) by (eapply Forall_impl; [|exact X]; cbn; tauto).
      assert (FY : Forall (fun v : flt => is_finite v = true) y) by (eapply Forall_impl; [|exact Y]; cbn; tauto).
      destruct (FloatKern5.kernel_acc prec emax q n e c T jgrad keq HR HE HC HT k l s f x y D SP LX LY FX FY) as (v & E & F & B).
      exists v. split; [exact E|]. split; [exact F|]. cbn [size error base_acc].
      assert (EF : f (map B2R x) (map B2R y) = kfun (real_kernel k) (map B2R x) (map B2R y)).
      { destruct k; try discriminate D; cbn [documented] in D; injection D as <- <- <-; reflexivity. }
      destruct SP as (_ & [SP1 _] & _ & SP2). pose proof (bpow_gt_0 radix2 (- q)) as PQ.
      pose proof (documented_range prec emax k l s f D ltac:(lra) ltac:(lra) (map B2R x) (map B2R y)) as RG. rewrite <- EF. split; [|exact B].
      rewrite Rabs_pos_eq; lra.
    Qed.
    Lemma comp_ok k x y : @compound prec emax n b e c q k -> bounded_point n b x -> bounded_point n b y ->
      exists v, m_val (methods O T jgrad keq k) x y = Sc v /\ computes (kernel_acc k) v (kfun (real_kernel k) (map B2R x) (map B2R y)).
    Proof using HR HE HC HT HB HK Hprec Hmax.
      intros H X Y. pose proof (dot_ok x y X Y) as D.
      induction k as [v|s v|s v d|l s|l s|l s|l s|l s a|l s p|l s p|i s|k1 IH1 k2 IH2|k1 IH1 k2 IH2|k1 IH1 d|k1 IH1 score];
        try (apply base_ok; assumption); try (destruct H as (? & ? & ? & D' & _); discriminate D').
      - exists v. split; [reflexivity|]. now apply exactly_ok.
      - destruct H as (F1 & F2 & G1 & G2). eexists. split; [reflexivity|]. cbn [real_kernel kfun FloatCompSpec.kernel_acc]. apply add_ok; [apply mul_ok; [now apply exactly_ok|exact D|exact G1]|now apply exactly_ok|exact G2].
      - destruct H as (F1 & F2 & DD & G1 & G2 & G3). eexists. split; [reflexivity|]. cbn [real_kernel kfun FloatCompSpec.kernel_acc].
        apply mul_ok; [now apply exactly_ok| |exact G3]. apply pow_ok; auto. apply add_ok; [exact D|now apply exactly_ok|exact G1].
      - destruct H as (H1 & H2 & G). destruct (IH1 H1) as (v1 & E1 & C1). destruct (IH2 H2) as (v2 & E2 & C2).
        exists (Bplus mode_NE v1 v2). split; [cbn [methods add_meth m_val]; rewrite E1, E2; reflexivity|]. now apply add_ok.
      - destruct H as (H1 & H2 & G). destruct (IH1 H1) as (v1 & E1 & C1). destruct (IH2 H2) as (v2 & E2 & C2).
        cbn [methods prod_meth m_val]. destruct (keq k1 k2) eqn:EQ.
        + apply HK in EQ. cbn [real_kernel kfun]. cbn [FloatCompSpec.kernel_acc]. rewrite <- EQ. cbn [FloatCompSpec.kernel_acc] in G. rewrite <- (acc_real k1 H1 k2 H2 EQ) in *. rewrite E1. exists (Bmult mode_NE v1 (Bmult mode_NE v1 Bone)). split; [reflexivity|]. apply mul_ok; auto. now apply mult_one.
        + exists (Bmult mode_NE v1 v2). split; [rewrite E1, E2; reflexivity|]. now apply mul_ok.
      - destruct H as (H1 & DD & G). destruct (IH1 H1) as (v1 & E1 & C1). exists (fpowi O v1 d). split; [cbn [methods pow_meth m_val]; rewrite E1; reflexivity|]. now apply pow_ok.
    Qed.
  End Kernel.
End Comp.
