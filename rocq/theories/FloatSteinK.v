(** * Stein kernels with the default score in floating point arithmetic: lemmas *)
From Coq Require Import List ZArith Bool Reals Permutation Lia Lra.
From Coq Require Import Floats.SpecFloat.
From Flocq Require Import Core.Core IEEE754.BinarySingleNaN.
From Verif Require Import Num Jax RSum JaxFacts DataModel MeanModel MetricModel UtilModel KernelModel ApproxModel ScoreModel
  SumSpec SumProofs Float FloatProofs2 FloatGreedy FloatErr FloatIdxSpec FloatRate3 PropFloat.
Import ListNotations.
Open Scope R_scope.

Section SteinK.
  Context (prec emax : Z) {Hprec : Prec_gt_0 prec} {Hmax : Prec_lt_emax prec emax} {Sm : SumOrder prec emax}.
  Notation flt := (binary_float prec emax).
  Notation O := (FOpsIEEE prec emax).
  Notation rnd := (round radix2 (SpecFloat.fexp prec emax) (round_mode mode_NE)).
  Notation big := (bpow radix2 emax).
  Notation am := (@at_most prec emax).

  (** exponents at which nothing overflows *)
  Definition okx (k : Z) : Prop := (0 <= k /\ k + 1 <= emax)%Z.
  Lemma rle0 k r : okx k -> Rabs r <= bpow radix2 k -> Rabs (rnd r) <= bpow radix2 k /\ Rabs (rnd r) < big.
  Proof.
    intros [K0 K1] Hr. assert (P : (0 < prec < emax)%Z) by (split; assumption).
    destruct (rnd_bd prec emax k 1 ltac:(lia) ltac:(lia) ltac:(lia) 1 r) as [A B]; [reflexivity|change (IZR (Z.of_nat 1)) with 1; lra|].
    change (IZR (Z.of_nat 1)) with 1 in A. split; lra.
  Qed.
  Lemma am_mono i j v : (i <= j)%Z -> am i v -> am j v.
  Proof. intros H [F A]. split; auto. eapply Rle_trans; [exact A|]. now apply bpow_le. Qed.
  Lemma am_mult i j a b : okx (i + j) -> am i a -> am j b -> am (i + j) (Bmult mode_NE a b).
  Proof.
    intros H [FA A] [FB B]. destruct (rle0 (i + j) (B2R a * B2R b) H) as [Q1 Q2].
    - rewrite Rabs_mult, bpow_plus. apply Rmult_le_compat; auto; apply Rabs_pos.
    - destruct (mult_cases prec emax a b FA FB) as [[R F]|[_ C]]; [|lra]. split; auto. now rewrite R.
  Qed.
  Lemma am_div i l a b : okx (i - l) -> am i a -> bpow radix2 l <= B2R b -> am (i - l) (Bdiv mode_NE a b).
  Proof.
    intros H [FA A] B. pose proof (bpow_gt_0 radix2 l) as LP. assert (NZ : B2R b <> 0) by lra. destruct (rle0 (i - l) (B2R a / B2R b) H) as [Q1 Q2].
    - unfold Rdiv. rewrite Rabs_mult, Rabs_inv, (Rabs_pos_eq (B2R b)) by lra. unfold Zminus. rewrite bpow_plus, bpow_opp.
      apply Rmult_le_compat; auto; [apply Rabs_pos|left; apply Rinv_0_lt_compat; lra|apply Rinv_le_contravar; lra].
    - destruct (div_cases prec emax a b FA NZ) as [[R F]|[_ C]]; [|lra]. split; auto. now rewrite R.
  Qed.
  Lemma am_add i a b : okx (i + 1) -> am i a -> am i b -> am (i + 1) (Bplus mode_NE a b).
  Proof.
    intros H [FA A] [FB B]. destruct (rle0 (i + 1) (B2R a + B2R b) H) as [Q1 Q2].
    - rewrite bpow_plus. change (bpow radix2 1) with 2. eapply Rle_trans; [apply Rabs_triang|]. lra.
    - destruct (plus_cases prec emax a b FA FB) as [[R F]|(_ & _ & C)]; [|lra]. split; auto. now rewrite R.
  Qed.
  Lemma am_sub i a b : okx (i + 1) -> am i a -> am i b -> am (i + 1) (Bminus mode_NE a b).
  Proof.
    intros H [FA A] [FB B]. destruct (rle0 (i + 1) (B2R a - B2R b) H) as [Q1 Q2].
    - rewrite bpow_plus. change (bpow radix2 1) with 2. unfold Rminus. eapply Rle_trans; [apply Rabs_triang|]. rewrite Rabs_Ropp. lra.
    - pose proof (Bminus_correct prec emax _ _ mode_NE a b FA FB) as C. rewrite Rlt_bool_true in C by assumption.
      destruct C as (C & F & _). split; [exact F|]. rewrite C. exact Q1.
  Qed.
  Lemma am_neg i a : okx i -> am i a -> am i (fneg O a).
  Proof.
    intros H [FA A]. destruct (rle0 i (0 - B2R a) H) as [Q1 Q2]; [rewrite Rminus_0_l, Rabs_Ropp; exact A|].
    pose proof (Bminus_correct prec emax _ _ mode_NE (B754_zero false) a eq_refl FA) as C. rewrite Rlt_bool_true in C by exact Q2.
    destruct C as (C & F & _). change (fneg O a) with (Bminus mode_NE (B754_zero false) a). split; [exact F|]. rewrite C. exact Q1.
  Qed.
  Lemma am_dot r i j l m : (0 <= r <= prec)%Z -> okx (i + j) -> okx (r + (i + j)) -> (Z.of_nat (length l) < 2 ^ r)%Z ->
    Forall (am i) l -> Forall (am j) m -> am (r + (i + j)) (fdot O l m).
  Proof.
    intros Hr H1 H2 HL L M. unfold fdot. destruct H2 as [H2 H3]. assert (P : (0 < prec < emax)%Z) by (split; assumption).
    assert (F : Forall (am (i + j)) (map2 (fmul O) l m) /\ (length (map2 (fmul O) l m) <= length l)%nat).
    { clear HL. revert m M. induction L as [|a l A L IH]; intros [|b m] M; cbn [map2 length]; try (split; [constructor|lia]).
      inversion M; subst. destruct (IH m) as [I1 I2]; auto. split; [|lia]. constructor; auto. now apply am_mult. }
    destruct F as [F1 F2]. set (ps := map2 (fmul O) l m) in *. clearbody ps. destruct H1 as [H1 H4].
    pose proof (bd_sum prec emax (i + j) r ltac:(lia)) as Q. assert (rr : (r + (i + j) <= emax)%Z) by lia.
    specialize (Q rr ltac:(lia) flt (fun v => v) (fun _ => 1%nat) ps). rewrite list_sum_ones, map_id in Q. destruct Q as [Q1 Q2].
    - intros a Ha. rewrite Forall_forall in F1. destruct (F1 a Ha) as [G1 G2]. split; auto. change (IZR (Z.of_nat 1)) with 1. lra.
    - lia.
    - split; auto. eapply Rle_trans; [exact Q2|]. rewrite (bpow_plus radix2 r). apply Rmult_le_compat_r; [apply bpow_ge_0|].
      rewrite <- (IZR_Zpower radix2) by lia. apply IZR_le. apply Z.lt_le_incl. eapply Z.le_lt_trans; [|exact HL]. lia.
  Qed.
  Lemma am_diff c x y : okx (c + 1) -> Forall (am c) x -> Forall (am c) y -> Forall (am (c + 1)) (difference O x y).
  Proof.
    intros H X. revert y. induction X as [|a x A X IH]; intros [|b y] Y; cbn [difference map2]; try constructor; inversion Y; subst.
    - now apply am_sub.
    - now apply IH.
  Qed.

  Section Value.
    Variables (c l t r b : Z) (len s : flt) (T : TOps flt) (jgrad : (list flt -> flt) -> list flt -> list flt) (keq : kern flt -> kern flt -> bool).
    Hypothesis Hel : elementary T.
    Hypothesis Hc : (0 <= c)%Z.
    Hypothesis Hl : (l <= 0)%Z.
    Hypothesis Ht : (0 <= t)%Z.
    Hypothesis Hr : (1 <= r <= prec)%Z.
    Hypothesis Hb : (c + 2 - l <= b)%Z.
    Hypothesis HR : (r + t + 2 * b + 4 <= emax)%Z.
    Hypothesis Bq : is_finite (sq O len) = true /\ bpow radix2 l <= B2R (sq O len).
    Hypothesis Bd : is_finite (fmul O (fofZ O 2) (sq O len)) = true /\ 0 < B2R (fmul O (fofZ O 2) (sq O len)).
    Hypothesis Bs : is_finite s = true /\ 0 < B2R s <= bpow radix2 t.
    Variables (score : list flt -> list flt) (x y : list flt).
    Hypothesis Hx : Forall (am c) x.
    Hypothesis Hy : Forall (am c) y.
    Hypothesis Hd : length y = length x.
    Hypothesis Hdim : (Z.of_nat (length x) < 2 ^ r)%Z.
    Hypothesis Sx : length (score x) = length x /\ Forall (am b) (score x).
    Hypothesis Sy : length (score y) = length y /\ Forall (am b) (score y).

    Lemma val_am : am t (se_val O T len s x y).
    Proof.
      assert (AF : forall z, Forall (am c) z -> all_finite prec emax z) by (intros z Hz; eapply Forall_impl; [|exact Hz]; intros a Ha; apply Ha).
      destruct Bs as [F [P1 P2]], Bd as [D1 D2].
      destruct (C69_bounds prec emax _ _ Sm T jgrad keq (KSE len s) s _ Hel eq_refl F P1 D1 D2 ltac:(discriminate)) as [_ A].
      destruct (A x y (AF x Hx) (AF y Hy)) as (v & E & FV & B). change (Sc (se_val O T len s x y) = Sc v) in E.
      assert (E' : se_val O T len s x y = v) by congruence. rewrite E'. split; auto. rewrite Rabs_pos_eq; lra.
    Qed.
    Lemma gy_am : Forall (am (c + 1 - l + t)) (se_gy O T len s x y).
    Proof.
      unfold se_gy. apply Forall_forall. intros v Hv. apply in_map_iff in Hv as [d [<- Hi]].
      pose proof (am_diff c x y ltac:(unfold okx; lia) Hx Hy) as D. rewrite Forall_forall in D.
      apply am_mult; [unfold okx; lia| |exact val_am]. apply am_div; [unfold okx; lia|auto|apply Bq].
    Qed.
    Lemma gy_len : length (se_gy O T len s x y) = length x.
    Proof. unfold se_gy. rewrite map_length. unfold difference. rewrite map2_length, Hd. apply Nat.min_id. Qed.
    Lemma stein_am : exists v, m_val (methods O T jgrad keq (KStein (KSE len s) score)) x y = Sc v /\ am (r + t + 2 * b + 3) v.
    Proof.
      destruct Sx as [SX1 SX2], Sy as [SY1 SY2]. pose proof val_am as VA. pose proof gy_am as GA. pose proof gy_len as GL.
      cbn [methods m_val auto_meth]. unfold stein_val. cbn [methods m_val m_gx m_gy m_div se_meth].
      unfold tmatmul, tmul, tmap2, tadd, tmap2. rewrite !map_length, GL, SX1, SY1, Hd, !Nat.eqb_refl.
      eexists. split; [reflexivity|]. set (k := se_val O T len s x y) in *.
      assert (GX : Forall (am (c + 1 - l + t)) (map (fneg O) (se_gy O T len s x y))).
      { apply Forall_forall. intros v Hv. apply in_map_iff in Hv as [u [<- Hu]]. rewrite Forall_forall in GA. apply am_neg; [unfold okx; lia|auto]. }
      assert (KX : Forall (am (t + b)) (map (fmul O k) (score x))).
      { apply Forall_forall. intros v Hv. apply in_map_iff in Hv as [u [<- Hu]]. rewrite Forall_forall in SX2. apply am_mult; [unfold okx; lia|auto|auto]. }
      set (Z0 := (r + t + 2 * b)%Z).
      assert (A1 : am Z0 (fdot O (map (fneg O) (se_gy O T len s x y)) (score y))).
      { eapply am_mono; cycle 1; [apply (am_dot r (c + 1 - l + t) b); auto; try (unfold okx; lia); rewrite map_length, GL; exact Hdim|unfold Z0; lia]. }
      assert (A2 : am Z0 (fdot O (se_gy O T len s x y) (score x))).
      { eapply am_mono; cycle 1; [apply (am_dot r (c + 1 - l + t) b); auto; try (unfold okx; lia); rewrite GL; exact Hdim|unfold Z0; lia]. }
      assert (A3 : am Z0 (fdot O (map (fmul O k) (score x)) (score y))).
      { eapply am_mono; cycle 1; [apply (am_dot r (t + b) b); auto; try (unfold okx; lia); rewrite map_length, SX1; exact Hdim|unfold Z0; lia]. }
      assert (ONE : am 0 (f1 O)) by (split; [apply is_finite_Bone|change (f1 O) with (Bone : flt); rewrite Bone_correct, Rabs_R1; cbn; lra]).
      pose proof (am_div 0 l (f1 O) (sq O len) ltac:(unfold okx; lia) ONE (proj2 Bq)) as SI.
      pose proof (am_diff c x y ltac:(unfold okx; lia) Hx Hy) as DF.
      assert (SQ : am (r + (c + 1 + (c + 1))) (squared_distance O x y)).
      { apply am_dot; auto; try (unfold okx; lia). unfold difference. rewrite map2_length, Hd, Nat.min_id. exact Hdim. }
      assert (NN : am (r + (c + 1 + (c + 1)) - l) (fofZ O (Z.of_nat (length x)))).
      { destruct (ofZ_exact prec emax (Z.of_nat (length x))) as [F E]; [split; [lia|eapply Z.lt_le_trans; [exact Hdim|apply Z.pow_le_mono_r; lia]]|].
        split; auto. rewrite E, Rabs_pos_eq by (apply IZR_le; lia). apply Rle_trans with (bpow radix2 r); [|apply bpow_le; lia].
        rewrite <- (IZR_Zpower radix2) by lia. apply IZR_le. apply Z.lt_le_incl. exact Hdim. }
      assert (A0 : am Z0 (fmul O (fmul O (fdiv O (f1 O) (sq O len)) k) (fsub O (fofZ O (Z.of_nat (length x))) (fmul O (fdiv O (f1 O) (sq O len)) (squared_distance O x y))))).
      { eapply am_mono; cycle 1.
        - apply (am_mult (0 - l + t) (r + (c + 1 + (c + 1)) - l + 1)); [unfold okx; lia|apply am_mult; auto; unfold okx; lia|].
          apply am_sub; [unfold okx; lia|exact NN|]. replace (r + (c + 1 + (c + 1)) - l)%Z with ((0 - l) + (r + (c + 1 + (c + 1))))%Z by lia. apply am_mult; auto. unfold okx; lia.
        - unfold Z0; lia. }
      replace (Z0 + 3)%Z with (Z0 + 1 + 1 + 1)%Z by lia.
      apply am_add; [unfold okx, Z0; lia| |apply am_mono with Z0; [lia|exact A3]].
      apply am_add; [unfold okx, Z0; lia| |apply am_mono with Z0; [lia|exact A2]].
      apply am_add; [unfold okx, Z0; lia|exact A0|exact A1].
    Qed.
  End Value.
End SteinK.
