(** * Proofs about floating point loop depths *)
From Coq Require Import ZArith Reals Lra Lia Arith.
From Flocq Require Import Core.Core Relative.
From Verif Require Import MapReduceFloat LnBounds DepthModel DepthSpec.
Open Scope R_scope.

Lemma double_abs y : Rabs y <= 32 -> Rabs (double y - y) <= / 2 ^ 48.
Proof.
  intros H. unfold double. eapply Rle_trans; [apply error_le_half_ulp; apply FLT_exp_valid; reflexivity|].
  assert (U : ulp radix2 (FLT_exp (-1074) 53) y <= bpow radix2 (-47)).
  { apply Rle_trans with (ulp radix2 (FLT_exp (-1074) 53) 32).
    - apply ulp_le; [apply FLT_exp_valid; reflexivity|apply FLT_exp_monotone|]. rewrite (Rabs_pos_eq 32) by lra. exact H.
    - replace 32 with (bpow radix2 5) by reflexivity. rewrite ulp_bpow. apply bpow_le. unfold FLT_exp. lia. }
  change (bpow radix2 (-47)) with (/ IZR (2 ^ 47)) in U.
  replace (/ IZR (2 ^ 47)) with (2 * / 2 ^ 48) in U; [lra|]. replace (IZR (2 ^ 47)) with (2 ^ 47) by (rewrite pow_IZR; reflexivity). simpl. lra.
Qed.
Lemma INR_31 n : (Z.of_nat n <= 2 ^ 31)%Z -> INR n <= 2 ^ 31.
Proof.
  intros H. rewrite INR_IZR_INZ. replace (2 ^ 31) with (IZR (2 ^ 31)) by (rewrite pow_IZR; reflexivity). now apply IZR_le.
Qed.
(** two different sizes have clearly different logarithms *)
Lemma gap a b : (1 <= a)%nat -> (a < b)%nat -> INR b <= 2 ^ 32 -> ln (INR a) + / 2 ^ 32 <= ln (INR b).
Proof.
  intros H1 H2 H3. assert (A : 0 < INR a) by (apply lt_0_INR; lia). assert (B : 0 < INR b) by (apply lt_0_INR; lia).
  pose proof (ln_le_1 (INR a / INR b) ltac:(now apply Rdiv_lt_0_compat)) as Q. rewrite ln_quot in Q by assumption.
  assert (INR a + 1 <= INR b) by (rewrite <- S_INR; apply le_INR; lia).
  assert (INR a / INR b <= 1 - / 2 ^ 32); [|lra].
  apply Rmult_le_reg_r with (INR b); [assumption|]. unfold Rdiv. rewrite Rmult_assoc, Rinv_l, Rmult_1_r by lra.
  assert (INR b * / 2 ^ 32 <= 1); [|lra].
  apply Rmult_le_reg_r with (2 ^ 32); [apply pow_lt; lra|]. rewrite Rmult_assoc, Rinv_l by (apply pow_nonzero; lra). lra.
Qed.
Lemma ln2_lo : / 2 <= ln 2.
Proof.
  pose proof (ln_le_1 (/ 2) ltac:(lra)) as Q. rewrite ln_Rinv in Q by lra. lra.
Qed.
Lemma ln_31 x : / 2 ^ 31 <= x <= 2 ^ 31 -> Rabs (ln x) <= 31 * ln 2.
Proof.
  intros [A B]. assert (P : 0 < / 2 ^ 31) by (apply Rinv_0_lt_compat, pow_lt; lra). assert (0 < x) by lra.
  assert (E : ln (2 ^ 31) = 31 * ln 2) by (rewrite ln_pow2; simpl; lra).
  apply Rabs_le. split.
  - rewrite <- E, <- ln_Rinv by (apply pow_lt; lra). now apply ln_le'.
  - rewrite <- E. now apply ln_le'.
Qed.
Lemma INR_pow2 (j : nat) : INR (2 ^ j) = 2 ^ j.
Proof. rewrite pow_INR. reflexivity. Qed.
Lemma in_range n : (1 <= n)%nat -> (Z.of_nat n <= 2 ^ 31)%Z -> / 2 ^ 31 <= INR n <= 2 ^ 31.
Proof.
  intros H1 H2. split; [|now apply INR_31]. apply Rle_trans with 1; [simpl; lra|]. change 1 with (INR 1). now apply le_INR.
Qed.

(** ** KernelThinning *)
Lemma kt_depth_ok log2 n size e : accurate log2 lg -> (1 <= size <= n)%nat -> (Z.of_nat n <= 2 ^ 31)%Z ->
  (size * 2 ^ e <= n < size * 2 ^ S e)%nat ->
  kt_depth_computed log2 n size = Z.of_nat e \/
  (1 <= e)%nat /\ n = (size * 2 ^ e)%nat /\ kt_depth_computed log2 n size = (Z.of_nat e - 1)%Z.
Proof.
  intros HA HS HN HE. unfold kt_depth_computed. set (r := double _).
  destruct (Nat.eq_dec n size) as [->|NS].
  { left. assert (e = 0)%nat. { destruct e; [reflexivity|]. pose proof (Nat.pow_nonzero 2 e ltac:(lia)). cbn [Nat.pow] in HE. nia. }
    subst e. unfold r. rewrite Rminus_diag_eq by reflexivity. unfold double. rewrite round_0 by apply valid_rnd_N. apply (Zfloor_IZR 0). }
  pose proof (in_range n ltac:(lia) HN) as RN. pose proof (in_range size ltac:(lia) ltac:(lia)) as RS.
  pose proof (HA _ RN) as An. pose proof (HA _ RS) as As. apply Rabs_le_inv in An, As. unfold lg in *.
  destruct ln2_bounds as [L0 L1]. pose proof ln2_lo as LH.
  set (v := ln (INR n) / ln 2 - ln (INR size) / ln 2).
  assert (Bn : 0 <= ln (INR n) / ln 2 <= 31).
  { pose proof (ln_31 _ RN) as Q. apply Rabs_le_inv in Q. assert (0 <= ln (INR n)). { rewrite <- ln_1. apply ln_le'; [lra|]. change 1 with (INR 1). apply le_INR. lia. }
    split; [apply Rle_mult_inv_pos; lra|]. apply Rmult_le_reg_r with (ln 2); [lra|]. unfold Rdiv. rewrite Rmult_assoc, Rinv_l by lra. lra. }
  assert (Bs : 0 <= ln (INR size) / ln 2 <= 31).
  { pose proof (ln_31 _ RS) as Q. apply Rabs_le_inv in Q. assert (0 <= ln (INR size)). { rewrite <- ln_1. apply ln_le'; [lra|]. change 1 with (INR 1). apply le_INR. lia. }
    split; [apply Rle_mult_inv_pos; lra|]. apply Rmult_le_reg_r with (ln 2); [lra|]. unfold Rdiv. rewrite Rmult_assoc, Rinv_l by lra. lra. }
  assert (Hr : Rabs (r - v) <= / 2 ^ 40).
  { pose proof (double_abs (log2 (INR n) - log2 (INR size))) as Q. fold r in Q.
    assert (Rabs (log2 (INR n) - log2 (INR size)) <= 32) by (apply Rabs_le; simpl in An, As; lra).
    specialize (Q H). apply Rabs_le_inv in Q. apply Rabs_le. unfold v. simpl in Q, An, As |- *. lra. }
  apply Rabs_le_inv in Hr.
  assert (S0 : 0 < INR size) by (apply lt_0_INR; lia).
  assert (LE : forall j, ln (INR (size * 2 ^ j)) = ln (INR size) + INR j * ln 2).
  { intros j. rewrite mult_INR, INR_pow2, ln_mult, ln_pow2 by (try assumption; apply pow_lt; lra). reflexivity. }
  assert (UP : v <= INR e + 1 - / 2 ^ 32).
  { assert (G : ln (INR n) + / 2 ^ 32 <= ln (INR (size * 2 ^ S e))).
    { apply gap; [lia|lia|]. apply Rle_trans with (INR (2 * n)); [apply le_INR; cbn [Nat.pow]; lia|]. rewrite mult_INR. destruct RN as [_ RN]. simpl in *. lra. }
    rewrite LE, S_INR in G. unfold v. apply Rmult_le_reg_r with (ln 2); [lra|].
    rewrite Rmult_minus_distr_r. unfold Rdiv. rewrite !Rmult_assoc, Rinv_l, !Rmult_1_r by lra.
    assert (/ 2 ^ 32 * ln 2 <= / 2 ^ 32 * 1) by (apply Rmult_le_compat_l; [simpl; lra|exact L1]). lra. }
  destruct (Nat.eq_dec n (size * 2 ^ e)) as [EQ|NE].
  - assert (V : v = INR e). { unfold v. rewrite EQ, LE. field. lra. }
    assert (e <> 0)%nat. { intros ->. cbn in EQ. lia. }
    destruct (Rle_or_lt (INR e) r) as [C|C].
    + left. apply Zfloor_imp. rewrite plus_IZR, <- INR_IZR_INZ. simpl in *. lra.
    + right. split; [lia|]. split; [exact EQ|]. apply Zfloor_imp. rewrite plus_IZR, minus_IZR, <- INR_IZR_INZ. simpl in *. lra.
  - left. assert (LO : INR e + / 2 ^ 32 <= v).
    { assert (G : ln (INR (size * 2 ^ e)) + / 2 ^ 32 <= ln (INR n)).
      { apply gap; [pose proof (Nat.pow_nonzero 2 e ltac:(lia)); nia|lia|]. destruct RN as [_ RN]. simpl in *. lra. }
      rewrite LE in G. unfold v. apply Rmult_le_reg_r with (ln 2); [lra|].
      rewrite Rmult_minus_distr_r. unfold Rdiv. rewrite !Rmult_assoc, Rinv_l, !Rmult_1_r by lra.
      assert (/ 2 ^ 32 * ln 2 <= / 2 ^ 32 * 1) by (apply Rmult_le_compat_l; [simpl; lra|exact L1]). lra. }
    apply Zfloor_imp. rewrite plus_IZR, <- INR_IZR_INZ. simpl in *. lra.
Qed.

(** ** quotients of logarithms *)
Lemma log_quotient log x f : accurate log ln -> / 2 ^ 31 <= x <= 2 ^ 31 -> 2 <= f <= 2 ^ 31 ->
  Rabs (double (log x / log f) * ln f - ln x) <= / 2 ^ 36.
Proof.
  intros HA Hx Hf.
  assert (Hf' : / 2 ^ 31 <= f <= 2 ^ 31) by (simpl in *; lra).
  pose proof (HA _ Hx) as Ax. pose proof (HA _ Hf') as Af. apply Rabs_le_inv in Ax, Af.
  destruct ln2_bounds as [L0 L1]. pose proof ln2_lo as LH.
  assert (F1 : ln 2 <= ln f) by (apply ln_le'; lra).
  pose proof (ln_31 _ Hx) as Bx. pose proof (ln_31 _ Hf') as Bf. rewrite (Rabs_pos_eq (ln f)) in Bf by lra. apply Rabs_le_inv in Bx.
  assert (E : 0 < / 2 ^ 44) by (apply Rinv_0_lt_compat, pow_lt; lra).
  set (g := log f) in *. set (y := log x) in *. set (q := y / g).
  assert (G0 : / 4 <= g) by (simpl in Af; lra).
  assert (YB : Rabs y <= 31 * ln 2 + / 2 ^ 44) by (apply Rabs_le; lra).
  assert (QB : Rabs q <= 32).
  { unfold q, Rdiv. rewrite Rabs_mult, Rabs_inv, (Rabs_pos_eq g) by lra.
    apply Rmult_le_reg_r with g; [lra|]. rewrite Rmult_assoc, Rinv_l, Rmult_1_r by lra.
    simpl in *. lra. }
  pose proof (double_abs q QB) as D. apply Rabs_le_inv in D. apply Rabs_le_inv in QB.
  (* double q * ln f - ln x = (double q - q) ln f + q (ln f - g) + (y - ln x) *)
  assert (EQ : double q * ln f - ln x = (double q - q) * ln f + q * (ln f - g) + (y - ln x)) by (unfold q; field; lra).
  rewrite EQ.
  assert (T1 : Rabs ((double q - q) * ln f) <= / 2 ^ 48 * 31).
  { rewrite Rabs_mult. apply Rmult_le_compat; try apply Rabs_pos; [now apply Rabs_le|]. rewrite Rabs_pos_eq by lra. lra. }
  assert (T2 : Rabs (q * (ln f - g)) <= 32 * / 2 ^ 44).
  { rewrite Rabs_mult. apply Rmult_le_compat; try apply Rabs_pos; [now apply Rabs_le|]. apply Rabs_le. lra. }
  apply Rabs_le_inv in T1, T2. apply Rabs_le. simpl in *. lra.
Qed.

(** ** CompressPlusPlus *)
Lemma cp_log4_ok log n p : accurate log ln -> (1 <= n)%nat -> (Z.of_nat n <= 2 ^ 31)%Z -> (4 ^ p <= n < 4 ^ S p)%nat ->
  cp_log4_computed log n = Z.of_nat p \/ n = (4 ^ p)%nat /\ cp_log4_computed log n = (Z.of_nat p - 1)%Z.
Proof.
  intros HA H1 HN HP. unfold cp_log4_computed.
  pose proof (log_quotient log (INR n) 4 HA (in_range n H1 HN) ltac:(simpl; lra)) as Q.
  set (r := double _) in *. apply Rabs_le_inv in Q. destruct ln2_bounds as [L0 L1]. pose proof ln2_lo as LH.
  assert (E4 : ln 4 = 2 * ln 2) by (replace 4 with (2 ^ 2) by (simpl; lra); rewrite ln_pow2; simpl; lra). rewrite E4 in Q.
  assert (LE : forall j, ln (INR (4 ^ j)) = INR j * (2 * ln 2)).
  { intros j. rewrite pow_INR, ln_pow by (simpl; lra). replace (INR 4) with 4 by (simpl; lra). now rewrite E4. }
  assert (UP : r < INR p + 1).
  { assert (G : ln (INR n) + / 2 ^ 32 <= ln (INR (4 ^ S p))).
    { destruct (Nat.le_gt_cases (4 ^ S p) (2 * n)) as [C|C].
      - apply gap; [lia|lia|]. apply Rle_trans with (INR (2 * n)); [now apply le_INR|]. rewrite mult_INR. pose proof (INR_31 n HN). simpl in *. lra.
      - apply Rle_trans with (ln (INR (2 * n))).
        + rewrite mult_INR, ln_mult by (try (apply lt_0_INR; lia); simpl; lra). replace (INR 2) with 2 by (simpl; lra). simpl. lra.
        + apply ln_le'; [apply lt_0_INR; lia|apply le_INR; lia]. }
    rewrite LE, S_INR in G. apply Rmult_lt_reg_r with (2 * ln 2); [lra|]. simpl in Q, G. lra. }
  destruct (Nat.eq_dec n (4 ^ p)) as [EQ|NE].
  - assert (LO : INR p - 1 <= r).
    { apply Rmult_le_reg_r with (2 * ln 2); [lra|]. rewrite EQ, LE in Q. simpl in Q. lra. }
    destruct (Rle_or_lt (INR p) r) as [C|C].
    + left. apply Zfloor_imp. rewrite plus_IZR, <- INR_IZR_INZ. lra.
    + right. split; [exact EQ|]. apply Zfloor_imp. rewrite plus_IZR, minus_IZR, <- INR_IZR_INZ. lra.
  - left. assert (LO : INR p <= r).
    { assert (G : ln (INR (4 ^ p)) + / 2 ^ 32 <= ln (INR n)).
      { apply gap; [pose proof (Nat.pow_nonzero 4 p ltac:(lia)); lia|lia|]. pose proof (INR_31 n HN). simpl in *. lra. }
      rewrite LE in G. apply Rmult_le_reg_r with (2 * ln 2); [lra|]. simpl in Q, G. lra. }
    apply Zfloor_imp. rewrite plus_IZR, <- INR_IZR_INZ. lra.
Qed.

(** ** recombination *)
Lemma gap_up n b : (1 <= n)%nat -> (n < b)%nat -> INR n <= 2 ^ 31 -> ln (INR n) + / 2 ^ 32 <= ln (INR b).
Proof.
  intros H1 H2 H3. apply Rle_trans with (ln (INR (S n))).
  - apply gap; [lia|lia|]. rewrite S_INR. simpl in *. lra.
  - apply ln_le'; [apply lt_0_INR; lia|apply le_INR; lia].
Qed.
Lemma double_rel y : / 2 ^ 31 <= y -> Rabs (double y - y) <= / 2 ^ 52 * y.
Proof.
  intros H. assert (Y0 : 0 < y) by (simpl in H; lra).
  pose proof (relative_error_N_FLT radix2 (-1074) 53 ltac:(reflexivity) (fun x => negb (Z.even x)) y) as E.
  rewrite (Rabs_pos_eq y) in E by lra.
  assert (B : bpow radix2 (-1074 + 53 - 1) <= y).
  { apply Rle_trans with (bpow radix2 (-31)); [apply bpow_le; lia|]. change (bpow radix2 (-31)) with (/ IZR (2 ^ 31)).
    replace (IZR (2 ^ 31)) with (2 ^ 31) by (rewrite pow_IZR; reflexivity). exact H. }
  specialize (E B). eapply Rle_trans; [exact E|]. apply Rmult_le_compat_r; [lra|].
  change (bpow radix2 (-53 + 1)) with (/ IZR (2 ^ 52)). replace (IZR (2 ^ 52)) with (2 ^ 52)%R by (rewrite pow_IZR; reflexivity).
  simpl. lra.
Qed.
Lemma double_31 y : / 2 ^ 31 <= y <= 2 ^ 31 -> / 2 ^ 31 <= double y <= 2 ^ 31.
Proof.
  intros [A B]. split.
  - replace (/ 2 ^ 31) with (double (/ 2 ^ 31)); [now apply double_mono|]. unfold double. apply round_generic; [apply valid_rnd_N|].
    replace (/ 2 ^ 31) with (bpow radix2 (-31)).
    + apply generic_format_bpow. unfold FLT_exp. lia.
    + change (bpow radix2 (-31)) with (/ IZR (2 ^ 31)). rewrite pow_IZR. reflexivity.
  - rewrite <- (double_pow 31) by lia. now apply double_mono.
Qed.
Lemma rec_depth_ok log n m f : accurate log ln -> (1 <= n)%nat -> (1 <= m)%nat -> (2 <= f)%nat ->
  (Z.of_nat n <= 2 ^ 31)%Z -> (Z.of_nat m <= 2 ^ 31)%Z -> (Z.of_nat f <= 2 ^ 31)%Z ->
  let d := Z.to_nat (rec_depth_computed log n m f) in
  (1 <= d)%nat /\ (n <= m * f ^ d)%nat /\ (d = 1 \/ m * f ^ (d - 1) <= n)%nat.
Proof.
  intros HA N1 M1 F2 HN HM HF d.
  pose proof (in_range n N1 HN) as RN. pose proof (in_range m M1 HM) as RM. pose proof (in_range f ltac:(lia) HF) as RF.
  assert (n0 : 1 <= INR n) by (change 1 with (INR 1); now apply le_INR).
  assert (m0 : 1 <= INR m) by (change 1 with (INR 1); now apply le_INR).
  assert (f0 : 2 <= INR f) by (change 2 with (INR 2); now apply le_INR).
  assert (RY : / 2 ^ 31 <= INR n / INR m <= 2 ^ 31).
  { split.
    - apply Rmult_le_reg_r with (INR m); [lra|]. unfold Rdiv. rewrite (Rmult_assoc (INR n)), Rinv_l, Rmult_1_r by lra.
      apply Rle_trans with 1; [|exact n0]. apply Rmult_le_reg_l with (2 ^ 31); [apply pow_lt; lra|]. rewrite <- Rmult_assoc, Rinv_r by (apply pow_nonzero; lra). lra.
    - apply Rmult_le_reg_r with (INR m); [lra|]. unfold Rdiv. rewrite (Rmult_assoc (INR n)), Rinv_l, Rmult_1_r by lra.
      apply Rle_trans with (2 ^ 31 * 1); [lra|]. apply Rmult_le_compat_l; [apply pow_le; lra|exact m0]. }
  set (y := INR n / INR m) in *. set (x := double y).
  pose proof (double_31 y RY) as RX. fold x in RX.
  pose proof (double_rel y (proj1 RY)) as DR. fold x in DR. apply Rabs_le_inv in DR.
  assert (y0 : 0 < y) by (simpl in RY; lra). assert (x0 : 0 < x) by (simpl in RX; lra).
  assert (LX : Rabs (ln x - ln y) <= / 2 ^ 50).
  { assert (A : ln x - ln y <= / 2 ^ 50).
    { rewrite <- ln_quot by assumption. eapply Rle_trans; [apply ln_le_1; now apply Rdiv_lt_0_compat|].
      assert (x / y <= 1 + / 2 ^ 50); [|lra]. apply Rmult_le_reg_r with y; [lra|]. unfold Rdiv. rewrite Rmult_assoc, Rinv_l, Rmult_1_r by lra.
      simpl in *. lra. }
    assert (B : ln y - ln x <= / 2 ^ 50).
    { rewrite <- ln_quot by assumption. eapply Rle_trans; [apply ln_le_1; now apply Rdiv_lt_0_compat|].
      assert (y / x <= 1 + / 2 ^ 50); [|lra]. apply Rmult_le_reg_r with x; [lra|]. unfold Rdiv. rewrite Rmult_assoc, Rinv_l, Rmult_1_r by lra.
      simpl in *. lra. }
    apply Rabs_le. lra. }
  pose proof (log_quotient log x (INR f) HA RX ltac:(split; [exact f0|apply RF])) as Q.
  set (r := double (log x / log (INR f))) in *. apply Rabs_le_inv in Q, LX.
  assert (LF : / 2 <= ln (INR f)) by (pose proof ln2_lo; pose proof (ln_le' 2 (INR f) ltac:(lra) f0); lra).
  assert (LY : ln y = ln (INR n) - ln (INR m)) by (apply ln_quot; lra).
  assert (HR : ln (INR n) - ln (INR m) - / 2 ^ 35 <= r * ln (INR f) <= ln (INR n) - ln (INR m) + / 2 ^ 35) by (simpl in *; lra).
  assert (LE : forall j, ln (INR (m * f ^ j)) = ln (INR m) + INR j * ln (INR f)).
  { intros j. rewrite mult_INR, pow_INR, ln_mult, ln_pow by (try apply pow_lt; lra). reflexivity. }
  assert (PW : forall j, (1 <= m * f ^ j)%nat) by (intros j; pose proof (Nat.pow_nonzero f j ltac:(lia)); nia).
  unfold rec_depth_computed in d. fold y in d. fold x in d. fold r in d.
  pose proof (Zceil_ub r) as UB. assert (d1 : (1 <= d)%nat) by (unfold d; lia).
  assert (DZ : IZR (Zceil r) <= INR d). { rewrite INR_IZR_INZ. apply IZR_le. unfold d. lia. }
  split; [exact d1|]. split.
  - destruct (Nat.le_gt_cases n (m * f ^ d)) as [C|C]; [exact C|exfalso].
    pose proof (gap (m * f ^ d) n (PW d) C ltac:(destruct RN as [_ RN]; simpl in *; lra)) as G. rewrite LE in G.
    assert (INR d * ln (INR f) < r * ln (INR f)) by (simpl in *; lra).
    assert (INR d < r) by (apply Rmult_lt_reg_r with (ln (INR f)); lra). lra.
  - destruct (Nat.eq_dec d 1) as [E|E]; [left; exact E|right].
    destruct (Nat.le_gt_cases (m * f ^ (d - 1)) n) as [C|C]; [exact C|exfalso].
    pose proof (gap_up n (m * f ^ (d - 1)) N1 C (proj2 RN)) as G. rewrite LE in G.
    assert (L : r * ln (INR f) <= INR (d - 1) * ln (INR f)) by (simpl in *; lra).
    assert (L' : r <= INR (d - 1)) by (apply Rmult_le_reg_r with (ln (INR f)); lra).
    assert (Zceil r <= Z.of_nat (d - 1))%Z by (apply Zceil_glb; rewrite <- INR_IZR_INZ; exact L').
    unfold d in *. lia.
Qed.

(** ** the double nearest to a number between two given neighbours *)
Lemma dbl_cexp m e : (2 ^ 52 <= m < 2 ^ 53)%Z -> (-1074 <= e)%Z ->
  generic_format radix2 (FLT_exp (-1074) 53) (IZR m * bpow radix2 e) /\
  ulp radix2 (FLT_exp (-1074) 53) (IZR m * bpow radix2 e) = bpow radix2 e /\
  mag radix2 (IZR m * bpow radix2 e) = (53 + e)%Z :> Z.
Proof.
  intros Hm He. assert (M0 : 0 < IZR m) by (apply IZR_lt; lia). pose proof (bpow_gt_0 radix2 e) as B0.
  assert (MG : mag radix2 (IZR m * bpow radix2 e) = (53 + e)%Z :> Z).
  { apply mag_unique. rewrite Rabs_pos_eq by (apply Rlt_le, Rmult_lt_0_compat; assumption).
    replace (53 + e - 1)%Z with (52 + e)%Z by lia. rewrite !bpow_plus.
    change (bpow radix2 52) with (IZR (2 ^ 52)). change (bpow radix2 53) with (IZR (2 ^ 53)).
    split; [apply Rmult_le_compat_r; [lra|apply IZR_le; lia]|apply Rmult_lt_compat_r; [lra|apply IZR_lt; lia]]. }
  assert (NZ : IZR m * bpow radix2 e <> 0) by (apply Rgt_not_eq, Rmult_lt_0_compat; assumption).
  split; [|split; [|exact MG]].
  - change (IZR m * bpow radix2 e) with (F2R (Float radix2 m e)). apply generic_format_F2R. intros _.
    unfold cexp, F2R. cbn [Fnum Fexp]. rewrite MG. unfold FLT_exp. lia.
  - rewrite ulp_neq_0 by exact NZ. unfold cexp. rewrite MG. f_equal. unfold FLT_exp. lia.
Qed.
Lemma dbl_le m e x : (2 ^ 52 <= m < 2 ^ 53)%Z -> (-1074 <= e)%Z ->
  x < (IZR m + / 2) * bpow radix2 e -> double x <= IZR m * bpow radix2 e.
Proof.
  intros Hm He Hx. destruct (dbl_cexp m e Hm He) as (G & U & _). unfold double.
  pose proof (bpow_gt_0 radix2 e). assert (M0 : 0 < IZR m) by (apply IZR_lt; lia).
  apply round_N_le_midp; [apply FLT_exp_valid; reflexivity|exact G|].
  rewrite succ_eq_pos by (apply Rlt_le, Rmult_lt_0_compat; assumption). rewrite U. lra.
Qed.
Lemma dbl_ge m e x : (2 ^ 52 < m < 2 ^ 53)%Z -> (-1074 <= e)%Z ->
  (IZR m - / 2) * bpow radix2 e < x -> IZR m * bpow radix2 e <= double x.
Proof.
  intros Hm He Hx. destruct (dbl_cexp m e ltac:(lia) He) as (G & U & MG). unfold double.
  pose proof (bpow_gt_0 radix2 e). assert (M0 : 0 < IZR m) by (apply IZR_lt; lia).
  apply round_N_ge_midp; [apply FLT_exp_valid; reflexivity|exact G|].
  rewrite pred_eq_pos by (apply Rlt_le, Rmult_lt_0_compat; assumption). unfold pred_pos. rewrite MG, U.
  replace (53 + e - 1)%Z with (52 + e)%Z by lia.
  rewrite Req_bool_false.
  - lra.
  - rewrite bpow_plus. change (bpow radix2 52) with (IZR (2 ^ 52)). intros E. apply Rmult_eq_reg_r in E; [|lra]. apply eq_IZR in E. lia.
Qed.
