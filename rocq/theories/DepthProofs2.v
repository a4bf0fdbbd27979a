(** * Loop depths with correctly rounded logarithms *)
From Coq Require Import ZArith Reals Lra Lia Arith.
From Flocq Require Import Core.Core Relative.
From Verif Require Import MapReduceFloat LnBounds DepthModel DepthSpec DepthProofs.
Open Scope R_scope.

Lemma nearest_accurate exact : (forall x, / 2 ^ 31 <= x <= 2 ^ 31 -> Rabs (exact x) <= 32) -> accurate (nearest exact) exact.
Proof.
  intros H x Hx. unfold nearest. eapply Rle_trans; [apply double_abs; now apply H|]. simpl. lra.
Qed.
Lemma nearest_ln : accurate (nearest ln) ln.
Proof. apply nearest_accurate. intros x Hx. pose proof (ln_31 x Hx). destruct ln2_bounds. lra. Qed.
Lemma nearest_lg : accurate (nearest lg) lg.
Proof.
  apply nearest_accurate. intros x Hx. pose proof (ln_31 x Hx) as Q. destruct ln2_bounds as [L0 L1]. unfold lg, Rdiv.
  rewrite Rabs_mult, Rabs_inv, (Rabs_pos_eq (ln 2)) by lra. apply Rmult_le_reg_r with (ln 2); [lra|].
  rewrite Rmult_assoc, Rinv_l by lra. lra.
Qed.
Lemma nearest_lg_pow j : (j <= 1000)%nat -> nearest lg (2 ^ j) = INR j.
Proof.
  intros Hj. unfold nearest, lg. destruct ln2_bounds as [L0 L1]. rewrite ln_pow2.
  replace (INR j * ln 2 / ln 2) with (INR j) by (field; lra). unfold double. apply round_generic; [apply valid_rnd_N|].
  apply generic_format_FLT. apply (FLT_spec _ _ _ _ (Float radix2 (Z.of_nat j) 0)); cbn [Fnum Fexp].
  - unfold F2R. cbn [Fnum Fexp]. rewrite <- INR_IZR_INZ. simpl. ring.
  - rewrite Z.abs_eq by lia. apply Z.lt_trans with 1001%Z; [lia|reflexivity].
  - lia.
Qed.
Lemma ln2_num : 12786308645202655659 / 18446744073709551616 <= ln 2 <= 12786308645202655660 / 18446744073709551616.
Proof. exact ln_2_bracket. Qed.
Lemma ln5_num : 29688889273197213359 / 18446744073709551616 <= ln 5 <= 29688889273197213360 / 18446744073709551616.
Proof. exact ln_5_bracket. Qed.
Lemma ln13_num : 47314964359118725072 / 18446744073709551616 <= ln 13 <= 47314964359118725073 / 18446744073709551616.
Proof. exact ln_13_bracket. Qed.

(** 26 rows, coreset size 13 *)
Lemma kt_26_13 : kt_depth_computed (nearest lg) 26 13 = 0%Z.
Proof.
  destruct (kt_depth_ok (nearest lg) 26 13 1 nearest_lg ltac:(lia) ltac:(lia) ltac:(cbn; lia)) as [E|(_ & _ & E)]; [exfalso|exact E].
  unfold kt_depth_computed, nearest in E. replace (INR 26) with 26 in E by (simpl; lra). replace (INR 13) with 13 in E by (simpl; lra).
  pose proof ln2_num as L2. pose proof ln13_num as L13.
  assert (A : double (lg 26) <= IZR 5292224640774425 * bpow radix2 (-50)).
  { apply dbl_le; [lia|lia|]. change (bpow radix2 (-50)) with (/ 1125899906842624). unfold lg.
    replace (ln 26) with (ln 2 + ln 13) by (rewrite <- ln_mult by lra; f_equal; lra).
    apply Rmult_lt_reg_r with (ln 2); [lra|]. unfold Rdiv. rewrite (Rmult_assoc (ln 2 + ln 13)), Rinv_l, Rmult_1_r by lra. lra. }
  assert (B : IZR 8332649467863603 * bpow radix2 (-51) <= double (lg 13)).
  { apply dbl_ge; [lia|lia|]. change (bpow radix2 (-51)) with (/ 2251799813685248). unfold lg.
    apply Rmult_lt_reg_r with (ln 2); [lra|]. unfold Rdiv. rewrite (Rmult_assoc (ln 13)), Rinv_l, Rmult_1_r by lra. lra. }
  assert (C : double (double (lg 26) - double (lg 13)) <= IZR (2 ^ 53 - 4) * bpow radix2 (-53)).
  { apply dbl_le; [lia|lia|]. change (bpow radix2 (-53)) with (/ 9007199254740992). change (2 ^ 53 - 4)%Z with 9007199254740988%Z.
    change (bpow radix2 (-50)) with (/ 1125899906842624) in A. change (bpow radix2 (-51)) with (/ 2251799813685248) in B. lra. }
  pose proof (Zfloor_lb (double (double (lg 26) - double (lg 13)))) as D. rewrite E in D.
  change (bpow radix2 (-53)) with (/ 9007199254740992) in C. change (2 ^ 53 - 4)%Z with 9007199254740988%Z in C. simpl in D. lra.
Qed.

(** 1250 nodes, 10 test functions, reduction factor 5 *)
Lemma rec_1250 : rec_depth_computed (nearest ln) 1250 10 5 = 4%Z.
Proof.
  pose proof (rec_depth_ok (nearest ln) 1250 10 5 nearest_ln ltac:(lia) ltac:(lia) ltac:(lia) ltac:(lia) ltac:(lia) ltac:(lia)) as (D1 & _ & D2).
  assert (P0 : (1 <= rec_depth_computed (nearest ln) 1250 10 5)%Z) by (unfold rec_depth_computed; lia).
  assert (LO : (4 <= rec_depth_computed (nearest ln) 1250 10 5)%Z).
  { unfold rec_depth_computed, nearest.
    replace (INR 1250 / INR 10) with 125 by (rewrite !INR_IZR_INZ; simpl; lra).
    assert (E125 : double 125 = 125).
    { unfold double. apply round_generic; [apply valid_rnd_N|]. apply generic_format_FLT. apply (FLT_spec _ _ _ _ (Float radix2 125 0)); cbn [Fnum Fexp]; [|reflexivity|lia].
      unfold F2R. cbn [Fnum Fexp]. simpl. ring. }
    rewrite E125. replace (INR 5) with 5 by (simpl; lra). pose proof ln5_num as L5.
    replace (ln 125) with (3 * ln 5) by (replace 125 with (5 ^ 3) by (simpl; lra); rewrite ln_pow by lra; simpl; lra).
    assert (A : IZR 5436197987035623 * bpow radix2 (-50) <= double (3 * ln 5)).
    { apply dbl_ge; [lia|lia|]. change (bpow radix2 (-50)) with (/ 1125899906842624). lra. }
    assert (B : double (ln 5) <= IZR 7248263982714163 * bpow radix2 (-52)).
    { apply dbl_le; [lia|lia|]. change (bpow radix2 (-52)) with (/ 4503599627370496). lra. }
    assert (B0 : 1 <= double (ln 5)). { replace 1 with (2 ^ 0) by reflexivity. rewrite <- (double_pow 0) by lia. apply double_mono. simpl. lra. }
    change (bpow radix2 (-50)) with (/ 1125899906842624) in A. change (bpow radix2 (-52)) with (/ 4503599627370496) in B.
    assert (C : IZR 6755399441055745 * bpow radix2 (-51) <= double (double (3 * ln 5) / double (ln 5))).
    { apply dbl_ge; [lia|lia|]. change (bpow radix2 (-51)) with (/ 2251799813685248).
      apply Rmult_lt_reg_r with (double (ln 5)); [lra|]. unfold Rdiv. rewrite (Rmult_assoc (double (3 * ln 5))), Rinv_l, Rmult_1_r by lra.
      eapply Rle_lt_trans; [apply Rmult_le_compat_l; [|exact B]; lra|]. lra. }
    change (bpow radix2 (-51)) with (/ 2251799813685248) in C.
    assert (3 < Zceil (double (double (3 * ln 5) / double (ln 5))))%Z; [|lia].
    apply lt_IZR. eapply Rlt_le_trans; [|apply Zceil_ub]. lra. }
  set (z := rec_depth_computed (nearest ln) 1250 10 5) in *. clearbody z.
  destruct D2 as [D2|D2]; [lia|].
  destruct (Z.le_gt_cases z 4) as [C|C]; [lia|exfalso].
  assert (5 ^ 4 <= 5 ^ (Z.to_nat z - 1))%nat by (apply Nat.pow_le_mono_r; lia).
  change (5 ^ 4)%nat with 625%nat in H. lia.
Qed.

(** powers of 4 *)
Lemma double_int p : (p <= 1000)%nat -> double (INR p) = INR p.
Proof.
  intros Hp. unfold double. apply round_generic; [apply valid_rnd_N|]. apply generic_format_FLT.
  apply (FLT_spec _ _ _ _ (Float radix2 (Z.of_nat p) 0)); cbn [Fnum Fexp].
  - unfold F2R. cbn [Fnum Fexp]. rewrite <- INR_IZR_INZ. simpl. ring.
  - rewrite Z.abs_eq by lia. apply Z.lt_trans with 1001%Z; [lia|reflexivity].
  - lia.
Qed.
Lemma log4_low (p : nat) mA eA M E : (1 <= p <= 1000)%nat -> (2 ^ 52 < mA < 2 ^ 53)%Z -> (-1074 <= eA)%Z ->
  (IZR mA - / 2) * bpow radix2 eA < INR p * (2 * ln 2) ->
  INR p * (6243314768165359 / 4503599627370496) <= IZR mA * bpow radix2 eA \/
  (2 ^ 52 < M < 2 ^ 53)%Z /\ (-1074 <= E)%Z /\ IZR M * bpow radix2 E = INR p /\
  (IZR M - / 2) * bpow radix2 E * (6243314768165359 / 4503599627370496) < IZR mA * bpow radix2 eA ->
  INR p <= double (double (ln (INR (4 ^ p))) / double (ln 4)).
Proof.
  intros Hp HmA HeA HA HB. pose proof ln2_num as L2.
  assert (E4 : ln 4 = 2 * ln 2) by (replace 4 with (2 ^ 2) by (simpl; lra); rewrite ln_pow2; simpl; lra).
  assert (EP : ln (INR (4 ^ p)) = INR p * (2 * ln 2)).
  { rewrite pow_INR, ln_pow by (simpl; lra). replace (INR 4) with 4 by (simpl; lra). now rewrite E4. }
  rewrite EP, E4.
  assert (A : IZR mA * bpow radix2 eA <= double (INR p * (2 * ln 2))) by (now apply dbl_ge).
  assert (B : double (2 * ln 2) <= 6243314768165359 / 4503599627370496).
  { change (/ 4503599627370496) with (bpow radix2 (-52)). unfold Rdiv. change (/ 4503599627370496) with (bpow radix2 (-52)). apply dbl_le; [lia|lia|].
    change (bpow radix2 (-52)) with (/ 4503599627370496). lra. }
  assert (B0 : 1 <= double (2 * ln 2)). { replace 1 with (2 ^ 0) by reflexivity. rewrite <- (double_pow 0) by lia. apply double_mono. simpl. lra. }
  assert (p0 : 0 < INR p) by (apply lt_0_INR; lia).
  destruct HB as [HB|(HM & HE & HP & HB)].
  - rewrite <- (double_int p) at 1 by lia. apply double_mono.
    apply Rmult_le_reg_r with (double (2 * ln 2)); [lra|]. unfold Rdiv at 1. rewrite (Rmult_assoc (double (INR p * (2 * ln 2)))), Rinv_l, Rmult_1_r by lra.
    eapply Rle_trans; [apply Rmult_le_compat_l; [lra|exact B]|]. lra.
  - rewrite <- HP at 1. apply dbl_ge; [assumption|assumption|].
    apply Rmult_lt_reg_r with (double (2 * ln 2)); [lra|]. unfold Rdiv. rewrite (Rmult_assoc (double (INR p * (2 * ln 2)))), Rinv_l, Rmult_1_r by lra.
    eapply Rle_lt_trans; [apply Rmult_le_compat_l; [|exact B]|].
    + apply Rmult_le_pos; [|apply bpow_ge_0]. assert (1 <= IZR M) by (apply IZR_le; lia). lra.
    + lra.
Qed.
Ltac bpows :=
  repeat match goal with |- context [bpow radix2 ?e] =>
    let v := eval vm_compute in (2 ^ (- e))%Z in change (bpow radix2 e) with (/ IZR v) end.
Ltac log4_case p A eA M E :=
  apply (log4_low p A eA M E); [lia|lia|lia|pose proof ln2_num; bpows; rewrite INR_IZR_INZ; cbn [Z.of_nat Pos.of_succ_nat Pos.succ]; lra|];
  match M with
  | 0%Z => left; bpows; rewrite INR_IZR_INZ; cbn [Z.of_nat Pos.of_succ_nat Pos.succ]; lra
  | _ => right; split; [lia|]; split; [lia|]; bpows; rewrite ?INR_IZR_INZ; cbn [Z.of_nat Pos.of_succ_nat Pos.succ]; split; lra
  end.
Lemma log4_pow p : (p <= 15)%nat -> cp_log4_computed (nearest ln) (4 ^ p) = Z.of_nat p.
Proof.
  intros Hp. destruct p as [|p'].
  { unfold cp_log4_computed, nearest. cbn [Nat.pow]. change (INR 1) with 1. rewrite ln_1.
    assert (E : double 0 = 0) by (unfold double; apply round_0; apply valid_rnd_N). rewrite E. unfold Rdiv. rewrite Rmult_0_l, E. apply (Zfloor_IZR 0). }
  remember (S p') as p eqn:Ep.
  assert (HN : (Z.of_nat (4 ^ p) <= 2 ^ 31)%Z).
  { rewrite Nat2Z.inj_pow. apply Z.le_trans with (Z.of_nat 4 ^ Z.of_nat 15)%Z; [apply Z.pow_le_mono_r; lia|]. vm_compute. discriminate. }
  assert (N1 : (1 <= 4 ^ p)%nat) by (pose proof (Nat.pow_nonzero 4 p ltac:(lia)); lia).
  destruct (cp_log4_ok (nearest ln) (4 ^ p) p nearest_ln N1 HN ltac:(cbn [Nat.pow]; lia)) as [E|[_ E]]; [exact E|exfalso].
  assert (LO : INR p <= double (double (ln (INR (4 ^ p))) / double (ln 4))).
  { clear HN N1 E. assert (C : (p = 1 \/ p = 2 \/ p = 3 \/ p = 4 \/ p = 5 \/ p = 6 \/ p = 7 \/ p = 8 \/ p = 9 \/ p = 10 \/ p = 11 \/ p = 12 \/ p = 13 \/ p = 14 \/ p = 15)%nat) by lia.
    clear p' Ep Hp.
    destruct C as [C|[C|[C|[C|[C|[C|[C|[C|[C|[C|[C|[C|[C|[C|C]]]]]]]]]]]]]]; rewrite C; clear C p.
    + log4_case 1%nat 6243314768165359%Z (-52)%Z 0%Z (0)%Z.
    + log4_case 2%nat 6243314768165359%Z (-51)%Z 0%Z (0)%Z.
    + log4_case 3%nat 4682486076124019%Z (-50)%Z 6755399441055744%Z (-51)%Z.
    + log4_case 4%nat 6243314768165359%Z (-50)%Z 0%Z (0)%Z.
    + log4_case 5%nat 7804143460206699%Z (-50)%Z 0%Z (0)%Z.
    + log4_case 6%nat 4682486076124019%Z (-49)%Z 6755399441055744%Z (-50)%Z.
    + log4_case 7%nat 5462900422144689%Z (-49)%Z 7881299347898368%Z (-50)%Z.
    + log4_case 8%nat 6243314768165359%Z (-49)%Z 0%Z (0)%Z.
    + log4_case 9%nat 7023729114186029%Z (-49)%Z 0%Z (0)%Z.
    + log4_case 10%nat 7804143460206699%Z (-49)%Z 0%Z (0)%Z.
    + log4_case 11%nat 8584557806227369%Z (-49)%Z 0%Z (0)%Z.
    + log4_case 12%nat 4682486076124019%Z (-48)%Z 6755399441055744%Z (-49)%Z.
    + log4_case 13%nat 5072693249134354%Z (-48)%Z 7318349394477056%Z (-49)%Z.
    + log4_case 14%nat 5462900422144689%Z (-48)%Z 7881299347898368%Z (-49)%Z.
    + log4_case 15%nat 5853107595155024%Z (-48)%Z 8444249301319680%Z (-49)%Z.
  }
  unfold cp_log4_computed, nearest in E. pose proof (Zfloor_ub (double (double (ln (INR (4 ^ p))) / double (ln 4)))) as U.
  rewrite E in U. rewrite minus_IZR, <- INR_IZR_INZ in U. lra.
Qed.
