(** * The number of leaves in floating point *)
From Coq Require Import ZArith Reals Lra Lia Arith.
From Flocq Require Import Core.Core Relative.
From Verif Require Import Jax MapReduceModel MapReduceProofs.
Open Scope R_scope.

(** the double nearest to a real number *)
Definition double (x : R) : R := round radix2 (FLT_exp (-1074) 53) ZnearestE x.

Lemma double_pow (q : nat) : (q <= 1000)%nat -> double (2 ^ q) = 2 ^ q.
Proof.
  intros H. unfold double. apply round_generic; [apply valid_rnd_N|].
  replace (2 ^ q) with (bpow radix2 (Z.of_nat q)).
  - apply generic_format_bpow. unfold FLT_exp. lia.
  - rewrite bpow_powerRZ, <- pow_powerRZ. reflexivity.
Qed.
Lemma double_mono x y : x <= y -> double x <= double y.
Proof. apply round_le; [apply FLT_exp_valid; reflexivity|apply valid_rnd_N]. Qed.
Lemma double_near x : 1 <= x -> Rabs (double x - x) <= / 2 ^ 53 * x.
Proof.
  intros H. pose proof (relative_error_N_FLT radix2 (-1074) 53 ltac:(reflexivity) (fun x => negb (Z.even x)) x) as E.
  assert (B : bpow radix2 (-1074 + 53 - 1) <= Rabs x).
  { rewrite Rabs_pos_eq by lra. apply Rle_trans with 1; [|exact H]. change 1 with (bpow radix2 0). apply bpow_le. lia. }
  specialize (E B). rewrite (Rabs_pos_eq x) in E by lra. eapply Rle_trans; [exact E|]. apply Rmult_le_compat_r; [lra|].
  change (bpow radix2 (-53 + 1)) with (/ IZR (2 ^ 52)). replace (IZR (2 ^ 52)) with (2 ^ 52)%R by (rewrite pow_IZR; reflexivity).
  simpl. lra.
Qed.
Lemma ln2_bounds : 0 < ln 2 <= 1.
Proof.
  split; [rewrite <- ln_1; apply ln_increasing; lra|]. rewrite <- (ln_exp 1). apply Rlt_le, ln_increasing; [lra|].
  pose proof (exp_ineq1 1 ltac:(lra)). lra.
Qed.
Lemma ln_le_sub x : 0 < x -> ln x <= x - 1.
Proof.
  intros H. destruct (Req_dec (ln x) 0) as [E|E].
  - rewrite E. rewrite <- ln_1 in E. apply ln_inv in E; lra.
  - pose proof (exp_ineq1 (ln x) E) as Q. rewrite exp_ln in Q by exact H. lra.
Qed.
Lemma ln_pow2 q : ln (2 ^ q) = INR q * ln 2.
Proof. apply ln_pow. lra. Qed.

Lemma floor_log2_ok (n h : nat) (l : R) : (1 <= h)%nat -> (h <= n - 1)%nat -> (Z.of_nat n <= 2 ^ 31)%Z ->
  let x := double (INR (n - 1) / INR h) in
  Rabs (l - ln x / ln 2) <= / 2 ^ 40 ->
  (forall j : nat, x = 2 ^ j -> l = INR j) ->
  Zfloor l = Z.of_nat (Nat.log2 ((n - 1) / h)).
Proof.
  intros Hh Hn Hb x Hl Hp. set (q := Nat.log2 ((n - 1) / h)).
  assert (Hd : (1 <= (n - 1) / h)%nat) by (apply Nat.div_le_lower_bound; lia).
  destruct (Nat.log2_spec ((n - 1) / h) ltac:(lia)) as [A B]. fold q in A, B.
  assert (A' : (2 ^ q * h <= n - 1)%nat).
  { pose proof (Nat.div_mod (n - 1) h ltac:(lia)). nia. }
  assert (B' : (n - 1 < 2 ^ S q * h)%nat).
  { pose proof (Nat.div_mod (n - 1) h ltac:(lia)). pose proof (Nat.mod_upper_bound (n - 1) h ltac:(lia)). nia. }
  set (r := INR (n - 1) / INR h) in *.
  assert (H0 : 0 < INR h) by (apply lt_0_INR; lia).
  assert (PW : forall j, INR (2 ^ j) = 2 ^ j) by (intro j; rewrite pow_INR; reflexivity).
  assert (P0 : 0 < 2 ^ q) by (apply pow_lt; lra). assert (P1 : 1 <= 2 ^ q) by (apply pow_R1_Rle; lra).
  assert (Nb : INR (n - 1) <= 2 ^ 31).
  { rewrite INR_IZR_INZ. replace (2 ^ 31)%R with (IZR (2 ^ 31)) by (rewrite pow_IZR; reflexivity). apply IZR_le. lia. }
  assert (Q30 : (q <= 1000)%nat).
  { destruct (Nat.le_gt_cases q 1000) as [|C]; [assumption|exfalso].
    assert (2 ^ q * INR h <= INR (n - 1)) by (rewrite <- PW, <- mult_INR; now apply le_INR).
    assert (2 ^ 32 <= 2 ^ q) by (apply Rle_pow; [lra|lia]). assert (1 <= INR h) by (change 1 with (INR 1); apply le_INR; lia).
    assert (2 ^ 32 * 1 <= 2 ^ q * INR h) by (apply Rmult_le_compat; try lra; apply pow_le; lra). simpl in *. lra. }
  assert (RA : 2 ^ q <= r).
  { unfold r. apply Rmult_le_reg_r with (INR h); [exact H0|]. unfold Rdiv. rewrite Rmult_assoc, Rinv_l, Rmult_1_r by lra.
    rewrite <- PW, <- mult_INR. now apply le_INR. }
  assert (XA : 2 ^ q <= x). { rewrite <- (double_pow q Q30). apply double_mono. exact RA. }
  assert (NR : Rabs (x - r) <= / 2 ^ 53 * r) by (apply double_near; lra).
  assert (X0 : 0 < x) by lra. destruct ln2_bounds as [L0 L1].
  apply Rabs_le_inv in Hl, NR.
  assert (UP : l < INR q + 1).
  { (* below the next power of two *)
    assert (RB : r <= 2 ^ S q * (1 - / 2 ^ 32)).
    { assert (I : INR (n - 1) + 1 <= 2 ^ S q * INR h).
      { rewrite <- PW, <- mult_INR, <- S_INR. apply le_INR. lia. }
      assert (J : 2 ^ S q * INR h <= 2 ^ 32).
      { rewrite <- tech_pow_Rmult. assert (2 ^ q * INR h <= INR (n - 1)) by (rewrite <- PW, <- mult_INR; now apply le_INR).
        simpl in *. lra. }
      unfold r. apply Rmult_le_reg_r with (INR h); [exact H0|]. unfold Rdiv. rewrite Rmult_assoc, Rinv_l, Rmult_1_r by lra.
      assert (2 ^ S q * INR h * / 2 ^ 32 <= 1).
      { apply Rmult_le_reg_r with (2 ^ 32); [apply pow_lt; lra|]. rewrite Rmult_assoc, Rinv_l, Rmult_1_r by (apply pow_nonzero; lra). lra. }
      lra. }
    assert (PS : 0 < 2 ^ S q) by (apply pow_lt; lra).
    assert (XB : x <= 2 ^ S q * (1 - / 2 ^ 33)).
    { apply Rle_trans with (r * (1 + / 2 ^ 53)); [lra|].
      apply Rle_trans with (2 ^ S q * (1 - / 2 ^ 32) * (1 + / 2 ^ 53)); [apply Rmult_le_compat_r; [simpl; lra|exact RB]|].
      rewrite Rmult_assoc. apply Rmult_le_compat_l; [lra|]. simpl. lra. }
    assert (T : 0 < 1 - / 2 ^ 33) by (simpl; lra).
    assert (LX : ln x <= INR (S q) * ln 2 - / 2 ^ 33).
    { apply Rle_trans with (ln (2 ^ S q * (1 - / 2 ^ 33))).
      - destruct XB as [XB|XB]; [left; now apply ln_increasing|rewrite XB; lra].
      - rewrite ln_mult, ln_pow2 by assumption. pose proof (ln_le_sub _ T). lra. }
    assert (LY : ln x / ln 2 <= INR (S q) - / 2 ^ 33).
    { apply Rmult_le_reg_r with (ln 2); [exact L0|]. unfold Rdiv. rewrite Rmult_assoc, Rinv_l, Rmult_1_r by lra.
      assert (/ 2 ^ 33 * ln 2 <= / 2 ^ 33 * 1) by (apply Rmult_le_compat_l; [simpl; lra|exact L1]). lra. }
    rewrite S_INR in LY. simpl in LY, Hl. lra. }
  assert (LO : INR q <= l).
  { destruct (Req_dec x (2 ^ q)) as [E|NE]; [rewrite (Hp q E); lra|].
    assert (RB : 2 ^ q * (1 + / 2 ^ 31) <= r).
    { assert (S1 : (2 ^ q * h < n - 1)%nat).
      { destruct (Nat.eq_dec (2 ^ q * h) (n - 1)) as [E|]; [|lia]. exfalso. apply NE. unfold x, r. rewrite <- E, mult_INR, PW.
        replace (2 ^ q * INR h / INR h) with (2 ^ q) by (field; lra). now apply double_pow. }
      assert (I : 2 ^ q * INR h + 1 <= INR (n - 1)).
      { rewrite <- PW, <- mult_INR, <- S_INR. apply le_INR. lia. }
      assert (J : 2 ^ q * INR h * / 2 ^ 31 <= 1).
      { apply Rmult_le_reg_r with (2 ^ 31); [apply pow_lt; lra|]. rewrite Rmult_assoc, Rinv_l, Rmult_1_r by (apply pow_nonzero; lra). lra. }
      unfold r. apply Rmult_le_reg_r with (INR h); [exact H0|]. unfold Rdiv. rewrite (Rmult_assoc (INR (n - 1))), Rinv_l, Rmult_1_r by lra. lra. }
    assert (XB : 2 ^ q * (1 + / 2 ^ 32) <= x).
    { apply Rle_trans with (r * (1 - / 2 ^ 53)); [|lra].
      apply Rle_trans with (2 ^ q * (1 + / 2 ^ 31) * (1 - / 2 ^ 53)); [|apply Rmult_le_compat_r; [simpl; lra|exact RB]].
      rewrite Rmult_assoc. apply Rmult_le_compat_l; [lra|]. simpl. lra. }
    assert (T : 0 < 1 + / 2 ^ 32) by (simpl; lra).
    (* ln (1 + t) >= t / (1 + t) *)
    assert (LT : / 2 ^ 33 <= ln (1 + / 2 ^ 32)).
    { pose proof (ln_le_sub (/ (1 + / 2 ^ 32)) (Rinv_0_lt_compat _ T)) as Q. rewrite ln_Rinv in Q by exact T.
      assert (/ (1 + / 2 ^ 32) <= 1 - / 2 ^ 33); [|lra].
      apply Rmult_le_reg_r with (1 + / 2 ^ 32); [exact T|]. rewrite Rinv_l by lra. simpl. lra. }
    assert (LX : INR q * ln 2 + / 2 ^ 33 <= ln x).
    { apply Rle_trans with (ln (2 ^ q * (1 + / 2 ^ 32))).
      - rewrite ln_mult, ln_pow2 by assumption. lra.
      - destruct XB as [XB|XB]; [left; apply ln_increasing; [now apply Rmult_lt_0_compat|assumption]|rewrite XB; lra]. }
    assert (LY : INR q + / 2 ^ 33 <= ln x / ln 2).
    { apply Rmult_le_reg_r with (ln 2); [exact L0|]. unfold Rdiv. rewrite Rmult_assoc, Rinv_l, Rmult_1_r by lra.
      assert (/ 2 ^ 33 * ln 2 <= / 2 ^ 33 * 1) by (apply Rmult_le_compat_l; [simpl; lra|exact L1]). lra. }
    simpl in LY, Hl. lra. }
  apply Zfloor_imp. rewrite plus_IZR, <- INR_IZR_INZ. lra.
Qed.
