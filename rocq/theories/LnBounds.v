(** * Certified rational bounds of natural logarithms
    [exp q] for a rational [q] is bracketed by repeated squaring of [1 + q / 2^80] on
    integers scaled by 2^160. *)
From Coq Require Import ZArith Reals Lra Lia.
Open Scope R_scope.

Definition scale : Z := (2 ^ 160)%Z.
(** [(e, lo, hi)] stands for the interval [2^e * lo / scale, 2^e * hi / scale] *)
Definition square (s : Z * Z * Z) : Z * Z * Z :=
  let '(e, lo, hi) := s in
  let lo' := (lo * lo / scale)%Z in let hi' := (hi * hi / scale + 1)%Z in
  if (2 * scale <=? lo')%Z then ((2 * e + 1)%Z, (lo' / 2)%Z, (hi' / 2 + 1)%Z) else ((2 * e)%Z, lo', hi').
Fixpoint squares (n : nat) (s : Z * Z * Z) : Z * Z * Z :=
  match n with O => s | S n => square (squares n s) end.
Definition start (N : Z) : Z * Z * Z :=
  let lo := (scale + N * 2 ^ 16)%Z in (0, lo, lo + 2 * (N * N) / 2 ^ 128 + 1)%Z.
Definition exp_bracket (N : Z) : Z * Z * Z := squares 80 (start N).

Definition inside (v : R) (s : Z * Z * Z) : Prop :=
  let '(e, lo, hi) := s in
  (0 < lo)%Z /\ (0 < hi)%Z /\
  IZR e * ln 2 + ln (IZR lo) - ln (IZR scale) <= v <= IZR e * ln 2 + ln (IZR hi) - ln (IZR scale).

Lemma scale_pos : (0 < scale)%Z. Proof. reflexivity. Qed.
Lemma ln_le' x y : 0 < x -> x <= y -> ln x <= ln y.
Proof. intros H [L|E]; [left; now apply ln_increasing|rewrite E; lra]. Qed.
Lemma square_inside v s : (let '(e, lo, hi) := s in scale <= lo /\ lo <= hi)%Z -> inside v s ->
  (let '(e, lo, hi) := square s in scale <= lo /\ lo <= hi)%Z /\ inside (2 * v) (square s).
Proof.
  destruct s as [[e lo] hi]. intros [HS HH] (P1 & P2 & A & B). unfold square. pose proof scale_pos as SP.
  set (lo' := (lo * lo / scale)%Z). set (hi' := (hi * hi / scale + 1)%Z).
  assert (L1 : (scale <= lo')%Z) by (apply Z.div_le_lower_bound; nia).
  assert (L2 : (lo' * scale <= lo * lo)%Z) by (unfold lo'; rewrite Z.mul_comm; apply Z.mul_div_le; exact SP).
  assert (L3 : (hi * hi <= hi' * scale)%Z).
  { unfold hi'. pose proof (Z.div_mod (hi * hi) scale ltac:(lia)) as E. pose proof (Z.mod_pos_bound (hi * hi) scale SP). nia. }
  assert (L4 : (lo' <= hi')%Z).
  { unfold lo', hi'. enough (lo * lo / scale <= hi * hi / scale)%Z by lia. apply Z.div_le_mono; nia. }
  assert (SR : 0 < IZR scale) by (now apply IZR_lt). assert (LR : 0 < IZR lo) by (now apply IZR_lt). assert (HR : 0 < IZR hi) by (now apply IZR_lt).
  assert (LR' : 0 < IZR lo') by (apply IZR_lt; lia). assert (HR' : 0 < IZR hi') by (apply IZR_lt; lia).
  assert (M1 : ln (IZR lo') + ln (IZR scale) <= 2 * ln (IZR lo)).
  { rewrite <- ln_mult by assumption. replace (2 * ln (IZR lo)) with (ln (IZR lo * IZR lo)) by (rewrite ln_mult; lra).
    rewrite <- !mult_IZR. apply ln_le'; [apply IZR_lt; nia|now apply IZR_le]. }
  assert (M2 : 2 * ln (IZR hi) <= ln (IZR hi') + ln (IZR scale)).
  { rewrite <- ln_mult by assumption. replace (2 * ln (IZR hi)) with (ln (IZR hi * IZR hi)) by (rewrite ln_mult; lra).
    rewrite <- !mult_IZR. apply ln_le'; [apply IZR_lt; nia|now apply IZR_le]. }
  destruct (Z.leb_spec (2 * scale) lo') as [G|G].
  - assert (D1 : (2 * (lo' / 2) <= lo')%Z) by (apply Z.mul_div_le; lia).
    assert (D2 : (hi' <= 2 * (hi' / 2 + 1))%Z).
    { pose proof (Z.div_mod hi' 2 ltac:(lia)). pose proof (Z.mod_pos_bound hi' 2 ltac:(lia)). lia. }
    assert (D3 : (scale <= lo' / 2)%Z) by (apply Z.div_le_lower_bound; lia).
    assert (D4 : (lo' / 2 <= hi' / 2 + 1)%Z) by (enough (lo' / 2 <= hi' / 2)%Z by lia; apply Z.div_le_mono; lia).
    split; [lia|]. cbv beta iota delta [inside]. split; [lia|]. split; [lia|].
    assert (0 < IZR (lo' / 2)) by (apply IZR_lt; lia). assert (0 < IZR (hi' / 2 + 1)) by (apply IZR_lt; lia).
    assert (ln 2 + ln (IZR (lo' / 2)) <= ln (IZR lo')).
    { rewrite <- ln_mult, <- mult_IZR by lra. apply ln_le'; [apply IZR_lt; lia|now apply IZR_le]. }
    assert (ln (IZR hi') <= ln 2 + ln (IZR (hi' / 2 + 1))).
    { rewrite <- ln_mult, <- mult_IZR by lra. apply ln_le'; [assumption|now apply IZR_le]. }
    rewrite plus_IZR, mult_IZR. lra.
  - split; [lia|]. cbv beta iota delta [inside]. split; [lia|]. split; [lia|]. rewrite mult_IZR. lra.
Qed.
Lemma squares_inside n v s : (let '(e, lo, hi) := s in scale <= lo /\ lo <= hi)%Z -> inside v s ->
  (let '(e, lo, hi) := squares n s in scale <= lo /\ lo <= hi)%Z /\ inside (2 ^ n * v) (squares n s).
Proof.
  intros H1 H2. induction n as [|n [I1 I2]]; [split; [exact H1|]; replace (2 ^ 0 * v) with v by (simpl; ring); exact H2|].
  cbn [squares]. rewrite <- tech_pow_Rmult, Rmult_assoc. now apply square_inside.
Qed.
Definition start_ok (N : Z) : bool :=
  let '(_, lo, hi) := start N in
  ((0 <=? N) && (N <? 2 ^ 144) && (lo <=? hi) && (2 ^ 144 * scale <=? hi * (2 ^ 144 - N)))%Z%bool.
Lemma ln_le_1 x : 0 < x -> ln x <= x - 1.
Proof.
  intros H. destruct (Req_dec (ln x) 0) as [E|E].
  - rewrite E. rewrite <- ln_1 in E. apply ln_inv in E; lra.
  - pose proof (exp_ineq1 (ln x) E) as Q. rewrite exp_ln in Q by exact H. lra.
Qed.
Lemma ln_quot x y : 0 < x -> 0 < y -> ln (x / y) = ln x - ln y.
Proof. intros. unfold Rdiv. rewrite ln_mult, ln_Rinv by (try assumption; now apply Rinv_0_lt_compat). ring. Qed.
Lemma start_inside N : start_ok N = true ->
  (let '(e, lo, hi) := start N in scale <= lo /\ lo <= hi)%Z /\ inside (IZR N / IZR (2 ^ 144)) (start N).
Proof.
  unfold start_ok, start. set (lo := (scale + N * 2 ^ 16)%Z). set (hi := (lo + 2 * (N * N) / 2 ^ 128 + 1)%Z).
  rewrite !Bool.andb_true_iff, !Z.leb_le, Z.ltb_lt. intros [[[H1 H2] H3] H4]. pose proof scale_pos as SP.
  assert (L : (scale <= lo)%Z) by (unfold lo; lia). split; [lia|]. cbv beta iota delta [inside]. split; [lia|]. split; [lia|].
  assert (SR : 0 < IZR scale) by (now apply IZR_lt). assert (LR : 0 < IZR lo) by (apply IZR_lt; lia). assert (HR : 0 < IZR hi) by (apply IZR_lt; lia).
  set (D := (2 ^ 144)%Z) in *. assert (DR : 0 < IZR D) by (apply IZR_lt; reflexivity).
  rewrite Rmult_0_l. split.
  - (* ln (lo / scale) <= lo / scale - 1 = t *)
    pose proof (ln_le_1 (IZR lo / IZR scale) ltac:(apply Rdiv_lt_0_compat; assumption)) as Q.
    rewrite ln_quot in Q by assumption.
    replace (IZR lo / IZR scale - 1) with (IZR N / IZR D) in Q; [lra|].
    unfold lo. rewrite plus_IZR, mult_IZR.
    replace (IZR scale) with (IZR D * IZR (2 ^ 16)) by (rewrite <- mult_IZR; reflexivity).
    field. split; [apply IZR_neq; discriminate|lra].
  - (* ln (hi / scale) >= 1 - scale / hi >= t *)
    pose proof (ln_le_1 (IZR scale / IZR hi) ltac:(apply Rdiv_lt_0_compat; assumption)) as Q.
    rewrite ln_quot in Q by assumption.
    assert (IZR scale / IZR hi <= 1 - IZR N / IZR D); [|lra].
    apply Rmult_le_reg_r with (IZR hi * IZR D); [now apply Rmult_lt_0_compat|].
    replace (IZR scale / IZR hi * (IZR hi * IZR D)) with (IZR (D * scale)) by (rewrite mult_IZR; field; lra).
    replace ((1 - IZR N / IZR D) * (IZR hi * IZR D)) with (IZR (hi * (D - N))) by (rewrite mult_IZR, minus_IZR; field; lra).
    now apply IZR_le.
Qed.
Lemma exp_bracket_inside N : start_ok N = true -> inside (IZR N / IZR (2 ^ 64)) (exp_bracket N).
Proof.
  intros H. destruct (start_inside N H) as [A B]. unfold exp_bracket.
  destruct (squares_inside 80 (IZR N / IZR (2 ^ 144)) (start N) A B) as [_ C]. revert C. generalize (squares 80 (start N)). intros s C.
  replace (IZR N / IZR (2 ^ 64)) with (2 ^ 80 * (IZR N / IZR (2 ^ 144))); [exact C|].
  replace (2 ^ 80) with (IZR (2 ^ 80)) by (rewrite (pow_IZR 2 80); reflexivity).
  replace (IZR (2 ^ 144)) with (IZR (2 ^ 80) * IZR (2 ^ 64)) by (rewrite <- mult_IZR; reflexivity).
  field. split; apply IZR_neq; discriminate.
Qed.
Lemma ln_2e (e z : Z) : (0 <= e)%Z -> (0 < z)%Z -> IZR e * ln 2 + ln (IZR z) = ln (IZR (z * 2 ^ e)).
Proof.
  intros He Hz. pose proof (Z.pow_pos_nonneg 2 e ltac:(lia) He). rewrite mult_IZR, ln_mult by (apply IZR_lt; assumption).
  rewrite <- (Z2Nat.id e) at 2 by exact He. rewrite <- pow_IZR, ln_pow by lra. rewrite INR_IZR_INZ, Z2Nat.id by exact He. lra.
Qed.
(** the checks that make [N / 2^64] an upper or a lower bound of [ln x] *)
Definition ln_le_check (x N : Z) : bool :=
  (start_ok N && (0 <? x) && let '(e, lo, hi) := exp_bracket N in (0 <=? e) && (x * scale <=? lo * 2 ^ e))%Z%bool.
Definition ln_ge_check (x N : Z) : bool :=
  (start_ok N && (0 <? x) && let '(e, lo, hi) := exp_bracket N in (0 <=? e) && (hi * 2 ^ e <=? x * scale))%Z%bool.
Theorem ln_le_bound x N : ln_le_check x N = true -> ln (IZR x) <= IZR N / IZR (2 ^ 64).
Proof.
  unfold ln_le_check. rewrite !Bool.andb_true_iff, Z.ltb_lt. intros [[H1 H2] H3].
  pose proof (exp_bracket_inside N H1) as I. destruct (exp_bracket N) as [[e lo] hi]. destruct I as (P1 & P2 & A & _).
  rewrite Bool.andb_true_iff, !Z.leb_le in H3. destruct H3 as [H3 H4].
  rewrite ln_2e in A by assumption. pose proof scale_pos.
  assert (ln (IZR x) + ln (IZR scale) <= ln (IZR (lo * 2 ^ e))); [|lra].
  rewrite <- ln_mult, <- mult_IZR by (now apply IZR_lt). apply ln_le'; [apply IZR_lt; lia|now apply IZR_le].
Qed.
Theorem ln_ge_bound x N : ln_ge_check x N = true -> IZR N / IZR (2 ^ 64) <= ln (IZR x).
Proof.
  unfold ln_ge_check. rewrite !Bool.andb_true_iff, Z.ltb_lt. intros [[H1 H2] H3].
  pose proof (exp_bracket_inside N H1) as I. destruct (exp_bracket N) as [[e lo] hi]. destruct I as (P1 & P2 & _ & B).
  rewrite Bool.andb_true_iff, !Z.leb_le in H3. destruct H3 as [H3 H4].
  rewrite ln_2e in B by assumption. pose proof scale_pos.
  assert (ln (IZR (hi * 2 ^ e)) <= ln (IZR x) + ln (IZR scale)); [|lra].
  rewrite <- ln_mult, <- mult_IZR by (now apply IZR_lt). apply ln_le'; [|now apply IZR_le].
  apply IZR_lt. apply Z.mul_pos_pos; [assumption|]. apply Z.pow_pos_nonneg; lia.
Qed.
Lemma ln_2_bracket : 12786308645202655659 / IZR (2 ^ 64) <= ln 2 <= 12786308645202655660 / IZR (2 ^ 64).
Proof. split; [apply (ln_ge_bound 2 12786308645202655659)|apply (ln_le_bound 2 12786308645202655660)]; vm_compute; reflexivity. Qed.
Lemma ln_5_bracket : 29688889273197213359 / IZR (2 ^ 64) <= ln 5 <= 29688889273197213360 / IZR (2 ^ 64).
Proof. split; [apply (ln_ge_bound 5 29688889273197213359)|apply (ln_le_bound 5 29688889273197213360)]; vm_compute; reflexivity. Qed.
Lemma ln_13_bracket : 47314964359118725072 / IZR (2 ^ 64) <= ln 13 <= 47314964359118725073 / IZR (2 ^ 64).
Proof. split; [apply (ln_ge_bound 13 47314964359118725072)|apply (ln_le_bound 13 47314964359118725073)]; vm_compute; reflexivity. Qed.
