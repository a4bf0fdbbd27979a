(** * Property theorems: recursion depth and base solver calls of MapReduce (C73)

    [sized sup m base]: the base solver returns [m] weighted indices on every data set of at
    least [m] rows; [fuel] is the recursion limit of the interpreter (exceeding it is
    [Err RecursionLimit]); [tree] is the scikit-learn tree. *)
From Coq Require Import List ZArith QArith Bool Arith Reals Lia Lra.
From Flocq Require Import Core.Core.
From Verif Require Import Num Jax JaxFacts DataModel MeanModel GreedyModel
  MapReduceModel MapReduceSpec MapReduceProofs MapReduceProofs2 MapReduceProofs3 MapReduceDepth MapReduceFloat.
Import ListNotations.
Open Scope nat_scope.

Lemma half_div leaf : 2 <= leaf -> mr_half leaf = leaf / 2.
Proof. intros H. unfold mr_half. apply Nat.max_r. apply Nat.div_le_lower_bound; lia. Qed.

(** ** The base solver is only ever asked to select [m] out of more than [m] and at most
    [leaf_size] rows: two solvers that agree on those data sets give the same result. *)
Theorem C73_base_calls :
  forall V (O : FOps V) P Y (p0 : P) (y0 : Y) m (base base' : Data P Y V -> result (Coresubset P Y V)) tree leaf fuel d,
    (forall e c, base e = Ok c -> c_pre c = e /\ length (c_idx c) = m /\ length (c_w c) = m) ->
    tree_sized tree -> 1 <= m -> 2 * m <= leaf -> wfd d -> m < d_len d ->
    (forall e, wfd e -> m < d_len e <= leaf -> base e = base' e) ->
    map_reduce O p0 y0 base tree leaf fuel d = map_reduce O p0 y0 base' tree leaf fuel d.
Proof.
  intros V O P Y p0 y0 m base base' tree leaf fuel d HB HT Hm Hl Hw Hn HE. unfold map_reduce.
  now rewrite (reduce_ext O p0 y0 m base base' tree leaf HB HT Hm Hl HE fuel d None Hw Hn).
Qed.
Print Assumptions C73_base_calls.
(** a solver that takes the first two rows of at most five, and fails otherwise *)
Definition first_two (e : Data Z unit EQ) : result (Coresubset Z unit EQ) :=
  if (d_len e <=? 5)%nat then Ok (mkCS [0%Z; 1%Z] [f1 EQOps; f1 EQOps] e) else Err ValueError.
Example C73_base_calls_applies :
  (forall e c, first_two e = Ok c -> c_pre c = e /\ length (c_idx c) = 2 /\ length (c_w c) = 2) /\
  wfd (as_data (Y := unit) EQOps (map Z.of_nat (seq 0 17))) /\
  exists c, map_reduce EQOps 0%Z tt first_two (fun xs _ _ => seq 0 (length xs)) 5 20
    (as_data EQOps (map Z.of_nat (seq 0 17))) = Ok c /\ c_idx c = [0%Z; 1%Z].
Proof.
  split; [|split; [split; [reflexivity|discriminate]|eexists; split; [vm_compute; reflexivity|reflexivity]]].
  intros e c H. unfold first_two in H. destruct (d_len e <=? 5); [|discriminate]. injection H as <-. auto.
Qed.

(** ** A recursion limit above log2 ((n - 1) / (leaf_size // 2)) is never exceeded, and a
    larger limit gives the same coreset *)
Theorem C73_depth :
  forall V (O : FOps V) P Y (p0 : P) (y0 : Y) sup m base tree leaf fuel (d : Data P Y V),
    sized sup m base -> tree_sized tree -> 1 <= m -> 2 * m <= leaf ->
    wfd d -> is_sup d = sup -> m <= d_len d ->
    Nat.log2 ((d_len d - 1) / (leaf / 2)) < fuel ->
    exists c, forall fuel', fuel <= fuel' ->
      map_reduce O p0 y0 base tree leaf fuel' d = Ok c /\ length (c_idx c) = m /\ length (c_w c) = m /\ c_pre c = d.
Proof.
  intros V O P Y p0 y0 sup m base tree leaf fuel d HB HT Hm Hl Hw Hs Hn Hf. rewrite <- half_div in Hf by lia.
  destruct (reduce_depth O p0 y0 sup m base tree leaf HB HT Hm Hl fuel d None Hw Hs Hn Hf) as (c & ix & E).
  eexists. intros fuel' Hf'. pose proof (reduce_fuel O p0 y0 base tree leaf fuel fuel' d None _ Hf' E) as E'.
  split; [unfold map_reduce; rewrite E'; cbn [bind]; reflexivity|].
  destruct (map_reduce_terminates O p0 y0 sup m base tree leaf (S (d_len d) + fuel') d HB HT Hm Hl Hw Hs Hn ltac:(lia)) as (c2 & E2 & A & B & C).
  unfold map_reduce in E2. rewrite (reduce_fuel O p0 y0 base tree leaf fuel (S (d_len d) + fuel') d None _ ltac:(lia) E) in E2.
  cbn [bind] in E2. injection E2 as <-. auto.
Qed.
Print Assumptions C73_depth.
(** in particular 31 nested calls suffice for every data set addressable by int32 indices *)
Theorem C73_depth_31 :
  forall V (O : FOps V) P Y (p0 : P) (y0 : Y) sup m base tree leaf (d : Data P Y V),
    sized sup m base -> tree_sized tree -> 1 <= m -> 2 * m <= leaf ->
    wfd d -> is_sup d = sup -> m <= d_len d -> (Z.of_nat (d_len d) <= 2 ^ 31)%Z ->
    exists c, map_reduce O p0 y0 base tree leaf 31 d = Ok c /\ length (c_idx c) = m.
Proof.
  intros V O P Y p0 y0 sup m base tree leaf d HB HT Hm Hl Hw Hs Hn Hb.
  destruct (C73_depth V O P Y p0 y0 sup m base tree leaf 31 d HB HT Hm Hl Hw Hs Hn) as (c & E).
  - assert (H2 : 1 <= leaf / 2) by (apply Nat.div_le_lower_bound; lia).
    assert (Q : (d_len d - 1) / (leaf / 2) <= d_len d - 1) by (apply Nat.div_le_upper_bound; [lia|nia]).
    destruct (Nat.eq_dec ((d_len d - 1) / (leaf / 2)) 0) as [->|NZ]; [cbn; lia|].
    apply Nat.log2_lt_pow2; [lia|]. apply Nat2Z.inj_lt. rewrite Nat2Z.inj_pow. change (Z.of_nat 2 ^ Z.of_nat 31)%Z with (2 ^ 31)%Z. lia.
  - exists c. destruct (E 31 ltac:(lia)) as (E1 & E2 & _). auto.
Qed.
Print Assumptions C73_depth_31.

(** ** k nested levels suffice if (m / (leaf_size // 2))^k n <= leaf_size: the documented
    rate with half the leaf size *)
Theorem C73_levels :
  forall V (O : FOps V) P Y (p0 : P) (y0 : Y) sup m base tree leaf k (d : Data P Y V),
    sized sup m base -> tree_sized tree -> 1 <= m -> 2 * m <= leaf ->
    wfd d -> is_sup d = sup -> m <= d_len d ->
    m ^ k * d_len d <= leaf * (leaf / 2) ^ k ->
    exists c, map_reduce O p0 y0 base tree leaf (S k) d = Ok c /\ length (c_idx c) = m.
Proof.
  intros V O P Y p0 y0 sup m base tree leaf k d HB HT Hm Hl Hw Hs Hn Hk. rewrite <- half_div in Hk by lia.
  destruct (reduce_levels O p0 y0 sup m base tree leaf HB HT Hm Hl k d None Hw Hs Hn Hk) as (c & ix & E).
  destruct (map_reduce_terminates O p0 y0 sup m base tree leaf (S (d_len d) + S k) d HB HT Hm Hl Hw Hs Hn ltac:(lia)) as (c2 & E2 & A & _).
  unfold map_reduce in E2 |- *. rewrite E. cbn [bind].
  rewrite (reduce_fuel O p0 y0 base tree leaf (S k) (S (d_len d) + S k) d None _ ltac:(lia) E) in E2. cbn [bind] in E2.
  injection E2 as <-. eexists. split; [reflexivity|exact A].
Qed.
Print Assumptions C73_levels.
(** herding: two points out of leaves of 10, 500 rows: 6 levels *)
Example C73_applies :
  sized false 2 (herding_base EQOps 0%Z tt (mkHerding 2 (fun a b => Fin (1 # Z.to_pos (1 + (a - b) * (a - b)))%Q) true (BOne None) Greedy) (fun _ => seq 0 2)) /\
  Nat.log2 ((500 - 1) / (10 / 2)) < 7 /\ 2 ^ 5 * 500 <= 10 * (10 / 2) ^ 5.
Proof.
  split; [apply (herding_sized EQOps 0%Z tt (mkHerding 2 _ true (BOne None) Greedy)); simpl; lia|].
  split; [vm_compute; lia|]. apply Nat.leb_le. vm_compute. reflexivity.
Qed.

(** ** Finding: the documented rate n_k <= (m / leaf_size)^k n is wrong by a factor of up to
    two per level.  17 rows, leaves of 4, one point each: by the formula one level leaves at
    most 17/4 rows, which fit in one leaf; in fact it leaves 8 and a second level is needed. *)
Theorem C73_documented_rate_refuted :
  forall V (O : FOps V) P Y (p0 : P) (y0 : Y) sup base tree (d : Data P Y V),
    sized sup 1 base -> tree_sized tree -> wfd d -> is_sup d = sup -> d_len d = 17 ->
    d_len d * 1 / 4 <= 4 /\
    map_reduce O p0 y0 base tree 4 2 d = Err RecursionLimit /\
    exists c, map_reduce O p0 y0 base tree 4 3 d = Ok c.
Proof.
  intros V O P Y p0 y0 sup base tree d HB HT Hw Hs Hn. split; [rewrite Hn; cbn; lia|].
  destruct (reduce_step O p0 y0 sup 1 base tree 4 1 d None HB HT ltac:(lia) ltac:(lia) Hw Hs ltac:(lia)) as (d1 & i1 & W1 & S1 & L1 & E1).
  rewrite Hn in L1. change (mr_nleaves 4 17 * 1) with 8 in L1.
  destruct (reduce_step O p0 y0 sup 1 base tree 4 0 d1 i1 HB HT ltac:(lia) ltac:(lia) W1 S1 ltac:(lia)) as (d2 & i2 & W2 & S2 & L2 & E2).
  split.
  - unfold map_reduce. rewrite E1, E2. reflexivity.
  - destruct (C73_depth V O P Y p0 y0 sup 1 base tree 4 4 d HB HT ltac:(lia) ltac:(lia) Hw Hs ltac:(lia)) as (c & _); [rewrite Hn; cbn; lia|].
    destruct (reduce_step O p0 y0 sup 1 base tree 4 2 d None HB HT ltac:(lia) ltac:(lia) Hw Hs ltac:(lia)) as (d1' & i1' & W1' & S1' & L1' & E1').
    rewrite Hn in L1'. change (mr_nleaves 4 17 * 1) with 8 in L1'.
    destruct (reduce_step O p0 y0 sup 1 base tree 4 1 d1' i1' HB HT ltac:(lia) ltac:(lia) W1' S1' ltac:(lia)) as (d2' & i2' & W2' & S2' & L2' & E2').
    rewrite L1' in L2'. change (mr_nleaves 4 8 * 1) with 2 in L2'.
    destruct (reduce_leaf O p0 y0 sup 1 base tree 4 0 d2' i2' HB W2' S2' ltac:(lia)) as (c3 & ix3 & E3).
    unfold map_reduce. rewrite E1', E2', E3. cbn [bind]. eexists. reflexivity.
Qed.
Print Assumptions C73_documented_rate_refuted.
Example C73_documented_rate_refuted_applies :
  sized (P := Z) (Y := unit) false 1 (herding_base EQOps 0%Z tt (mkHerding 1 (fun a b => Fin (1 # Z.to_pos (1 + (a - b) * (a - b)))%Q) true (BOne None) Greedy) (fun _ => seq 0 1)) /\
  wfd (as_data (Y := unit) EQOps (map Z.of_nat (seq 0 17))) /\ d_len (as_data (Y := unit) EQOps (map Z.of_nat (seq 0 17))) = 17.
Proof.
  split; [apply (herding_sized EQOps 0%Z tt (mkHerding 1 _ true (BOne None) Greedy)); simpl; lia|].
  split; [split; [reflexivity|discriminate]|reflexivity].
Qed.

(** ** The model takes the logarithm exactly.  For at most 2^31 rows this is what the code
    computes: the quotient is rounded to the nearest double, and [math.log2] may have an
    absolute error of 2^-40 as long as it is exact at powers of two. *)
Theorem C73_leaf_count_float :
  forall (n leaf : nat) (log2 : R -> R),
    2 <= leaf -> leaf < n -> (Z.of_nat n <= 2 ^ 31)%Z ->
    (forall x, (0 < x)%R -> (Rabs (log2 x - ln x / ln 2) <= / 2 ^ 40)%R) ->
    (forall j : nat, log2 (2 ^ j)%R = INR j) ->
    let computed := Zfloor (log2 (double (INR (n - 1) / INR (Nat.max 1 (leaf / 2))))) in
    2 ^ Z.to_nat (Z.max 0 computed) = mr_nleaves leaf n.
Proof.
  intros n leaf log2 Hl Hn Hb HL HP computed. unfold computed. change (Nat.max 1 (leaf / 2)) with (mr_half leaf).
  pose proof (half_le leaf Hl). pose proof (half_pos leaf).
  assert (P1 : (1 <= INR (n - 1) / INR (mr_half leaf))%R).
  { assert (0 < INR (mr_half leaf))%R by (apply lt_0_INR; lia). apply Rmult_le_reg_r with (INR (mr_half leaf)); [assumption|].
    unfold Rdiv. rewrite Rmult_assoc, Rinv_l by lra. rewrite Rmult_1_l, Rmult_1_r. apply le_INR. lia. }
  rewrite (floor_log2_ok n (mr_half leaf)); try lia.
  - rewrite Z.max_r by lia. rewrite Nat2Z.id. reflexivity.
  - apply HL. apply Rlt_le_trans with 1%R; [lra|]. change 1%R with (2 ^ 0)%R. rewrite <- (double_pow 0) by lia. apply double_mono. exact P1.
  - intros j ->. apply HP.
Qed.
Print Assumptions C73_leaf_count_float.
(** the exact logarithm is such a function *)
Example C73_leaf_count_float_applies :
  (forall x, (0 < x)%R -> (Rabs (ln x / ln 2 - ln x / ln 2) <= / 2 ^ 40)%R) /\ (forall j : nat, (ln (2 ^ j) / ln 2)%R = INR j).
Proof.
  split.
  - intros x _. replace (ln x / ln 2 - ln x / ln 2)%R with 0%R by ring. rewrite Rabs_R0. left. apply Rinv_0_lt_compat. apply pow_lt. lra.
  - intros j. rewrite ln_pow2. destruct ln2_bounds. field. lra.
Qed.
