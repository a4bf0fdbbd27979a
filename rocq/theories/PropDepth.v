(** * Property theorems: loop depths from floating point logarithms (C75) *)
From Coq Require Import List ZArith Reals Lra Lia Arith Permutation.
From Flocq Require Import Core.Core.
From Verif Require Import Num Jax RSum DataModel MeanModel GreedyModel MetricModel CholModel CholSpec CholProofs
  MapReduceModel MapReduceFloat KTModel KTSpec KTProofs KTProofs2 PropKT RecModel DepthModel DepthSpec DepthProofs DepthProofs2.
Import ListNotations.
Open Scope nat_scope.

(** ** KernelThinning: the number of halvings *)
(** [e] halvings are possible: [size * 2^e <= n < size * 2^(e+1)].  The computed number is
    [e] or, only when [size * 2^e] is exactly [n], one less.  So the clipped data never
    exceeds the data. *)
Theorem C75_kernel_thinning_depth :
  forall log2 n size,
    accurate log2 lg -> 1 <= size <= n -> (Z.of_nat n <= 2 ^ 31)%Z ->
    let m := Z.to_nat (kt_depth_computed log2 n size) in
    let e := Nat.log2 (n / size) in
    (0 <= kt_depth_computed log2 n size)%Z /\
    size * 2 ^ m <= n /\
    (m = e \/ S m = e /\ n = size * 2 ^ e).
Proof.
  intros log2 n size HA HS HN m e.
  assert (D1 : 1 <= n / size) by (apply Nat.div_le_lower_bound; lia).
  destruct (Nat.log2_spec (n / size) ltac:(lia)) as [A B]. fold e in A, B.
  assert (HE : size * 2 ^ e <= n < size * 2 ^ S e).
  { pose proof (Nat.div_mod n size ltac:(lia)). pose proof (Nat.mod_upper_bound n size ltac:(lia)). split; nia. }
  destruct (kt_depth_ok log2 n size e HA HS HN HE) as [E|(E1 & E2 & E)]; unfold m; rewrite E.
  - rewrite Nat2Z.id. repeat split; [lia|lia|auto].
  - split; [lia|]. replace (Z.to_nat (Z.of_nat e - 1)) with (e - 1) by lia. split; [|right; split; [lia|exact E2]].
    rewrite E2 at 1. apply Nat.mul_le_mono_l. apply Nat.pow_le_mono_r; lia.
Qed.
Print Assumptions C75_kernel_thinning_depth.
(** Coreset sizes that are powers of two are safe if [log2] is exact at powers of two. *)
Theorem C75_kernel_thinning_depth_powers :
  forall log2 n a,
    accurate log2 lg -> (forall j, j <= 31 -> log2 (2 ^ j)%R = INR j) ->
    1 <= 2 ^ a <= n -> (Z.of_nat n <= 2 ^ 31)%Z ->
    kt_depth_computed log2 n (2 ^ a) = Z.of_nat (Nat.log2 (n / 2 ^ a)).
Proof.
  intros log2 n a HA HP HS HN. set (e := Nat.log2 (n / 2 ^ a)).
  assert (D1 : 1 <= n / 2 ^ a) by (apply Nat.div_le_lower_bound; lia).
  destruct (Nat.log2_spec (n / 2 ^ a) ltac:(lia)) as [A B]. fold e in A, B.
  assert (HE : 2 ^ a * 2 ^ e <= n < 2 ^ a * 2 ^ S e).
  { pose proof (Nat.div_mod n (2 ^ a) ltac:(lia)). pose proof (Nat.mod_upper_bound n (2 ^ a) ltac:(lia)). split; nia. }
  destruct (kt_depth_ok log2 n (2 ^ a) e HA HS HN HE) as [E|(E1 & E2 & E)]; [exact E|].
  assert (L31 : a + e <= 31).
  { destruct (Nat.le_gt_cases (a + e) 31) as [C|C]; [exact C|exfalso].
    rewrite <- Nat.pow_add_r in E2. rewrite E2, Nat2Z.inj_pow in HN.
    assert (Z.of_nat 2 ^ 32 <= Z.of_nat 2 ^ Z.of_nat (a + e))%Z by (apply Z.pow_le_mono_r; lia). 
    change (Z.of_nat 2) with 2%Z in *. assert (2 ^ 31 < 2 ^ 32)%Z by reflexivity. lia. }
  unfold kt_depth_computed. rewrite E2, <- Nat.pow_add_r, !INR_pow2, !HP by lia.
  replace (INR (a + e) - INR a)%R with (INR e) by (rewrite plus_INR; ring). rewrite double_int by lia.
  rewrite INR_IZR_INZ. apply Zfloor_IZR.
Qed.
Print Assumptions C75_kernel_thinning_depth_powers.
(** The correctly rounded [log2] is such a function. *)
Example C75_depth_applies :
  accurate (nearest lg) lg /\ (forall j, j <= 31 -> nearest lg (2 ^ j)%R = INR j) /\ accurate (nearest ln) ln /\
  kt_depth_computed (nearest lg) 1000 4 = 7%Z.
Proof.
  split; [exact nearest_lg|]. split; [intros; apply nearest_lg_pow; lia|]. split; [exact nearest_ln|].
  change (kt_depth_computed (nearest lg) 1000 (2 ^ 2) = 7%Z). rewrite C75_kernel_thinning_depth_powers;
    [reflexivity|exact nearest_lg|intros; apply nearest_lg_pow; lia|split; [cbn; lia|apply Nat.leb_le; reflexivity]|vm_compute; discriminate].
Qed.
(** "The number of halving steps required" is not always found: 26 rows can be halved into
    two times 13, but the computed number is 0, even with a correctly rounded [log2]. *)
Theorem C75_kernel_thinning_depth_refuted :
  ~ forall n size, 1 <= size <= n -> (Z.of_nat n <= 2 ^ 31)%Z ->
      kt_depth_computed (nearest lg) n size = Z.of_nat (Nat.log2 (n / size)).
Proof. intros H. specialize (H 26 13 ltac:(lia) ltac:(lia)). rewrite kt_26_13 in H. discriminate. Qed.
Print Assumptions C75_kernel_thinning_depth_refuted.

(** the solver with this number of halvings *)
Definition with_depth {V P K} (s : kthin V P K) (depth : nat -> nat -> nat) : kthin V P K :=
  mkKT (kt_size s) (kt_kernel s) (kt_sqrt s) (kt_delta s) (kt_key s) (kt_log s) (kt_split s) (kt_uniform s) (kt_choice s)
    depth (kt_ord s).
(** Then the kernels and the rows do not matter to the halves: the only candidate besides
    the random baseline is the first 13 rows. *)
Theorem C75_no_halving :
  forall V (O : FOps V) P Y K (p0 : P) (y0 : Y) (s : kthin V P K) (d : Data P Y V) base,
    kt_size s = 13 -> d_len d = 26 ->
    kt_choice s 26 13 None false = Ok base -> length base = 13 ->
    let s' := with_depth s (fun n size => Z.to_nat (kt_depth_computed (nearest lg) n size)) in
    exists cands, kt_candidates O p0 y0 s' d = Ok cands /\
      map c_idx cands = [map Z.of_nat (seq 0 13); map Z.of_nat base].
Proof.
  intros V O P Y K p0 y0 s d base HS HD HB HL s'.
  assert (E : kt_depth s' (d_len d) (kt_size s') = 0).
  { unfold s', with_depth. cbn [kt_depth kt_size]. rewrite HS, HD, kt_26_13. reflexivity. }
  unfold kt_candidates. rewrite E. cbn [kt_half_rec bind].
  unfold baseline, random_reduce. cbn [rs_weighted rs_size rs_unique rs_choice negb].
  change (kt_size s') with (kt_size s). change (kt_choice s') with (kt_choice s). rewrite HS, HD, HB.
  assert (EL : d_len (d_take d (13 * 2 ^ 0)) = 13).
  { unfold d_len, d_take in *. cbn [d_x]. rewrite firstn_length. change (13 * 2 ^ 0) with 13. lia. }
  rewrite EL. cbn [bind]. unfold cs_init.
  assert (PL : forall idx w, d_len (points O p0 y0 (mkCS idx w d)) = length idx).
  { intros. unfold points, d_len. cbn. unfold gather. now rewrite map_length. }
  rewrite !PL, !map_length, seq_length, HD, HL. cbn [Nat.ltb Nat.leb bind].
  eexists. split; [reflexivity|]. reflexivity.
Qed.
Print Assumptions C75_no_halving.
(** [jax.random.choice] could return the last rows *)
Example C75_no_halving_applies :
  let s := mkKT 13 (fun _ _ : R => Fin 1%R) (fun _ _ => Fin 1%R) (Fin (1 / 2)%R) 7 (fun v => v) (fun k => (k, k)) (fun _ => Fin 0%R)
    (fun n draws _ _ => Ok (seq (n - draws) draws)) (fun _ _ => 0) (fun size _ => seq 0 size) in
  kt_size s = 13 /\ kt_choice s 26 13 None false = Ok (seq 13 13) /\ length (seq 13 13) = 13.
Proof. cbn. auto. Qed.

Lemma kt_half_rec_depth {V P Y K} (O : FOps V) (p0 : P) (y0 : Y) (s : kthin V P K) depth m cur d :
  kt_half_rec O p0 y0 (with_depth s depth) cur m d = kt_half_rec O p0 y0 s cur m d.
Proof.
  revert cur. induction m as [|m IH]; intros cur; cbn [kt_half_rec]; [reflexivity|].
  change (kt_half O p0 y0 (with_depth s depth)) with (kt_half O p0 y0 s).
  destruct (kt_half O p0 y0 s _) as [cc|]; cbn [bind]; [|reflexivity]. now rewrite !IH.
Qed.
(** The guarantees of KernelThinning.reduce hold with the computed number of halvings. *)
Theorem C75_kernel_thinning :
  forall P Y K (p0 : P) (y0 : Y) (s : kthin ER P K) (k : P -> P -> R) (xs : list P) (dw : list R) log2,
    accurate log2 lg -> kt_depth s = (fun n size => Z.to_nat (kt_depth_computed log2 n size)) ->
    1 <= kt_size s -> choice_ok (kt_choice s) -> (forall size i, Permutation (kt_ord s size i) (seq 0 size)) ->
    kt_kernel s = (fun a b => Fin (k a b)) -> length dw = length xs -> Forall (fun v => 0 < v)%R dw ->
    kt_size s <= length xs -> (Z.of_nat (length xs) <= 2 ^ 31)%Z ->
    let d : Data P Y ER := mkData xs (map Fin dw) None in
    exists l, kt_reduce EROps p0 y0 s d = Ok (mkCS (map Z.of_nat l) (repeat (Fin 1%R) (kt_size s)) d) /\
      length l = kt_size s /\ NoDup l /\ forall i, In i l -> i < length xs.
Proof.
  intros P Y K p0 y0 s k xs dw log2 HA HD HS HC HO HK HL HP HN HB d.
  set (depth := fun n size => if (Z.of_nat n <=? 2 ^ 31)%Z then kt_depth s n size else 0).
  assert (E : kt_reduce EROps p0 y0 s d = kt_reduce EROps p0 y0 (with_depth s depth) d).
  { unfold kt_reduce, kt_candidates. rewrite !kt_half_rec_depth.
    assert (ED : kt_depth (with_depth s depth) (d_len d) (kt_size (with_depth s depth)) = kt_depth s (d_len d) (kt_size s)).
    { cbn [with_depth kt_depth kt_size]. unfold depth. change (d_len d) with (length xs). now rewrite (proj2 (Z.leb_le _ _)). }
    rewrite ED. reflexivity. }
  rewrite E. apply (proj2 (C29_sized_distinct P Y K p0 y0 (with_depth s depth) k xs dw
    ltac:(constructor; cbn [with_depth kt_size kt_choice kt_depth kt_ord]; auto; intros n size Hn; unfold depth;
          destruct (Z.leb_spec (Z.of_nat n) (2 ^ 31)) as [C|C];
          [rewrite HD; apply (C75_kernel_thinning_depth log2 n size HA Hn C)|cbn; lia]) HK HL HP) HN).
Qed.
Print Assumptions C75_kernel_thinning.

(** ** CompressPlusPlus: the largest power of four *)
Theorem C75_compress_depth :
  forall log n,
    accurate log ln -> 1 <= n -> (Z.of_nat n <= 2 ^ 31)%Z ->
    let p := Z.to_nat (cp_log4_computed log n) in
    let e := Nat.log2 n / 2 in
    4 ^ p <= n /\ (p = e \/ S p = e /\ n = 4 ^ e \/ n = 1).
Proof.
  intros log n HA H1 HN p e.
  assert (HE : 4 ^ e <= n < 4 ^ S e).
  { destruct (Nat.log2_spec n ltac:(lia)) as [A B]. change 4 with (2 ^ 2). rewrite <- !Nat.pow_mul_r. unfold e.
    pose proof (Nat.div_mod (Nat.log2 n) 2 ltac:(lia)). pose proof (Nat.mod_upper_bound (Nat.log2 n) 2 ltac:(lia)). split.
    - apply Nat.le_trans with (2 ^ Nat.log2 n); [apply Nat.pow_le_mono_r; lia|exact A].
    - apply Nat.lt_le_trans with (2 ^ S (Nat.log2 n)); [exact B|apply Nat.pow_le_mono_r; lia]. }
  destruct (cp_log4_ok log n e HA H1 HN HE) as [E|[E1 E]]; unfold p; rewrite E.
  - rewrite Nat2Z.id. split; [apply HE|auto].
  - destruct e as [|e']; [cbn; cbn in E1; lia|]. replace (Z.to_nat (Z.of_nat (S e') - 1)) with e' by lia.
    split; [|right; left; split; [lia|exact E1]]. rewrite E1. apply Nat.pow_le_mono_r; lia.
Qed.
Print Assumptions C75_compress_depth.
(** With a correctly rounded [log] it is the largest power for every data set. *)
Theorem C75_compress_depth_exact :
  forall n, 1 <= n -> (Z.of_nat n <= 2 ^ 31)%Z -> log4_is n (Z.to_nat (cp_log4_computed (nearest ln) n)).
Proof.
  intros n H1 HN. set (e := Nat.log2 n / 2).
  assert (HE : 4 ^ e <= n < 4 ^ S e).
  { destruct (Nat.log2_spec n ltac:(lia)) as [A B]. change 4 with (2 ^ 2). rewrite <- !Nat.pow_mul_r. unfold e.
    pose proof (Nat.div_mod (Nat.log2 n) 2 ltac:(lia)). pose proof (Nat.mod_upper_bound (Nat.log2 n) 2 ltac:(lia)). split.
    - apply Nat.le_trans with (2 ^ Nat.log2 n); [apply Nat.pow_le_mono_r; lia|exact A].
    - apply Nat.lt_le_trans with (2 ^ S (Nat.log2 n)); [exact B|apply Nat.pow_le_mono_r; lia]. }
  enough (E : cp_log4_computed (nearest ln) n = Z.of_nat e) by (rewrite E, Nat2Z.id; unfold log4_is; rewrite Nat.add_1_r; exact HE).
  destruct (cp_log4_ok (nearest ln) n e nearest_ln H1 HN HE) as [E|[E1 E]]; [exact E|].
  rewrite E1. apply log4_pow. destruct (Nat.le_gt_cases e 15) as [C|C]; [exact C|exfalso].
  rewrite E1, Nat2Z.inj_pow in HN. assert (Z.of_nat 4 ^ 16 <= Z.of_nat 4 ^ Z.of_nat e)%Z by (apply Z.pow_le_mono_r; lia).
  change (Z.of_nat 4) with 4%Z in *. assert (2 ^ 31 < 4 ^ 16)%Z by reflexivity. lia.
Qed.
Print Assumptions C75_compress_depth_exact.
Example C75_compress_depth_applies : cp_log4_computed (nearest ln) 64 = 3%Z /\ log4_is 100 3.
Proof. split; [exact (log4_pow 3 ltac:(lia))|unfold log4_is; cbn; lia]. Qed.

(** ** Recombination: the depth of the tree *)
(** The tree is deep enough, so the padding is not negative; it is at most one level too
    deep, and only if [m * factor^(depth-1)] is exactly [n]. *)
Theorem C75_tree_depth :
  forall log n m factor,
    accurate log ln -> 1 <= n -> 1 <= m -> 2 <= factor ->
    (Z.of_nat n <= 2 ^ 31)%Z -> (Z.of_nat m <= 2 ^ 31)%Z -> (Z.of_nat factor <= 2 ^ 31)%Z ->
    exists padding depth,
      prepare_tree (fun n m f => Ok (Zceil (double (log (double (INR n / INR m)) / log (INR f))))) n m factor
        = Ok (padding, factor * m, depth) /\
      1 <= depth /\ (0 <= padding)%Z /\ n + Z.to_nat padding = factor ^ (depth - 1) * (factor * m) /\
      (depth = 1 \/ m * factor ^ (depth - 1) <= n).
Proof.
  intros log n m f HA N1 M1 F2 HN HM HF.
  destruct (rec_depth_ok log n m f HA N1 M1 F2 HN HM HF) as (D1 & D2 & D3). unfold prepare_tree. cbn [bind].
  change (Z.max 1 (Zceil (double (log (double (INR n / INR m)) / log (INR f))))) with (rec_depth_computed log n m f).
  set (d := Z.to_nat (rec_depth_computed log n m f)) in *.
  eexists. exists d. split; [reflexivity|]. split; [exact D1|]. split; [lia|]. split; [|exact D3].
  replace (n + Z.to_nat (Z.of_nat (m * f ^ d) - Z.of_nat n)) with (m * f ^ d) by lia.
  destruct d as [|d']; [lia|]. cbn [Nat.pow]. rewrite Nat.sub_succ, Nat.sub_0_r. ring.
Qed.
Print Assumptions C75_tree_depth.
(** The extra level occurs: 1250 nodes, 10 test functions and factor 5 need 3 levels. *)
Theorem C75_tree_depth_refuted :
  10 * 5 ^ 3 = 1250 /\ rec_depth_computed (nearest ln) 1250 10 5 = 4%Z.
Proof. split; [reflexivity|exact rec_1250]. Qed.
Print Assumptions C75_tree_depth_refuted.
