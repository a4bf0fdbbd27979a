(** * How deep MapReduce recurses and what it asks of its base solver *)
From Coq Require Import List ZArith Bool Arith Lia.
From Verif Require Import Num Jax JaxFacts DataModel MapReduceModel MapReduceSpec MapReduceProofs.
Import ListNotations.
Open Scope nat_scope.

Lemma nleaves_upper leaf n : leaf < n -> 2 <= leaf -> n <= 2 * mr_half leaf * mr_nleaves leaf n.
Proof.
  intros Hn Hl. pose proof (half_le leaf Hl). pose proof (half_pos leaf) as Hh.
  assert (Q : 2 <= (n - 1) / mr_half leaf) by (apply Nat.div_le_lower_bound; lia).
  unfold mr_nleaves. destruct (Nat.log2_spec ((n - 1) / mr_half leaf) ltac:(lia)) as [A B].
  set (q := Nat.log2 ((n - 1) / mr_half leaf)) in *. rewrite Nat.pow_succ_r' in B.
  pose proof (Nat.div_mod (n - 1) (mr_half leaf) ltac:(lia)). pose proof (Nat.mod_upper_bound (n - 1) (mr_half leaf) ltac:(lia)). nia.
Qed.
Lemma partition_small leaf n : leaf < n -> 2 <= leaf -> mr_partition leaf n <= leaf.
Proof.
  intros Hn Hl. pose proof (half_le leaf Hl). pose proof (half_pos leaf) as Hh. pose proof (nleaves_upper leaf n Hn Hl) as U.
  pose proof (padded_shape leaf n) as S. pose proof (padding_small leaf n) as T. pose proof (nleaves_pos leaf n).
  assert (mr_partition leaf n * mr_nleaves leaf n < (2 * mr_half leaf + 1) * mr_nleaves leaf n) by lia.
  assert (mr_partition leaf n < 2 * mr_half leaf + 1) by nia. lia.
Qed.

Section Depth.
  Context {V : Type} (O : FOps V) {P Y : Type} (p0 : P) (y0 : Y).
  Notation data := (Data P Y V).
  Notation cs := (Coresubset P Y V).

  (** one level of the recursion *)
  Lemma reduce_step sup m base tree leaf fuel d idx :
    sized sup m base -> tree_sized tree -> 1 <= m -> 2 * m <= leaf ->
    wfd d -> is_sup d = sup -> leaf < d_len d ->
    exists d' idx', wfd d' /\ is_sup d' = sup /\ d_len d' = mr_nleaves leaf (d_len d) * m /\
      reduce_coreset O p0 y0 base tree leaf (S fuel) d idx = reduce_coreset O p0 y0 base tree leaf fuel d' idx'.
  Proof.
    intros HB HT Hm Hl Hw Hs Hgt. cbn [reduce_coreset]. destruct (Nat.leb_spec (d_len d) leaf) as [Hle|_]; [lia|].
    destruct (jit_tree_shape O p0 y0 tree leaf d Hw HT Hgt ltac:(lia)) as [J1 [J2 J3]].
    destruct (jit_tree O p0 y0 tree leaf d) as [parts pidx] eqn:EJ. cbn [fst snd] in *.
    assert (half_m : m <= mr_half leaf) by (pose proof (half_le leaf ltac:(lia)); lia).
    pose proof (partition_large leaf (d_len d) Hgt ltac:(lia)) as PL.
    destruct (mapM_ok base parts (fun p c => length (c_idx c) = m /\ length (c_w c) = m /\ c_pre c = p)) as [outs [EO FO]].
    { intros p Hp. destruct (J3 p Hp) as [A1 [A2 A3]]. apply HB; [assumption|congruence|lia]. }
    rewrite EO. cbn [bind].
    destruct (cat_wf (map (points O p0 y0) outs) sup m) as [W1 [W2 W3]].
    { intros Eo. apply map_eq_nil in Eo. apply Forall2_len in FO. rewrite Eo in FO. simpl in FO.
      pose proof (nleaves_pos leaf (d_len d)). lia. }
    { intros d' Hd'. apply in_map_iff in Hd' as [c [<- Hc]].
      destruct (Forall2_In_r _ _ _ c FO Hc) as [p [Hp [Q1 [Q2 Q3]]]].
      destruct (points_wf O p0 y0 c ltac:(congruence)) as [B1 [B2 B3]]. split; [exact B1|].
      destruct (J3 p Hp) as [_ [A2 _]]. split; [congruence|]. lia. }
    rewrite map_length in W3. rewrite <- (Forall2_len _ _ _ FO), J1 in W3.
    eexists _, _. split; [exact W1|]. split; [exact W2|]. split; [exact W3|]. reflexivity.
  Qed.
  Lemma reduce_leaf sup m base tree leaf fuel d idx :
    sized sup m base -> wfd d -> is_sup d = sup -> m <= d_len d <= leaf ->
    exists c ix, reduce_coreset O p0 y0 base tree leaf (S fuel) d idx = Ok (c, ix).
  Proof.
    intros HB Hw Hs Hn. cbn [reduce_coreset]. rewrite (proj2 (Nat.leb_le _ _) (proj2 Hn)).
    destruct (HB d Hw Hs ltac:(lia)) as [c [-> _]]. cbn [bind]. eauto.
  Qed.

  (** the exponent of the number of leaves goes down by one at least in every level *)
  Lemma exponent_drops leaf m n : 1 <= m -> 2 * m <= leaf -> leaf < n ->
    let q := Nat.log2 ((n - 1) / mr_half leaf) in
    1 <= q /\ Nat.log2 ((mr_nleaves leaf n * m - 1) / mr_half leaf) <= q - 1.
  Proof.
    intros Hm Hl Hn q. pose proof (half_le leaf ltac:(lia)). pose proof (half_pos leaf) as Hh.
    assert (Q : 2 <= (n - 1) / mr_half leaf) by (apply Nat.div_le_lower_bound; lia).
    assert (Q1 : 1 <= q) by (apply (Nat.log2_le_mono 2) in Q; exact Q). split; [exact Q1|].
    unfold mr_nleaves. fold q. destruct (Nat.eq_dec ((2 ^ q * m - 1) / mr_half leaf) 0) as [->|NZ]; [cbn; lia|].
    assert (LT : (2 ^ q * m - 1) / mr_half leaf < 2 ^ q).
    { apply Nat.div_lt_upper_bound; [lia|]. assert (1 <= 2 ^ q) by (pose proof (Nat.pow_nonzero 2 q ltac:(lia)); lia).
      assert (2 ^ q * m <= 2 ^ q * mr_half leaf) by (apply Nat.mul_le_mono_l; lia). assert (1 <= 2 ^ q * m) by nia. lia. }
    apply Nat.log2_lt_pow2 in LT; lia.
  Qed.
  Lemma reduce_depth sup m base tree leaf :
    sized sup m base -> tree_sized tree -> 1 <= m -> 2 * m <= leaf ->
    forall fuel d idx, wfd d -> is_sup d = sup -> m <= d_len d ->
      Nat.log2 ((d_len d - 1) / mr_half leaf) < fuel ->
      exists c ix, reduce_coreset O p0 y0 base tree leaf fuel d idx = Ok (c, ix).
  Proof.
    intros HB HT Hm Hl. induction fuel as [|fuel IH]; intros d idx Hw Hs Hn Hf; [lia|].
    destruct (Nat.le_gt_cases (d_len d) leaf) as [Hle|Hgt]; [now apply (reduce_leaf sup m)|].
    destruct (reduce_step sup m base tree leaf fuel d idx HB HT Hm Hl Hw Hs Hgt) as (d' & idx' & W & S & L & ->).
    destruct (exponent_drops leaf m (d_len d) Hm Hl Hgt) as [E1 E2].
    apply IH; auto; rewrite L; [|lia]. pose proof (nleaves_pos leaf (d_len d)). nia.
  Qed.
  (** sizes shrink by the factor m / h in every level *)
  Lemma reduce_levels sup m base tree leaf :
    sized sup m base -> tree_sized tree -> 1 <= m -> 2 * m <= leaf ->
    forall k d idx, wfd d -> is_sup d = sup -> m <= d_len d ->
      m ^ k * d_len d <= leaf * mr_half leaf ^ k ->
      exists c ix, reduce_coreset O p0 y0 base tree leaf (S k) d idx = Ok (c, ix).
  Proof.
    intros HB HT Hm Hl. induction k as [|k IH]; intros d idx Hw Hs Hn Hk.
    - apply (reduce_leaf sup m); auto. cbn in Hk. lia.
    - destruct (Nat.le_gt_cases (d_len d) leaf) as [Hle|Hgt]; [now apply (reduce_leaf sup m)|].
      destruct (reduce_step sup m base tree leaf (S k) d idx HB HT Hm Hl Hw Hs Hgt) as (d' & idx' & W & S & L & ->).
      destruct (nleaves_bounds leaf (d_len d) Hgt ltac:(lia)) as [N1 N2]. pose proof (half_pos leaf) as Hh.
      apply IH; auto; rewrite L; [nia|]. rewrite !Nat.pow_succ_r' in Hk.
      apply (Nat.mul_le_mono_pos_r _ _ (mr_half leaf)); [lia|].
      assert (m ^ k * m * (mr_nleaves leaf (d_len d) * mr_half leaf) <= m ^ k * m * d_len d) by (apply Nat.mul_le_mono_l; lia).
      lia.
  Qed.

  (** more recursion does not change a result *)
  Lemma reduce_fuel base tree leaf : forall fuel fuel' d idx r, fuel <= fuel' ->
    reduce_coreset O p0 y0 base tree leaf fuel d idx = Ok r -> reduce_coreset O p0 y0 base tree leaf fuel' d idx = Ok r.
  Proof.
    induction fuel as [|fuel IH]; intros fuel' d idx r Hf E; [discriminate|]. destruct fuel' as [|fuel']; [lia|].
    cbn [reduce_coreset] in *. destruct (d_len d <=? leaf); [exact E|].
    destruct (jit_tree O p0 y0 tree leaf d) as [parts pidx]. destruct (mapM base parts); cbn [bind] in *; [|discriminate].
    eapply IH; [|exact E]. lia.
  Qed.

  (** the base solver is only called on data sets of more than [m] and at most [leaf] rows *)
  Lemma mapM_ext {A B} (f g : A -> result B) l : (forall a, In a l -> f a = g a) -> mapM f l = mapM g l.
  Proof.
    induction l as [|a l IH]; intros H; [reflexivity|]. cbn [mapM]. rewrite (H a (or_introl eq_refl)), IH; [reflexivity|].
    intros; apply H; now right.
  Qed.
  Lemma reduce_ext m (base base' : data -> result cs) tree leaf :
    (forall e c, base e = Ok c -> c_pre c = e /\ length (c_idx c) = m /\ length (c_w c) = m) ->
    tree_sized tree -> 1 <= m -> 2 * m <= leaf ->
    (forall e, wfd e -> m < d_len e <= leaf -> base e = base' e) ->
    forall fuel d idx, wfd d -> m < d_len d ->
      reduce_coreset O p0 y0 base tree leaf fuel d idx = reduce_coreset O p0 y0 base' tree leaf fuel d idx.
  Proof.
    intros HB HT Hm Hl HE. induction fuel as [|fuel IH]; intros d idx Hw Hn; [reflexivity|]. cbn [reduce_coreset].
    destruct (Nat.leb_spec (d_len d) leaf) as [Hle|Hgt]; [now rewrite HE by (auto; lia)|].
    destruct (jit_tree_shape O p0 y0 tree leaf d Hw HT Hgt ltac:(lia)) as [J1 [J2 J3]].
    destruct (jit_tree O p0 y0 tree leaf d) as [parts pidx] eqn:EJ. cbn [fst snd] in *.
    pose proof (half_le leaf ltac:(lia)). pose proof (partition_large leaf (d_len d) Hgt ltac:(lia)) as PL.
    pose proof (partition_small leaf (d_len d) Hgt ltac:(lia)) as PS.
    rewrite <- (mapM_ext base base' parts).
    2:{ intros p Hp. destruct (J3 p Hp) as [A1 [A2 A3]]. apply HE; [exact A1|lia]. }
    destruct (mapM base parts) as [outs|e] eqn:EO; [|reflexivity]. cbn [bind]. apply mapM_inv in EO.
    destruct (cat_wf (map (points O p0 y0) outs) (is_sup d) m) as [W1 [W2 W3]].
    { intros Eo. apply map_eq_nil in Eo. apply Forall2_len in EO. rewrite Eo in EO. simpl in EO.
      pose proof (nleaves_pos leaf (d_len d)). lia. }
    { intros d' Hd'. apply in_map_iff in Hd' as [c [<- Hc]].
      destruct (Forall2_In_r _ _ _ c EO Hc) as [p [Hp Ep]]. destruct (HB p c Ep) as [Q1 [Q2 Q3]].
      destruct (points_wf O p0 y0 c ltac:(congruence)) as [B1 [B2 B3]]. split; [exact B1|].
      destruct (J3 p Hp) as [_ [A2 _]]. split; [congruence|]. lia. }
    rewrite map_length in W3. rewrite <- (Forall2_len _ _ _ EO), J1 in W3.
    destruct (nleaves_bounds leaf (d_len d) Hgt ltac:(lia)) as [N1 N2].
    apply IH; [exact W1|]. rewrite W3. nia.
  Qed.
End Depth.
