(** * Helper functions: properties C39, C40, C42, C47 *)
From Coq Require Import List ZArith Bool Reals Permutation Lia Lra.
From Verif Require Import Num Jax RSum JaxFacts MeanModel UtilModel UtilSpec UtilProofs.
Import ListNotations.
Open Scope R_scope.

(** ** C39: batch sampling and padding helpers *)
(** [jr.split] returns as many keys as asked and [jr.permutation] a permutation *)
Theorem C39_sample_batch_indices :
  forall K (split : K -> nat -> list K) permutation key max_index batch_size num_batches,
    (forall k n, length (split k n) = n) ->
    (forall k n, Permutation (permutation k n) (seq 0 n)) ->
    ((batch_size < 0 \/ max_index < batch_size)%Z ->
       sample_batch_indices split permutation key max_index batch_size num_batches = Err ValueError) /\
    ((0 <= batch_size <= max_index)%Z ->
       exists rows, sample_batch_indices split permutation key max_index batch_size num_batches = Ok rows /\
         length rows = num_batches /\
         forall r, In r rows -> length r = Z.to_nat batch_size /\ NoDup r /\
           forall i, In i r -> (0 <= Z.of_nat i < max_index)%Z).
Proof.
  intros K split permutation key mi bs nb Hs Hp. unfold sample_batch_indices. split.
  - intros H. destruct (Z.ltb_spec mi bs); auto. destruct (Z.ltb_spec bs 0); auto. lia.
  - intros H. destruct (Z.ltb_spec mi bs); [lia|]. destruct (Z.ltb_spec bs 0); [lia|]. eexists. split; [reflexivity|].
    rewrite map_length. split; [apply Hs|]. intros r Hr. apply in_map_iff in Hr as [k [<- _]].
    pose proof (Hp k (Z.to_nat mi)) as P.
    assert (ND : NoDup (permutation k (Z.to_nat mi))) by (eapply Permutation_NoDup; [symmetry; exact P|apply seq_NoDup]).
    rewrite <- (firstn_skipn (Z.to_nat bs)) in ND. split; [|split].
    + rewrite firstn_length, (Permutation_length P), seq_length. lia.
    + revert ND. generalize (skipn (Z.to_nat bs) (permutation k (Z.to_nat mi))). generalize (firstn (Z.to_nat bs) (permutation k (Z.to_nat mi))).
      intros l m. induction l; simpl; intros ND; [constructor|]. inversion ND; subst. constructor; auto. rewrite in_app_iff in *. tauto.
    + intros i Hi. assert (I : In i (permutation k (Z.to_nat mi))) by (rewrite <- (firstn_skipn (Z.to_nat bs)); apply in_app_iff; now left).
      apply (Permutation_in _ P) in I. apply in_seq in I. lia.
Qed.
Print Assumptions C39_sample_batch_indices.
Example C39_sample_applies : exists rows,
  sample_batch_indices (fun k n => repeat k n) (fun _ n => rev (seq 0 n)) tt 5 3 2 = Ok rows /\ rows = [[4;3;2];[4;3;2]]%nat.
Proof. eexists; split; reflexivity. Qed.

(** padding touches array leaves only, keeps their rows first and appends zeros *)
Theorem C39_zero_pad :
  forall B S (z : B) (t : ptree (leaf B S)) k,
    ((k < 0)%Z -> tree_zero_pad z t k = Err ValueError) /\
    ((0 <= k)%Z -> tree_zero_pad z t k
       = Ok (tree_map (fun a => match a with
                                | LArr rows => LArr (rows ++ repeat z (Z.to_nat k))
                                | LStatic s => LStatic s
                                end) t)).
Proof.
  intros. unfold tree_zero_pad. destruct (Z.ltb_spec k 0); split; intros; try lia; auto. now rewrite combine_pad.
Qed.
Print Assumptions C39_zero_pad.
Example C39_zero_pad_applies :
  tree_zero_pad 0%Z (PNode [PLeaf (LArr [1;2]%Z); PNone; PNode [PLeaf (LStatic true); PLeaf (LArr [])]]) 2
  = Ok (PNode [PLeaf (LArr [1;2;0;0]%Z); PNone; PNode [PLeaf (LStatic true); PLeaf (LArr [0;0]%Z)]]).
Proof. reflexivity. Qed.

(** a tree with at least one leaf (or [None]) is flattened to max(len, length)
    leaves, the extra ones repeating the last *)
Theorem C39_leaves_repeat :
  forall A (t : ptree A) len,
    (flatten t <> [] ->
       length (tree_leaves_repeat t len) = Nat.max (length (flatten t)) (Z.to_nat len) /\
       forall i, (i < length (tree_leaves_repeat t len))%nat ->
         nth i (tree_leaves_repeat t len) None = nth (Nat.min i (length (flatten t) - 1)) (flatten t) None).
Proof.
  intros A t len H. unfold tree_leaves_repeat. destruct (exists_last H) as [l [a E]]. rewrite E, skipn_last, concat_repeat_one.
  rewrite !app_length, repeat_length. simpl length. split; [lia|].
  intros i Hi. destruct (Nat.lt_ge_cases i (length l + 1)) as [L|L].
  - rewrite app_nth1 by (rewrite app_length; simpl; lia). f_equal. lia.
  - rewrite app_nth2 by (rewrite app_length; simpl; lia). rewrite app_length. simpl length.
    rewrite nth_repeat_lt by lia. rewrite Nat.min_r by lia. rewrite app_nth2 by lia.
    replace (length l + 1 - 1 - length l)%nat with 0%nat by lia. reflexivity.
Qed.
Print Assumptions C39_leaves_repeat.
(** Finding: for a tree without leaves the promised length is not reached. *)
Theorem C39_leaves_repeat_empty_refuted : forall A len, tree_leaves_repeat (@PNode A []) len = [].
Proof. intros. unfold tree_leaves_repeat. simpl. induction (Z.to_nat (len - 0)); simpl; auto. Qed.
Print Assumptions C39_leaves_repeat_empty_refuted.
Example C39_leaves_applies : tree_leaves_repeat (PNode [PLeaf 3; PNone]%nat) 4 = [Some 3; None; None; None]%nat.
Proof. reflexivity. Qed.

(** only values in (-|t|, 0) change, and they become zero; special values are kept *)
Theorem C39_threshold :
  forall x t : R,
    apply_threshold EROps (Fin x) (Fin t) = Fin (if Rlt_dec (- Rabs t) x then if Rlt_dec x 0 then 0 else x else x) /\
    (forall v : ER, is_fin v = false -> apply_threshold EROps v (Fin t) = v).
Proof.
  intros x t.
  assert (A : fneg EROps (fabs EROps (Fin t)) = Fin (- Rabs t)).
  { unfold fabs, fneg. cbn. destruct (nltb ROps 0 t) eqn:E.
    - apply Rltb_true in E. cbn. f_equal. rewrite Rabs_right; [ring|lra].
    - cbn. f_equal. rewrite Rabs_left1; [ring|]. destruct (Rlt_le_dec 0 t) as [L|L]; [apply Rltb_true in L; congruence|lra]. }
  split.
  - unfold apply_threshold. rewrite A. change (fltb EROps (Fin (- Rabs t)) (Fin x)) with (nltb ROps (- Rabs t) x).
    change (fltb EROps (Fin x) (f0 EROps)) with (nltb ROps x 0).
    destruct (nltb ROps (- Rabs t) x) eqn:E1, (Rlt_dec (- Rabs t) x) as [L1|L1]; simpl;
      try (apply Rltb_true in E1; contradiction); try (apply Rltb_true in L1; congruence); auto.
    destruct (nltb ROps x 0) eqn:E2, (Rlt_dec x 0) as [L2|L2]; simpl; auto;
      try (apply Rltb_true in E2; contradiction); try (apply Rltb_true in L2; congruence).
  - intros v Hv. unfold apply_threshold. rewrite A. destruct v; try discriminate; reflexivity.
Qed.
Print Assumptions C39_threshold.

(** ** C42: the median heuristic *)
(** for at least two points, twice the squared bandwidth is a median of the squared
    distances over all pairs of points *)
Theorem C42_median_of_distances :
  forall xs : list (list R), (2 <= length xs)%nat ->
    exists b, median_heuristic EROps (map (map Fin) xs) = Fin b /\ 0 <= b /\
      is_median (pair_distances xs) (2 * b ^ 2).
Proof.
  intros xs H. rewrite median_heuristic_fin by assumption. eexists. split; [reflexivity|].
  pose proof (rmedian_nonneg _ (pair_distances_nonneg xs)).
  split; [apply sqrt_pos|]. rewrite <- Rsqr_pow2, Rsqr_sqrt by lra.
  replace (2 * (rmedian (pair_distances xs) / 2)) with (rmedian (pair_distances xs)) by field.
  apply rmedian_is_median. now apply pair_distances_nil.
Qed.
Print Assumptions C42_median_of_distances.
(** it does not depend on the order or the position of the points, and is
    proportional to their scale *)
Theorem C42_invariances :
  forall (xs ys : list (list R)) v c, (2 <= length xs)%nat ->
    (Permutation xs ys -> median_heuristic EROps (map (map Fin) ys) = median_heuristic EROps (map (map Fin) xs)) /\
    ((forall x, In x xs -> length x = length v) ->
       median_heuristic EROps (map (map Fin) (map (fun x => map2 Rplus x v) xs)) = median_heuristic EROps (map (map Fin) xs)) /\
    (forall b, median_heuristic EROps (map (map Fin) xs) = Fin b ->
       median_heuristic EROps (map (map Fin) (map (map (Rmult c)) xs)) = Fin (Rabs c * b)).
Proof.
  intros xs ys v c H. rewrite (median_heuristic_fin xs) by assumption. split; [|split].
  - intros P. rewrite median_heuristic_fin by (rewrite <- (Permutation_length P); assumption).
    now rewrite (rmedian_perm _ _ (pair_distances_perm _ _ P)).
  - intros Hv. rewrite median_heuristic_fin by now rewrite map_length. now rewrite pair_distances_translate.
  - intros b E. injection E as <-. rewrite median_heuristic_fin by now rewrite map_length.
    rewrite pair_distances_scale, rmedian_scale by apply pow2_ge_0. f_equal.
    unfold Rdiv. rewrite Rmult_assoc, sqrt_mult_alt by apply pow2_ge_0.
    rewrite <- Rsqr_pow2, sqrt_Rsqr_abs. reflexivity.
Qed.
Print Assumptions C42_invariances.
(** Finding: for a single point the bandwidth is NaN. *)
Theorem C42_single_point_refuted : forall x : list ER, median_heuristic EROps [x] = NaN.
Proof. reflexivity. Qed.
Print Assumptions C42_single_point_refuted.
Example C42_applies :
  let xs : list (list R) := [[0;1];[2;3];[-1;4]] in let ys : list (list R) := [[2;3];[0;1];[-1;4]] in let v : list R := [5;6] in
  (2 <= length xs)%nat /\ Permutation xs ys /\ (forall x, In x xs -> length x = length v).
Proof.
  cbv zeta. split; [simpl; lia|]. split; [constructor|]. intros x [<-|[<-|[<-|[]]]]; reflexivity.
Qed.

(** ** C47: format_time picks a sensible unit *)
Lemma log10_lt x k : 0 < x -> log10 x < - INR k <-> x < / 10 ^ k.
Proof.
  intros Hx. assert (L : 0 < ln 10) by (rewrite <- ln_1; apply ln_increasing; lra).
  assert (E : ln (/ 10 ^ k) = - INR k * ln 10).
  { rewrite ln_Rinv by (apply pow_lt; lra). rewrite <- Rpower_pow by lra. unfold Rpower. rewrite ln_exp. ring. }
  assert (P : 0 < / 10 ^ k) by (apply Rinv_0_lt_compat, pow_lt; lra).
  unfold log10. split; intros H.
  - apply ln_lt_inv; auto. rewrite E. apply (Rmult_lt_compat_r (ln 10)) in H; auto.
    unfold Rdiv in H. rewrite Rmult_assoc, Rinv_l, Rmult_1_r in H by lra. exact H.
  - apply ln_increasing in H; auto. rewrite E in H. apply (Rmult_lt_reg_r (ln 10)); auto.
    unfold Rdiv. rewrite Rmult_assoc, Rinv_l, Rmult_1_r by lra. exact H.
Qed.
Lemma log10_ge2 x : 0 < x -> 2 <= log10 x <-> 100 <= x.
Proof.
  intros Hx. assert (L : 0 < ln 10) by (rewrite <- ln_1; apply ln_increasing; lra).
  assert (E : ln 100 = 2 * ln 10).
  { replace 100 with (10 * 10) by ring. rewrite ln_mult by lra. ring. }
  unfold log10. split; intros H.
  - destruct (Rle_lt_dec 100 x) as [|N]; auto. exfalso. apply ln_increasing in N; auto. rewrite E in N.
    apply (Rmult_le_compat_r (ln 10)) in H; [|lra]. unfold Rdiv in H. rewrite Rmult_assoc, Rinv_l, Rmult_1_r in H by lra. lra.
  - apply ln_le_compat in H; [|lra]. rewrite E in H. apply (Rmult_le_reg_r (ln 10)); auto.
    unfold Rdiv. rewrite Rmult_assoc, Rinv_l, Rmult_1_r by lra. exact H.
Qed.
(** the printed number, in the printed unit, is the given time; from one picosecond
    to one hundred seconds it has between one and three digits before the point *)
Theorem C47_format_time :
  forall t : R,
    fst (format_time t) * unit_seconds (snd (format_time t)) = t /\
    (/ 10 ^ 12 <= Rabs t < 100 -> 1 <= Rabs (fst (format_time t)) < 1000) /\
    (100 <= Rabs t -> snd (format_time t) = Mins).
Proof.
  intros t. unfold format_time. destruct (Req_EM_T t 0) as [->|N].
  - simpl fst; simpl snd. rewrite Rabs_R0. split; [simpl; ring|]. split; intros H; exfalso.
    + assert (0 < / 10 ^ 12) by (apply Rinv_0_lt_compat, pow_lt; lra). lra.
    + lra.
  - assert (A : 0 < Rabs t) by now apply Rabs_pos_lt.
    pose proof (log10_lt (Rabs t) 9 A) as L9. pose proof (log10_lt (Rabs t) 6 A) as L6.
    pose proof (log10_lt (Rabs t) 3 A) as L3. pose proof (log10_lt (Rabs t) 0 A) as L0.
    pose proof (log10_ge2 (Rabs t) A) as L2.
    assert (S : forall k, Rabs (10 ^ k * t) = 10 ^ k * Rabs t).
    { intros k. rewrite Rabs_mult. f_equal. apply Rabs_right. left. apply pow_lt. lra. }
    replace (- INR 9) with (-9) in L9 by (simpl; ring). replace (- INR 6) with (-6) in L6 by (simpl; ring).
    replace (- INR 3) with (-3) in L3 by (simpl; ring). replace (- INR 0) with 0 in L0 by (simpl; ring).
    destruct (Rle_dec 2 (log10 (Rabs t))) as [D2|D2]; cbn [fst snd unit_seconds].
    { split; [field|]. split; auto. intros H. exfalso. apply L2 in D2. lra. }
    assert (B2 : ~ 100 <= Rabs t) by (intros H; apply D2, L2, H).
    destruct (Rlt_dec (log10 (Rabs t)) (-9)) as [D9|D9]; cbn [fst snd unit_seconds].
    { split; [field; repeat split; try lra|]. split; [|intros; exfalso; lra]. intros H. rewrite S. apply L9 in D9.
      assert (P12 : 0 < 10 ^ 12) by (apply pow_lt; lra). assert (P9 : 0 < 10 ^ 9) by (apply pow_lt; lra).
      split.
      - replace 1 with (10 ^ 12 * / 10 ^ 12) by (field; lra). apply Rmult_le_compat_l; lra.
      - replace 1000 with (10 ^ 12 * / 10 ^ 9) by (field; lra). apply Rmult_lt_compat_l; lra. }
    assert (B9 : / 10 ^ 9 <= Rabs t) by (apply Rnot_lt_le; intros H; apply D9, L9, H).
    destruct (Rlt_dec (log10 (Rabs t)) (-6)) as [D6|D6]; cbn [fst snd unit_seconds].
    { split; [field; repeat split; try lra|]. split; [|intros; exfalso; lra]. intros H. rewrite S. apply L6 in D6.
      assert (P12 : 0 < 10 ^ 9) by (apply pow_lt; lra). assert (P9 : 0 < 10 ^ 6) by (apply pow_lt; lra).
      split.
      - replace 1 with (10 ^ 9 * / 10 ^ 9) by (field; lra). apply Rmult_le_compat_l; lra.
      - replace 1000 with (10 ^ 9 * / 10 ^ 6) by (field; lra). apply Rmult_lt_compat_l; lra. }
    assert (B6 : / 10 ^ 6 <= Rabs t) by (apply Rnot_lt_le; intros H; apply D6, L6, H).
    destruct (Rlt_dec (log10 (Rabs t)) (-3)) as [D3|D3]; cbn [fst snd unit_seconds].
    { split; [field; repeat split; try lra|]. split; [|intros; exfalso; lra]. intros H. rewrite S. apply L3 in D3.
      assert (P12 : 0 < 10 ^ 6) by (apply pow_lt; lra). assert (P9 : 0 < 10 ^ 3) by (apply pow_lt; lra).
      split.
      - replace 1 with (10 ^ 6 * / 10 ^ 6) by (field; lra). apply Rmult_le_compat_l; lra.
      - replace 1000 with (10 ^ 6 * / 10 ^ 3) by (field; lra). apply Rmult_lt_compat_l; lra. }
    assert (B3 : / 10 ^ 3 <= Rabs t) by (apply Rnot_lt_le; intros H; apply D3, L3, H).
    destruct (Rlt_dec (log10 (Rabs t)) 0) as [D0|D0]; cbn [fst snd unit_seconds].
    { split; [field; repeat split; try lra|]. split; [|intros; exfalso; lra]. intros H. rewrite S. apply L0 in D0.
      simpl pow in D0. rewrite Rinv_1 in D0.
      assert (P12 : 0 < 10 ^ 3) by (apply pow_lt; lra).
      split.
      - replace 1 with (10 ^ 3 * / 10 ^ 3) by (field; lra). apply Rmult_le_compat_l; lra.
      - replace 1000 with (10 ^ 3 * 1) by ring. apply Rmult_lt_compat_l; lra. }
    assert (B0 : / 10 ^ 0 <= Rabs t) by (apply Rnot_lt_le; intros H; apply D0, L0, H).
    simpl pow in B0. rewrite Rinv_1 in B0.
    split; [ring|]. split; [|intros; exfalso; lra]. intros H. lra.
Qed.
Print Assumptions C47_format_time.
