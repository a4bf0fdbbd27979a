(** * Proofs about the helper functions *)
From Coq Require Import List ZArith Bool Reals Permutation Lia Lra Sorted.
From Verif Require Import Num Jax RSum JaxFacts MeanModel UtilModel UtilSpec.
Import ListNotations.
Open Scope R_scope.

(** ** trees *)
Lemma ptree_ind2 {A} (Q : ptree A -> Prop) :
  (forall a, Q (PLeaf a)) -> Q PNone -> (forall l, Forall Q l -> Q (PNode l)) -> forall t, Q t.
Proof.
  intros H1 H2 H3. fix IH 1. intros [a| |l]; [apply H1|apply H2|]. apply H3.
  induction l as [|t l IHl]; constructor; [apply IH|apply IHl].
Qed.
Lemma combine_pad {B S} (z : B) k (t : ptree (leaf B S)) :
  combine_trees (pad_leaves z k (part_arrays t)) (part_static t)
  = tree_map (fun a => match a with LArr r => LArr (r ++ repeat z k) | LStatic s => LStatic s end) t.
Proof.
  induction t as [[r|s]| |l IH] using ptree_ind2; simpl; auto. f_equal.
  induction IH as [|t l Ht _ IHl]; simpl; auto. now rewrite Ht, IHl.
Qed.
Lemma skipn_last {A} (l : list A) a : skipn (length (l ++ [a]) - 1) (l ++ [a]) = [a].
Proof. rewrite app_length. simpl. replace (length l + 1 - 1)%nat with (length l + 0)%nat by lia. rewrite skipn_app, skipn_all2, Nat.add_0_r, Nat.sub_diag by lia. reflexivity. Qed.
Lemma concat_repeat_one {A} (a : A) n : concat (repeat [a] n) = repeat a n.
Proof. induction n; simpl; congruence. Qed.

(** ** sorting and median *)
Fixpoint rinsert (a : R) (l : list R) : list R :=
  match l with [] => [a] | b :: t => if Rlt_dec b a then b :: rinsert a t else a :: l end.
Definition rsort (l : list R) : list R := fold_right rinsert [] l.
Lemma finsert_fin a l : finsert EROps (Fin a) (map Fin l) = map Fin (rinsert a l).
Proof.
  induction l as [|b l IH]; simpl; auto. change (fltb EROps (Fin b) (Fin a)) with (nltb ROps b a).
  destruct (nltb ROps b a) eqn:E, (Rlt_dec b a) as [L|L]; simpl; auto.
  - now rewrite IH.
  - apply Rltb_true in E. contradiction.
  - apply Rltb_true in L. congruence.
Qed.
Lemma fsort_fin l : fsort EROps (map Fin l) = map Fin (rsort l).
Proof. induction l as [|a l IH]; simpl; auto. unfold fsort in *. now rewrite IH, finsert_fin. Qed.
Lemma rinsert_perm a l : Permutation (rinsert a l) (a :: l).
Proof.
  induction l as [|b l IH]; simpl; auto. destruct (Rlt_dec b a); auto. rewrite IH. apply perm_swap.
Qed.
Lemma rsort_perm l : Permutation (rsort l) l.
Proof. induction l as [|a l IH]; simpl; auto. now rewrite rinsert_perm, IH. Qed.
Lemma rinsert_sorted a l : StronglySorted Rle l -> StronglySorted Rle (rinsert a l).
Proof.
  induction 1 as [|b l H1 IH H2]; simpl; [repeat constructor|]. destruct (Rlt_dec b a).
  - constructor; auto. eapply Permutation_Forall; [symmetry; apply rinsert_perm|]. constructor; auto. lra.
  - constructor; [now constructor|]. constructor; [lra|]. eapply Forall_impl; [|exact H2]. simpl. intros; lra.
Qed.
Lemma rsort_sorted l : StronglySorted Rle (rsort l).
Proof. induction l; simpl; [constructor|now apply rinsert_sorted]. Qed.
Lemma sorted_nth l : StronglySorted Rle l -> forall i j, (i <= j < length l)%nat -> nth i l 0 <= nth j l 0.
Proof.
  induction 1 as [|b l H1 IH H2]; intros i j [Hij Hj]; simpl in *; [lia|].
  destruct i as [|i], j as [|j]; try lia; try lra.
  - rewrite Forall_forall in H2. apply H2, nth_In. lia.
  - apply IH. lia.
Qed.
Lemma sorted_unique l m : StronglySorted Rle l -> StronglySorted Rle m -> Permutation l m -> l = m.
Proof.
  intros H. revert m. induction H as [|a l H1 IH H2]; intros m Hm P.
  - now apply Permutation_nil in P.
  - destruct m as [|b m]; [symmetry in P; now apply Permutation_nil in P|].
    inversion Hm as [|? ? Hm1 Hm2]; subst. rewrite Forall_forall in H2, Hm2.
    assert (Hab : a = b).
    { assert (Ia : In a (b :: m)) by (eapply Permutation_in; [exact P|now left]).
      assert (Ib : In b (a :: l)) by (eapply Permutation_in; [symmetry; exact P|now left]).
      destruct Ia as [->|Ia]; auto. destruct Ib as [->|Ib]; auto. apply H2 in Ib. apply Hm2 in Ia. lra. }
    subst b. f_equal. apply IH; auto. eapply Permutation_cons_inv; eauto.
Qed.
Lemma rsort_ext l m : Permutation l m -> rsort l = rsort m.
Proof.
  intros P. apply sorted_unique; try apply rsort_sorted. now rewrite !rsort_perm.
Qed.

Definition rmedian (l : list R) : R :=
  (nth ((length l - 1) / 2) (rsort l) 0 + nth (length l / 2) (rsort l) 0) / 2.
Lemma existsb_nan_fin l : existsb (fisnan EROps) (map Fin l) = false.
Proof. induction l; simpl; auto. Qed.
Lemma median_fin l : l <> [] -> median EROps (map Fin l) = Fin (rmedian l).
Proof.
  intros H. unfold median. destruct (map Fin l) eqn:E; [destruct l; [congruence|discriminate]|]. rewrite <- E.
  rewrite existsb_nan_fin, fsort_fin, map_length. clear E H.
  assert (N : forall i, nth i (map Fin (rsort l)) (f0 EROps) = Fin (nth i (rsort l) 0)) by (intros; apply (map_nth (@Fin R))).
  rewrite !N. unfold rmedian.
  change (fofZ EROps 2) with (@Fin R (IZR 2)). change (fadd EROps) with (eadd ROps). cbn [eadd nadd ROps].
  apply fdiv_fin. lra.
Qed.
Lemma rmedian_perm l m : Permutation l m -> rmedian l = rmedian m.
Proof. intros P. unfold rmedian. now rewrite (rsort_ext l m P), (Permutation_length P). Qed.
Lemma filter_length_perm {A} (f : A -> bool) l m : Permutation l m -> length (filter f l) = length (filter f m).
Proof.
  induction 1; simpl; auto; try congruence; repeat match goal with |- context [if ?b then _ else _] => destruct b end; simpl; lia.
Qed.
Lemma filter_prefix (f : R -> bool) l n : (n <= length l)%nat -> (forall i, (i < n)%nat -> f (nth i l 0) = true) -> (n <= length (filter f l))%nat.
Proof.
  revert n; induction l as [|a l IH]; intros n Hn H; simpl in *; [lia|]. destruct n; [lia|].
  rewrite (H 0%nat) by lia. simpl. apply le_n_S, IH; [lia|]. intros i Hi. apply (H (S i)). lia.
Qed.
Lemma filter_suffix (f : R -> bool) l n : (forall i, (n <= i < length l)%nat -> f (nth i l 0) = true) -> (length l - n <= length (filter f l))%nat.
Proof.
  revert n; induction l as [|a l IH]; intros n H; simpl in *; [lia|]. destruct n.
  - rewrite (H 0%nat) by lia. simpl. apply le_n_S. specialize (IH 0%nat). rewrite Nat.sub_0_r in IH. apply IH.
    intros i Hi. apply (H (S i)). lia.
  - specialize (IH n). eapply Nat.le_trans; [apply IH; intros i Hi; apply (H (S i)); lia|]. destruct (f a); simpl; lia.
Qed.
Lemma rmedian_is_median l : l <> [] -> is_median l (rmedian l).
Proof.
  intros H. assert (Hl : (0 < length l)%nat) by (destruct l; [congruence|simpl; lia]).
  pose proof (rsort_perm l) as P. pose proof (rsort_sorted l) as S. pose proof (Permutation_length P) as L.
  pose proof (Nat.div_mod (length l) 2 ltac:(lia)) as D1. pose proof (Nat.mod_upper_bound (length l) 2 ltac:(lia)) as D2.
  pose proof (Nat.div_mod (length l - 1) 2 ltac:(lia)) as D3. pose proof (Nat.mod_upper_bound (length l - 1) 2 ltac:(lia)) as D4.
  assert (M : nth ((length l - 1) / 2) (rsort l) 0 <= rmedian l <= nth (length l / 2) (rsort l) 0).
  { pose proof (sorted_nth _ S ((length l - 1) / 2) (length l / 2) ltac:(lia)). unfold rmedian. lra. }
  split.
  - rewrite <- (filter_length_perm _ _ _ P).
    pose proof (filter_prefix (fun a => if Rle_dec a (rmedian l) then true else false) (rsort l) ((length l - 1) / 2 + 1)) as F.
    assert ((length l - 1) / 2 + 1 <= length (filter (fun a => if Rle_dec a (rmedian l) then true else false) (rsort l)))%nat; [|lia].
    apply F; [lia|]. intros i Hi. destruct (Rle_dec _ _) as [|N]; auto. exfalso. apply N.
    pose proof (sorted_nth _ S i ((length l - 1) / 2) ltac:(lia)). lra.
  - rewrite <- (filter_length_perm _ _ _ P).
    pose proof (filter_suffix (fun a => if Rle_dec (rmedian l) a then true else false) (rsort l) (length l / 2)) as F.
    assert (length (rsort l) - length l / 2 <= length (filter (fun a => if Rle_dec (rmedian l) a then true else false) (rsort l)))%nat; [|lia].
    apply F. intros i Hi. destruct (Rle_dec _ _) as [|N]; auto. exfalso. apply N.
    pose proof (sorted_nth _ S (length l / 2) i ltac:(lia)). lra.
Qed.

(** ** pairwise distances *)
Lemma sqdist_fin x y : squared_distance EROps (map Fin x) (map Fin y) = Fin (sqdist x y).
Proof.
  unfold squared_distance, difference, sqdist.
  assert (E : map2 (fsub EROps) (map Fin x) (map Fin y) = map Fin (map2 Rminus x y)).
  { revert y. induction x as [|a x IH]; intros [|b y]; simpl; auto. now rewrite IH. }
  rewrite E, fdot_fin. f_equal. unfold Rdot. f_equal. clear E. revert y.
  induction x as [|a x IH]; intros [|b y]; simpl; auto. rewrite IH. f_equal. ring.
Qed.
Lemma sqdist_sym x y : sqdist x y = sqdist y x.
Proof.
  unfold sqdist. f_equal. revert y. induction x as [|a x IH]; intros [|b y]; simpl; auto. rewrite IH. f_equal. ring.
Qed.
Lemma sqdist_nonneg x y : 0 <= sqdist x y.
Proof. unfold sqdist. revert y. induction x as [|a x IH]; intros [|b y]; simpl; try lra. specialize (IH y). pose proof (pow2_ge_0 (a - b)). simpl in *. lra. Qed.
Lemma upper_cons (V : Type) (r : list V) m : upper (r :: m) = skipn 1 r ++ upper (map (skipn 1) m).
Proof.
  unfold upper. simpl. f_equal. f_equal. rewrite map_length, <- seq_shift, map_map. apply map_ext. intros i.
  pose proof (map_nth (skipn 1) m [] i) as N. cbn [skipn] in N. simpl nth.
  change (skipn 1) with (fun l : list V => match l with [] => [] | _ :: t => t end) in *.
  rewrite N. destruct (nth i m []); reflexivity.
Qed.
Lemma upper_pairwise (xs : list (list R)) :
  upper (pairwise (squared_distance EROps) (map (map Fin) xs) (map (map Fin) xs)) = map Fin (pair_distances xs).
Proof.
  induction xs as [|x xs IH]; [reflexivity|]. unfold pairwise in *. cbn [map]. rewrite upper_cons. cbn [skipn pair_distances].
  rewrite map_app. f_equal.
  - rewrite !map_map. apply map_ext. intros y. apply sqdist_fin.
  - rewrite <- IH. f_equal. rewrite map_map. apply map_ext. intros y. reflexivity.
Qed.
Lemma pair_distances_perm xs ys : Permutation xs ys -> Permutation (pair_distances xs) (pair_distances ys).
Proof.
  induction 1 as [|x l m P IH|x y l|l m q P1 IH1 P2 IH2]; simpl; auto.
  - apply Permutation_app; auto. now apply Permutation_map.
  - rewrite (sqdist_sym y x). constructor. rewrite !app_assoc. apply Permutation_app_tail, Permutation_app_comm.
  - now rewrite IH1.
Qed.
Lemma pair_distances_nil xs : (2 <= length xs)%nat -> pair_distances xs <> [].
Proof. destruct xs as [|a [|b xs]]; simpl; try lia. discriminate. Qed.
Lemma pair_distances_nonneg xs : Forall (fun v => 0 <= v) (pair_distances xs).
Proof.
  induction xs; simpl; auto. apply Forall_app; split; auto. apply Forall_forall. intros v Hv.
  apply in_map_iff in Hv as [y [<- _]]. apply sqdist_nonneg.
Qed.
Lemma rmedian_nonneg l : Forall (fun v => 0 <= v) l -> 0 <= rmedian l.
Proof.
  intros H. assert (S : Forall (fun v => 0 <= v) (rsort l)) by (eapply Permutation_Forall; [symmetry; apply rsort_perm|exact H]).
  assert (N : forall i, 0 <= nth i (rsort l) 0).
  { intros i. destruct (nth_in_or_default i (rsort l) 0) as [I|E]; [|rewrite E; lra]. rewrite Forall_forall in S. auto. }
  unfold rmedian. pose proof (N ((length l - 1) / 2)%nat). pose proof (N (length l / 2)%nat). lra.
Qed.
Lemma median_heuristic_fin xs : (2 <= length xs)%nat ->
  median_heuristic EROps (map (map Fin) xs) = Fin (sqrt (rmedian (pair_distances xs) / 2)).
Proof.
  intros H. unfold median_heuristic. rewrite upper_pairwise, median_fin by now apply pair_distances_nil.
  change (fofZ EROps 2) with (@Fin R (IZR 2)). rewrite fdiv_fin by lra.
  change (fsqrt EROps) with (esqrt ROps). cbn [esqrt]. 
  pose proof (rmedian_nonneg _ (pair_distances_nonneg xs)).
  destruct (nltb ROps (rmedian (pair_distances xs) / 2) (n0 ROps)) eqn:E; [|reflexivity].
  apply Rltb_true in E. cbn [n0 ROps] in E. exfalso; lra.
Qed.
Lemma rinsert_scale c a l : 0 <= c -> rinsert (c * a) (map (Rmult c) l) = map (Rmult c) (rinsert a l).
Proof.
  intros Hc. induction l as [|b l IH]; simpl; auto.
  destruct (Rlt_dec b a), (Rlt_dec (c * b) (c * a)); simpl; auto.
  - now rewrite IH.
  - (* c * a <= c * b although b < a: c = 0 *)
    assert (c = 0). { destruct (Req_dec c 0); auto. exfalso. apply n. apply Rmult_lt_compat_l; lra. }
    subst c. clear. simpl. assert (E : forall l, map (Rmult 0) l = repeat 0 (length l)).
    { induction l0; simpl; auto. rewrite IHl0. f_equal. ring. }
    rewrite !Rmult_0_l, !E. rewrite (Permutation_length (rinsert_perm a l)). reflexivity.
  - exfalso. assert (c * a <= c * b) by (apply Rmult_le_compat_l; lra). lra.
Qed.
Lemma rsort_scale c l : 0 <= c -> rsort (map (Rmult c) l) = map (Rmult c) (rsort l).
Proof. intros Hc. induction l as [|a l IH]; simpl; auto. unfold rsort in *. simpl. now rewrite IH, rinsert_scale. Qed.
Lemma rmedian_scale c l : 0 <= c -> rmedian (map (Rmult c) l) = c * rmedian l.
Proof.
  intros Hc. unfold rmedian. rewrite rsort_scale, map_length by assumption.
  assert (N : forall i, nth i (map (Rmult c) (rsort l)) 0 = c * nth i (rsort l) 0).
  { intros i. rewrite <- (map_nth (Rmult c)). f_equal. ring. }
  rewrite !N. field.
Qed.
Lemma sqdist_scale c x y : sqdist (map (Rmult c) x) (map (Rmult c) y) = c ^ 2 * sqdist x y.
Proof.
  unfold sqdist. revert y. induction x as [|a x IH]; intros [|b y]; simpl; try ring. specialize (IH y). simpl in IH. rewrite IH. ring.
Qed.
Lemma pair_distances_scale c xs : pair_distances (map (map (Rmult c)) xs) = map (Rmult (c ^ 2)) (pair_distances xs).
Proof.
  induction xs as [|x xs IH]; simpl; auto. rewrite map_app, IH. f_equal. rewrite !map_map. apply map_ext. intros y.
  rewrite sqdist_scale. reflexivity.
Qed.
Lemma sqdist_translate v x y : length x = length v -> length y = length v ->
  sqdist (map2 Rplus x v) (map2 Rplus y v) = sqdist x y.
Proof.
  unfold sqdist. revert x y. induction v as [|c v IH]; intros [|a x] [|b y] Hx Hy; simpl in *; try lia; auto.
  rewrite IH by lia. f_equal. ring.
Qed.
Lemma pair_distances_translate v xs : (forall x, In x xs -> length x = length v) ->
  pair_distances (map (fun x => map2 Rplus x v) xs) = pair_distances xs.
Proof.
  induction xs as [|x xs IH]; intros H; simpl; auto. rewrite IH by (intros; apply H; now right). f_equal.
  rewrite map_map. apply map_ext_in. intros y Hy. apply sqdist_translate; apply H; simpl; auto.
Qed.

(** ** logarithm bounds *)
Lemma exp_upper x : 0 <= x < 1 -> exp x <= / (1 - x).
Proof.
  intros [H0 H1]. replace (exp x) with (/ exp (- x)) by (rewrite exp_Ropp, Rinv_inv; reflexivity).
  apply Rinv_le_contravar; [lra|]. pose proof (exp_ineq1_le (- x)). lra.
Qed.
Lemma exp_nat x n : exp (INR n * x) = exp x ^ n.
Proof. induction n; simpl pow; [simpl; rewrite Rmult_0_l; apply exp_0|]. rewrite S_INR, <- IHn, <- exp_plus. f_equal. ring. Qed.
Lemma exp_1_lt_3 : exp 1 < 3.
Proof.
  replace 1 with (INR 8 * (1 / 8)) by (simpl; field). rewrite exp_nat.
  pose proof (exp_upper (1 / 8) ltac:(lra)). pose proof (exp_pos (1 / 8)).
  apply Rle_lt_trans with ((8 / 7) ^ 8).
  - apply pow_incr. split; [lra|]. replace (8 / 7) with (/ (1 - 1 / 8)) by field. assumption.
  - lra.
Qed.
Lemma ln_2_ge_half : 1 / 2 <= ln 2.
Proof.
  rewrite <- (ln_exp (1 / 2)). destruct (Rle_lt_dec (exp (1 / 2)) 2) as [H|H].
  - destruct H as [H|H]; [left; apply ln_increasing; [apply exp_pos|assumption]|rewrite H; lra].
  - exfalso. pose proof (exp_upper (1 / 2) ltac:(lra)). replace (/ (1 - 1 / 2)) with 2 in * by field. lra.
Qed.
Lemma ln_le_compat a b : 0 < a -> a <= b -> ln a <= ln b.
Proof. intros Ha [H|H]; [left; now apply ln_increasing|rewrite H; lra]. Qed.
Lemma ln_3_lt : 1 < ln 3 < 4 / 3.
Proof.
  split.
  - rewrite <- (ln_exp 1). apply ln_increasing; [apply exp_pos|apply exp_1_lt_3].
  - rewrite <- (ln_exp (4 / 3)). apply ln_increasing; [lra|].
    replace (4 / 3) with (INR 4 * (1 / 3)) by (simpl; field). rewrite exp_nat.
    pose proof (exp_ineq1_le (1 / 3)). apply Rlt_le_trans with ((4 / 3) ^ 4); [lra|]. apply pow_incr. lra.
Qed.
Lemma ln_4_ge : 4 / 3 <= ln 4.
Proof.
  rewrite <- (ln_exp (4 / 3)). apply ln_le_compat; [apply exp_pos|].
  replace (4 / 3) with (INR 20 * (1 / 15)) by (simpl; field). rewrite exp_nat.
  pose proof (exp_upper (1 / 15) ltac:(lra)). pose proof (exp_pos (1 / 15)).
  apply Rle_trans with ((15 / 14) ^ 20); [|lra].
  apply pow_incr. split; [lra|]. replace (15 / 14) with (/ (1 - 1 / 15)) by field. assumption.
Qed.
Lemma lnln_ge n : (4 <= n)%nat -> 1 / 4 <= ln (ln (INR n)).
Proof.
  intros H. apply le_INR in H. simpl in H.
  assert (4 / 3 <= ln (INR n)).
  { eapply Rle_trans; [apply ln_4_ge|]. apply ln_le_compat; lra. }
  rewrite <- (ln_exp (1 / 4)). apply ln_le_compat; [apply exp_pos|].
  pose proof (exp_upper (1 / 4) ltac:(lra)). replace (/ (1 - 1 / 4)) with (4 / 3) in * by field. lra.
Qed.
Lemma inv_unit x : 1 <= x -> 0 < 1 / x <= 1.
Proof.
  intros H. unfold Rdiv. rewrite Rmult_1_l. split; [apply Rinv_0_lt_compat; lra|].
  rewrite <- Rinv_1. apply Rinv_le_contravar; lra.
Qed.
