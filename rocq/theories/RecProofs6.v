(** * Tree recombination: sorting, dealing into clusters, centroids *)
From Coq Require Import List Arith ZArith Lia Reals Lra Permutation Sorted Bool.
From Verif Require Import Num RSum Jax JaxFacts DataModel GreedyProofs GreedyProofs2
  MetricProofs2 RecSpec RecModel RecProofs RecProofs2 RecProofs3 RecProofs4 RecProofs5.
Import ListNotations.
Local Open Scope R_scope.

Lemma nth_skipn' {A} p (l : list A) a d : nth a (skipn p l) d = nth (p + a) l d.
Proof. revert l. induction p; intros [|x l]; simpl; auto; destruct a; auto. Qed.
Lemma NoDup_app_remove_l {A} (l m : list A) : NoDup (l ++ m) -> NoDup m.
Proof. induction l; simpl; auto. intros H. inversion H; auto. Qed.

(** ** argsort *)
Lemma insert_by_perm {V} (O : FOps V) key a l : Permutation (insert_by O key a l) (a :: l).
Proof.
  induction l as [|b l IH]; simpl; auto. destruct (fltb O (key b) (key a)); auto.
  rewrite IH. apply perm_swap.
Qed.
Lemma argsort_perm {V} (O : FOps V) w : Permutation (argsort O w) (seq 0 (length w)).
Proof.
  unfold argsort. induction (seq 0 (length w)); simpl; auto. rewrite insert_by_perm. now constructor.
Qed.
Definition kle (w : list R) (a b : nat) : Prop := nth a w 0 <= nth b w 0.
Lemma insert_by_sorted w a l : StronglySorted (kle w) l ->
  StronglySorted (kle w) (insert_by EROps (fun i => nth i (map Fin w) (f0 EROps)) a l).
Proof.
  induction 1 as [|b l Hl IH Hb]; cbn [insert_by]; [repeat constructor|].
  change (f0 EROps) with (Fin 0 : ER) in *. rewrite !nth_map_fin, fltb_fin.
  destruct (Rlt_dec (nth b w 0) (nth a w 0)) as [P|P].
  - constructor; auto.
    apply Forall_forall. intros x Hx. apply (Permutation_in _ (insert_by_perm _ _ _ _)) in Hx as [<-|Hx].
    + unfold kle. lra.
    + rewrite Forall_forall in Hb. auto.
  - constructor; [now constructor|]. constructor; [unfold kle; lra|].
    rewrite Forall_forall in *. intros x Hx. specialize (Hb x Hx). unfold kle in *. lra.
Qed.
Lemma argsort_sorted w : StronglySorted (kle w) (argsort EROps (map Fin w)).
Proof. unfold argsort. induction (seq 0 _); simpl; [constructor|]. now apply insert_by_sorted. Qed.
Lemma sorted_nth (l : list nat) w p q : StronglySorted (kle w) l -> (p < q)%nat -> (q < length l)%nat ->
  nth (nth p l 0%nat) w 0 <= nth (nth q l 0%nat) w 0.
Proof.
  intros H. revert p q. induction H as [|a l Hl IH Ha]; intros p q Hpq Hq; [simpl in Hq; lia|].
  destruct q; [lia|]. simpl in Hq. destruct p; simpl.
  - rewrite Forall_forall in Ha. apply Ha, nth_In. lia.
  - apply IH; lia.
Qed.

(** ** pairs (row, column) in column-major order *)
Definition cells (count size : nat) : list (nat * nat) :=
  flat_map (fun j => map (fun i => (i, j)) (seq 0 count)) (seq 0 size).
Lemma cells_in count size i j : In (i, j) (cells count size) <-> (i < count)%nat /\ (j < size)%nat.
Proof.
  unfold cells. rewrite in_flat_map. split.
  - intros (y & Hy & H). apply in_map_iff in H as (x & E & Hx). injection E as -> ->. rewrite in_seq in *. lia.
  - intros [H1 H2]. exists j. rewrite in_seq. split; [lia|]. apply in_map_iff. exists i. rewrite in_seq. split; auto; lia.
Qed.
Lemma map_add_seq a s k : map (fun i => (i + a)%nat) (seq s k) = seq (s + a) k.
Proof. revert s. induction k; intros s; simpl; auto. f_equal. apply IHk. Qed.
Lemma cells_iota count size : map (fun p => (fst p + snd p * count)%nat) (cells count size) = seq 0 (size * count).
Proof.
  unfold cells. induction size; [reflexivity|]. rewrite seq_S, flat_map_app, map_app, IHsize.
  cbn [flat_map Nat.add]. rewrite app_nil_r, map_map. cbn [fst snd]. rewrite map_add_seq.
  replace (S size * count)%nat with (size * count + count)%nat by lia. now rewrite seq_app.
Qed.
Lemma cells_length count size : length (cells count size) = (size * count)%nat.
Proof. rewrite <- (map_length (fun p => (fst p + snd p * count)%nat)), cells_iota. apply seq_length. Qed.
Lemma cells_nodup count size : NoDup (cells count size).
Proof. apply (NoDup_map_inv (fun p => (fst p + snd p * count)%nat)). rewrite cells_iota. apply seq_NoDup. Qed.
Lemma Rsum_cells count size (h : nat -> nat -> R) :
  Rsum (map (fun p => h (fst p) (snd p)) (cells count size))
  = Rsum (map (fun i => Rsum (map (fun j => h i j) (seq 0 size))) (seq 0 count)).
Proof.
  rewrite Rsum_swap. unfold cells. induction (seq 0 size) as [|j l IH]; [reflexivity|].
  cbn [flat_map]. rewrite map_app, Rsum_app, IH, map_map. reflexivity.
Qed.
Lemma flatten_cells {A} (d : A) count size (r : nat -> list A) :
  flatten_F d size (map r (seq 0 count)) = map (fun p => nth (snd p) (r (fst p)) d) (cells count size).
Proof.
  unfold flatten_F, cells. induction (seq 0 size) as [|j l IH]; [reflexivity|].
  cbn [flat_map]. rewrite map_app, IH, !map_map. reflexivity.
Qed.
Lemma cells_perm (o : list nat) count size : length o = (size * count)%nat ->
  map (fun p => nth (fst p + snd p * count) o 0%nat) (cells count size) = o.
Proof.
  intros H. rewrite <- (map_map (fun p => (fst p + snd p * count)%nat) (fun i => nth i o 0%nat)), cells_iota, <- H.
  apply map_nth_seq.
Qed.

Lemma INR_filter {A} (p : A -> bool) l : INR (length (filter p l)) = Rsum (map (fun a => if p a then 1 else 0) l).
Proof. induction l; cbn [filter map Rsum length]; [reflexivity|]. destruct (p a); cbn [length]; rewrite ?S_INR, IHl; lra. Qed.

(** ** clusters dealt from the sorted order hold few non-zero weights *)
Lemma deal_bound w count size q i :
  (0 < count)%nat -> length w = (size * count)%nat -> Forall (fun x => 0 <= x) w ->
  (nonzeros w <= q * count)%nat -> (i < count)%nat ->
  (length (filter (fun j => isnz (nth (nth (i + j * count) (argsort EROps (map Fin w)) 0%nat) w 0%R)) (seq 0 size)) <= q)%nat.
Proof.
  intros Hc HL Hp Hz Hi. set (o := argsort EROps (map Fin w)).
  pose proof (argsort_perm EROps (map Fin w)) as Po. fold o in Po. rewrite map_length, HL in Po.
  assert (Lo : length o = (size * count)%nat) by (rewrite (Permutation_length Po); apply seq_length).
  assert (No : NoDup o) by (eapply Permutation_NoDup; [symmetry; exact Po|apply seq_NoDup]).
  pose proof (argsort_sorted w) as So. fold o in So.
  assert (G : forall p, (p < size * count)%nat -> nth (nth p o 0%nat) w 0 <> 0 -> (size * count - p <= nonzeros w)%nat).
  { intros p Hpn Hn. rewrite nonzeros_nzpos.
    assert (Hlt : forall x, In x o -> (x < length w)%nat).
    { intros x Hx. apply (Permutation_in _ Po) in Hx. apply in_seq in Hx. lia. }
    assert (Hpos : forall x, (x < length w)%nat -> 0 <= nth x w 0).
    { intros x Hx. rewrite Forall_forall in Hp. apply Hp, nth_In, Hx. }
    replace (size * count - p)%nat with (length (skipn p o)) by (rewrite skipn_length; lia).
    apply NoDup_incl_length.
    - rewrite <- (firstn_skipn p o) in No. now apply NoDup_app_remove_l in No.
    - intros x Hx. assert (Hxo : In x o) by (rewrite <- (firstn_skipn p o); apply in_or_app; now right).
      apply nzpos_in. split; [auto|]. apply (In_nth _ _ 0%nat) in Hx as (a & Ha & Ea). rewrite skipn_length in Ha.
      rewrite nth_skipn' in Ea. subst x.
      assert (Pp : 0 < nth (nth p o 0%nat) w 0).
      { assert (0 <= nth (nth p o 0%nat) w 0); [|lra]. apply Hpos, Hlt, nth_In. lia. }
      destruct a; [rewrite Nat.add_0_r; lra|].
      assert (nth (nth p o 0%nat) w 0 <= nth (nth (p + S a) o 0%nat) w 0); [|lra].
      apply sorted_nth; auto; lia. }
  assert (I : incl (filter (fun j => isnz (nth (nth (i + j * count) o 0%nat) w 0)) (seq 0 size)) (seq (size - q) (size - (size - q)))).
  { intros j Hj. apply filter_In in Hj as [H1 H2]. apply in_seq in H1. apply isnz_true in H2.
    assert (Hp' : (i + j * count < size * count)%nat) by nia.
    specialize (G _ Hp' H2). apply in_seq. split; [|lia].
    destruct (Nat.le_gt_cases (size - q) j); auto. exfalso.
    assert ((S j + q) * count <= size * count)%nat by (apply Nat.mul_le_mono_r; lia). nia. }
  apply NoDup_incl_length in I; [|apply NoDup_filter, seq_NoDup]. rewrite seq_length in I. lia.
Qed.
