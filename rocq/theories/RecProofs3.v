(** * Caratheodory recombination: co-linearisation, node selection and the whole reduction *)
From Coq Require Import List Arith ZArith Lia Reals Lra Permutation.
From Verif Require Import Num RSum Jax JaxFacts ArgFacts DataModel DataProofs GreedyProofs GreedyProofs2
  MetricProofs2 CholProofs RecSpec RecModel RecProofs RecProofs2.
Import ListNotations.
Local Open Scope R_scope.

Lemma wsum_at_seq g idx wt : length wt = length idx ->
  wsum_at g idx wt = Rsum (map (fun j => nth j wt 0 * g (nth j idx 0%nat)) (seq 0 (length idx))).
Proof.
  intros H. unfold wsum_at. f_equal. apply (list_ext _ _ 0).
  - rewrite map2_length, map_length, seq_length. lia.
  - intros j Hj. rewrite map2_length in Hj. rewrite (nth_map2 _ _ _ _ 0%nat 0) by lia.
    rewrite nth_map_seq by lia. reflexivity.
Qed.
Lemma wsum_at_map g h idx wt : wsum_at g (map h idx) wt = wsum_at (fun i => g (h i)) idx wt.
Proof. unfold wsum_at. f_equal. revert wt. induction idx; intros [|w wt]; simpl; auto. now rewrite IHidx. Qed.
Lemma wsum_at_ext g g' idx wt : (forall i, In i idx -> g i = g' i) -> wsum_at g idx wt = wsum_at g' idx wt.
Proof. revert wt. unfold wsum_at. induction idx; intros [|w wt] H; simpl; auto. rewrite H, IHidx; auto; simpl; auto. intros; apply H; simpl; auto. Qed.
Lemma wsum_at_app g i1 w1 i2 w2 : length i1 = length w1 ->
  wsum_at g (i1 ++ i2) (w1 ++ w2) = wsum_at g i1 w1 + wsum_at g i2 w2.
Proof. intros H. unfold wsum_at. rewrite map2_app, Rsum_app by auto. reflexivity. Qed.
Lemma wsum_at_one idx wt : length idx = length wt -> wsum_at (fun _ => 1) idx wt = Rsum wt.
Proof. revert wt. unfold wsum_at. induction idx; intros [|w wt] H; simpl in *; try lia; auto. rewrite IHidx by lia. lra. Qed.
Lemma wsum_at_iota g w : wsum_at g (seq 0 (length w)) w = Rsum (map (fun i => nth i w 0 * g i) (seq 0 (length w))).
Proof.
  rewrite wsum_at_seq by (now rewrite seq_length). rewrite seq_length. apply Rsum_map_ext. intros j Hj.
  apply in_seq in Hj. rewrite seq_nth by lia. reflexivity.
Qed.

(** ** spreading coefficients over positions *)
Definition spread (n : nat) (p : list nat) (c : list R) : list R :=
  map (fun i => wsum_at (fun a => if Nat.eqb a i then 1 else 0) p c) (seq 0 n).
Lemma spread_length n p c : length (spread n p c) = n.
Proof. unfold spread. now rewrite map_length, seq_length. Qed.
Lemma spread_nth n p c i : (i < n)%nat ->
  nth i (spread n p c) 0 = wsum_at (fun a => if Nat.eqb a i then 1 else 0) p c.
Proof. intros H. unfold spread. now rewrite nth_map_seq. Qed.
Lemma spread_sum n p c g : Forall (fun a => (a < n)%nat) p -> length c = length p ->
  Rsum (map (fun i => nth i (spread n p c) 0 * g i) (seq 0 n)) = wsum_at g p c.
Proof.
  intros HP HL.
  rewrite (Rsum_map_ext _ (fun i => Rsum (map (fun j => nth j c 0 * ((if Nat.eqb (nth j p 0%nat) i then g i else 0))) (seq 0 (length p))))).
  2:{ intros i Hi. apply in_seq in Hi. rewrite spread_nth by lia. rewrite wsum_at_seq by auto.
      rewrite <- Rsum_map_scal_r. apply Rsum_map_ext. intros j _. destruct (Nat.eqb _ _); ring. }
  rewrite Rsum_swap. rewrite wsum_at_seq by auto. apply Rsum_map_ext. intros j Hj. apply in_seq in Hj.
  rewrite Rsum_map_scal. f_equal. rewrite Rsum_delta; auto. rewrite Forall_forall in HP. apply HP, nth_In. lia.
Qed.
Lemma spread_zero n p c i : length c = length p -> (i < n)%nat ->
  (forall j, (j < length p)%nat -> nth j p 0%nat = i -> nth j c 0 = 0) -> nth i (spread n p c) 0 = 0.
Proof.
  intros HL Hi H. rewrite spread_nth, wsum_at_seq by auto. apply Rsum_zero. intros x Hx.
  apply in_map_iff in Hx as (j & <- & Hj). apply in_seq in Hj.
  destruct (Nat.eqb_spec (nth j p 0%nat) i); [rewrite H by (auto; lia)|]; lra.
Qed.
Lemma spread_at n p c j : length c = length p -> (j < length p)%nat -> (nth j p 0 < n)%nat ->
  (forall j', (j' < length p)%nat -> nth j' p 0%nat = nth j p 0%nat -> j' = j) ->
  nth (nth j p 0%nat) (spread n p c) 0 = nth j c 0.
Proof.
  intros HL Hj Hn H. rewrite spread_nth, wsum_at_seq by auto.
  rewrite (Rsum_map_ext _ (fun j' => if Nat.eqb j j' then nth j' c 0 else 0)).
  - now rewrite Rsum_delta.
  - intros j' Hj'. apply in_seq in Hj'. destruct (Nat.eqb_spec (nth j' p 0%nat) (nth j p 0%nat)) as [E|E].
    + rewrite (H j') by (auto; lia). rewrite Nat.eqb_refl. lra.
    + destruct (Nat.eqb_spec j j'); [subst; congruence|]. lra.
Qed.

(** ** non-zero positions *)
Definition isnz (x : R) : bool := if Req_EM_T x 0 then false else true.
Lemma isnz_true x : isnz x = true <-> x <> 0.
Proof. unfold isnz. destruct (Req_EM_T x 0); split; intros; auto; try discriminate; contradiction. Qed.
Definition nzpos (w : list R) : list nat := filter (fun i => isnz (nth i w 0)) (seq 0 (length w)).
Lemma nzpos_in w i : In i (nzpos w) <-> (i < length w)%nat /\ nth i w 0 <> 0.
Proof. unfold nzpos. rewrite filter_In, in_seq, isnz_true. intuition lia. Qed.
Lemma nzpos_nodup w : NoDup (nzpos w).
Proof. apply NoDup_filter, seq_NoDup. Qed.

Lemma positions_filter (f : R -> bool) l s :
  positions (map f l) s = filter (fun i => f (nth (i - s) l 0)) (seq s (length l)).
Proof.
  revert s. induction l as [|a l IH]; intros s; cbn [map positions length seq filter]; auto.
  rewrite Nat.sub_diag. cbn [nth]. rewrite IH.
  assert (E : filter (fun i => f (nth (i - S s) l 0)) (seq (S s) (length l)) = filter (fun i => f (nth (i - s) (a :: l) 0)) (seq (S s) (length l))).
  { apply filter_ext_in. intros i Hi. apply in_seq in Hi. replace (i - s)%nat with (S (i - S s)) by lia. reflexivity. }
  rewrite E. destruct (f a); reflexivity.
Qed.
Lemma feqb_fin0 x : feqb EROps (Fin x) (Fin 0) = if Req_EM_T x 0 then true else false.
Proof.
  unfold feqb, fleb. change (fltb EROps (Fin x) (Fin 0)) with (nltb ROps x 0).
  change (fltb EROps (Fin 0) (Fin x)) with (nltb ROps 0 x).
  change (fisnan EROps (Fin x)) with false. change (fisnan EROps (Fin 0)) with false.
  destruct (nltb ROps 0 x) eqn:E1; destruct (nltb ROps x 0) eqn:E2; destruct (Req_EM_T x 0) as [E|E]; simpl; auto;
    rewrite ?Rltb_true, ?Rltb_false in *; lra.
Qed.

(** what [flatnonzero] with fill returns: the non-zero positions in order, then copies of
    one position with weight zero *)
Definition selection (w : list R) (sel : list nat) : Prop :=
  exists q fill, sel = nzpos w ++ repeat fill q /\
    ((0 < q)%nat -> (fill < length w)%nat /\ nth fill w 0 = 0).

Lemma argmin_zero w : Forall (fun x => 0 <= x) w -> (length (nzpos w) < length w)%nat ->
  (argmin EROps (map Fin w) < length w)%nat /\ nth (argmin EROps (map Fin w)) w 0 = 0.
Proof.
  intros Hp Hl. destruct w as [|w0 w1] eqn:Ew; [simpl in Hl; lia|]. rewrite <- Ew in *.
  destruct (argmin_spec ROps ROps_laws (map Fin w)) as [R1 [R2 _]].
  - rewrite Ew. discriminate.
  - apply Forall_forall. intros x Hx. apply in_map_iff in Hx as (y & <- & _). discriminate.
  - change (argmin (extOps ROps)) with (argmin EROps) in *. rewrite map_length in *. split; auto.
    set (r := argmin EROps (map Fin w)) in *.
    assert (Hz : exists z, (z < length w)%nat /\ nth z w 0 = 0).
    { destruct (CholProofs.pigeon (nzpos w) (length w) Hl) as (z & Z1 & Z2).
      exists z. split; [lia|]. destruct (Req_EM_T (nth z w 0) 0); auto.
      exfalso. apply Z2. apply nzpos_in. split; [lia|auto]. }
    destruct Hz as (z & Z1 & Z2). specialize (R2 z Z1).
    rewrite !(nth_map_lt Fin w _ 0) in R2 by auto. apply (proj1 (Rltb_false _ _)) in R2.
    rewrite Forall_forall in Hp. assert (0 <= nth r w 0) by (apply Hp, nth_In; auto). lra.
Qed.

Definition mode_size (mode : rmode) (n m nz : nat) : nat :=
  match mode with MImplicitExplicit => Nat.min n m | MImplicit => n | _ => nz end.

Lemma coresubset_nodes_ok (nodes : list (list ER)) w (indices : list nat) mode (aug : bool) :
  mode <> MOther -> Forall (fun x => 0 <= x) w -> (length nodes <= length w)%nat ->
  let m : nat := if (aug : bool) then ncols nodes else S (ncols nodes) in
  (length (nzpos w) <= Nat.min (length nodes) m)%nat ->
  exists sel, selection w sel /\ length sel = mode_size mode (length nodes) m (length (nzpos w)) /\
    coresubset_nodes EROps nodes (map Fin w) indices mode aug =
      Ok (map (fun i => nth i indices 0%nat) sel, map Fin (map (fun i => nth i w 0) sel)).
Proof.
  intros Hm Hp Hn m Hc. unfold coresubset_nodes. fold m.
  set (nz := map (fun v => negb (feqb EROps v (f0 EROps))) (map Fin w)).
  assert (Epos : positions nz 0 = nzpos w).
  { unfold nz, nzpos. rewrite map_map. rewrite positions_filter. apply filter_ext. intros i. rewrite Nat.sub_0_r.
    change (f0 EROps) with (Fin 0 : ER). rewrite feqb_fin0. unfold isnz. destruct (Req_EM_T _ _); reflexivity. }
  assert (Eflat : forall size, (length (nzpos w) <= size)%nat -> (size <= length w)%nat ->
     exists sel, flatnonzero nz size (argmin EROps (map Fin w)) = sel /\ selection w sel /\ length sel = size).
  { intros size S1 S2. eexists. split; [reflexivity|]. unfold flatnonzero. rewrite Epos.
    rewrite firstn_all2 by auto. split.
    - exists (size - length (nzpos w))%nat, (argmin EROps (map Fin w)). split; auto.
      intros Hq. apply argmin_zero; auto. lia.
    - rewrite app_length, repeat_length. lia. }
  assert (Ew : forall sel, map (fun i => nth i (map Fin w) (f0 EROps)) sel = map Fin (map (fun i => nth i w 0) sel)).
  { intros sel. rewrite map_map. apply map_ext. intros i. apply (map_nth Fin). }
  destruct mode; [| | |congruence].
  - destruct (Eflat (Nat.min (length nodes) m)) as (sel & E1 & E2 & E3); try lia.
    exists sel. split; auto. split; auto. rewrite E1. cbn [bind fst snd]. now rewrite Ew.
  - destruct (Eflat (length nodes)) as (sel & E1 & E2 & E3); try lia.
    exists sel. split; auto. split; auto. rewrite E1. cbn [bind fst snd]. now rewrite Ew.
  - exists (nzpos w). split; [|split].
    + exists 0%nat, 0%nat. cbn [repeat]. rewrite app_nil_r. split; auto. lia.
    + reflexivity.
    + rewrite Epos. cbn [bind fst snd]. now rewrite Ew.
Qed.

(** the selected entries carry the whole weighted sum *)
Lemma selection_sum w sel g : selection w sel ->
  wsum_at g sel (map (fun i => nth i w 0) sel) = Rsum (map (fun i => nth i w 0 * g i) (seq 0 (length w))).
Proof.
  intros (q & fill & -> & Hf). rewrite map_app, wsum_at_app by (now rewrite map_length).
  assert (E2 : wsum_at g (repeat fill q) (map (fun i => nth i w 0) (repeat fill q)) = 0).
  { destruct q; [reflexivity|]. destruct Hf as [_ Hf]; [lia|]. unfold wsum_at. rewrite map2_diag.
    apply Rsum_zero. intros x Hx. apply in_map_iff in Hx as (i & <- & Hi). apply repeat_spec in Hi. subst. rewrite Hf. lra. }
  rewrite E2, Rplus_0_r. unfold wsum_at. rewrite map2_diag. unfold nzpos.
  induction (seq 0 (length w)) as [|a l IH]; simpl; auto. unfold isnz at 1. destruct (Req_EM_T (nth a w 0) 0) as [E|E].
  - rewrite IH, E. lra.
  - cbn [map Rsum]. rewrite IH. reflexivity.
Qed.
Lemma selection_lt w sel : selection w sel -> Forall (fun i => (i < length w)%nat) sel.
Proof.
  intros (q & fill & -> & Hf). apply Forall_app. split; apply Forall_forall; intros i Hi.
  - apply nzpos_in in Hi. tauto.
  - destruct q; [contradiction|]. apply repeat_spec in Hi. subst. apply Hf. lia.
Qed.
(** a position with non-zero weight occurs once *)
Lemma selection_once w sel j j' : selection w sel -> (j < length sel)%nat -> (j' < length sel)%nat ->
  nth (nth j sel 0%nat) w 0 <> 0 -> nth j' sel 0%nat = nth j sel 0%nat -> j' = j.
Proof.
  intros (q & fill & -> & Hf) Hj Hj' Hn E. rewrite app_length, repeat_length in Hj, Hj'.
  assert (G : forall i, (i < length (nzpos w) + q)%nat -> nth (nth i (nzpos w ++ repeat fill q) 0%nat) w 0 <> 0 -> (i < length (nzpos w))%nat).
  { intros i Hi Hni. destruct (Nat.lt_ge_cases i (length (nzpos w))); auto. exfalso. apply Hni.
    rewrite app_nth2 by auto. rewrite (nth_indep _ _ fill) by (rewrite repeat_length; lia). rewrite nth_repeat. apply Hf. lia. }
  assert (H1 := G j Hj Hn). rewrite <- E in Hn. assert (H2 := G j' Hj' Hn).
  rewrite !app_nth1 in E by auto. apply (proj1 (NoDup_nth _ 0%nat) (nzpos_nodup w)); auto.
Qed.
Lemma selection_all w sel i : selection w sel -> (i < length w)%nat -> nth i w 0 <> 0 -> In i sel.
Proof. intros (q & fill & -> & Hf) Hi Hn. apply in_or_app. left. now apply nzpos_in. Qed.
Lemma filter_map_len {A B} (f : B -> bool) (g : A -> B) l : length (filter f (map g l)) = length (filter (fun a => f (g a)) l).
Proof. induction l; simpl; auto. destruct (f (g a)); simpl; lia. Qed.
Lemma nonzeros_nzpos w : nonzeros w = length (nzpos w).
Proof.
  unfold nonzeros, nzpos. rewrite <- (map_nth_seq w 0) at 1. rewrite filter_map_len. reflexivity.
Qed.
Lemma selection_nonzeros w sel : selection w sel -> nonzeros (map (fun i => nth i w 0) sel) = nonzeros w.
Proof.
  intros (q & fill & -> & Hf). rewrite (nonzeros_nzpos w). unfold nonzeros. rewrite filter_map_len, filter_app, app_length.
  assert (E2 : filter (fun a => if Req_EM_T (nth a w 0) 0 then false else true) (repeat fill q) = []).
  { destruct q; [reflexivity|]. destruct Hf as [_ Hf]; [lia|]. induction (S q); simpl; auto.
    destruct (Req_EM_T _ _); [auto|contradiction]. }
  rewrite E2. simpl. rewrite Nat.add_0_r. f_equal. unfold nzpos.
  induction (seq 0 (length w)) as [|a l IH]; simpl; auto. destruct (isnz (nth a w 0)) eqn:E; auto. apply isnz_true in E.
  simpl. destruct (Req_EM_T _ _); [contradiction|]. now f_equal.
Qed.
