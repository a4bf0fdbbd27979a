(** * Greedy kernel points: set-up, finiteness of losses, distinctness *)
From Coq Require Import List ZArith Bool Reals Permutation Lia Lra.
From Verif Require Import Num Jax RSum JaxFacts ArgFacts DataModel GreedyModel UtilModel GKPModel GKPSpec
  MapReduceProofs MapReduceProofs3 GreedyProofs CholProofs GKPProofs.
Import ListNotations.
Open Scope nat_scope.

(** ** set-up *)
Lemma initial_indices_length m idx : length (initial_indices m idx) = m.
Proof.
  unfold initial_indices. destruct (Nat.ltb_spec (length idx) m).
  - rewrite app_length, repeat_length. lia.
  - rewrite firstn_length. lia.
Qed.
Lemma batch_size_range b n : batch_arg_ok b -> (0 <= batch_size b n <= Z.of_nat n)%Z.
Proof. intros H. unfold batch_size. destruct b as [k|]; [|lia]. simpl in H. destruct (Z.ltb_spec (Z.of_nat n) k); lia. Qed.

Lemma sample_ok {K} split perm (key : K) n b m : split_ok split -> permutation_ok perm -> (0 <= b <= Z.of_nat n)%Z ->
  exists rows, sample_batch_indices split perm key (Z.of_nat n) b m = Ok rows /\ length rows = m /\
    forall r, In r rows -> length r = Z.to_nat b /\ NoDup r /\ (forall i, In i r -> i < n) /\ (b = Z.of_nat n -> Permutation r (seq 0 n)).
Proof.
  intros Hs Hp Hb. unfold sample_batch_indices. destruct (Z.ltb_spec (Z.of_nat n) b); [lia|]. destruct (Z.ltb_spec b 0); [lia|].
  eexists. split; [reflexivity|]. split; [rewrite map_length; apply Hs|]. rewrite Nat2Z.id. intros r Hr.
  apply in_map_iff in Hr as [k [<- _]]. pose proof (Hp k n) as Q.
  assert (L : length (perm k n) = n) by (rewrite (Permutation_length Q); apply seq_length).
  split; [rewrite firstn_length, L; lia|]. split; [|split].
  - assert (N : NoDup (perm k n)) by (eapply Permutation_NoDup; [symmetry; exact Q|apply seq_NoDup]).
    rewrite <- (firstn_skipn (Z.to_nat b) (perm k n)) in N. clear -N. induction (firstn (Z.to_nat b) (perm k n)) as [|a l IH]; [constructor|]. simpl in N. inversion N; subst. constructor; auto. intros I. apply H1. apply in_app_iff. now left.
  - intros i Hi. assert (I : In i (perm k n)) by (rewrite <- (firstn_skipn (Z.to_nat b) (perm k n)); apply in_app_iff; now left).
    apply (Permutation_in _ Q) in I. apply in_seq in I. lia.
  - intros ->. rewrite Nat2Z.id, firstn_all2 by lia. exact Q.
Qed.

Section Setup.
  Context {P K : Type} (s : gkp (V := ER) (P := P) (K := K)) (idx : list Z) (n : nat).
  Notation m := (gk_size s).
  Notation idx0 := (initial_indices m idx).
  Notation cb := (batch_size (gk_candidates s) n).
  Hypothesis Hs : split_ok (gk_split s).
  Hypothesis Hp : permutation_ok (gk_permutation s).
  Hypothesis Hc : batch_arg_ok (gk_candidates s).
  Hypothesis Hl : batch_arg_ok (gk_loss s).

  Definition v0 : list ER := gather (f0 EROps) (repeat (f1 EROps) n ++ [f0 EROps]) idx0.

  Record setup_spec (su : @setup ER) : Prop := mkSS {
    ss_idx : su_idx su = idx0;
    ss_len : length (su_cand su) = m;
    ss_row : forall t, t < m -> exists batch : list nat,
      nth t (su_cand su) [] = map Z.of_nat batch ++ (if (cb <? Z.of_nat n)%Z then [nth t idx0 0%Z] else []) /\
      length batch = Z.to_nat cb /\ NoDup batch /\ (forall i, In i batch -> i < n) /\ (cb = Z.of_nat n -> Permutation batch (seq 0 n));
    ss_loss : forall t, t < m -> exists batch : list nat,
      nth t (su_loss su) [] = map Z.of_nat batch /\ NoDup batch /\ (forall i, In i batch -> i < n) /\
      (batch_size (gk_loss s) n = Z.of_nat n -> Permutation batch (seq 0 n));
    ss_cs : su_coresets su = map (fun b => upd 0 b idx0) (nth 0 (su_cand su) []);
    ss_id : su_identity su = diag EROps v0 }.

  Lemma setup_ok : exists su, setup_batch_solver EROps s idx n = Ok su /\ setup_spec su.
  Proof.
    unfold setup_batch_solver.
    destruct (sample_ok _ _ (nth 0 (gk_split s (gk_key s) 2) (gk_key s)) n cb m Hs Hp (batch_size_range _ n Hc)) as [rows [-> [RL RR]]].
    cbn [bind].
    destruct (sample_ok _ _ (nth 1 (gk_split s (gk_key s) 2) (gk_key s)) n (batch_size (gk_loss s) n) m Hs Hp (batch_size_range _ n Hl)) as [lrows [-> [LL LR]]].
    cbn [bind]. eexists. split; [reflexivity|].
    pose proof (initial_indices_length m idx) as IL.
    assert (NR : forall (q : list (list nat)) t, nth t (map (map Z.of_nat) q) [] = map Z.of_nat (nth t q [])).
    { intros q t. change (@nil Z) with (map Z.of_nat []). apply map_nth. }
    constructor; cbn [su_idx su_cand su_loss su_coresets su_identity]; auto.
    - destruct (cb <? Z.of_nat n)%Z; rewrite ?map2_length, !map_length; lia.
    - intros t Ht. exists (nth t rows []). destruct (RR (nth t rows [])) as [A [B [C D]]]; [apply nth_In; lia|].
      split; [|auto]. destruct (cb <? Z.of_nat n)%Z.
      + rewrite (nth_map2 _ _ _ _ [] 0%Z) by (rewrite ?map_length; lia). now rewrite NR.
      + now rewrite NR, app_nil_r.
    - intros t Ht. exists (nth t lrows []). destruct (LR (nth t lrows [])) as [A [B [C D]]]; [apply nth_In; lia|].
      split; [apply NR|]. auto.
  Qed.

  Definition width : nat := if (cb <? Z.of_nat n)%Z then S (Z.to_nat cb) else n.
  Lemma setup_shape su r : setup_spec su -> In r (su_cand su) -> length r = width.
  Proof.
    intros S Hr. apply In_nth with (d := []) in Hr as [t [Ht <-]]. rewrite (ss_len _ S) in Ht.
    destruct (ss_row _ S t Ht) as [b [-> [L _]]]. rewrite app_length, map_length, L. unfold width.
    pose proof (batch_size_range _ n Hc). destruct (Z.ltb_spec cb (Z.of_nat n)); simpl; lia.
  Qed.
  (** the current index is always a candidate, when it is one at all *)
  Lemma own_candidate su t : setup_spec su -> t < m -> in_range n (nth t idx0 0%Z) -> In (nth t idx0 0%Z) (nth t (su_cand su) []).
  Proof.
    intros S Ht R. destruct (ss_row _ S t Ht) as [b [-> [L [ND [_ Pm]]]]]. apply in_app_iff.
    pose proof (batch_size_range _ n Hc). destruct (Z.ltb_spec cb (Z.of_nat n)); [right; now left|left].
    assert (E : cb = Z.of_nat n) by lia. specialize (Pm E). unfold in_range in R.
    apply in_map_iff. exists (Z.to_nat (nth t idx0 0%Z)). split; [lia|]. apply (Permutation_in _ (Permutation_sym Pm)). apply in_seq. lia.
  Qed.
  Lemma candidate_cases su t b : setup_spec su -> t < m -> In b (nth t (su_cand su) []) -> in_range n b \/ b = nth t idx0 0%Z.
  Proof.
    intros S Ht Hb. destruct (ss_row _ S t Ht) as [q [E [_ [_ [Rq _]]]]]. rewrite E in Hb. apply in_app_iff in Hb as [Hb|Hb].
    - left. apply in_map_iff in Hb as [i [<- Hi]]. apply Rq in Hi. unfold in_range. lia.
    - destruct (cb <? Z.of_nat n)%Z; [destruct Hb as [<-|[]]; now right|contradiction].
  Qed.
End Setup.

Lemma upd_sp {A} (l : list A) n v : n < length l -> upd n v l = firstn n l ++ v :: skipn (S n) l.
Proof. intros H. destruct l as [|a l]; [simpl in H; lia|]. now apply (upd_split (a :: l) n v a). Qed.

(** ** distinctness *)
Definition good (n : nat) (l : list Z) : Prop := NoDup (occupied l) /\ forall i, In i l -> in_range n i \/ i = (-1)%Z.

Lemma in_occupied i l : In i (occupied l) <-> In i l /\ i <> (-1)%Z.
Proof.
  unfold occupied. rewrite filter_In. split; intros [A B]; split; auto.
  - apply negb_true_iff in B. now apply Z.eqb_neq in B.
  - apply negb_true_iff. now apply Z.eqb_neq.
Qed.
Lemma occupied_app a b : occupied (a ++ b) = occupied a ++ occupied b.
Proof. apply filter_app. Qed.
Lemma NoDup_middle {A} (a b : list A) c : NoDup (a ++ c :: b) <-> NoDup (a ++ b) /\ ~ In c (a ++ b).
Proof.
  split.
  - intros H. split; [eapply NoDup_remove_1; eauto|eapply NoDup_remove_2; eauto].
  - intros [H1 H2]. apply (Permutation_NoDup (l := c :: a ++ b)); [apply Permutation_middle|]. now constructor.
Qed.
Lemma occupied_upd l t c : t < length l -> c <> (-1)%Z ->
  NoDup (occupied (upd t (-1)%Z l)) -> ~ In c (upd t (-1)%Z l) -> NoDup (occupied (upd t c l)).
Proof.
  intros Ht Hc. rewrite !(upd_sp l t) by assumption. rewrite !occupied_app. cbn [occupied filter].
  fold (occupied (skipn (S t) l)). rewrite (proj2 (Z.eqb_neq c (-1)) Hc). cbn [negb]. intros N I.
  apply NoDup_middle. split; auto. intros J. apply I. rewrite <- occupied_app in J. apply in_occupied in J as [J _].
  apply in_app_iff in J as [J|J]; apply in_app_iff; [now left|right; now right].
Qed.
Lemma occupied_upd_sub l t : NoDup (occupied l) -> NoDup (occupied (upd t (-1)%Z l)).
Proof.
  destruct (Nat.lt_ge_cases t (length l)) as [H|H]; [|now rewrite upd_oob].
  rewrite (upd_sp l t) by assumption. intros N.
  rewrite <- (upd_same t 0%Z l), (upd_sp l t) in N by assumption.
  rewrite occupied_app in *. cbn [occupied filter] in *. fold (occupied (skipn (S t) l)) in *.
  destruct (nth t l 0%Z =? -1)%Z; cbn [negb] in N; auto. now apply NoDup_remove_1 in N.
Qed.
Lemma own_not_other l t : t < length l -> NoDup (occupied l) -> nth t l 0%Z <> (-1)%Z -> ~ In (nth t l 0%Z) (upd t (-1)%Z l).
Proof.
  intros H N Ne I. rewrite (upd_sp l t) in I by assumption.
  rewrite <- (upd_same t 0%Z l), (upd_sp l t), occupied_app in N by assumption.
  cbn [occupied filter] in N. fold (occupied (skipn (S t) l)) in N. rewrite (proj2 (Z.eqb_neq _ _) Ne) in N. cbn [negb] in N.
  apply NoDup_remove_2 in N. apply N. rewrite <- occupied_app. apply in_occupied. split; auto.
  apply in_app_iff in I as [I|[I|I]]; [apply in_app_iff; now left|congruence|apply in_app_iff; now right].
Qed.
Lemma occupied_upd_length l t : t < length l -> length (occupied (upd t (-1)%Z l)) < length l.
Proof.
  intros H. rewrite (upd_sp l t) by assumption. rewrite occupied_app. cbn [occupied filter negb Z.eqb]. fold (occupied (skipn (S t) l)).
  assert (F : forall q, length (occupied q) <= length q).
  { induction q as [|a q IH]; simpl; auto. destruct (negb _); simpl; lia. }
  cbn [Pos.eqb]. fold (occupied (skipn (S t) l)). rewrite app_length. pose proof (F (firstn t l)). pose proof (F (skipn (S t) l)).
  rewrite firstn_length in *. rewrite skipn_length in *. cbn [negb]. lia.
Qed.
Lemma pigeon_batch (batch : list nat) (o : list Z) : NoDup batch -> length (occupied o) < length batch ->
  exists i, In i batch /\ ~ In (Z.of_nat i) o.
Proof.
  intros N L. destruct (Forall_Exists_dec (fun i => In (Z.of_nat i) o) (fun i => in_dec Z.eq_dec (Z.of_nat i) o) batch) as [F|E].
  - exfalso. assert (incl (map Z.of_nat batch) (occupied o)).
    { intros z Hz. apply in_map_iff in Hz as [i [<- Hi]]. apply in_occupied. rewrite Forall_forall in F. split; auto. lia. }
    apply NoDup_incl_length in H; [rewrite map_length in H; lia|]. apply FinFun.Injective_map_NoDup; auto. intros a b. lia.
  - apply Exists_exists in E as [i [Hi Ni]]. now exists i.
Qed.

(** the trace keeps the coreset good *)
Section Trace.
  Context {P K : Type} (s : gkp (V := ER) (P := P) (K := K)) (idx : list Z) (n : nat) (su : @setup ER).
  Notation m := (gk_size s).
  Notation idx0 := (initial_indices m idx).
  Notation cb := (batch_size (gk_candidates s) n).
  Hypothesis Hc : batch_arg_ok (gk_candidates s).
  Hypothesis SS : setup_spec s idx n su.
  Variable res : list Z.
  Hypothesis RL : length res = m.
  Hypothesis G0 : good n idx0.
  Notation cur u := (firstn u res ++ skipn u idx0).
  Hypothesis U : gk_unique s = true.
  (** every place is initially filled, or batches are large enough *)
  Hypothesis Big : (forall t, t < m -> nth t idx0 0%Z <> (-1)%Z) \/ (m <= Z.to_nat cb).
  Hypothesis Step : forall u, u < m -> In (nth u res 0%Z) (nth u (su_cand su) []) /\
    ((exists b, In b (nth u (su_cand su) []) /\ ~ In b (others u (cur u))) -> ~ In (nth u res 0%Z) (others u (cur u))).

  Lemma cur_length u : u <= m -> length (cur u) = m.
  Proof. intros H. rewrite app_length, firstn_length, skipn_length, initial_indices_length. lia. Qed.
  Lemma cur_nth u : u < m -> nth u (cur u) 0%Z = nth u idx0 0%Z.
  Proof.
    intros H. rewrite app_nth2; rewrite firstn_length; [|lia].
    replace (u - Nat.min u (length res)) with 0 by lia. pose proof (initial_indices_length m idx).
    rewrite <- (firstn_skipn u idx0) at 2. rewrite app_nth2; rewrite firstn_length; [|lia]. f_equal. lia.
  Qed.
  Lemma cur_S u : u < m -> cur (S u) = upd u (nth u res 0%Z) (cur u).
  Proof.
    intros H. pose proof (initial_indices_length m idx) as IL.
    rewrite (upd_sp _ u) by (rewrite cur_length; lia).
    assert (F : firstn u (cur u) = firstn u res).
    { rewrite firstn_app, firstn_firstn, firstn_length. replace (u - _) with 0 by lia. simpl. rewrite app_nil_r. f_equal. lia. }
    assert (G : skipn (S u) (cur u) = skipn (S u) idx0).
    { rewrite skipn_app, firstn_length. rewrite (skipn_all2 (firstn u res)) by (rewrite firstn_length; lia).
      replace (S u - Nat.min u (length res)) with 1 by lia. cbn [app].
      generalize idx0. clear. induction u; intros [|a l]; auto. apply (IHu l). }
    rewrite F, G. clear -RL H. change (nth u res 0%Z :: skipn (S u) idx0) with ([nth u res 0%Z] ++ skipn (S u) idx0).
    rewrite app_assoc. f_equal. revert H. rewrite <- RL. clear. revert u. induction res as [|a l IH]; intros [|u] H; simpl in *; try lia; auto.
    f_equal. apply IH. lia.
  Qed.
  Lemma admissible_exists u : u < m -> good n (cur u) -> exists b, In b (nth u (su_cand su) []) /\ ~ In b (others u (cur u)).
  Proof.
    intros Hu [N R]. pose proof (cur_length u ltac:(lia)) as CL.
    destruct (Z.eq_dec (nth u idx0 0%Z) (-1)) as [E|Ne].
    - destruct Big as [B|B]; [exfalso; now apply (B u Hu)|].
      destruct (ss_row _ _ _ _ SS u Hu) as [batch [E' [L [ND _]]]].
      destruct (pigeon_batch batch (others u (cur u)) ND) as [i [Hi Ni]].
      { unfold others. pose proof (occupied_upd_length (cur u) u ltac:(lia)). lia. }
      exists (Z.of_nat i). split; auto. rewrite E'. apply in_app_iff. left. now apply in_map.
    - exists (nth u idx0 0%Z). split.
      + apply (own_candidate s idx n Hc su u SS Hu). rewrite <- cur_nth by assumption.
        destruct (R (nth u (cur u) 0%Z)); [apply nth_In; lia|assumption|]. rewrite cur_nth in * by assumption. congruence.
      + rewrite <- cur_nth by assumption. apply own_not_other; auto; [lia|]. now rewrite cur_nth.
  Qed.
  Lemma trace_good u : u <= m -> good n (cur u) /\ forall t, t < u -> in_range n (nth t res 0%Z).
  Proof.
    induction u as [|u IH]; intros Hu; [split; [exact G0|intros; lia]|].
    destruct IH as [G H]; [lia|]. destruct (Step u) as [S1 S2]; [lia|].
    specialize (S2 (admissible_exists u ltac:(lia) G)). set (ch := nth u res 0%Z) in *.
    pose proof (cur_length u ltac:(lia)) as CL.
    assert (Nc : ch <> (-1)%Z).
    { intros E. apply S2. rewrite E. unfold others. rewrite (upd_sp _ u) by lia. apply in_app_iff. right. now left. }
    assert (Rc : in_range n ch).
    { destruct (candidate_cases s idx n su u ch SS ltac:(lia) S1) as [Q|Q]; auto. destruct G as [_ G].
      destruct (G (nth u (cur u) 0%Z)) as [Q'|Q']; [apply nth_In; lia| |]; rewrite cur_nth in Q' by lia; rewrite <- Q in Q'; auto. contradiction. }
    split.
    - rewrite cur_S by lia. destruct G as [N R]. split.
      + apply occupied_upd; auto; [lia|]. now apply occupied_upd_sub.
      + intros i Hi. rewrite (upd_sp _ u) in Hi by lia. apply in_app_iff in Hi as [Hi|[<-|Hi]]; auto.
        * apply R. rewrite <- (firstn_skipn u (cur u)). apply in_app_iff. now left.
        * apply R. rewrite <- (firstn_skipn (S u) (cur u)). apply in_app_iff. now right.
    - intros t Ht. destruct (Nat.eq_dec t u) as [->|]; auto. apply H. lia.
  Qed.
  Lemma trace_distinct : NoDup res /\ forall i, In i res -> in_range n i.
  Proof.
    destruct (trace_good m (le_n _)) as [[N _] R].
    pose proof (initial_indices_length m idx) as IL.
    rewrite skipn_all2, app_nil_r in N by lia. rewrite firstn_all2 in N by lia.
    assert (RR : forall i, In i res -> in_range n i).
    { intros i Hi. apply In_nth with (d := 0%Z) in Hi as [t [Ht <-]]. apply R. lia. }
    split; auto. replace res with (occupied res); auto. clear -RR. unfold occupied. induction res as [|a l IH]; auto.
    cbn [filter]. destruct (Z.eqb_spec a (-1)) as [->|].
    - specialize (RR (-1)%Z (or_introl eq_refl)). unfold in_range in RR. lia.
    - cbn [negb]. f_equal. apply IH. intros i Hi. apply RR. now right.
  Qed.
End Trace.
