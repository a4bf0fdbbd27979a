(** * Greedy kernel points in any arithmetic: the proofs of [GKPProofs.v] and
    [GKPProofs2.v] with finiteness of a loss as a parameter *)
From Coq Require Import List ZArith Bool Permutation Lia.
From Verif Require Import Num Jax JaxFacts DataModel GreedyModel UtilModel GKPModel GKPSpec
  MapReduceProofs MapReduceProofs3 GreedyProofs CholProofs GKPProofs GKPProofs2 ArgFacts RSum.
Import ListNotations.
Open Scope nat_scope.

(** ** one selection, and the loop *)
Section Select.
  Context {V : Type} (O : FOps V) (fin : V -> Prop) (le : V -> V -> Prop).
  (** finite values: adding zero changes nothing but perhaps the sign of a zero, adding
      infinity gives infinity, and [argmin] returns a smallest finite entry if there is one *)
  Record arith_ok : Prop := mkArith {
    ar_inf : forall v, fin v -> fadd O v (finf O) = finf O;
    ar_zero : forall v, fin v -> fin (fadd O v (f0 O));
    ar_le : forall u v, fin u -> fin v -> le (fadd O u (f0 O)) (fadd O v (f0 O)) -> le u v;
    ar_neq : ~ fin (finf O);
    ar_range : forall l, l <> [] -> argmin O l < length l;
    ar_min : forall l d, (forall v, In v l -> fin v \/ v = finf O) -> Exists fin l ->
      fin (nth (argmin O l) l d) /\ forall v, In v l -> fin v -> le (nth (argmin O l) l d) v }.
  Hypothesis A : arith_ok.
  Variables (unique : bool) (i : nat) (idx : list Z) (B : list Z) (loss : Z -> V).
  Hypothesis HF : forall b, In b B -> fin (loss b).
  Hypothesis HB : B <> [].
  Hypothesis Hi : i < length idx.
  Notation coresets := (map (fun b => upd i b idx) B).
  Notation masked := (mask_losses O unique i coresets idx (map loss B)).
  Notation r := (argmin O masked).
  Definition taken (b : Z) : bool := unique && existsb (Z.eqb b) (others i idx).
  Definition shift (v : V) : V := if unique then fadd O v (f0 O) else v.

  Lemma masked_eq : masked = map (fun b => if taken b then finf O else shift (loss b)) B.
  Proof.
    unfold mask_losses, taken, shift. destruct unique; cbn [andb]; [|reflexivity].
    rewrite map2_map. rewrite <- (map_id B) at 2. rewrite map2_diag.
    apply map_ext_in. intros b Hb. rewrite nth_upd_eq by assumption. unfold others.
    destruct (existsb _ _); [now apply (ar_inf A), HF|reflexivity].
  Qed.
  Lemma shift_fin b : In b B -> fin (shift (loss b)).
  Proof. intros H. unfold shift. destruct unique; [apply (ar_zero A)|]; now apply HF. Qed.
  Lemma taken_spec b : taken b = true <-> unique = true /\ In b (others i idx).
  Proof.
    unfold taken. rewrite andb_true_iff, existsb_exists. split; intros [U I]; split; auto.
    - destruct I as [z [I E]]. apply Z.eqb_eq in E. now subst.
    - exists b. split; auto. apply Z.eqb_refl.
  Qed.
  Lemma select_spec :
    let ch := nth i (nth r coresets []) 0%Z in
    In ch B /\
    (unique = false \/ (exists b, In b B /\ ~ In b (others i idx)) ->
     (unique = true -> ~ In ch (others i idx)) /\
     forall b, In b B -> (unique = true -> ~ In b (others i idx)) -> le (loss ch) (loss b)).
  Proof.
    intros ch.
    assert (ML : length masked = length B) by (rewrite masked_eq; apply map_length).
    assert (R1 : r < length B).
    { rewrite <- ML. apply (ar_range A). intros E. rewrite E in ML. destruct B; [congruence|discriminate]. }
    assert (Ech : ch = nth r B 0%Z).
    { unfold ch. rewrite (nth_map_lt _ B r 0%Z) by assumption. now rewrite nth_upd_eq. }
    assert (ICH : In ch B) by (rewrite Ech; now apply nth_In).
    split; [exact ICH|]. intros AV.
    destruct (ar_min A masked (f0 O)) as [F1 F2].
    - rewrite masked_eq. intros v Hv. apply in_map_iff in Hv as [b [<- Hb]]. destruct (taken b); [now right|left; now apply shift_fin].
    - rewrite masked_eq. apply Exists_exists.
      assert (E : exists b, In b B /\ taken b = false).
      { destruct AV as [U|[b [Ib Nb]]].
        - exists ch. split; auto. unfold taken. now rewrite U.
        - exists b. split; auto. apply not_true_is_false. intros T. apply taken_spec in T. tauto. }
      destruct E as [b [Ib Tb]]. exists (shift (loss b)). split; [|now apply shift_fin]. apply in_map_iff. exists b. rewrite Tb. auto.
    - assert (MN : nth r masked (f0 O) = if taken ch then finf O else shift (loss ch)).
      { rewrite Ech. generalize R1. generalize r. rewrite masked_eq. intros q Hq. now rewrite (nth_map_lt _ B q 0%Z). }
      rewrite MN in F1, F2.
      destruct (taken ch) eqn:T; [now apply (ar_neq A) in F1|].
      split; [intros U I; assert (taken ch = true) by (apply taken_spec; auto); congruence|].
      intros b Ib Nb. assert (Tb : taken b = false) by (apply not_true_is_false; intros C; apply taken_spec in C; tauto).
      assert (L : le (shift (loss ch)) (shift (loss b))).
      { apply F2; [|now apply shift_fin]. rewrite masked_eq. apply in_map_iff. exists b. rewrite Tb. auto. }
      unfold shift in L. destruct unique; [|exact L]. apply (ar_le A); auto.
  Qed.
End Select.

Section Loop.
  Context {V : Type} (O : FOps V) (fin : V -> Prop) (le : V -> V -> Prop) (A : arith_ok O fin le).
  Context {P K : Type}.
  Variable s : gkp (V := V) (P := P) (K := K).
  Variable su : @setup V.
  Variables (responses : list V) (gram : list (list V)) (v0 : list V) (w : nat).
  Notation m := (gk_size s).
  Notation idx0 := (su_idx su).
  Notation rows := (su_cand su).
  (** the loss used in step [t] *)
  Definition loss_at (t : nat) : list Z -> V :=
    gkp_loss O (gk_solve s) (gk_reg s) responses gram (diag O (flags O v0 (S t))) (nth t (su_loss su) []).
  Hypothesis Hloss : forall t c, t < m -> length c = m -> fin (loss_at t c).
  Hypothesis Hidx : length idx0 = m.
  Hypothesis Hrows : length rows = m.
  Hypothesis Hw : 0 < w.
  Hypothesis Hshape : forall r, In r rows -> length r = w.
  Hypothesis Hid : su_identity su = diag O v0.
  Hypothesis Hcs : su_coresets su = map (fun b => upd 0 b idx0) (nth 0 rows []).
  Notation st0 := (mkK idx0 (su_identity su) (su_coresets su)).

  Record linv (t : nat) (st : @kstate V) : Prop := mkL {
    l_len : length (k_idx st) = m;
    l_tail : skipn t (k_idx st) = skipn t idx0;
    l_id : k_identity st = diag O (flags O v0 t);
    l_cs : t < m -> k_coresets st = map (fun b => upd t b (k_idx st)) (nth t rows []);
    l_trace : forall u, u < t ->
      let cur := firstn u (k_idx st) ++ skipn u idx0 in
      let ch := nth u (k_idx st) 0%Z in
      let B := nth u rows [] in
      In ch B /\
      (gk_unique s = false \/ (exists b, In b B /\ ~ In b (others u cur)) ->
       (gk_unique s = true -> ~ In ch (others u cur)) /\
       forall b, In b B -> (gk_unique s = true -> ~ In b (others u cur)) -> le (loss_at u (upd u ch cur)) (loss_at u (upd u b cur))) }.

  Lemma gkp_step t st : t < m -> linv t st -> linv (S t) (gkp_body O s su responses gram t st).
  Proof.
    intros Ht [Ll Lt Li Lc Lr]. unfold gkp_body. rewrite Li, diag_upd, <- flags_S.
    fold (loss_at t). unfold update_candidates. rewrite Lc by assumption.
    set (idx := k_idx st) in *. set (B := nth t rows []) in *.
    assert (IB : In B rows) by (apply nth_In; lia).
    assert (BL : length B = w) by now apply Hshape.
    rewrite map_map.
    destruct (select_spec O fin le A (gk_unique s) t idx B (fun b => loss_at t (upd t b idx))) as [S1 S2].
    { intros b _. apply Hloss; auto. now rewrite upd_length. }
    { intros E. rewrite E in BL. simpl in BL. lia. }
    { lia. }
    set (ch := nth t (nth (argmin O (mask_losses O (gk_unique s) t _ idx _)) _ []) 0%Z) in *.
    assert (CUR : firstn t idx ++ skipn t idx0 = idx) by (rewrite <- Lt; apply firstn_skipn).
    constructor; cbn [k_idx k_identity k_coresets].
    - now rewrite upd_length.
    - rewrite skipn_upd_lt by lia. now apply skipn_S_eq.
    - reflexivity.
    - intros HS. rewrite (nth_indep rows (last rows []) []) by lia.
      rewrite map2_map_l. rewrite <- (map2_const_l _ B).
      + clearbody ch idx B. clear. revert idx. generalize (nth (S t) rows []). induction B as [|b B IH]; intros [|c l] idx; simpl; auto. f_equal; [now rewrite upd_upd|apply IH].
      + rewrite BL. symmetry. apply Hshape, nth_In. lia.
    - intros u Hu. destruct (Nat.eq_dec u t) as [->|Ne].
      + rewrite firstn_upd_ge by lia. rewrite CUR, nth_upd_eq by lia. split; auto.
      + rewrite firstn_upd_ge by lia. rewrite nth_upd_neq by assumption. apply Lr. lia.
  Qed.
  Lemma gkp_loop : linv m (fori m (gkp_body O s su responses gram) st0).
  Proof.
    apply (fori_ind linv m).
    - constructor; cbn [k_idx k_identity k_coresets]; auto; try lia; intros; lia.
    - intros t st Ht I. now apply gkp_step.
  Qed.
End Loop.

Section Setup.
  Context {V : Type} (O : FOps V) {P K : Type} (s : gkp (V := V) (P := P) (K := K)) (idx : list Z) (n : nat).
  Notation m := (gk_size s).
  Notation idx0 := (initial_indices m idx).
  Notation cb := (batch_size (gk_candidates s) n).
  Hypothesis Hs : split_ok (gk_split s).
  Hypothesis Hp : permutation_ok (gk_permutation s).
  Hypothesis Hc : batch_arg_ok (gk_candidates s).
  Hypothesis Hl : batch_arg_ok (gk_loss s).

  Definition v0 : list V := gather (f0 O) (repeat (f1 O) n ++ [f0 O]) idx0.

  Record setup_spec (su : @setup V) : Prop := mkSS {
    ss_idx : su_idx su = idx0;
    ss_len : length (su_cand su) = m;
    ss_row : forall t, t < m -> exists batch : list nat,
      nth t (su_cand su) [] = map Z.of_nat batch ++ (if (cb <? Z.of_nat n)%Z then [nth t idx0 0%Z] else []) /\
      length batch = Z.to_nat cb /\ NoDup batch /\ (forall i, In i batch -> i < n) /\ (cb = Z.of_nat n -> Permutation batch (seq 0 n));
    ss_loss : forall t, t < m -> exists batch : list nat,
      nth t (su_loss su) [] = map Z.of_nat batch /\ NoDup batch /\ (forall i, In i batch -> i < n) /\
      (batch_size (gk_loss s) n = Z.of_nat n -> Permutation batch (seq 0 n));
    ss_cs : su_coresets su = map (fun b => upd 0 b idx0) (nth 0 (su_cand su) []);
    ss_id : su_identity su = diag O v0 }.

  Lemma setup_ok : exists su, setup_batch_solver O s idx n = Ok su /\ setup_spec su.
  Proof.
    unfold setup_batch_solver.
    destruct (sample_ok _ _ (nth 0 (gk_split s (gk_key s) 2) (gk_key s)) n cb m Hs Hp (batch_size_range _ n Hc)) as [rows [-> [RL RR]]].
    cbn [bind].
    destruct (sample_ok _ _ (nth 1 (gk_split s (gk_key s) 2) (gk_key s)) n (batch_size (gk_loss s) n) m Hs Hp (batch_size_range _ n Hl)) as [lrows [-> [LL LR]]].
    cbn [bind]. eexists. split; [reflexivity|].
    pose proof (initial_indices_length m idx) as IL.
    assert (NR : forall (q : list (list nat)) t, nth t (map (map Z.of_nat) q) [] = map Z.of_nat (nth t q [])).
    { intros q t. change (@nil Z) with (map Z.of_nat []). apply map_nth. }
    constructor; cbn [su_idx su_cand su_loss su_coresets su_identity]; auto.
    - destruct (cb <? Z.of_nat n)%Z; rewrite ?map2_length, !map_length; lia.
    - intros t Ht. exists (nth t rows []). destruct (RR (nth t rows [])) as [A [B [C D]]]; [apply nth_In; lia|].
      split; [|auto]. destruct (cb <? Z.of_nat n)%Z.
      + rewrite (nth_map2 _ _ _ _ [] 0%Z) by (rewrite ?map_length; lia). now rewrite NR.
      + now rewrite NR, app_nil_r.
    - intros t Ht. exists (nth t lrows []). destruct (LR (nth t lrows [])) as [A [B [C D]]]; [apply nth_In; lia|].
      split; [apply NR|]. auto.
  Qed.

  Definition width : nat := if (cb <? Z.of_nat n)%Z then S (Z.to_nat cb) else n.
  Lemma setup_shape su r : setup_spec su -> In r (su_cand su) -> length r = width.
  Proof.
    intros S Hr. apply In_nth with (d := []) in Hr as [t [Ht <-]]. rewrite (ss_len _ S) in Ht.
    destruct (ss_row _ S t Ht) as [b [-> [L _]]]. rewrite app_length, map_length, L. unfold width.
    pose proof (batch_size_range _ n Hc). destruct (Z.ltb_spec cb (Z.of_nat n)); simpl; lia.
  Qed.
  (** the current index is always a candidate, when it is one at all *)
  Lemma own_candidate su t : setup_spec su -> t < m -> in_range n (nth t idx0 0%Z) -> In (nth t idx0 0%Z) (nth t (su_cand su) []).
  Proof.
    intros S Ht R. destruct (ss_row _ S t Ht) as [b [-> [L [ND [_ Pm]]]]]. apply in_app_iff.
    pose proof (batch_size_range _ n Hc). destruct (Z.ltb_spec cb (Z.of_nat n)); [right; now left|left].
    assert (E : cb = Z.of_nat n) by lia. specialize (Pm E). unfold in_range in R.
    apply in_map_iff. exists (Z.to_nat (nth t idx0 0%Z)). split; [lia|]. apply (Permutation_in _ (Permutation_sym Pm)). apply in_seq. lia.
  Qed.
  Lemma candidate_cases su t b : setup_spec su -> t < m -> In b (nth t (su_cand su) []) -> in_range n b \/ b = nth t idx0 0%Z.
  Proof.
    intros S Ht Hb. destruct (ss_row _ S t Ht) as [q [E [_ [_ [Rq _]]]]]. rewrite E in Hb. apply in_app_iff in Hb as [Hb|Hb].
    - left. apply in_map_iff in Hb as [i [<- Hi]]. apply Rq in Hi. unfold in_range. lia.
    - destruct (cb <? Z.of_nat n)%Z; [destruct Hb as [<-|[]]; now right|contradiction].
  Qed.
End Setup.

Section Trace.
  Context {V : Type} (O : FOps V) {P K : Type} (s : gkp (V := V) (P := P) (K := K)) (idx : list Z) (n : nat) (su : @setup V).
  Notation m := (gk_size s).
  Notation idx0 := (initial_indices m idx).
  Notation cb := (batch_size (gk_candidates s) n).
  Hypothesis Hc : batch_arg_ok (gk_candidates s).
  Hypothesis SS : setup_spec O s idx n su.
  Variable res : list Z.
  Hypothesis RL : length res = m.
  Hypothesis G0 : good n idx0.
  Notation cur u := (firstn u res ++ skipn u idx0).
  Hypothesis U : gk_unique s = true.
  (** every place is initially filled, or batches are large enough *)
  Hypothesis Big : (forall t, t < m -> nth t idx0 0%Z <> (-1)%Z) \/ (m <= Z.to_nat cb).
  Hypothesis Step : forall u, u < m -> In (nth u res 0%Z) (nth u (su_cand su) []) /\
    ((exists b, In b (nth u (su_cand su) []) /\ ~ In b (others u (cur u))) -> ~ In (nth u res 0%Z) (others u (cur u))).

  Lemma cur_length u : u <= m -> length (cur u) = m.
  Proof. intros H. rewrite app_length, firstn_length, skipn_length, initial_indices_length. lia. Qed.
  Lemma cur_nth u : u < m -> nth u (cur u) 0%Z = nth u idx0 0%Z.
  Proof.
    intros H. rewrite app_nth2; rewrite firstn_length; [|lia].
    replace (u - Nat.min u (length res)) with 0 by lia. pose proof (initial_indices_length m idx).
    rewrite <- (firstn_skipn u idx0) at 2. rewrite app_nth2; rewrite firstn_length; [|lia]. f_equal. lia.
  Qed.
  Lemma cur_S u : u < m -> cur (S u) = upd u (nth u res 0%Z) (cur u).
  Proof.
    intros H. pose proof (initial_indices_length m idx) as IL.
    rewrite (upd_sp _ u) by (rewrite cur_length; lia).
    assert (F : firstn u (cur u) = firstn u res).
    { rewrite firstn_app, firstn_firstn, firstn_length. replace (u - _) with 0 by lia. simpl. rewrite app_nil_r. f_equal. lia. }
    assert (G : skipn (S u) (cur u) = skipn (S u) idx0).
    { rewrite skipn_app, firstn_length. rewrite (skipn_all2 (firstn u res)) by (rewrite firstn_length; lia).
      replace (S u - Nat.min u (length res)) with 1 by lia. cbn [app].
      generalize idx0. clear. induction u; intros [|a l]; auto. apply (IHu l). }
    rewrite F, G. clear -RL H. change (nth u res 0%Z :: skipn (S u) idx0) with ([nth u res 0%Z] ++ skipn (S u) idx0).
    rewrite app_assoc. f_equal. revert H. rewrite <- RL. clear. revert u. induction res as [|a l IH]; intros [|u] H; simpl in *; try lia; auto.
    f_equal. apply IH. lia.
  Qed.
  Lemma admissible_exists u : u < m -> good n (cur u) -> exists b, In b (nth u (su_cand su) []) /\ ~ In b (others u (cur u)).
  Proof.
    intros Hu [N R]. pose proof (cur_length u ltac:(lia)) as CL.
    destruct (Z.eq_dec (nth u idx0 0%Z) (-1)) as [E|Ne].
    - destruct Big as [B|B]; [exfalso; now apply (B u Hu)|].
      destruct (ss_row _ _ _ _ _ SS u Hu) as [batch [E' [L [ND _]]]].
      destruct (pigeon_batch batch (others u (cur u)) ND) as [i [Hi Ni]].
      { unfold others. pose proof (occupied_upd_length (cur u) u ltac:(lia)). lia. }
      exists (Z.of_nat i). split; auto. rewrite E'. apply in_app_iff. left. now apply in_map.
    - exists (nth u idx0 0%Z). split.
      + apply (own_candidate O s idx n Hc su u SS Hu). rewrite <- cur_nth by assumption.
        destruct (R (nth u (cur u) 0%Z)); [apply nth_In; lia|assumption|]. rewrite cur_nth in * by assumption. congruence.
      + rewrite <- cur_nth by assumption. apply own_not_other; auto; [lia|]. now rewrite cur_nth.
  Qed.
  Lemma trace_good u : u <= m -> good n (cur u) /\ forall t, t < u -> in_range n (nth t res 0%Z).
  Proof.
    induction u as [|u IH]; intros Hu; [split; [exact G0|intros; lia]|].
    destruct IH as [G H]; [lia|]. destruct (Step u) as [S1 S2]; [lia|].
    specialize (S2 (admissible_exists u ltac:(lia) G)). set (ch := nth u res 0%Z) in *.
    pose proof (cur_length u ltac:(lia)) as CL.
    assert (Nc : ch <> (-1)%Z).
    { intros E. apply S2. rewrite E. unfold others. rewrite (upd_sp _ u) by lia. apply in_app_iff. right. now left. }
    assert (Rc : in_range n ch).
    { destruct (candidate_cases O s idx n su u ch SS ltac:(lia) S1) as [Q|Q]; auto. destruct G as [_ G].
      destruct (G (nth u (cur u) 0%Z)) as [Q'|Q']; [apply nth_In; lia| |]; rewrite cur_nth in Q' by lia; rewrite <- Q in Q'; auto. contradiction. }
    split.
    - rewrite cur_S by lia. destruct G as [N R]. split.
      + apply occupied_upd; auto; [lia|]. now apply occupied_upd_sub.
      + intros i Hi. rewrite (upd_sp _ u) in Hi by lia. apply in_app_iff in Hi as [Hi|[<-|Hi]]; auto.
        * apply R. rewrite <- (firstn_skipn u (cur u)). apply in_app_iff. now left.
        * apply R. rewrite <- (firstn_skipn (S u) (cur u)). apply in_app_iff. now right.
    - intros t Ht. destruct (Nat.eq_dec t u) as [->|]; auto. apply H. lia.
  Qed.
  Lemma trace_distinct : NoDup res /\ forall i, In i res -> in_range n i.
  Proof.
    destruct (trace_good m (le_n _)) as [[N _] R].
    pose proof (initial_indices_length m idx) as IL.
    rewrite skipn_all2, app_nil_r in N by lia. rewrite firstn_all2 in N by lia.
    assert (RR : forall i, In i res -> in_range n i).
    { intros i Hi. apply In_nth with (d := 0%Z) in Hi as [t [Ht <-]]. apply R. lia. }
    split; auto. replace res with (occupied res); auto. clear -RR. unfold occupied. induction res as [|a l IH]; auto.
    cbn [filter]. destruct (Z.eqb_spec a (-1)) as [->|].
    - specialize (RR (-1)%Z (or_introl eq_refl)). unfold in_range in RR. lia.
    - cbn [negb]. f_equal. apply IH. intros i Hi. apply RR. now right.
  Qed.
End Trace.
