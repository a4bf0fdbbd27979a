(** * The greedy selection loop for an arbitrary arithmetic

    [B t v] stands for "v is an ordinary number, bounded at level t"; the arithmetic is
    only assumed to keep ordinary numbers ordinary when kernel values are added or
    subtracted, and infinity infinite. *)
From Coq Require Import List ZArith Lia Bool Permutation.
From Verif Require Import Num Jax RSum JaxFacts DataModel MeanModel MeanProofs DataMeanLemmas GreedyModel GreedyProofs.
Import ListNotations.

Section Loop.
  Context {V : Type} (O : FOps V) {P : Type} (p0 : P) (k : P -> P -> V) (B : nat -> V -> Prop).
  Variables (xs : list P) (dw cw : list V) (idx0 : list Z) (pen0 : list V).
  Variables (sel : nat -> list V -> Z -> Z) (unique : bool) (ord : nat -> list nat) (init : Z) (b0 : nat).
  Notation n := (length xs).
  Notation M := (length idx0).
  Notation nan := (fnan O).
  Notation inf := (finf O).
  Hypothesis Hdw : length dw = n.
  Hypothesis Hcw : length cw = M.
  Hypothesis Hpen0 : length pen0 = n.
  Hypothesis Hord : forall i, Permutation (ord i) (seq 0 M).
  Hypothesis Bmono : forall t t' v, B t v -> t <= t' -> B t' v.
  Hypothesis Binf : forall t, ~ B t inf.
  Hypothesis Bnan : forall t, ~ B t nan.
  Hypothesis Inan : inf <> nan.
  Hypothesis Badd : forall t v a b, B t v -> t < b0 + 2 * M -> B (S t) (fadd O v (k a b)).
  Hypothesis Bsub : forall t v a b, B t v -> t < b0 + 2 * M -> B (S t) (fsub O v (k a b)).
  Hypothesis Iadd : forall a b, fadd O inf (k a b) = inf.
  Hypothesis Isub : forall a b, fsub O inf (k a b) = inf.
  Hypothesis Bpen0 : forall v, In v pen0 -> B b0 v.

  Notation pos w := (fgt0 O w = true).
  Notation takenl := GreedyProofs.taken.
  Lemma tk_dec (l : list Z) t j : {takenl l t j} + {~ takenl l t j}.
  Proof.
    clear. induction t.
    - right. intros [i [H _]]. lia.
    - destruct IHt as [H|H].
      + left. destruct H as [i [Hi E]]. exists i. split; [lia|assumption].
      + destruct (Z.eq_dec (nth t l 0%Z) (Z.of_nat j)) as [E|E].
        * left. exists t. split; [lia|assumption].
        * right. intros [i [Hi E']]. destruct (Nat.eq_dec i t) as [->|]; [contradiction|].
          apply H. exists i. split; [lia|assumption].
  Qed.
  Definition lbody := greedy_body O p0 k xs dw cw sel unique ord.
  Definition ls0 : @gstate V := mkG idx0 pen0 init.

  Definition lpen_ok (pen : list V) (l : list Z) (t b : nat) : Prop :=
    length pen = n /\
    forall j, j < n ->
      (unique = true -> takenl l t j -> nth j pen nan = inf) /\
      (unique = false \/ ~ takenl l t j -> B b (nth j pen nan)).
  Definition linv (t : nat) (s : @gstate V) : Prop :=
    length (g_idx s) = M /\
    (forall i, t <= i -> nth i (g_idx s) 0%Z = nth i idx0 0%Z) /\
    (forall i, i < t -> exists r, nth i (g_idx s) 0%Z = Z.of_nat r /\ r < n /\ pos (nth r dw nan)) /\
    (unique = true -> forall i i', i < i' < t -> nth i (g_idx s) 0%Z <> nth i' (g_idx s) 0%Z) /\
    (init <= g_size s <= init + Z.of_nat t)%Z /\
    lpen_ok (g_pen s) (g_idx s) t (b0 + 2 * t).

  Definition lpen1 (t : nat) (s : @gstate V) : list V :=
    if fgt0 O (nth t cw (f0 O))
    then map2 (fsub O) (g_pen s) (kcol k xs (jget p0 xs (nth t (g_idx s) 0%Z))) else g_pen s.
  Definition lsize1 (t : nat) (s : @gstate V) : Z :=
    if fgt0 O (nth t cw (f0 O)) then g_size s else (g_size s + 1)%Z.
  Definition lvalid (t : nat) (s : @gstate V) : list V := valid_penalty O unique (ord t) dw cw (g_idx s) t (lpen1 t s).
  Definition lchoice (t : nat) (s : @gstate V) : Z := sel t (lvalid t s) (lsize1 t s).
  Lemma lbody_unfold t s :
    lbody t s = mkG (upd t (lchoice t s) (g_idx s))
      (let p := map2 (fadd O) (lpen1 t s) (kcol k xs (jget p0 xs (lchoice t s))) in
       if unique then jset p (lchoice t s) inf else p) (lsize1 t s).
  Proof. reflexivity. Qed.

  Lemma kc_nth r j : j < n -> nth j (kcol k xs r) nan = k (nth j xs p0) r.
  Proof. intros. unfold kcol. now rewrite (nth_map_lt _ xs j p0). Qed.
  Lemma kc_len r : length (kcol k xs r) = n.
  Proof. apply map_length. Qed.

  Lemma lpen1_ok t s : t < M -> linv t s -> lpen_ok (lpen1 t s) (g_idx s) t (b0 + 2 * t + 1).
  Proof.
    intros Ht (HL & Hsuf & _ & _ & _ & HpL & Hp). unfold lpen1.
    destruct (fgt0 O (nth t cw (f0 O))).
    - split; [rewrite map2_length, kc_len; lia|]. intros j Hj. destruct (Hp j Hj) as [H1 H2].
      rewrite (nth_map2 _ _ _ _ nan nan) by (rewrite ?kc_len; lia). rewrite kc_nth by assumption. split.
      + intros Hu Ht'. rewrite H1 by assumption. apply Isub.
      + intros Hc. replace (b0 + 2 * t + 1) with (S (b0 + 2 * t)) by lia. apply Bsub; [auto|lia].
    - split; auto. intros j Hj. destruct (Hp j Hj) as [H1 H2]. split; auto. intros Hc. eapply Bmono; [now apply H2|lia].
  Qed.

  Lemma lvalid_facts pen idx i :
    length pen = n -> length idx = M ->
    let v := valid_penalty O unique (ord i) dw cw idx i pen in
    length v = n /\
    forall j, j < n ->
      (pos (nth j dw nan) -> nth j v nan = nth j pen nan \/
         (unique = true /\ nth j v nan = inf /\
          exists p, p < M /\ wrap n (nth p idx 0%Z) = Z.of_nat j /\
                    nth p idx 0%Z <> nth i idx 0%Z /\ pos (nth p cw nan))) /\
      (~ pos (nth j dw nan) -> nth j v nan = nan \/ nth j v nan = inf).
  Proof.
    intros HpL HiL v. unfold valid_penalty in v. set (valid := map2 _ dw pen) in v.
    assert (HvL : length valid = n) by (unfold valid; rewrite map2_length; lia).
    assert (Hval : forall j, j < n -> nth j valid nan = if fgt0 O (nth j dw nan) then nth j pen nan else nan).
    { intros j Hj. unfold valid. now rewrite (nth_map2 _ _ _ _ nan nan) by lia. }
    assert (Hpos : forall j, j < n -> pos (nth j dw nan) -> nth j valid nan = nth j pen nan).
    { intros j Hj H. rewrite Hval by assumption. now rewrite H. }
    assert (Hnon : forall j, j < n -> ~ pos (nth j dw nan) -> nth j valid nan = nan).
    { intros j Hj H. rewrite Hval by assumption. now destruct (fgt0 O (nth j dw nan)). }
    destruct unique eqn:Hu.
    2:{ split; [exact HvL|]. intros j Hj. split; intros H; left; auto. }
    set (vals := map2 _ idx cw) in v.
    assert (HvalsL : length vals = M) by (unfold vals; rewrite map2_length; lia).
    assert (Hin : forall p, In p (ord i) -> p < M).
    { intros p H. apply (Permutation_in _ (Hord i)) in H. apply in_seq in H. lia. }
    assert (Hvals : forall p j, p < M -> j < n -> wrap n (nth p idx 0%Z) = Z.of_nat j ->
      nth p vals (f0 O) =
      if negb (nth p idx 0 =? nth i idx 0)%Z && fgt0 O (nth p cw nan) then inf else nth j valid nan).
    { intros p j Hp Hj Hw. unfold vals. rewrite (nth_map2 _ _ _ _ 0%Z nan) by lia.
      replace (jget (f0 O) valid (nth p idx 0%Z)) with (nth j valid nan); [reflexivity|].
      unfold jget, clamp. rewrite HvL, Hw. replace (Z.to_nat _) with j by lia. apply nth_indep. lia. }
    split; [unfold v; rewrite scatter_length; exact HvL|].
    intros j Hj. split.
    - intros H. destruct (scatter_nth (ord i) (f0 O) nan valid idx vals j) as [E|[p [Hp [Hw [_ E]]]]].
      + left. unfold v. rewrite E. now apply Hpos.
      + rewrite HvL in Hw. apply Hin in Hp. fold v in E. rewrite (Hvals p j Hp Hj Hw) in E.
        destruct (negb _ && _) eqn:C.
        * right. split; [reflexivity|]. split; [assumption|]. exists p.
          apply andb_true_iff in C. destruct C as [C1 C2]. apply negb_true_iff, Z.eqb_neq in C1. auto.
        * left. rewrite E. now apply Hpos.
    - intros H. destruct (scatter_nth (ord i) (f0 O) nan valid idx vals j) as [E|[p [Hp [Hw [_ E]]]]].
      + left. unfold v. rewrite E. now apply Hnon.
      + rewrite HvL in Hw. apply Hin in Hp. fold v in E. rewrite (Hvals p j Hp Hj Hw) in E.
        destruct (negb _ && _); [now right|]. left. rewrite E. now apply Hnon.
  Qed.

  (** what the loop needs from the selection function: among numbers, infinities and NaN,
      of which one is a number, it selects a number *)
  Definition lsel_ok : Prop :=
    forall i v size, i < M -> length v = n -> (0 < size <= init + Z.of_nat M)%Z ->
      (forall j, j < n -> nth j v nan = nan \/ nth j v nan = inf \/ B (b0 + 2 * M) (nth j v nan)) ->
      (exists j, j < n /\ B (b0 + 2 * M) (nth j v nan)) ->
      exists r, sel i v size = Z.of_nat r /\ r < n /\ B (b0 + 2 * M) (nth r v nan).

  Definition posx : list nat := filter (fun j => fgt0 O (nth j dw nan)) (seq 0 n).
  Lemma posx_spec j : In j posx <-> j < n /\ pos (nth j dw nan).
  Proof. unfold posx. rewrite filter_In, in_seq. intuition; lia. Qed.

  Lemma lpigeon (l m : list nat) : NoDup l -> length m < length l -> exists j, In j l /\ ~ In j m.
  Proof.
    clear. intros Hn HL.
    destruct (Exists_dec (fun j => ~ In j m) l) as [H|H].
    - intros x. destruct (in_dec Nat.eq_dec x m); [right|left]; auto.
    - apply Exists_exists in H. exact H.
    - exfalso. assert (incl l m).
      { intros x Hx. destruct (in_dec Nat.eq_dec x m); auto. exfalso. apply H, Exists_exists. eauto. }
      pose proof (NoDup_incl_length Hn H0). lia.
  Qed.

  Hypothesis Hsel : lsel_ok.
  Hypothesis Hen : 1 <= length posx /\ (unique = true -> M <= length posx).
  Hypothesis Hinit0 : (0 <= init)%Z.
  Hypothesis Hinit : (exists i, i < M /\ pos (nth i cw nan)) -> (0 < init)%Z.

  Lemma lstep_values t s : t < M -> linv t s ->
    length (lvalid t s) = n /\
    (forall j, j < n -> nth j (lvalid t s) nan = nan \/ nth j (lvalid t s) nan = inf \/ B (b0 + 2 * M) (nth j (lvalid t s) nan)) /\
    (forall j b, j < n -> B b (nth j (lvalid t s) nan) -> pos (nth j dw nan) /\ (unique = true -> ~ takenl (g_idx s) t j)) /\
    exists j, j < n /\ B (b0 + 2 * M) (nth j (lvalid t s) nan).
  Proof.
    intros Ht Hi. pose proof (lpen1_ok t s Ht Hi) as [HpL Hp].
    destruct Hi as (HL & Hsuf & Hpre & Hnd & Hsz & _).
    destruct (lvalid_facts (lpen1 t s) (g_idx s) t HpL HL) as [HvL Hv]. fold (lvalid t s) in HvL, Hv.
    assert (Hcase : forall j, j < n ->
       (nth j (lpen1 t s) nan = inf /\ unique = true /\ takenl (g_idx s) t j) \/
       (B (b0 + 2 * M) (nth j (lpen1 t s) nan) /\ (unique = true -> ~ takenl (g_idx s) t j))).
    { intros j Hj. destruct (Hp j Hj) as [H1 H2].
      assert (H2' : unique = false \/ ~ takenl (g_idx s) t j -> B (b0 + 2 * M) (nth j (lpen1 t s) nan)).
      { intros H. eapply Bmono; [now apply H2|lia]. }
      destruct unique eqn:Hu.
      - destruct (tk_dec (g_idx s) t j); [left|right]; auto.
      - right. split; [auto|discriminate]. }
    assert (Hfin : forall j, j < n -> pos (nth j dw nan) -> (unique = true -> ~ takenl (g_idx s) t j) ->
       (unique = true -> forall p, p < M -> wrap n (nth p (g_idx s) 0%Z) = Z.of_nat j -> nth p (g_idx s) 0%Z = nth t (g_idx s) 0%Z) ->
       B (b0 + 2 * M) (nth j (lvalid t s) nan)).
    { intros j Hj Hw Hnt Hex. destruct (Hv j Hj) as [H1 _]. destruct (H1 Hw) as [E|[Hu [_ [p [Hp1 [Hp2 [Hp3 Hp4]]]]]]].
      - destruct (Hcase j Hj) as [[_ [Hu Htk]]|[E' _]]; [exfalso; now apply Hnt|]. now rewrite E.
      - exfalso. now apply Hp3, Hex. }
    split; [assumption|]. split; [|split].
    - intros j Hj. destruct (Hv j Hj) as [H1 H2]. destruct (fgt0 O (nth j dw nan)) eqn:W.
      + destruct (H1 eq_refl) as [E|[_ [E _]]]; auto. rewrite E. destruct (Hcase j Hj) as [[E2 _]|[E2 _]]; auto.
      + destruct H2 as [E|E]; auto.
    - intros j b Hj E. destruct (Hv j Hj) as [H1 H2]. destruct (fgt0 O (nth j dw nan)) eqn:W.
      + split; auto. destruct (H1 eq_refl) as [E'|[_ [E' _]]]; rewrite E' in E; [|now apply Binf in E].
        destruct (Hcase j Hj) as [[Ec _]|[Ec Hn']]; auto. rewrite Ec in E. now apply Binf in E.
      + exfalso. destruct H2 as [E'|E']; [discriminate|rewrite E' in E; now apply Bnan in E|rewrite E' in E; now apply Binf in E].
    - destruct Hen as [He1 He2]. destruct unique eqn:Hu.
      + set (excl := map (fun p => Z.to_nat (wrap n (nth p (g_idx s) 0%Z)))
                         (filter (fun p => negb (p =? t)%nat) (seq 0 M))).
        assert (HeL : length excl < length posx).
        { unfold excl. rewrite map_length.
          assert (length (filter (fun p => negb (p =? t)%nat) (seq 0 M)) < M)%nat; [|specialize (He2 eq_refl); lia].
          assert (Hlt : forall l, In t l -> (length (filter (fun p => negb (p =? t)%nat) l) < length l)%nat).
          { clear. induction l; simpl; [tauto|]. intros H. destruct (Nat.eqb_spec a t) as [->|Hn]; simpl.
            - pose proof (filter_len_le (fun p => negb (p =? t)%nat) l). lia.
            - destruct H; [congruence|]. specialize (IHl H). lia. }
          specialize (Hlt (seq 0 M)). rewrite seq_length in Hlt. apply Hlt, in_seq. lia. }
        destruct (lpigeon posx excl ltac:(apply NoDup_filter, seq_NoDup) HeL) as [j [Hj1 Hj2]].
        apply posx_spec in Hj1. destruct Hj1 as [Hj Hw].
        assert (Hne : forall p, (p < M)%nat -> p <> t -> wrap n (nth p (g_idx s) 0%Z) <> Z.of_nat j).
        { intros p Hp1 Hp2 E. apply Hj2. unfold excl. apply in_map_iff. exists p. split.
          - rewrite E. lia.
          - apply filter_In. split; [apply in_seq; lia|]. apply negb_true_iff. now apply Nat.eqb_neq. }
        exists j. split; [assumption|]. apply Hfin; auto.
        * intros _ [i [Hi1 Hi2]]. apply (Hne i); try lia. rewrite Hi2. apply wrap_in_range. lia.
        * intros _ p Hp1 Hp2. destruct (Nat.eq_dec p t) as [->|Hn]; auto.
          exfalso. now apply (Hne p).
      + destruct posx as [|j l] eqn:Epos; [simpl in He1; lia|].
        assert (Hj : In j posx) by (rewrite Epos; now left).
        apply posx_spec in Hj. destruct Hj as [Hj Hw].
        exists j. split; [assumption|]. apply Hfin; auto; discriminate.
  Qed.

  Lemma lsize1_ok t s : t < M -> linv t s -> (init <= lsize1 t s <= init + Z.of_nat (S t))%Z /\ (0 < lsize1 t s)%Z.
  Proof.
    intros Ht (_ & _ & _ & _ & Hsz & _). unfold lsize1. destruct (fgt0 O (nth t cw (f0 O))) eqn:E; [|split; lia].
    split; [lia|]. assert (0 < init)%Z; [|lia]. apply Hinit. exists t. split; auto. rewrite (nth_indep _ _ (f0 O)) by lia. exact E.
  Qed.
  Lemma lstep_choice t s : t < M -> linv t s ->
    exists r, lchoice t s = Z.of_nat r /\ r < n /\ pos (nth r dw nan) /\ (unique = true -> ~ takenl (g_idx s) t r).
  Proof.
    intros Ht Hi. destruct (lstep_values t s Ht Hi) as (H1 & H2 & H3 & H4). destruct (lsize1_ok t s Ht Hi).
    destruct (Hsel t (lvalid t s) (lsize1 t s)) as [r [E [Hr Eq]]]; auto; [lia|].
    exists r. destruct (H3 r _ Hr Eq) as [A C]. auto.
  Qed.

  Lemma lstep_inv t s : t < M -> linv t s -> linv (S t) (lbody t s).
  Proof.
    intros Ht Hi. destruct (lstep_choice t s Ht Hi) as [r [Er [Hr [Hw Hnt]]]].
    pose proof (lsize1_ok t s Ht Hi) as HS. pose proof (lpen1_ok t s Ht Hi) as [HpL Hp].
    destruct Hi as (HL & Hsuf & Hpre & Hnd & Hsz & _).
    rewrite lbody_unfold, Er. unfold linv. cbn [g_idx g_pen g_size].
    set (l' := upd t (Z.of_nat r) (g_idx s)).
    assert (Hlt : forall i, i <> t -> nth i l' 0%Z = nth i (g_idx s) 0%Z).
    { intros. unfold l'. now apply nth_upd_neq. }
    assert (Hleq : nth t l' 0%Z = Z.of_nat r) by (unfold l'; apply nth_upd_eq; lia).
    assert (Htk : forall j, takenl l' (S t) j <-> takenl (g_idx s) t j \/ j = r).
    { intros j. split.
      - intros [i [Hi E]]. destruct (Nat.eq_dec i t) as [->|Hn].
        + right. rewrite Hleq in E. lia.
        + left. exists i. rewrite Hlt in E by assumption. split; [lia|assumption].
      - intros [[i [Hi E]]| ->].
        + exists i. rewrite Hlt by lia. split; [lia|assumption].
        + exists t. split; [lia|assumption]. }
    assert (HL2 : length (map2 (fadd O) (lpen1 t s) (kcol k xs (jget p0 xs (Z.of_nat r)))) = n)
      by (rewrite map2_length, kc_len; lia).
    assert (Hadd : forall j, j < n -> nth j (map2 (fadd O) (lpen1 t s) (kcol k xs (jget p0 xs (Z.of_nat r)))) nan =
        fadd O (nth j (lpen1 t s) nan) (k (nth j xs p0) (jget p0 xs (Z.of_nat r)))).
    { intros j Hj. rewrite (nth_map2 _ _ _ _ nan nan) by (rewrite ?kc_len; lia). now rewrite kc_nth. }
    split; [unfold l'; now rewrite upd_length|].
    split; [intros i Hi; rewrite Hlt by lia; apply Hsuf; lia|].
    split.
    { intros i Hi. destruct (Nat.eq_dec i t) as [->|Hn].
      - exists r. rewrite Hleq. auto.
      - rewrite Hlt by assumption. apply Hpre. lia. }
    split.
    { intros Hu i i' Hii. destruct (Nat.eq_dec i' t) as [->|Hn].
      - rewrite Hleq, Hlt by lia. intros E. apply (Hnt Hu). exists i. split; [lia|assumption].
      - rewrite !Hlt by lia. apply Hnd; [assumption|lia]. }
    split; [tauto|].
    split; [cbv zeta; destruct unique; [rewrite jset_length|]; exact HL2|].
    intros j Hj. split.
    - intros Hu Htk'. rewrite Hu. apply Htk in Htk'. cbv zeta. rewrite jset_in_range by (rewrite HL2; lia). rewrite Nat2Z.id.
      destruct (Nat.eq_dec j r) as [->|Hn].
      + apply nth_upd_eq. rewrite HL2. assumption.
      + rewrite nth_upd_neq by assumption. destruct Htk' as [Htk'|]; [|contradiction].
        destruct (Hp j Hj) as [H1 _]. rewrite Hadd by assumption. rewrite H1 by assumption. apply Iadd.
    - intros Hc. cbv zeta.
      assert (Hbase : unique = false \/ ~ takenl (g_idx s) t j ->
        B (b0 + 2 * S t) (nth j (map2 (fadd O) (lpen1 t s) (kcol k xs (jget p0 xs (Z.of_nat r)))) nan)).
      { intros Hc'. destruct (Hp j Hj) as [_ H2]. rewrite Hadd by assumption.
        replace (b0 + 2 * S t) with (S (b0 + 2 * t + 1)) by lia. apply Badd; [auto|lia]. }
      destruct unique eqn:Hu.
      + destruct Hc as [Hc|Hc]; [discriminate|]. rewrite jset_in_range by (rewrite HL2; lia). rewrite Nat2Z.id.
        rewrite nth_upd_neq.
        * apply Hbase. right. intros Hx. apply Hc, Htk. now left.
        * intros ->. apply Hc, Htk. now right.
      + apply Hbase. now left.
  Qed.

  Lemma linit_inv : linv 0 ls0.
  Proof.
    unfold linv, ls0. cbn [g_idx g_pen g_size]. repeat split; auto; try (intros; lia).
    - intros _ [i [Hi _]]. lia.
    - intros _. rewrite Nat.mul_0_r, Nat.add_0_r. apply Bpen0, nth_In. lia.
  Qed.
  Lemma lst_inv t : t <= M -> linv t (fori t lbody ls0).
  Proof.
    induction t; intros Ht; [exact linit_inv|]. rewrite fori_S. apply lstep_inv; [lia|]. apply IHt. lia.
  Qed.
End Loop.

(** ** The whole selection *)
Section Selection.
  Context {V : Type} (O : FOps V) {P Y : Type} (p0 : P) (y0 : Y) (k : P -> P -> V) (B : nat -> V -> Prop).
  Notation nan := (fnan O).
  Notation inf := (finf O).

  Lemma posx_count {A} (xs : list A) (dw : list V) : length dw = length xs -> length (posx O xs dw) = count_pos O dw.
  Proof.
    intros H. unfold posx, count_pos. rewrite <- H. clear H xs.
    assert (G : forall (f : nat -> V) l, length (filter (fun j => fgt0 O (f j)) l) = length (filter (fgt0 O) (map f l))).
    { intros f l. induction l; simpl; auto. destruct (fgt0 O (f a)); simpl; auto. }
    rewrite G. f_equal. f_equal.
    assert (L : forall l : list V, map (fun j => nth j l nan) (seq 0 (length l)) = l).
    { induction l as [|a l IH]; auto. cbn [length seq map nth]. f_equal. rewrite <- seq_shift, map_map. exact IH. }
    apply L.
  Qed.
  Lemma count_pos_some (w : list V) i : (i < length w)%nat -> fgt0 O (nth i w nan) = true -> (0 < count_pos O w)%nat.
  Proof.
    intros Hi H. unfold count_pos. assert (I : In (nth i w nan) (filter (fgt0 O) w)) by (apply filter_In; split; auto; now apply nth_In).
    destruct (filter (fgt0 O) w); [destruct I|simpl; lia].
  Qed.

  Lemma lselection (c : Coresubset P Y V) xs dw sel m unique bs ord mean b0 :
    c_pre c = mkData xs dw None -> length dw = length xs -> length (c_w c) = length (c_idx c) ->
    let M := Nat.max (length (c_idx c)) m in
    let cw := c_w c ++ repeat (f0 O) (m - length (c_idx c)) in
    let init := Z.of_nat (count_pos O cw) in
    (forall i, Permutation (ord i) (seq 0 M)) ->
    (1 <= count_pos O dw)%nat -> (unique = true -> M <= count_pos O dw)%nat ->
    compute_mean O p0 y0 k (as_data O xs)
      (points O p0 y0 (mkCS (c_idx c ++ repeat 0%Z (m - length (c_idx c))) cw (mkData xs dw None))) Axis1 bs = Ok (MVec mean) ->
    length mean = length xs ->
    (forall v, In v mean -> B b0 (fmul O (fofZ O init) v)) ->
    (forall t t' v, B t v -> t <= t' -> B t' v) -> (forall t, ~ B t inf) -> (forall t, ~ B t nan) ->
    (forall t v a b, B t v -> t < b0 + 2 * M -> B (S t) (fadd O v (k a b))) ->
    (forall t v a b, B t v -> t < b0 + 2 * M -> B (S t) (fsub O v (k a b))) ->
    (forall a b, fadd O inf (k a b) = inf) -> (forall a b, fsub O inf (k a b) = inf) ->
    (forall idx, length idx = M -> lsel_ok O B xs idx sel init b0) ->
    exists l, greedy_selection O p0 y0 c sel m k unique bs ord = Ok (mkCS (map Z.of_nat l) (repeat (f1 O) m) (c_pre c)) /\
      length l = m /\ (forall i, In i l -> (i < length xs)%nat /\ fgt0 O (nth i dw nan) = true) /\ (unique = true -> NoDup l).
  Proof.
    intros Hpre Hdw HcL M cw init Hord Hen1 Hen2 Hmean HmL HB0 Bmono Binf Bnan Badd Bsub Iadd Isub Hsel.
    unfold greedy_selection. rewrite Hpre. cbn [unpack2 d_y d_x d_w bind]. fold cw. rewrite Hmean. cbn [bind]. fold init.
    set (idx := c_idx c ++ repeat 0%Z (m - length (c_idx c))) in *.
    assert (HiL : length idx = M) by (unfold idx; rewrite app_length, repeat_length; unfold M; lia).
    assert (HwL : length cw = M) by (unfold cw; rewrite app_length, repeat_length; unfold M; lia).
    set (pen := map (fun v => fmul O (fofZ O init) v) mean).
    assert (INV : linv O B xs dw idx unique init b0 m (fori m (lbody O p0 k xs dw cw sel unique ord) (ls0 idx pen init))).
    { apply (lst_inv O p0 k B xs dw cw idx pen sel unique ord init b0); auto; rewrite ?HiL; auto.
      - unfold pen. now rewrite map_length.
      - intros v Hv. unfold pen in Hv. apply in_map_iff in Hv as [u [<- Hu]]. auto.
      - rewrite (posx_count xs dw Hdw). auto.
      - unfold init. lia.
      - intros [i [Hi Hp]]. unfold init. pose proof (count_pos_some cw i ltac:(lia) Hp). lia.
      - unfold M. lia. }
    unfold lbody, ls0 in INV. set (out := fori m _ _) in *.
    destruct INV as (IL & _ & Ipre & Ind & _).
    set (l := map Z.to_nat (firstn m (g_idx out))).
    assert (FL : length (firstn m (g_idx out)) = m) by (rewrite firstn_length_le; unfold M in *; lia).
    assert (NF : forall i, i < m -> nth i (firstn m (g_idx out)) 0%Z = nth i (g_idx out) 0%Z).
    { intros i Hi. rewrite <- (firstn_skipn m (g_idx out)) at 2. rewrite app_nth1; auto. lia. }
    assert (LL : length l = m) by (unfold l; now rewrite map_length).
    assert (LZ : map Z.of_nat l = firstn m (g_idx out)).
    { unfold l. rewrite map_map. rewrite <- (map_id (firstn m (g_idx out))) at 2. apply map_ext_in. intros z Hz.
      apply In_nth with (d := 0%Z) in Hz as [i [Hi <-]]. rewrite NF by lia. destruct (Ipre i ltac:(lia)) as [r [-> _]]. lia. }
    assert (NL : forall i, i < m -> Z.of_nat (nth i l 0) = nth i (g_idx out) 0%Z).
    { intros i Hi. rewrite <- NF by assumption. rewrite <- LZ. rewrite (nth_map_lt _ l i 0) by lia. reflexivity. }
    exists l. rewrite LZ, FL. split; [reflexivity|]. split; auto. split.
    - intros i Hi. apply In_nth with (d := 0) in Hi as [j [Hj <-]]. rewrite LL in Hj. destruct (Ipre j Hj) as [r [Er [Hr Hw]]].
      rewrite <- NL in Er by assumption. apply Nat2Z.inj in Er. rewrite Er. auto.
    - intros U. apply (NoDup_nth l 0). intros i j Hi Hj E. rewrite LL in *.
      destruct (Nat.lt_trichotomy i j) as [L|[L|L]]; auto; exfalso.
      + apply (Ind U i j); [lia|]. rewrite <- !NL by lia. now rewrite E.
      + apply (Ind U j i); [lia|]. rewrite <- !NL by lia. now rewrite E.
  Qed.
End Selection.
