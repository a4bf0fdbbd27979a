(** * Invariants of the greedy selection loop *)
From Coq Require Import List ZArith Reals Lra Lia Bool Permutation.
From Verif Require Import Num Jax RSum JaxFacts ArgFacts DataModel MeanModel MeanProofs DataMeanLemmas
  GreedyModel.
Import ListNotations.
Open Scope R_scope.

Lemma fgt0_fin a : fgt0 EROps (Fin a) = true <-> 0 < a.
Proof. unfold fgt0. simpl. apply Rltb_true. Qed.
Lemma fgt0_fin_false a : fgt0 EROps (Fin a) = false <-> ~ 0 < a.
Proof. rewrite <- fgt0_fin. destruct (fgt0 EROps (Fin a)); split; intros; try congruence; exfalso; auto. Qed.
Lemma nth_map_Fin j l d : (j < length l)%nat -> nth j (map Fin l) d = Fin (nth j l 0).
Proof. intros. rewrite (nth_indep _ d (Fin 0)) by (now rewrite map_length). apply map_nth. Qed.
Lemma nth_map_lt {A B} (f : A -> B) l j da db : (j < length l)%nat -> nth j (map f l) db = f (nth j l da).
Proof. intros. rewrite (nth_indep _ db (f da)) by (now rewrite map_length). apply map_nth. Qed.

Lemma filter_len_le {A} (f : A -> bool) l : (length (filter f l) <= length l)%nat.
Proof. induction l; simpl; auto. destruct (f a); simpl; lia. Qed.

Lemma map_seq_ext {A} (f g : nat -> A) t : (forall i, (i < t)%nat -> f i = g i) -> map f (seq 0 t) = map g (seq 0 t).
Proof. intros H. apply map_ext_in. intros i Hi. apply in_seq in Hi. apply H. lia. Qed.

Section Greedy.
  Context {P : Type} (p0 : P) (k : P -> P -> R).
  Notation kE := (fun a b => Fin (k a b) : ER).
  Variables (xs : list P) (dw cw : list R) (idx0 : list Z) (pen0 : list R).
  Variables (sel : nat -> list ER -> Z -> Z) (unique : bool) (ord : nat -> list nat) (init : Z).
  Notation n := (length xs).
  Notation M := (length idx0).
  Hypothesis Hdw : length dw = n.
  Hypothesis Hcw : length cw = M.
  Hypothesis Hpen0 : length pen0 = n.
  Hypothesis Hord : forall i, Permutation (ord i) (seq 0 M).

  Definition gbody := greedy_body EROps p0 kE xs (map Fin dw) (map Fin cw) sel unique ord.
  Definition gs0 : @gstate ER := mkG idx0 (map Fin pen0) init.
  Definition gst (t : nat) : @gstate ER := fori t gbody gs0.

  Definition outR (i j : nat) : R :=
    if Rlt_dec 0 (nth i cw 0) then k (nth j xs p0) (jget p0 xs (nth i idx0 0%Z)) else 0.
  Definition penR (l : list Z) (t j : nat) : R :=
    nth j pen0 0
    + Rsum (map (fun i => k (nth j xs p0) (jget p0 xs (nth i l 0%Z)) - outR i j) (seq 0 t)).
  Definition penS (l : list Z) (t j : nat) : R := penR l t j - outR t j.
  Definition sizeR (t : nat) : Z :=
    (init + Z.of_nat (length (filter (fun i => if Rlt_dec 0%R (nth i cw 0%R) then false else true) (seq 0 t))))%Z.

  Definition taken (l : list Z) (t j : nat) : Prop := exists i, (i < t)%nat /\ nth i l 0%Z = Z.of_nat j.
  Lemma taken_dec l t j : {taken l t j} + {~ taken l t j}.
  Proof.
    induction t.
    - right. intros [i [H _]]. lia.
    - destruct IHt as [H|H].
      + left. destruct H as [i [Hi E]]. exists i. split; [lia|assumption].
      + destruct (Z.eq_dec (nth t l 0%Z) (Z.of_nat j)) as [E|E].
        * left. exists t. split; [lia|assumption].
        * right. intros [i [Hi E']]. destruct (Nat.eq_dec i t) as [->|]; [contradiction|].
          apply H. exists i. split; [lia|assumption].
  Qed.

  (** penalties: infinite on taken points (when [unique]), else the running sum *)
  Definition pen_ok (pen : list ER) (l : list Z) (t : nat) (f : nat -> R) : Prop :=
    length pen = n /\
    forall j, (j < n)%nat ->
      (unique = true -> taken l t j -> nth j pen NaN = PInf) /\
      (unique = false \/ ~ taken l t j -> nth j pen NaN = Fin (f j)).

  Definition ginv (t : nat) (s : @gstate ER) : Prop :=
    length (g_idx s) = M /\
    (forall i, (t <= i)%nat -> nth i (g_idx s) 0%Z = nth i idx0 0%Z) /\
    (forall i, (i < t)%nat -> exists r, nth i (g_idx s) 0%Z = Z.of_nat r /\ (r < n)%nat /\ 0 < nth r dw 0) /\
    (unique = true -> forall i i', (i < i' < t)%nat -> nth i (g_idx s) 0%Z <> nth i' (g_idx s) 0%Z) /\
    g_size s = sizeR t /\
    pen_ok (g_pen s) (g_idx s) t (penR (g_idx s) t).

  (** the penalty after the replaced element has been subtracted *)
  Definition pen1 (t : nat) (s : @gstate ER) : list ER :=
    if fgt0 EROps (nth t (map Fin cw) (f0 EROps))
    then map2 (fsub EROps) (g_pen s) (kcol kE xs (jget p0 xs (nth t (g_idx s) 0%Z))) else g_pen s.
  Definition size1 (t : nat) (s : @gstate ER) : Z :=
    if fgt0 EROps (nth t (map Fin cw) (f0 EROps)) then g_size s else (g_size s + 1)%Z.
  Definition gvalid (t : nat) (s : @gstate ER) : list ER :=
    valid_penalty EROps unique (ord t) (map Fin dw) (map Fin cw) (g_idx s) t (pen1 t s).
  Definition gchoice (t : nat) (s : @gstate ER) : Z := sel t (gvalid t s) (size1 t s).

  Lemma gbody_unfold t s :
    gbody t s = mkG (upd t (gchoice t s) (g_idx s))
      (let p := map2 (fadd EROps) (pen1 t s) (kcol kE xs (jget p0 xs (gchoice t s))) in
       if unique then jset p (gchoice t s) PInf else p) (size1 t s).
  Proof. reflexivity. Qed.

  Lemma kcol_nth r j : (j < n)%nat -> nth j (kcol kE xs r) NaN = Fin (k (nth j xs p0) r).
  Proof. intros. unfold kcol. now rewrite (nth_map_lt _ xs j p0). Qed.
  Lemma kcol_length r : length (kcol kE xs r) = n.
  Proof. apply map_length. Qed.
  Lemma cw_nth t : (t < M)%nat -> nth t (map Fin cw) (f0 EROps) = Fin (nth t cw 0).
  Proof using Hcw. intros. rewrite nth_map_Fin; [reflexivity|]. now rewrite Hcw. Qed.

  Lemma pen1_ok t s : (t < M)%nat -> ginv t s -> pen_ok (pen1 t s) (g_idx s) t (penS (g_idx s) t).
  Proof.
    intros Ht [HL [Hsuf [_ [_ [_ [HpL Hp]]]]]]. unfold pen1. rewrite cw_nth by assumption.
    destruct (fgt0 EROps (Fin (nth t cw 0))) eqn:E.
    - apply fgt0_fin in E. split.
      + rewrite map2_length, kcol_length. lia.
      + intros j Hj. destruct (Hp j Hj) as [H1 H2].
        rewrite (nth_map2 _ _ _ _ NaN NaN) by (rewrite ?kcol_length; lia).
        rewrite kcol_nth by assumption. split.
        * intros Hu Ht'. rewrite H1 by assumption. reflexivity.
        * intros Hc. rewrite H2 by assumption. simpl. f_equal. unfold penS, outR.
          destruct (Rlt_dec 0 (nth t cw 0)); [|contradiction]. now rewrite Hsuf by lia.
    - apply fgt0_fin_false in E. split; [assumption|]. intros j Hj. destruct (Hp j Hj) as [H1 H2].
      split; [assumption|]. intros Hc. rewrite H2 by assumption. f_equal. unfold penS, outR.
      destruct (Rlt_dec 0 (nth t cw 0)); [contradiction|]. lra.
  Qed.
  Lemma size1_eq t s : (t < M)%nat -> g_size s = sizeR t -> size1 t s = sizeR (S t).
  Proof using Hcw.
    clear Hdw Hpen0 Hord.
    intros Ht H. unfold size1, sizeR in *. rewrite cw_nth by assumption.
    rewrite seq_S, filter_app, app_length. cbn [filter length plus]. rewrite ?Nat.add_0_l.
    destruct (fgt0 EROps (Fin (nth t cw 0))) eqn:E.
    - apply fgt0_fin in E. destruct (Rlt_dec 0 (nth t cw 0)); [|contradiction]. simpl. lia.
    - apply fgt0_fin_false in E. destruct (Rlt_dec 0 (nth t cw 0)); [contradiction|]. simpl. lia.
  Qed.
  Lemma sizeR_pos t : (0 <= init)%Z ->
    ((exists i, (i < M)%nat /\ 0 < nth i cw 0) -> (0 < init)%Z) -> (t < M)%nat -> (0 < sizeR (S t))%Z.
  Proof.
    intros H0 Hi Ht. unfold sizeR.
    destruct (Rlt_dec 0 (nth t cw 0)) as [H|H].
    - assert (0 < init)%Z by (apply Hi; eauto). lia.
    - rewrite seq_S, filter_app, app_length. simpl.
      destruct (Rlt_dec 0 (nth t cw 0)); [contradiction|]. simpl. lia.
  Qed.

  Lemma wrap_clamp z j : (j < n)%nat -> wrap n z = Z.of_nat j -> clamp n z = j.
  Proof. intros Hj H. unfold clamp. rewrite H. lia. Qed.

  Lemma valid_facts pen idx i :
    length pen = n -> length idx = M ->
    let v := valid_penalty EROps unique (ord i) (map Fin dw) (map Fin cw) idx i pen in
    length v = n /\
    forall j, (j < n)%nat ->
      (0 < nth j dw 0 -> nth j v NaN = nth j pen NaN \/
         (unique = true /\ nth j v NaN = PInf /\
          exists p, (p < M)%nat /\ wrap n (nth p idx 0%Z) = Z.of_nat j /\
                    nth p idx 0%Z <> nth i idx 0%Z /\ 0 < nth p cw 0)) /\
      (~ 0 < nth j dw 0 -> nth j v NaN = NaN \/ nth j v NaN = PInf) /\
      (unique = true ->
       (exists p, (p < M)%nat /\ wrap n (nth p idx 0%Z) = Z.of_nat j) ->
       (forall q, (q < M)%nat -> wrap n (nth q idx 0%Z) = Z.of_nat j ->
          nth q idx 0%Z <> nth i idx 0%Z /\ 0 < nth q cw 0) ->
       nth j v NaN = PInf).
  Proof.
    intros HpL HiL v. unfold valid_penalty in v. set (valid := map2 _ (map Fin dw) pen) in v.
    assert (HvL : length valid = n) by (unfold valid; rewrite map2_length, map_length; lia).
    assert (Hval : forall j, (j < n)%nat ->
      nth j valid NaN = if fgt0 EROps (Fin (nth j dw 0)) then nth j pen NaN else NaN).
    { intros j Hj. unfold valid. rewrite (nth_map2 _ _ _ _ NaN NaN) by (rewrite ?map_length; lia).
      rewrite nth_map_Fin by lia. reflexivity. }
    assert (Hpos : forall j, (j < n)%nat -> 0 < nth j dw 0 -> nth j valid NaN = nth j pen NaN).
    { intros j Hj H. rewrite Hval by assumption. apply fgt0_fin in H. now rewrite H. }
    assert (Hnon : forall j, (j < n)%nat -> ~ 0 < nth j dw 0 -> nth j valid NaN = NaN).
    { intros j Hj H. rewrite Hval by assumption. apply fgt0_fin_false in H. now rewrite H. }
    destruct unique eqn:Hu.
    2:{ split; [exact HvL|]. intros j Hj. split; [|split].
        - intros H. left. now apply Hpos.
        - intros H. left. now apply Hnon.
        - discriminate. }
    set (vals := map2 _ idx (map Fin cw)) in v.
    assert (HvalsL : length vals = M) by (unfold vals; rewrite map2_length, map_length; lia).
    assert (Hin : forall p, In p (ord i) <-> (p < M)%nat).
    { intros p. split; intros H.
      - apply (Permutation_in _ (Hord i)) in H. apply in_seq in H. lia.
      - apply (Permutation_in _ (Permutation_sym (Hord i))). apply in_seq. lia. }
    assert (Hvals : forall p j, (p < M)%nat -> (j < n)%nat -> wrap n (nth p idx 0%Z) = Z.of_nat j ->
      nth p vals (f0 EROps) =
      if negb (nth p idx 0 =? nth i idx 0)%Z && fgt0 EROps (Fin (nth p cw 0)) then PInf
      else nth j valid NaN).
    { intros p j Hp Hj Hw. unfold vals.
      rewrite (nth_map2 _ _ _ _ 0%Z NaN) by (rewrite ?map_length; lia).
      rewrite nth_map_Fin by lia.
      replace (jget (f0 EROps) valid (nth p idx 0%Z)) with (nth j valid NaN); [reflexivity|].
      unfold jget. rewrite HvL, (wrap_clamp _ j) by assumption. apply nth_indep. lia. }
    split; [unfold v; rewrite scatter_length; exact HvL|].
    intros j Hj. split; [|split].
    - intros H. destruct (scatter_nth (ord i) (f0 EROps) NaN valid idx vals j) as [E|[p [Hp [Hw [_ E]]]]].
      + left. unfold v. rewrite E. now apply Hpos.
      + rewrite HvL in Hw. apply Hin in Hp. fold v in E. rewrite (Hvals p j Hp Hj Hw) in E.
        destruct (negb _ && _) eqn:C.
        * right. split; [reflexivity|]. split; [assumption|]. exists p.
          apply andb_true_iff in C. destruct C as [C1 C2]. apply fgt0_fin in C2.
          apply negb_true_iff, Z.eqb_neq in C1. auto.
        * left. rewrite E. now apply Hpos.
    - intros H. destruct (scatter_nth (ord i) (f0 EROps) NaN valid idx vals j) as [E|[p [Hp [Hw [_ E]]]]].
      + left. unfold v. rewrite E. now apply Hnon.
      + rewrite HvL in Hw. apply Hin in Hp. fold v in E. rewrite (Hvals p j Hp Hj Hw) in E.
        destruct (negb _ && _); [now right|]. left. rewrite E. now apply Hnon.
    - intros _ [p [Hp Hw]] Hall.
      destruct (scatter_nth_written (ord i) (f0 EROps) NaN valid idx vals j p) as [q [Hq [Hwq E]]].
      + now apply Hin.
      + now rewrite HvL.
      + lia.
      + rewrite HvL in Hwq. apply Hin in Hq. fold v in E. rewrite E, (Hvals q j Hq Hj Hwq).
        destruct (Hall q Hq Hwq) as [A B]. apply Z.eqb_neq in A. rewrite A.
        apply fgt0_fin in B. rewrite B. reflexivity.
  Qed.

  (** what the loop needs from the selection function *)
  Definition sel_ok : Prop :=
    forall i v size, (i < M)%nat -> length v = n -> (0 < size)%Z ->
      (forall j, (j < n)%nat -> nth j v NaN <> NInf) ->
      (forall j, (j < n)%nat -> nth j v NaN = NaN -> ~ 0 < nth j dw 0) ->
      (exists j r, (j < n)%nat /\ nth j v NaN = Fin r) ->
      exists r q, sel i v size = Z.of_nat r /\ (r < n)%nat /\ nth r v NaN = Fin q.

  Definition pos_idx : list nat := filter (fun j => if Rlt_dec 0 (nth j dw 0) then true else false) (seq 0 n).
  Lemma pos_idx_spec j : In j pos_idx <-> (j < n)%nat /\ 0 < nth j dw 0.
  Proof.
    clear - xs dw.
    unfold pos_idx. rewrite filter_In, in_seq. destruct (Rlt_dec 0 (nth j dw 0)); split; intros; intuition; try lia; discriminate.
  Qed.
  Lemma pos_idx_nodup : NoDup pos_idx.
  Proof. apply NoDup_filter, seq_NoDup. Qed.

  Lemma pigeon (l m : list nat) : NoDup l -> (length m < length l)%nat -> exists j, In j l /\ ~ In j m.
  Proof.
    intros Hn HL.
    destruct (Exists_dec (fun j => ~ In j m) l) as [H|H].
    - intros x. destruct (in_dec Nat.eq_dec x m); [right|left]; auto.
    - apply Exists_exists in H. exact H.
    - exfalso. assert (incl l m).
      { intros x Hx. destruct (in_dec Nat.eq_dec x m); auto. exfalso. apply H, Exists_exists. eauto. }
      pose proof (NoDup_incl_length Hn H0). lia.
  Qed.

  Definition enough : Prop :=
    (1 <= length pos_idx)%nat /\ (unique = true -> (M <= length pos_idx)%nat).
  Hypothesis Hsel : sel_ok.
  Hypothesis Henough : enough.
  Hypothesis Hinit0 : (0 <= init)%Z.
  Hypothesis Hinit : (exists i, (i < M)%nat /\ 0 < nth i cw 0) -> (0 < init)%Z.

  (** facts about the values offered to the selection function at step [t] *)
  Lemma step_values t s : (t < M)%nat -> ginv t s ->
    length (gvalid t s) = n /\
    (forall j, (j < n)%nat -> nth j (gvalid t s) NaN <> NInf) /\
    (forall j, (j < n)%nat -> nth j (gvalid t s) NaN = NaN -> ~ 0 < nth j dw 0) /\
    (forall j q, (j < n)%nat -> nth j (gvalid t s) NaN = Fin q ->
       0 < nth j dw 0 /\ (unique = true -> ~ taken (g_idx s) t j) /\ q = penS (g_idx s) t j) /\
    (forall j, (j < n)%nat -> 0 < nth j dw 0 -> (unique = true -> ~ taken (g_idx s) t j) ->
       (unique = true -> forall p, (p < M)%nat -> wrap n (nth p (g_idx s) 0%Z) = Z.of_nat j ->
          nth p (g_idx s) 0%Z = nth t (g_idx s) 0%Z \/ ~ 0 < nth p cw 0) ->
       nth j (gvalid t s) NaN = Fin (penS (g_idx s) t j)) /\
    exists j q, (j < n)%nat /\ nth j (gvalid t s) NaN = Fin q.
  Proof.
    intros Ht Hi. pose proof (pen1_ok t s Ht Hi) as [HpL Hp].
    destruct Hi as [HL [Hsuf [Hpre [Hnd [Hsz _]]]]].
    destruct (valid_facts (pen1 t s) (g_idx s) t HpL HL) as [HvL Hv].
    fold (gvalid t s) in HvL, Hv.
    assert (Hcase : forall j, (j < n)%nat ->
       (nth j (pen1 t s) NaN = PInf /\ unique = true /\ taken (g_idx s) t j) \/
       (nth j (pen1 t s) NaN = Fin (penS (g_idx s) t j) /\ (unique = true -> ~ taken (g_idx s) t j))).
    { intros j Hj. destruct (Hp j Hj) as [H1 H2]. destruct unique eqn:Hu.
      - destruct (taken_dec (g_idx s) t j); [left|right]; auto.
      - right. split; [auto|discriminate]. }
    assert (Hfin : forall j, (j < n)%nat -> 0 < nth j dw 0 -> (unique = true -> ~ taken (g_idx s) t j) ->
       (unique = true -> forall p, (p < M)%nat -> wrap n (nth p (g_idx s) 0%Z) = Z.of_nat j ->
          nth p (g_idx s) 0%Z = nth t (g_idx s) 0%Z \/ ~ 0 < nth p cw 0) ->
       nth j (gvalid t s) NaN = Fin (penS (g_idx s) t j)).
    { intros j Hj Hw Hnt Hex. destruct (Hv j Hj) as [H1 _]. destruct (H1 Hw) as [E|[Hu [_ [p [Hp1 [Hp2 [Hp3 Hp4]]]]]]].
      - destruct (Hcase j Hj) as [[_ [Hu Htk]]|[E' _]]; [exfalso; now apply Hnt|]. congruence.
      - exfalso. destruct (Hex Hu p Hp1 Hp2); contradiction. }
    split; [assumption|]. split; [|split; [|split; [|split; [exact Hfin|]]]].
    - intros j Hj E. destruct (Hv j Hj) as [H1 [H2 _]].
      destruct (Rlt_dec 0 (nth j dw 0)) as [Hw|Hw].
      + destruct (H1 Hw) as [E'|[_ [E' _]]]; [|congruence].
        destruct (Hcase j Hj) as [[Ec _]|[Ec _]]; congruence.
      + destruct (H2 Hw); congruence.
    - intros j Hj E Hw. destruct (Hv j Hj) as [H1 _].
      destruct (H1 Hw) as [E'|[_ [E' _]]]; [|congruence].
      destruct (Hcase j Hj) as [[Ec _]|[Ec _]]; congruence.
    - intros j q Hj E. destruct (Hv j Hj) as [H1 [H2 _]].
      destruct (Rlt_dec 0 (nth j dw 0)) as [Hw|Hw].
      + split; [assumption|]. destruct (H1 Hw) as [E'|[_ [E' _]]]; [|congruence].
        destruct (Hcase j Hj) as [[Ec _]|[Ec Hn']]; [congruence|]. split; [assumption|]. congruence.
      + destruct (H2 Hw); congruence.
    - destruct Henough as [He1 He2]. destruct unique eqn:Hu.
      + set (excl := map (fun p => Z.to_nat (wrap n (nth p (g_idx s) 0%Z)))
                         (filter (fun p => negb (p =? t)%nat) (seq 0 M))).
        assert (HeL : (length excl < length pos_idx)%nat).
        { unfold excl. rewrite map_length.
          assert (length (filter (fun p => negb (p =? t)%nat) (seq 0 M)) < M)%nat; [|specialize (He2 eq_refl); lia].
          assert (Hlt : forall l, In t l -> (length (filter (fun p => negb (p =? t)%nat) l) < length l)%nat).
          { clear. induction l; simpl; [tauto|]. intros H. destruct (Nat.eqb_spec a t) as [->|Hn]; simpl.
            - pose proof (filter_len_le (fun p => negb (p =? t)%nat) l). lia.
            - destruct H; [congruence|]. specialize (IHl H). lia. }
          specialize (Hlt (seq 0 M)). rewrite seq_length in Hlt. apply Hlt, in_seq. lia. }
        destruct (pigeon _ _ pos_idx_nodup HeL) as [j [Hj1 Hj2]].
        apply pos_idx_spec in Hj1. destruct Hj1 as [Hj Hw].
        assert (Hne : forall p, (p < M)%nat -> p <> t -> wrap n (nth p (g_idx s) 0%Z) <> Z.of_nat j).
        { intros p Hp1 Hp2 E. apply Hj2. unfold excl. apply in_map_iff. exists p. split.
          - rewrite E. lia.
          - apply filter_In. split; [apply in_seq; lia|]. apply negb_true_iff. now apply Nat.eqb_neq. }
        exists j, (penS (g_idx s) t j). split; [assumption|]. apply Hfin; auto.
        * intros _ [i [Hi1 Hi2]]. apply (Hne i); try lia. rewrite Hi2. apply wrap_in_range. lia.
        * intros _ p Hp1 Hp2. destruct (Nat.eq_dec p t) as [->|Hn]; [now left|].
          exfalso. now apply (Hne p).
      + destruct pos_idx as [|j l] eqn:Epos; [simpl in He1; lia|].
        assert (Hj : In j pos_idx) by (rewrite Epos; now left).
        apply pos_idx_spec in Hj. destruct Hj as [Hj Hw].
        exists j, (penS (g_idx s) t j). split; [assumption|]. apply Hfin; auto; discriminate.
  Qed.

  Lemma step_choice t s : (t < M)%nat -> ginv t s ->
    exists r q, gchoice t s = Z.of_nat r /\ (r < n)%nat /\ nth r (gvalid t s) NaN = Fin q /\
      0 < nth r dw 0 /\ (unique = true -> ~ taken (g_idx s) t r).
  Proof.
    intros Ht Hi. destruct (step_values t s Ht Hi) as [H1 [H2 [H3 [H4 [_ H5]]]]].
    destruct (Hsel t (gvalid t s) (size1 t s)) as [r [q [E [Hr Eq]]]]; auto.
    - rewrite size1_eq; [|assumption|apply Hi]. now apply sizeR_pos.
    - exists r, q. destruct (H4 r q Hr Eq) as [A [B _]]. auto.
  Qed.


  Lemma step_inv t s : (t < M)%nat -> ginv t s -> ginv (S t) (gbody t s).
  Proof.
    intros Ht Hi. destruct (step_choice t s Ht Hi) as [r [q [Er [Hr [Eq [Hw Hnt]]]]]].
    pose proof (pen1_ok t s Ht Hi) as [HpL Hp].
    destruct Hi as [HL [Hsuf [Hpre [Hnd [Hsz _]]]]].
    rewrite gbody_unfold, Er. unfold ginv. cbn [g_idx g_pen g_size].
    set (l' := upd t (Z.of_nat r) (g_idx s)).
    assert (Hlt : forall i, i <> t -> nth i l' 0%Z = nth i (g_idx s) 0%Z).
    { intros. unfold l'. now apply nth_upd_neq. }
    assert (Hleq : nth t l' 0%Z = Z.of_nat r) by (unfold l'; apply nth_upd_eq; lia).
    assert (Hpen : forall j, penR l' (S t) j = penS (g_idx s) t j + k (nth j xs p0) (nth r xs p0)).
    { intros j. unfold penS, penR. rewrite seq_S, map_app, Rsum_app. cbn [map Rsum plus].
      rewrite Hleq, jget_nat by assumption.
      rewrite (map_seq_ext (fun i => k (nth j xs p0) (jget p0 xs (nth i l' 0%Z)) - outR i j)
                 (fun i => k (nth j xs p0) (jget p0 xs (nth i (g_idx s) 0%Z)) - outR i j)).
      - lra.
      - intros i Hi. now rewrite Hlt by lia. }
    assert (Htk : forall j, taken l' (S t) j <-> taken (g_idx s) t j \/ j = r).
    { intros j. split.
      - intros [i [Hi E]]. destruct (Nat.eq_dec i t) as [->|Hn].
        + right. rewrite Hleq in E. lia.
        + left. exists i. rewrite Hlt in E by assumption. split; [lia|assumption].
      - intros [[i [Hi E]]| ->].
        + exists i. rewrite Hlt by lia. split; [lia|assumption].
        + exists t. split; [lia|assumption]. }
    repeat split.
    - unfold l'. now rewrite upd_length.
    - intros i Hi. rewrite Hlt by lia. apply Hsuf. lia.
    - intros i Hi. destruct (Nat.eq_dec i t) as [->|Hn].
      + exists r. rewrite Hleq. auto.
      + rewrite Hlt by assumption. apply Hpre. lia.
    - intros Hu i i' Hii. destruct (Nat.eq_dec i' t) as [->|Hn].
      + rewrite Hleq, Hlt by lia. intros E. apply (Hnt Hu). exists i. split; [lia|assumption].
      + rewrite !Hlt by lia. apply Hnd; [assumption|lia].
    - now apply size1_eq.
    - assert (HL2 : length (map2 (fadd EROps) (pen1 t s) (kcol kE xs (jget p0 xs (Z.of_nat r)))) = n)
        by (rewrite map2_length, kcol_length; lia).
      cbv zeta. destruct unique; [rewrite jset_length|]; exact HL2.
    - intros Hu Htk'. rewrite Hu. apply Htk in Htk'.
      assert (HL2 : length (map2 (fadd EROps) (pen1 t s) (kcol kE xs (jget p0 xs (Z.of_nat r)))) = n)
        by (rewrite map2_length, kcol_length; lia).
      cbv zeta. rewrite jset_in_range by (rewrite HL2; lia). rewrite Nat2Z.id.
      destruct (Nat.eq_dec j r) as [->|Hn].
      + apply nth_upd_eq. rewrite HL2. assumption.
      + rewrite nth_upd_neq by assumption. destruct Htk' as [Htk'|]; [|contradiction].
        destruct (Hp j H) as [H1 _]. rewrite (nth_map2 _ _ _ _ NaN NaN) by (rewrite ?kcol_length; lia).
        rewrite kcol_nth, H1 by assumption. reflexivity.
    - intros Hc. cbv zeta.
      assert (HL2 : length (map2 (fadd EROps) (pen1 t s) (kcol kE xs (jget p0 xs (Z.of_nat r)))) = n)
        by (rewrite map2_length, kcol_length; lia).
      assert (Hbase : unique = false \/ ~ taken (g_idx s) t j ->
        nth j (map2 (fadd EROps) (pen1 t s) (kcol kE xs (jget p0 xs (Z.of_nat r)))) NaN = Fin (penR l' (S t) j)).
      { intros Hc'. destruct (Hp j H) as [_ H2]. rewrite (nth_map2 _ _ _ _ NaN NaN) by (rewrite ?kcol_length; lia).
        rewrite kcol_nth, H2 by assumption. simpl. f_equal. rewrite Hpen. now rewrite jget_nat by assumption. }
      destruct unique eqn:Hu.
      + destruct Hc as [Hc|Hc]; [discriminate|]. rewrite jset_in_range by (rewrite HL2; lia). rewrite Nat2Z.id.
        rewrite nth_upd_neq.
        * apply Hbase. right. intros Hx. apply Hc, Htk. now left.
        * intros ->. apply Hc, Htk. now right.
      + apply Hbase. now left.
  Qed.

  Lemma init_inv : ginv 0 gs0.
  Proof.
    unfold ginv, gs0. cbn [g_idx g_pen g_size]. repeat split; auto; try (intros; lia).
    - unfold sizeR. simpl. lia.
    - now rewrite map_length.
    - intros _ [i [Hi _]]. lia.
    - intros _. rewrite nth_map_Fin by lia. f_equal. unfold penR. simpl. lra.
  Qed.
  Lemma gst_inv t : (t <= M)%nat -> ginv t (gst t).
  Proof.
    induction t; intros Ht; [exact init_inv|].
    unfold gst. rewrite fori_S. apply step_inv; [lia|]. apply IHt. lia.
  Qed.
  Lemma gst_S t : gst (S t) = gbody t (gst t).
  Proof. apply fori_S. Qed.
  (** positions below t are final after t steps *)
  Lemma gst_stable t u i : (i < t)%nat -> (t <= u)%nat ->
    nth i (g_idx (gst u)) 0%Z = nth i (g_idx (gst t)) 0%Z.
  Proof.
    intros Hi Htu. induction Htu; auto. rewrite gst_S, gbody_unfold. cbn [g_idx].
    rewrite nth_upd_neq by lia. exact IHHtu.
  Qed.
  Lemma gst_choice t u : (t < u)%nat -> (u <= M)%nat -> nth t (g_idx (gst u)) 0%Z = gchoice t (gst t).
  Proof.
    intros Htu Hu. rewrite (gst_stable (S t) u) by lia. rewrite gst_S, gbody_unfold. cbn [g_idx].
    apply nth_upd_eq. destruct (gst_inv t) as [HL _]; lia.
  Qed.
End Greedy.
