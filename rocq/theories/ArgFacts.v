(** * Facts about argmax / argmin / nanargmax / nanargmin *)
From Coq Require Import List ZArith Bool Lia.
From Verif Require Import Num Jax.
Import ListNotations.

Section ArgB.
  Context {V : Type} (better : V -> V -> bool).
  Hypothesis btrans : forall x y z, better x y = true -> better y z = true -> better x z = true.
  Hypothesis bneg : forall x y z, better x z = true -> better x y = true \/ better y z = true.
  Hypothesis birr : forall x, better x x = false.

  Lemma argbest_spec d l pre bi :
    bi < length pre ->
    (forall j, j < length pre -> better (nth j pre d) (nth bi pre d) = false) ->
    (forall j, j < bi -> better (nth bi pre d) (nth j pre d) = true) ->
    let r := argbest better l (length pre) bi (nth bi pre d) in
    r < length (pre ++ l) /\
    (forall j, j < length (pre ++ l) -> better (nth j (pre ++ l) d) (nth r (pre ++ l) d) = false) /\
    (forall j, j < r -> better (nth r (pre ++ l) d) (nth j (pre ++ l) d) = true).
  Proof.
    revert pre bi; induction l as [|x t IH]; intros pre bi Hb Hbest Hfirst; cbn [argbest].
    - rewrite app_nil_r. auto.
    - assert (HL : length (pre ++ [x]) = S (length pre)) by (rewrite app_length; simpl; lia).
      assert (Hx : nth (length pre) (pre ++ [x]) d = x).
      { rewrite app_nth2 by lia. now rewrite Nat.sub_diag. }
      assert (Hp : forall j, j < length pre -> nth j (pre ++ [x]) d = nth j pre d).
      { intros. now rewrite app_nth1. }
      destruct (better x (nth bi pre d)) eqn:E.
      + specialize (IH (pre ++ [x]) (length pre)). rewrite HL, Hx in IH.
        rewrite <- app_assoc in IH. cbn [app] in IH. apply IH; clear IH.
        * lia.
        * intros j Hj. destruct (Nat.eq_dec j (length pre)) as [->|Hn].
          -- rewrite Hx. apply birr.
          -- rewrite Hp by lia. destruct (better (nth j pre d) x) eqn:E2; auto.
             assert (better (nth j pre d) (nth bi pre d) = true) by (eapply btrans; eauto).
             rewrite Hbest in H by lia. discriminate.
        * intros j Hj. rewrite Hp by lia.
          destruct (bneg x (nth j pre d) (nth bi pre d) E) as [|H]; auto.
          rewrite Hbest in H by lia. discriminate.
      + specialize (IH (pre ++ [x]) bi). rewrite HL in IH.
        rewrite (Hp bi Hb) in IH.
        rewrite <- app_assoc in IH. cbn [app] in IH. apply IH; clear IH.
        * lia.
        * intros j Hj. destruct (Nat.eq_dec j (length pre)) as [->|Hn].
          -- now rewrite Hx.
          -- rewrite Hp by lia. apply Hbest. lia.
        * intros j Hj. rewrite Hp by lia. now apply Hfirst.
  Qed.
  Lemma argb_spec d l : l <> [] ->
    let r := argb better l in
    r < length l /\
    (forall j, j < length l -> better (nth j l d) (nth r l d) = false) /\
    (forall j, j < r -> better (nth r l d) (nth j l d) = true).
  Proof.
    destruct l as [|x t]; [congruence|]. intros _. cbn [argb].
    apply (argbest_spec d t [x] 0); simpl; try lia.
    intros j Hj. destruct j; [apply birr|lia].
  Qed.
End ArgB.
(** the arg of a list depends on values only: characterisation *)
Lemma argb_unique {V} (better : V -> V -> bool) d l r1 r2 :
  (forall j, j < length l -> better (nth j l d) (nth r1 l d) = false) ->
  (forall j, j < r1 -> better (nth r1 l d) (nth j l d) = true) -> r1 < length l ->
  (forall j, j < length l -> better (nth j l d) (nth r2 l d) = false) ->
  (forall j, j < r2 -> better (nth r2 l d) (nth j l d) = true) -> r2 < length l ->
  r1 = r2.
Proof.
  intros A1 B1 C1 A2 B2 C2.
  destruct (Nat.lt_trichotomy r1 r2) as [H|[H|H]]; auto.
  - specialize (B2 r1 H). rewrite A1 in B2 by lia. discriminate.
  - specialize (B1 r2 H). rewrite A2 in B1 by lia. discriminate.
Qed.

Section ExtOrder.
  Context {T : Type} (N : NumOps T) (HN : NumLaws N).
  Notation O := (extOps N).
  Lemma nltb_irr a : nltb N a a = false.
  Proof. unfold nltb. now rewrite (nleb_refl N HN). Qed.
  Lemma nltb_trans a b c : nltb N a b = true -> nltb N b c = true -> nltb N a c = true.
  Proof.
    unfold nltb. rewrite !negb_true_iff. intros H1 H2.
    destruct (nleb N c a) eqn:E; auto.
    destruct (nleb_total N HN a b) as [H|H]; [|congruence].
    rewrite (nleb_trans N HN c a b E H) in H2. discriminate.
  Qed.
  Lemma nltb_neg a b c : nltb N a c = true -> nltb N a b = true \/ nltb N b c = true.
  Proof.
    unfold nltb. rewrite !negb_true_iff. intros H.
    destruct (nleb N b a) eqn:E1; auto. destruct (nleb N c b) eqn:E2; auto.
    rewrite (nleb_trans N HN c b a E2 E1) in H. discriminate.
  Qed.
  Lemma eltb_irr a : eltb N a a = false.
  Proof. destruct a; simpl; auto. apply nltb_irr. Qed.
  Lemma eltb_trans a b c : eltb N a b = true -> eltb N b c = true -> eltb N a c = true.
  Proof. destruct a, b, c; simpl; auto; try discriminate. apply nltb_trans. Qed.
  Lemma eltb_neg a b c : b <> NaN -> eltb N a c = true -> eltb N a b = true \/ eltb N b c = true.
  Proof. destruct a, b, c; simpl; auto; try discriminate; try congruence. intros _. apply nltb_neg. Qed.
  Lemma eltb_asym a b : eltb N a b = true -> eltb N b a = false.
  Proof.
    intros H. destruct (eltb N b a) eqn:E; auto.
    assert (eltb N a a = true) by (eapply eltb_trans; eauto). rewrite eltb_irr in H0. discriminate.
  Qed.

  Lemma gt_nan_spec x b : gt_nan O x b = negb (eisnan b) && (eisnan x || eltb N b x).
  Proof. reflexivity. Qed.
  Ltac bb := repeat (rewrite ?andb_true_iff, ?orb_true_iff, ?negb_true_iff in *).
  Lemma gt_nan_irr x : gt_nan O x x = false.
  Proof. rewrite gt_nan_spec. destruct x; simpl; auto. apply nltb_irr. Qed.
  Lemma gt_nan_trans x y z : gt_nan O x y = true -> gt_nan O y z = true -> gt_nan O x z = true.
  Proof.
    rewrite !gt_nan_spec. destruct x, y, z; simpl; auto; try discriminate.
    intros H1 H2. eapply nltb_trans; eauto.
  Qed.
  Lemma gt_nan_neg x y z : gt_nan O x z = true -> gt_nan O x y = true \/ gt_nan O y z = true.
  Proof.
    rewrite !gt_nan_spec. destruct x, y, z; simpl; auto; try discriminate.
    intros H. destruct (nltb_neg _ x0 _ H); auto.
  Qed.
  Lemma lt_nan_irr x : lt_nan O x x = false.
  Proof. unfold lt_nan. destruct x; simpl; auto. apply nltb_irr. Qed.
  Lemma lt_nan_trans x y z : lt_nan O x y = true -> lt_nan O y z = true -> lt_nan O x z = true.
  Proof.
    unfold lt_nan. destruct x, y, z; simpl; auto; try discriminate.
    intros H1 H2. eapply nltb_trans; eauto.
  Qed.
  Lemma lt_nan_neg x y z : lt_nan O x z = true -> lt_nan O x y = true \/ lt_nan O y z = true.
  Proof.
    unfold lt_nan. destruct x, y, z; simpl; auto; try discriminate.
    intros H. destruct (nltb_neg _ x0 _ H); auto.
  Qed.

  Lemma argmax_spec l : l <> [] -> Forall (fun v => v <> NaN) l ->
    let r := argmax O l in
    r < length l /\
    (forall j, j < length l -> eltb N (nth r l NaN) (nth j l NaN) = false) /\
    (forall j, j < r -> eltb N (nth j l NaN) (nth r l NaN) = true).
  Proof.
    intros Hl Hn r.
    destruct (argb_spec (gt_nan O) gt_nan_trans gt_nan_neg gt_nan_irr NaN l Hl) as [H1 [H2 H3]].
    fold (argmax O l) in H1, H2, H3. fold r in H1, H2, H3.
    assert (G : forall j, j < length l -> nth j l NaN <> NaN).
    { intros j Hj. rewrite Forall_forall in Hn. apply Hn. now apply nth_In. }
    split; [assumption|]. split.
    - intros j Hj. specialize (H2 j Hj). rewrite gt_nan_spec in H2.
      pose proof (G j Hj). pose proof (G r H1).
      destruct (nth j l NaN), (nth r l NaN); simpl in *; congruence.
    - intros j Hj. specialize (H3 j Hj). rewrite gt_nan_spec in H3.
      apply andb_true_iff in H3. destruct H3 as [_ H3]. pose proof (G r H1).
      destruct (nth r l NaN); simpl in *; congruence.
  Qed.
  Lemma argmin_spec l : l <> [] -> Forall (fun v => v <> NaN) l ->
    let r := argmin O l in
    r < length l /\
    (forall j, j < length l -> eltb N (nth j l NaN) (nth r l NaN) = false) /\
    (forall j, j < r -> eltb N (nth r l NaN) (nth j l NaN) = true).
  Proof.
    intros Hl Hn r.
    destruct (argb_spec (lt_nan O) lt_nan_trans lt_nan_neg lt_nan_irr NaN l Hl) as [H1 [H2 H3]].
    fold (argmin O l) in H1, H2, H3. fold r in H1, H2, H3.
    assert (G : forall j, j < length l -> nth j l NaN <> NaN).
    { intros j Hj. rewrite Forall_forall in Hn. apply Hn. now apply nth_In. }
    split; [assumption|]. split.
    - intros j Hj. specialize (H2 j Hj). unfold lt_nan in H2.
      pose proof (G j Hj). pose proof (G r H1).
      destruct (nth j l NaN), (nth r l NaN); simpl in *; congruence.
    - intros j Hj. specialize (H3 j Hj). unfold lt_nan in H3.
      apply andb_true_iff in H3. destruct H3 as [_ H3]. pose proof (G r H1).
      destruct (nth r l NaN); simpl in *; congruence.
  Qed.
  Lemma argb_lt {V} (better : V -> V -> bool) l : l <> [] -> argb better l < length l.
  Proof.
    assert (H : forall l i bi bv, bi < i -> argbest better l i bi bv < i + length l).
    { clear. induction l; cbn [argbest length]; intros i bi bv H; [lia|].
      destruct (better a bv).
      - specialize (IHl (S i) i a ltac:(lia)). lia.
      - specialize (IHl (S i) bi bv ltac:(lia)). lia. }
    destruct l; [congruence|]. intros _. cbn [argb].
    specialize (H l 1 0 v ltac:(lia)). simpl. lia.
  Qed.

  Lemma nth_map_nan (f : ext T -> ext T) l j : j < length l ->
    nth j (map f l) NaN = f (nth j l NaN).
  Proof. intros. rewrite (nth_indep _ NaN (f NaN)) by (now rewrite map_length). apply map_nth. Qed.

  (** [nanargmax] finds the first largest among the non-NaN entries as soon as
      one of them is above -inf *)
  Lemma nanargmax_spec l j0 :
    j0 < length l -> nth j0 l NaN <> NaN -> nth j0 l NaN <> NInf ->
    exists r, nanargmax O l = Z.of_nat r /\ r < length l /\
      nth r l NaN <> NaN /\ nth r l NaN <> NInf /\
      (forall j, j < length l -> eltb N (nth r l NaN) (nth j l NaN) = false) /\
      (forall j, j < r -> nth j l NaN = NaN \/ eltb N (nth j l NaN) (nth r l NaN) = true).
  Proof.
    intros Hj0 Hn0 Hi0. unfold nanargmax.
    assert (Hnn : forallb (fisnan O) l = false).
    { destruct (forallb (fisnan O) l) eqn:E; auto. rewrite forallb_forall in E.
      specialize (E (nth j0 l NaN) (nth_In _ _ Hj0)). cbn in E.
      destruct (nth j0 l NaN); simpl in E; congruence. }
    rewrite Hnn. set (f := fun v => if fisnan O v then fninf O else v).
    assert (Hl : map f l <> []) by (destruct l; [simpl in Hj0; lia|discriminate]).
    assert (Hf : Forall (fun v => v <> NaN) (map f l)).
    { apply Forall_forall. intros v Hv. apply in_map_iff in Hv. destruct Hv as [u [<- _]].
      unfold f. cbn. destruct u; simpl; discriminate. }
    destruct (argmax_spec _ Hl Hf) as [H1 [H2 H3]].
    set (r := argmax O (map f l)) in *. rewrite map_length in H1, H2.
    exists r. split; [reflexivity|]. split; [assumption|].
    assert (Hr : nth r (map f l) NaN <> NInf).
    { intros E. specialize (H2 j0 Hj0). rewrite E, nth_map_nan in H2 by assumption.
      unfold f in H2. cbn in H2. destruct (nth j0 l NaN); simpl in *; congruence. }
    assert (Er : nth r (map f l) NaN = nth r l NaN).
    { rewrite nth_map_nan in * by assumption. unfold f in *. cbn in *.
      destruct (nth r l NaN); simpl in *; congruence. }
    assert (Hrn : nth r l NaN <> NaN).
    { rewrite <- Er. rewrite Forall_forall in Hf. apply Hf. apply nth_In. now rewrite map_length. }
    split; [assumption|]. rewrite Er in *. split; [assumption|]. split.
    - intros j Hj. specialize (H2 j Hj). rewrite nth_map_nan in H2 by assumption.
      unfold f in H2. cbn in H2. destruct (nth j l NaN) eqn:E; simpl in *; auto.
    - intros j Hj. specialize (H3 j Hj). rewrite nth_map_nan in H3 by lia.
      unfold f in H3. cbn in H3. destruct (nth j l NaN) eqn:E; simpl in *; auto.
  Qed.
  Lemma nanargmin_spec l j0 :
    j0 < length l -> nth j0 l NaN <> NaN -> nth j0 l NaN <> PInf ->
    exists r, nanargmin O l = Z.of_nat r /\ r < length l /\
      nth r l NaN <> NaN /\ nth r l NaN <> PInf /\
      (forall j, j < length l -> eltb N (nth j l NaN) (nth r l NaN) = false) /\
      (forall j, j < r -> nth j l NaN = NaN \/ eltb N (nth r l NaN) (nth j l NaN) = true).
  Proof.
    intros Hj0 Hn0 Hi0. unfold nanargmin.
    assert (Hnn : forallb (fisnan O) l = false).
    { destruct (forallb (fisnan O) l) eqn:E; auto. rewrite forallb_forall in E.
      specialize (E (nth j0 l NaN) (nth_In _ _ Hj0)). cbn in E.
      destruct (nth j0 l NaN); simpl in E; congruence. }
    rewrite Hnn. set (f := fun v => if fisnan O v then finf O else v).
    assert (Hl : map f l <> []) by (destruct l; [simpl in Hj0; lia|discriminate]).
    assert (Hf : Forall (fun v => v <> NaN) (map f l)).
    { apply Forall_forall. intros v Hv. apply in_map_iff in Hv. destruct Hv as [u [<- _]].
      unfold f. cbn. destruct u; simpl; discriminate. }
    destruct (argmin_spec _ Hl Hf) as [H1 [H2 H3]].
    set (r := argmin O (map f l)) in *. rewrite map_length in H1, H2.
    exists r. split; [reflexivity|]. split; [assumption|].
    assert (Hr : nth r (map f l) NaN <> PInf).
    { intros E. specialize (H2 j0 Hj0). rewrite E, nth_map_nan in H2 by assumption.
      unfold f in H2. cbn in H2. destruct (nth j0 l NaN); simpl in *; congruence. }
    assert (Er : nth r (map f l) NaN = nth r l NaN).
    { rewrite nth_map_nan in * by assumption. unfold f in *. cbn in *.
      destruct (nth r l NaN); simpl in *; congruence. }
    assert (Hrn : nth r l NaN <> NaN).
    { rewrite <- Er. rewrite Forall_forall in Hf. apply Hf. apply nth_In. now rewrite map_length. }
    split; [assumption|]. rewrite Er in *. split; [assumption|]. split.
    - intros j Hj. specialize (H2 j Hj). rewrite nth_map_nan in H2 by assumption.
      unfold f in H2. cbn in H2. destruct (nth j l NaN) eqn:E; simpl in *; auto.
    - intros j Hj. specialize (H3 j Hj). rewrite nth_map_nan in H3 by lia.
      unfold f in H3. cbn in H3. destruct (nth j l NaN) eqn:E; simpl in *; auto.
  Qed.
End ExtOrder.
