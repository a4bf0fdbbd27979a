(** * Data and coresets: proofs *)
From Coq Require Import List ZArith Reals Lra Lia Bool.
From Verif Require Import Num Jax RSum JaxFacts DataModel MeanProofs.
Import ListNotations.

(** ** Well-formed data: what the constructors guarantee *)
Definition wf_data {P Y V} (d : Data P Y V) : Prop :=
  length (d_w d) = length (d_x d) /\
  match d_y d with None => True | Some y => length y = length (d_x d) end.
Definition in_range (n : nat) (i : Z) : Prop := (0 <= i < Z.of_nat n)%Z.

Section D.
  Context {V : Type} (O : FOps V) {P Y : Type} (p0 : P) (y0 : Y).
  Notation data := (Data P Y V).

  Lemma broadcast_length n w ws : broadcast_weights O n w = Ok ws -> length ws = n.
  Proof.
    destruct w; simpl.
    - injection 1 as <-. apply repeat_length.
    - injection 1 as <-. apply repeat_length.
    - destruct (Nat.eqb_spec (length ws0) n).
      + injection 1 as <-. assumption.
      + destruct ws0 as [|v [|? ?]]; try discriminate.
        injection 1 as <-. apply repeat_length.
  Qed.

  Lemma make_data_ok x w (d : data) :
    make_data O x w = Ok d ->
    d_x d = x /\ d_y d = None /\ wf_data d /\
    match w with WNone => d_w d = repeat (f1 O) (length x)
               | WScalar v => d_w d = repeat v (length x)
               | WVec l => length l = length x -> d_w d = l end.
  Proof.
    unfold make_data. destruct (broadcast_weights O (length x) w) eqn:E; simpl; [|discriminate].
    injection 1 as <-. cbn. repeat split; auto.
    - now apply broadcast_length in E.
    - destruct w; cbn [broadcast_weights] in E.
      + injection E as <-. reflexivity.
      + injection E as <-. reflexivity.
      + intros HL. apply Nat.eqb_eq in HL. rewrite HL in E. congruence.
  Qed.
  Lemma make_data_total_none x : exists d : data, make_data O x WNone = Ok d.
  Proof. eexists. reflexivity. Qed.

  Lemma make_supervised_ok x y w (d : data) :
    make_supervised O x y w = Ok d ->
    d_x d = x /\ d_y d = Some y /\ wf_data d /\ length y = length x.
  Proof.
    unfold make_supervised. destruct (broadcast_weights O (length x) w) eqn:E; simpl; [|discriminate].
    destruct (Nat.eqb_spec (length y) (length x)); [|discriminate].
    injection 1 as <-. cbn. repeat split; auto. now apply broadcast_length in E.
  Qed.
  Lemma make_supervised_mismatch (x : list P) (y : list Y) w :
    length y <> length x -> make_supervised O x y w = Err ValueError.
  Proof.
    intros H. unfold make_supervised.
    destruct w; cbn [broadcast_weights bind].
    - apply Nat.eqb_neq in H. now rewrite H.
    - apply Nat.eqb_neq in H. now rewrite H.
    - destruct (length ws =? length x)%nat.
      + cbn. apply Nat.eqb_neq in H. now rewrite H.
      + destruct ws as [|v [|? ?]]; cbn; auto. apply Nat.eqb_neq in H. now rewrite H.
  Qed.

  Lemma gather_nth {A} (d : A) l idx i :
    (i < length idx)%nat -> in_range (length l) (nth i idx 0%Z) ->
    nth i (gather d l idx) d = nth (Z.to_nat (nth i idx 0%Z)) l d.
  Proof.
    intros Hi Hr. unfold gather.
    rewrite (nth_indep (map (jget d l) idx) d (jget d l 0%Z)) by (rewrite map_length; auto).
    rewrite map_nth. now apply jget_in_range.
  Qed.

  Lemma getitem_pairing (d : data) idx :
    wf_data d -> Forall (in_range (d_len d)) idx ->
    d_len (d_getitem O p0 y0 d idx) = length idx /\
    wf_data (d_getitem O p0 y0 d idx) /\
    forall i, (i < length idx)%nat ->
      let j := Z.to_nat (nth i idx 0%Z) in
      (j < d_len d)%nat /\
      nth i (d_x (d_getitem O p0 y0 d idx)) p0 = nth j (d_x d) p0 /\
      nth i (d_w (d_getitem O p0 y0 d idx)) (f0 O) = nth j (d_w d) (f0 O) /\
      match d_y d, d_y (d_getitem O p0 y0 d idx) with
      | None, None => True
      | Some y, Some y' => nth i y' y0 = nth j y y0
      | _, _ => False
      end.
  Proof.
    intros [Hw Hy] Hr. unfold d_len in *.
    assert (Hri : forall i, (i < length idx)%nat -> in_range (length (d_x d)) (nth i idx 0%Z)).
    { intros i Hi. rewrite Forall_forall in Hr. apply Hr. now apply nth_In. }
    repeat split.
    - apply gather_length.
    - cbn. now rewrite !gather_length.
    - cbn. destruct (d_y d); cbn; auto. now rewrite !gather_length.
    - specialize (Hri i H). unfold in_range in Hri. lia.
    - cbn. apply gather_nth; auto.
    - cbn. apply gather_nth; auto. rewrite Hw. auto.
    - cbn. destruct (d_y d); cbn; auto. apply gather_nth; auto. rewrite Hy. auto.
  Qed.

  Lemma gather_gather {A} (d : A) l i j :
    Forall (in_range (length i)) j -> gather d (gather d l i) j = gather d l (gather 0%Z i j).
  Proof.
    intros Hj. unfold gather at 1 3. unfold gather at 2. rewrite map_map.
    apply map_ext_in. intros z Hz. rewrite Forall_forall in Hj. specialize (Hj z Hz).
    rewrite jget_in_range by (rewrite gather_length; exact Hj).
    rewrite (jget_in_range 0%Z i) by exact Hj.
    unfold gather. rewrite (nth_indep _ d (jget d l 0%Z)).
    - apply map_nth.
    - rewrite map_length. unfold in_range in Hj. lia.
  Qed.
  Lemma getitem_compose (d : data) i j :
    Forall (in_range (length i)) j ->
    d_getitem O p0 y0 (d_getitem O p0 y0 d i) j = d_getitem O p0 y0 d (gather 0%Z i j).
  Proof.
    intros Hj. unfold d_getitem. cbn. rewrite !gather_gather by assumption.
    f_equal. destruct (d_y d); cbn; auto. now rewrite gather_gather.
  Qed.

  (** ** Coresubsets *)
  Lemma points_spec (c : Coresubset P Y V) :
    wf_data (c_pre c) -> Forall (in_range (d_len (c_pre c))) (c_idx c) ->
    d_len (points O p0 y0 c) = length (c_idx c) /\
    d_w (points O p0 y0 c) = c_w c /\
    forall i, (i < length (c_idx c))%nat ->
      let j := Z.to_nat (nth i (c_idx c) 0%Z) in
      (j < d_len (c_pre c))%nat /\
      nth i (d_x (points O p0 y0 c)) p0 = nth j (d_x (c_pre c)) p0 /\
      match d_y (c_pre c), d_y (points O p0 y0 c) with
      | None, None => True
      | Some y, Some y' => nth i y' y0 = nth j y y0
      | _, _ => False
      end.
  Proof.
    intros Hwf Hr. destruct (getitem_pairing (c_pre c) (c_idx c) Hwf Hr) as [H1 [_ H2]].
    repeat split; auto.
    - apply (H2 i H).
    - apply (H2 i H).
    - apply (H2 i H).
  Qed.

  Lemma cs_init_ok idx w d :
    cs_init O p0 y0 (IData idx w) (AData d) =
      if (d_len d <? length idx)%nat then Err ValueError else Ok (mkCS idx w d).
  Proof.
    unfold cs_init, points, d_len, d_getitem. cbn [d_x d_w d_y c_pre c_idx].
    now rewrite gather_length.
  Qed.
  Lemma cs_build_array idx d :
    cs_build O p0 y0 (IArray idx) (AData d) =
      if (d_len d <? length idx)%nat then Err ValueError
      else Ok (mkCS idx (repeat (f1 O) (length idx)) d).
  Proof. unfold cs_build, conv_data. cbn [bind]. apply cs_init_ok. Qed.
  Lemma cs_build_raw idx x :
    cs_build O p0 y0 (IArray idx) (AArray x) =
      if (length x <? length idx)%nat then Err ValueError
      else Ok (mkCS idx (repeat (f1 O) (length idx)) (as_data O x)).
  Proof. unfold cs_build, conv_data. cbn [bind]. rewrite cs_init_ok. reflexivity. Qed.
  Lemma cs_init_bound i d c :
    cs_init O p0 y0 i d = Ok c -> (length (c_idx c) <= d_len (c_pre c))%nat.
  Proof.
    destruct i; try discriminate. destruct d; try discriminate.
    rewrite cs_init_ok.
    destruct (Nat.ltb_spec (d_len d) (length i)); [discriminate|].
    injection 1 as <-. cbn. assumption.
  Qed.
  Lemma cs_build_bound i d c :
    cs_build O p0 y0 i d = Ok c -> (length (c_idx c) <= d_len (c_pre c))%nat.
  Proof.
    unfold cs_build. destruct (conv_data O d); cbn [bind]; [|discriminate].
    destruct i; apply cs_init_bound.
  Qed.
  Lemma pc_init_bound i d c :
    pc_init (V:=V) (P:=P) (Y:=Y) i d = Ok c -> (d_len (pc_nodes c) <= d_len (pc_pre c))%nat.
  Proof.
    destruct i as [nodes| | |]; try discriminate. destruct d as [pre| | |]; try discriminate.
    unfold pc_init. destruct (Nat.ltb_spec (d_len pre) (d_len nodes)); [discriminate|].
    injection 1 as <-. assumption.
  Qed.
  Lemma pc_build_bound i d (c : PseudoCoreset P Y V) :
    pc_build O i d = Ok c -> (d_len (pc_nodes c) <= d_len (pc_pre c))%nat.
  Proof.
    unfold pc_build. destruct (conv_data O d); cbn [bind]; [|discriminate].
    destruct i; apply pc_init_bound.
  Qed.
  Lemma pc_init_err (n d : data) :
    (d_len d < d_len n)%nat -> pc_init (AData n) (AData d) = Err ValueError.
  Proof. intros H. unfold pc_init. apply Nat.ltb_lt in H. now rewrite H. Qed.
  Lemma pc_init_ok (n d : data) :
    (d_len n <= d_len d)%nat -> pc_init (AData n) (AData d) = Ok (mkPC n d).
  Proof. intros H. unfold pc_init. destruct (Nat.ltb_spec (d_len d) (d_len n)); [lia|reflexivity]. Qed.
End D.

(** ** normalize over the reals *)
Open Scope R_scope.
Lemma normalize_false_fin w :
  Rsum w <> 0 -> normalize_w EROps false (map Fin w) = map Fin (map (fun a => a / Rsum w) w).
Proof.
  intros H. unfold normalize_w. rewrite fsum_fin, !map_map. apply map_ext. intros a.
  now rewrite fdiv_fin.
Qed.
Lemma normalize_any_fin b w :
  Rsum w <> 0 -> normalize_w EROps b (map Fin w) = map Fin (map (fun a => a / Rsum w) w).
Proof.
  intros H. destruct b.
  - now rewrite normalize_w_true_fin, norm_w_nonzero.
  - now apply normalize_false_fin.
Qed.
Lemma Rsum_normalized w : Rsum w <> 0 -> Rsum (map (fun a => a / Rsum w) w) = 1.
Proof.
  intros H. rewrite (Rsum_map_div (Rsum w) (fun a => a)), map_id. now field.
Qed.
