(** * Closed forms of the blocked kernel means for an arbitrary arithmetic *)
From Coq Require Import List ZArith Lia Bool.
From Verif Require Import Num Jax RSum JaxFacts DataModel MeanModel.
Import ListNotations.

Section MeanGeneric.
  Context {V : Type} (O : FOps V) {P Y : Type} (p0 : P) (y0 : Y) (k : P -> P -> V).
  Notation data := (Data P Y V).
  Notation block := (list P * list V)%type.

  (** the sum over one block, and over all blocks, as they are computed *)
  Definition bdot (x : P) (yb : block) : V := fdot O (map (k x) (fst yb)) (snd yb).
  Definition browsum (yblocks : list block) (x : P) : V := fsum O (map (bdot x) yblocks).
  Definition bslice (xb yb : block) : list V := map (fun x => bdot x yb) (fst xb).
  Definition btotal (xblocks yblocks : list block) : V :=
    fold_left (fadd O) (flat_map (fun xb => map (fun yb => fdot O (snd xb) (bslice xb yb)) yblocks) xblocks) (f0 O).

  Lemma colslice_gen xb (yb : block) : map (fun row => fdot O row (snd yb)) (pairwise k (fst xb) (fst yb)) = bslice xb yb.
  Proof. unfold pairwise, bslice, bdot. now rewrite map_map. Qed.
  Lemma slice_sums_gen xb yblocks acc :
    slice_sums O k xb yblocks acc =
    (fold_left (fadd O) (map (fun yb => fdot O (snd xb) (bslice xb yb)) yblocks) acc, map (bslice xb) yblocks).
  Proof.
    unfold slice_sums.
    assert (G : forall slices acc,
      fold_left (fun (s : V * list (list V)) yb =>
        let '(acc, slices) := s in
        let kmat := pairwise k (fst xb) (fst yb) in
        let column_sum_slice := map (fun row => fdot O row (snd yb)) kmat in
        (fadd O acc (fdot O (snd xb) column_sum_slice), slices ++ [column_sum_slice])) yblocks (acc, slices)
      = (fold_left (fadd O) (map (fun yb => fdot O (snd xb) (bslice xb yb)) yblocks) acc, slices ++ map (bslice xb) yblocks)).
    { clear acc. induction yblocks as [|yb ys IH]; intros sl acc; cbn [fold_left map].
      - now rewrite app_nil_r.
      - cbv zeta. rewrite colslice_gen, IH, <- app_assoc. reflexivity. }
    apply G.
  Qed.
  Lemma sum_axis0_gen (xs : list P) (fs : list (P -> V)) :
    sum_axis0 O (length xs) (map (fun f => map f xs) fs) = map (fun x => fsum O (map (fun f => f x) fs)) xs.
  Proof.
    unfold sum_axis0. apply nth_ext with (d := fsum O []) (d' := fsum O []); [now rewrite !map_length, seq_length|].
    rewrite map_length, seq_length. intros j Hj.
    rewrite (nth_indep _ (fsum O []) (fsum O (map (fun row => nth 0%nat row (f0 O)) (map (fun f => map f xs) fs)))) by (rewrite map_length, seq_length; auto).
    rewrite (map_nth (fun j => fsum O (map (fun row => nth j row (f0 O)) (map (fun f => map f xs) fs))) (seq 0 (length xs)) 0%nat j), seq_nth by auto. cbn [plus].
    destruct (nth_error xs j) as [x|] eqn:E; [|apply nth_error_None in E; lia].
    rewrite (nth_error_nth (map (fun x => fsum O (map (fun f => f x) fs)) xs) j (x := fsum O (map (fun f => f x) fs))) by now rewrite nth_error_map, E.
    f_equal. rewrite map_map. apply map_ext. intros f. apply nth_error_nth. now rewrite nth_error_map, E.
  Qed.
  Lemma block_scan_gen xblocks yblocks :
    block_scan O k xblocks yblocks =
    (btotal xblocks yblocks, map (fun xb => map (browsum yblocks) (fst xb)) xblocks).
  Proof.
    unfold block_scan, btotal.
    assert (G : forall cols acc,
      fold_left (fun (s : V * list (list V)) xb =>
        let '(acc, cols) := s in
        let '(acc', slices) := slice_sums O k xb yblocks acc in
        (acc', cols ++ [sum_axis0 O (length (fst xb)) slices])) xblocks (acc, cols)
      = (fold_left (fadd O) (flat_map (fun xb => map (fun yb => fdot O (snd xb) (bslice xb yb)) yblocks) xblocks) acc,
         cols ++ map (fun xb => map (browsum yblocks) (fst xb)) xblocks)).
    { induction xblocks as [|xb xs IH]; intros cols acc; cbn [fold_left map flat_map].
      - now rewrite app_nil_r.
      - rewrite slice_sums_gen, IH, fold_left_app, <- app_assoc. cbn [app]. do 3 f_equal.
        replace (map (bslice xb) yblocks) with (map (fun f => map f (fst xb)) (map (fun yb x => bdot x yb) yblocks)) by (rewrite map_map; reflexivity).
        rewrite sum_axis0_gen. unfold browsum. apply map_ext. intros x. now rewrite map_map. }
    apply G.
  Qed.

  (** the blocks of a data set *)
  Definition gblocks (d : data) (b : nat) : list block :=
    let w := normalize_w O true (d_w d) in
    let pad := cdiv (length (d_x d)) b * b - length (d_x d) in
    combine (chunks b (d_x d ++ repeat p0 pad)) (chunks b (w ++ repeat (f0 O) pad)).
  Lemma block_convert_gen (d : data) bs : d_x d <> [] ->
    0 < eff_block (length (d_x d)) bs <= length (d_x d) /\
    block_convert O p0 y0 d bs = Ok (gblocks d (eff_block (length (d_x d)) bs), length (d_x d)).
  Proof.
    intros H. unfold block_convert, d_len, normalize. cbn [d_x d_w d_y].
    assert (0 < length (d_x d)) by (destruct (d_x d); [congruence|simpl; lia]).
    assert (E : 0 < eff_block (length (d_x d)) bs <= length (d_x d)) by (destruct bs; cbn; lia).
    split; auto. destruct (eff_block (length (d_x d)) bs) as [|b] eqn:EB; [lia|]. reflexivity.
  Qed.
  Lemma normalize_w_len b (w : list V) : length (normalize_w O b w) = length w.
  Proof. unfold normalize_w. destruct b; now rewrite ?map_length. Qed.
  Lemma combine_fst {A B} (l : list A) (m : list B) : length l = length m -> map fst (combine l m) = l.
  Proof. revert m. induction l; intros [|b m]; simpl; intros; try discriminate; auto. f_equal. auto. Qed.
  Lemma combine_snd {A B} (l : list A) (m : list B) : length l = length m -> map snd (combine l m) = m.
  Proof. revert m. induction l; intros [|b m]; simpl; intros; try discriminate; auto. f_equal. auto. Qed.
  Lemma gblocks_facts (d : data) b : length (d_w d) = length (d_x d) -> 0 < b ->
    let pad := cdiv (length (d_x d)) b * b - length (d_x d) in
    concat (map fst (gblocks d b)) = d_x d ++ repeat p0 pad /\
    concat (map snd (gblocks d b)) = normalize_w O true (d_w d) ++ repeat (f0 O) pad /\
    Forall (fun blk => length (fst blk) = length (snd blk)) (gblocks d b) /\ pad < b.
  Proof.
    intros HL Hb pad.
    assert (HL2 : length (d_x d ++ repeat p0 pad) = length (normalize_w O true (d_w d) ++ repeat (f0 O) pad)).
    { rewrite !app_length, !repeat_length, normalize_w_len. lia. }
    pose proof (chunks_shape b _ _ HL2) as HS.
    assert (HC : length (chunks b (d_x d ++ repeat p0 pad)) = length (chunks b (normalize_w O true (d_w d) ++ repeat (f0 O) pad))).
    { apply (f_equal (@length nat)) in HS. now rewrite !map_length in HS. }
    unfold gblocks. fold pad. rewrite combine_fst, combine_snd by assumption. rewrite !chunks_concat by assumption.
    repeat split.
    - clear HC. revert HS. generalize (chunks b (normalize_w O true (d_w d) ++ repeat (f0 O) pad)) as cw.
      generalize (chunks b (d_x d ++ repeat p0 pad)) as cx.
      induction cx as [|c cx IH]; intros [|w cw] HS; simpl in *; try discriminate; constructor; [simpl; congruence|]. apply IH. congruence.
    - unfold pad, cdiv. pose proof (Nat.div_mod_eq (length (d_x d) + (b - 1)) b). 
      pose proof (Nat.mod_upper_bound (length (d_x d) + (b - 1)) b). nia.
  Qed.
  Lemma bs_pair bs : exists bx by_, leaves_repeat (bs_leaves bs) 2 = [bx; by_].
  Proof. destruct bs; cbn; eauto. Qed.

  (** [compute_mean] with axis 1: one sum per row of [x] *)
  Lemma mean_axis1_gen (x y : data) bs : d_x x <> [] -> d_x y <> [] -> length (d_w x) = length (d_x x) ->
    exists b, 0 < b <= length (d_x y) /\
      compute_mean O p0 y0 k x y Axis1 bs = Ok (MVec (map (browsum (gblocks y b)) (d_x x))).
  Proof.
    intros Hx Hy HL. unfold compute_mean. destruct (bs_pair bs) as [bx [by_ ->]]. cbn [nth].
    destruct (block_convert_gen x bx Hx) as [Ex ->]. destruct (block_convert_gen y by_ Hy) as [Ey ->]. cbn [bind].
    rewrite block_scan_gen. eexists. split; [exact Ey|]. do 2 f_equal.
    destruct (gblocks_facts x (eff_block (length (d_x x)) bx) HL ltac:(lia)) as [F _].
    rewrite <- (map_map fst (map (browsum (gblocks y (eff_block (length (d_x y)) by_))))).
    rewrite <- concat_map, F, map_app. rewrite <- (map_length (browsum (gblocks y (eff_block (length (d_x y)) by_))) (d_x x)) at 1.
    rewrite firstn_app, Nat.sub_diag, firstn_all. cbn [firstn]. apply app_nil_r.
  Qed.
  Lemma mean_axis0_gen (x y : data) bs : d_x x <> [] -> d_x y <> [] -> length (d_w y) = length (d_x y) ->
    exists b, 0 < b <= length (d_x x) /\
      compute_mean O p0 y0 k x y Axis0 bs = Ok (MVec (map (browsum (gblocks x b)) (d_x y))).
  Proof.
    intros Hx Hy HL. destruct (bs_pair bs) as [bx [by_ E]].
    destruct (mean_axis1_gen y x (BTwo by_ bx) Hy Hx HL) as [b [Hb M]]. exists b. split; auto. rewrite <- M.
    unfold compute_mean. rewrite E. reflexivity.
  Qed.
  Lemma mean_none_gen (x y : data) bs : d_x x <> [] -> d_x y <> [] ->
    exists bx by_, 0 < bx <= length (d_x x) /\ 0 < by_ <= length (d_x y) /\
      compute_mean O p0 y0 k x y AxisNone bs = Ok (MScalar (btotal (gblocks x bx) (gblocks y by_))).
  Proof.
    intros Hx Hy. unfold compute_mean. destruct (bs_pair bs) as [bx [by_ ->]]. cbn [nth].
    destruct (block_convert_gen x bx Hx) as [Ex ->]. destruct (block_convert_gen y by_ Hy) as [Ey ->]. cbn [bind].
    rewrite block_scan_gen. eexists _, _. split; [exact Ex|]. split; [exact Ey|]. reflexivity.
  Qed.
End MeanGeneric.
