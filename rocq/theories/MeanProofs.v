(** * Blocked kernel means: proofs *)
From Coq Require Import List ZArith Reals Lra Lia Bool.
From Verif Require Import Num Jax RSum JaxFacts DataModel MeanModel MeanGeneric MeanSpec.
Import ListNotations.
Open Scope R_scope.

(** ** Normalised weights over the reals *)
Definition bigR : R := IZR (2 ^ 128).
(** what [normalize(preserve_zeros=True)] computes on finite weights *)
Definition norm_w (w : list R) : list R :=
  let s := Rsum w in
  if Req_EM_T s 0
  then map (fun a => if Rlt_dec 0 a then bigR else if Rlt_dec a 0 then - bigR else 0) w
  else map (fun a => a / s) w.

Lemma norm_w_length w : length (norm_w w) = length w.
Proof. unfold norm_w. destruct (Req_EM_T _ _); apply map_length. Qed.
Lemma normalize_w_true_fin w :
  normalize_w EROps true (map Fin w) = map Fin (norm_w w).
Proof.
  unfold normalize_w, norm_w. rewrite fsum_fin, !map_map.
  destruct (Req_EM_T (Rsum w) 0) as [E|E].
  - rewrite E. rewrite map_map. apply map_ext. intros a.
    simpl. rewrite !nsign_R.
    destruct (Rlt_dec 0 0); [lra|]. destruct (Rlt_dec 0 0); [lra|].
    destruct (Rlt_dec 0 a); [reflexivity|]. destruct (Rlt_dec a 0); simpl; try reflexivity.
    f_equal. unfold bigR. simpl. lra.
  - rewrite map_map. apply map_ext. intros a. rewrite fdiv_fin by assumption. reflexivity.
Qed.
Lemma norm_w_nonzero w : Rsum w <> 0 -> norm_w w = map (fun a => a / Rsum w) w.
Proof. intros H. unfold norm_w. destruct (Req_EM_T _ _); [contradiction|reflexivity]. Qed.
Lemma norm_w_zero w : (forall a, In a w -> a = 0) -> norm_w w = map (fun _ => 0) w.
Proof.
  intros H. unfold norm_w. rewrite (Rsum_zero w H).
  destruct (Req_EM_T 0 0); [|lra]. apply map_ext_in. intros a Ha. rewrite (H a Ha).
  destruct (Rlt_dec 0 0); [lra|]. destruct (Rlt_dec 0 0); [lra|]. reflexivity.
Qed.

Section Mean.
  Context {P Y : Type} (p0 : P) (y0 : Y) (k : P -> P -> R).
  Notation kE := (fun a b => Fin (k a b) : ER).
  Notation data := (Data P Y ER).

  (** blocks over the reals and their embedding *)
  Definition emb (b : list P * list R) : list P * list ER := (fst b, map Fin (snd b)).
  Definition cslice (xs : list P) (yb : list P * list R) : list R :=
    map (fun x => Rdot (map (k x) (fst yb)) (snd yb)) xs.

  Lemma colslice_fin xs yb :
    map (fun row => fdot EROps row (snd (emb yb))) (pairwise kE xs (fst (emb yb)))
    = map Fin (cslice xs yb).
  Proof.
    unfold pairwise, cslice. rewrite !map_map. apply map_ext. intros x. simpl.
    rewrite <- (map_map (k x) Fin). apply fdot_fin.
  Qed.

  Lemma slice_sums_fin xb yblocks a :
    slice_sums EROps kE (emb xb) (map emb yblocks) (Fin a)
    = (Fin (a + Rsum (map (fun yb => Rdot (snd xb) (cslice (fst xb) yb)) yblocks)),
       map (fun yb => map Fin (cslice (fst xb) yb)) yblocks).
  Proof.
    unfold slice_sums.
    assert (G : forall slices a,
      fold_left (fun (s : ER * list (list ER)) yb =>
        let '(acc, slices) := s in
        let kmat := pairwise kE (fst (emb xb)) (fst yb) in
        let column_sum_slice := map (fun row => fdot EROps row (snd yb)) kmat in
        (fadd EROps acc (fdot EROps (snd (emb xb)) column_sum_slice),
         slices ++ [column_sum_slice])) (map emb yblocks) (Fin a, slices)
      = (Fin (a + Rsum (map (fun yb => Rdot (snd xb) (cslice (fst xb) yb)) yblocks)),
         slices ++ map (fun yb => map Fin (cslice (fst xb) yb)) yblocks)).
    { induction yblocks as [|yb ybs IH]; intros slices b.
      - cbn [map fold_left Rsum]. rewrite app_nil_r. f_equal. f_equal. lra.
      - cbn [map fold_left]. cbv zeta. rewrite colslice_fin.
        change (snd (emb xb)) with (map (@Fin R) (snd xb)).
        change (fst (emb xb)) with (fst xb).
        rewrite fdot_fin.
        replace (fadd EROps (Fin b) (Fin (Rdot (snd xb) (cslice (fst xb) yb))))
          with (@Fin R (b + Rdot (snd xb) (cslice (fst xb) yb))) by reflexivity.
        change (fst xb) with (fst (emb xb)) at 1.
        rewrite IH. rewrite <- app_assoc. cbn [map Rsum app]. f_equal. f_equal. lra. }
    apply G.
  Qed.

  Lemma sum_axis0_fin (xs : list P) (fs : list (P -> R)) :
    sum_axis0 EROps (length xs) (map (fun f => map Fin (map f xs)) fs)
    = map Fin (map (fun x => Rsum (map (fun f => f x) fs)) xs).
  Proof.
    replace (map (fun f => map Fin (map f xs)) fs) with (map (fun f => map f xs) (map (fun f x => Fin (f x) : ER) fs))
      by (rewrite map_map; apply map_ext; intros f; now rewrite map_map).
    rewrite sum_axis0_gen, map_map. apply map_ext. intros x. rewrite map_map, <- fsum_fin. f_equal. now rewrite map_map.
  Qed.

  (** weighted sum of the kernel row of [x] over all y blocks *)
  Definition rowsum (yblocks : list (list P * list R)) (x : P) : R :=
    Rsum (map (fun yb => Rdot (map (k x) (fst yb)) (snd yb)) yblocks).

  Lemma Rdot_map_sum {A} w (fs : list A) (g : A -> P -> R) (xs : list P) :
    Rsum (map (fun f => Rdot w (map (g f) xs)) fs)
    = Rdot w (map (fun x => Rsum (map (fun f => g f x) fs)) xs).
  Proof.
    revert w; induction xs as [|x xs IH]; intros w.
    - destruct w; unfold Rdot; simpl; apply Rsum_map_const0.
    - destruct w as [|c w].
      + unfold Rdot; simpl. apply Rsum_map_const0.
      + unfold Rdot in *. cbn [map map2 Rsum].
        rewrite <- IH, Rsum_map_add, Rsum_map_scal. reflexivity.
  Qed.

  Lemma block_scan_fin xblocks yblocks :
    block_scan EROps kE (map emb xblocks) (map emb yblocks)
    = (Fin (Rsum (map (fun xb => Rdot (snd xb) (map (rowsum yblocks) (fst xb))) xblocks)),
       map (fun xb => map Fin (map (rowsum yblocks) (fst xb))) xblocks).
  Proof.
    unfold block_scan.
    assert (G : forall a cols,
      fold_left (fun (s : ER * list (list ER)) xb =>
        let '(acc, cols) := s in
        let '(acc', slices) := slice_sums EROps kE xb (map emb yblocks) acc in
        (acc', cols ++ [sum_axis0 EROps (length (fst xb)) slices]))
        (map emb xblocks) (Fin a, cols)
      = (Fin (a + Rsum (map (fun xb => Rdot (snd xb) (map (rowsum yblocks) (fst xb))) xblocks)),
         cols ++ map (fun xb => map Fin (map (rowsum yblocks) (fst xb))) xblocks)).
    { induction xblocks as [|xb xbs IH]; intros a cols.
      - cbn [map fold_left Rsum]. rewrite app_nil_r. f_equal. f_equal. lra.
      - cbn [map fold_left]. rewrite slice_sums_fin. rewrite IH.
        replace (sum_axis0 EROps (length (fst (emb xb)))
                   (map (fun yb => map Fin (cslice (fst xb) yb)) yblocks))
          with (map (@Fin R) (map (rowsum yblocks) (fst xb))).
        + rewrite <- app_assoc. cbn [map Rsum app]. f_equal.
          unfold cslice; rewrite (Rdot_map_sum (snd xb) yblocks
                     (fun yb x => Rdot (map (k x) (fst yb)) (snd yb)) (fst xb)).
          unfold rowsum. f_equal. lra.
        + change (fst (emb xb)) with (fst xb).
          pose proof (sum_axis0_fin (fst xb)
            (map (fun yb x => Rdot (map (k x) (fst yb)) (snd yb)) yblocks)) as E.
          rewrite map_map in E. unfold cslice. rewrite E. f_equal.
          apply map_ext. intros x. unfold rowsum. now rewrite map_map. }
    simpl f0. rewrite (G 0 []). f_equal. f_equal. lra.
  Qed.

  (** ** Blocks of a data set *)
  Lemma combine_emb (xs : list (list P)) (ws : list (list R)) :
    combine xs (map (map Fin) ws) = map emb (combine xs ws).
  Proof.
    revert ws; induction xs; destruct ws; simpl; auto. now rewrite IHxs.
  Qed.

  Definition rblocks (xs : list P) (w : list R) (b pad : nat) : list (list P * list R) :=
    combine (chunks b (xs ++ repeat p0 pad)) (chunks b (w ++ repeat 0 pad)).

  Lemma block_convert_fin xs w sup bs :
    xs <> [] -> length xs = length w ->
    exists b pad, (0 < b)%nat /\
      block_convert EROps p0 y0 (mkData xs (map Fin w) sup) bs
      = Ok (map emb (rblocks xs (norm_w w) b pad), length xs).
  Proof.
    intros Hne Hlen. unfold block_convert, d_len, normalize. cbn [d_x d_w d_y].
    set (n := length xs).
    assert (Hn : (0 < n)%nat) by (destruct xs; [congruence|unfold n; simpl; lia]).
    assert (Hb : (0 < eff_block n bs)%nat) by (unfold eff_block; destruct bs; lia).
    destruct (eff_block n bs) as [|b'] eqn:Eb; [lia|].
    exists (S b'), (cdiv n (S b') * S b' - n)%nat. split; [lia|].
    f_equal. f_equal. unfold zero_pad, rblocks. cbn [d_x d_w].
    rewrite normalize_w_true_fin.
    change (f0 EROps) with (@Fin R 0).
    replace (map Fin (norm_w w) ++ repeat (Fin 0) (cdiv n (S b') * S b' - n))
      with (map (@Fin R) (norm_w w ++ repeat 0 (cdiv n (S b') * S b' - n))).
    2:{ rewrite map_app. f_equal. generalize (cdiv n (S b') * S b' - n)%nat.
        intros m. induction m; simpl; auto. now rewrite IHm. }
    rewrite map_chunks, combine_emb. reflexivity.
  Qed.

  Lemma block_convert_empty w sup bs :
    block_convert EROps p0 y0 (mkData [] w sup) bs = Err ZeroDivisionError.
  Proof.
    unfold block_convert, d_len, normalize. cbn [d_x d_w length].
    replace (eff_block 0 bs) with 0%nat; [reflexivity|].
    unfold eff_block. destruct bs; lia.
  Qed.

  Lemma combine_map_fst {A B} (l : list A) (m : list B) :
    length l = length m -> map fst (combine l m) = l.
  Proof. revert m; induction l; destruct m; simpl; intros; try discriminate; auto. f_equal; auto. Qed.
  Lemma combine_map_snd {A B} (l : list A) (m : list B) :
    length l = length m -> map snd (combine l m) = m.
  Proof. revert m; induction l; destruct m; simpl; intros; try discriminate; auto. f_equal; auto. Qed.

  Lemma rblocks_facts xs w b pad :
    (0 < b)%nat -> length xs = length w ->
    concat (map fst (rblocks xs w b pad)) = xs ++ repeat p0 pad /\
    concat (map snd (rblocks xs w b pad)) = w ++ repeat 0 pad /\
    Forall (fun q => length (fst q) = length (snd q)) (rblocks xs w b pad).
  Proof.
    intros Hb HL. unfold rblocks.
    assert (HL2 : length (xs ++ repeat p0 pad) = length (w ++ repeat 0 pad))
      by (rewrite !app_length, !repeat_length; lia).
    pose proof (chunks_shape b _ _ HL2) as HS.
    assert (HC : length (chunks b (xs ++ repeat p0 pad)) = length (chunks b (w ++ repeat 0 pad))).
    { apply (f_equal (@length nat)) in HS. now rewrite !map_length in HS. }
    rewrite combine_map_fst, combine_map_snd by assumption.
    rewrite !chunks_concat by assumption. repeat split; auto.
    clear HC. revert HS. generalize (chunks b (w ++ repeat 0 pad)) as cw.
    generalize (chunks b (xs ++ repeat p0 pad)) as cx.
    induction cx; destruct cw; simpl; intros HS; auto; try discriminate.
    inversion HS. constructor; auto.
  Qed.

  (** sum over blocks of per-block dot products = dot product over the concatenation *)
  Lemma blocks_dot {A} (f : A -> R) (blocks : list (list A * list R)) :
    Forall (fun q => length (fst q) = length (snd q)) blocks ->
    Rsum (map (fun q => Rdot (map f (fst q)) (snd q)) blocks)
    = Rdot (map f (concat (map fst blocks))) (concat (map snd blocks)).
  Proof.
    induction 1 as [|q l Hq Hl IH]; simpl; auto.
    rewrite map_app, Rdot_app by (rewrite map_length; auto). now rewrite <- IH.
  Qed.

  Lemma Rdot_pad {A} (f : A -> R) (a : A) xs w pad :
    length xs = length w ->
    Rdot (map f (xs ++ repeat a pad)) (w ++ repeat 0 pad) = Rdot (map f xs) w.
  Proof.
    intros H. rewrite map_app, Rdot_app by (rewrite map_length; auto).
    rewrite Rdot_zero_r. lra.
  Qed.

  Lemma rowsum_spec ys w b pad x :
    (0 < b)%nat -> length ys = length w ->
    rowsum (rblocks ys w b pad) x = Rdot (map (k x) ys) w.
  Proof.
    intros Hb HL. destruct (rblocks_facts ys w b pad Hb HL) as [H1 [H2 H3]].
    unfold rowsum. rewrite (blocks_dot (k x) _ H3), H1, H2. now apply Rdot_pad.
  Qed.

  Lemma firstn_app_exact {A} (l m : list A) : firstn (length l) (l ++ m) = l.
  Proof. rewrite firstn_app, Nat.sub_diag, firstn_all. simpl. apply app_nil_r. Qed.

  Lemma concat_map_map {A B} (f : A -> B) (ls : list (list A)) :
    concat (map (map f) ls) = map f (concat ls).
  Proof. induction ls; simpl; auto. now rewrite map_app, IHls. Qed.

  (** Core result: the scan equals plain weighted sums with the normalised weights. *)
  Lemma scan_core xs wx ys wy bx px by_ py :
    (0 < bx)%nat -> (0 < by_)%nat -> length xs = length wx -> length ys = length wy ->
    let '(total, cols) := block_scan EROps kE (map emb (rblocks xs wx bx px))
                                     (map emb (rblocks ys wy by_ py)) in
    total = Fin (Rdot (map (fun x => Rdot (map (k x) ys) wy) xs) wx) /\
    firstn (length xs) (concat cols) = map (fun x => Fin (Rdot (map (k x) ys) wy)) xs.
  Proof.
    intros Hbx Hby HLx HLy. rewrite block_scan_fin.
    destruct (rblocks_facts xs wx bx px Hbx HLx) as [H1 [H2 H3]].
    assert (Hrow : forall l, map (rowsum (rblocks ys wy by_ py)) l
                     = map (fun x => Rdot (map (k x) ys) wy) l).
    { intros l. apply map_ext. intros x. now apply rowsum_spec. }
    split.
    - f_equal. rewrite <- (Rdot_pad (fun x => Rdot (map (k x) ys) wy) p0 xs wx px HLx).
      rewrite <- H1, <- H2, <- (blocks_dot _ _ H3). f_equal. apply map_ext. intros q.
      rewrite Hrow. apply Rdot_comm.
    - replace (map (fun xb => map Fin (map (rowsum (rblocks ys wy by_ py)) (fst xb)))
                 (rblocks xs wx bx px))
        with (map (map (fun x => @Fin R (Rdot (map (k x) ys) wy)))
                (map fst (rblocks xs wx bx px))).
      + rewrite concat_map_map, H1, map_app.
        rewrite <- (map_length (fun x => @Fin R (Rdot (map (k x) ys) wy)) xs).
        apply firstn_app_exact.
      + rewrite map_map. apply map_ext. intros q. rewrite Hrow. now rewrite map_map.
  Qed.

  Lemma bs_two bs : exists bx by_, leaves_repeat (bs_leaves bs) 2 = [bx; by_].
  Proof. destruct bs as [b|bx by_]; [exists b, b|exists bx, by_]; reflexivity. Qed.

  (** ** [compute_mean] with the exact (possibly degenerate) normalised weights *)
  Lemma compute_mean_axis1 xs wx sx ys wy sy bs :
    xs <> [] -> ys <> [] -> length xs = length wx -> length ys = length wy ->
    compute_mean EROps p0 y0 kE (mkData xs (map Fin wx) sx) (mkData ys (map Fin wy) sy) Axis1 bs
    = Ok (MVec (map (fun x => Fin (Rdot (map (k x) ys) (norm_w wy))) xs)).
  Proof.
    intros Hx Hy HLx HLy. unfold compute_mean.
    destruct (bs_two bs) as [bx [by_ E]]. rewrite E. cbn [nth].
    destruct (block_convert_fin xs wx sx bx Hx HLx) as [b1 [p1 [Hb1 E1]]]. rewrite E1.
    destruct (block_convert_fin ys wy sy by_ Hy HLy) as [b2 [p2 [Hb2 E2]]].
    cbn [bind]. rewrite E2. cbn [bind].
    pose proof (scan_core xs (norm_w wx) ys (norm_w wy) b1 p1 b2 p2 Hb1 Hb2
      (eq_trans HLx (eq_sym (norm_w_length wx))) (eq_trans HLy (eq_sym (norm_w_length wy)))) as H.
    destruct (block_scan _ _ _ _) as [total cols]. destruct H as [_ H]. now rewrite H.
  Qed.

  Lemma compute_mean_axis0 xs wx sx ys wy sy bs :
    xs <> [] -> ys <> [] -> length xs = length wx -> length ys = length wy ->
    compute_mean EROps p0 y0 kE (mkData xs (map Fin wx) sx) (mkData ys (map Fin wy) sy) Axis0 bs
    = Ok (MVec (map (fun y => Fin (Rdot (map (k y) xs) (norm_w wx))) ys)).
  Proof.
    intros Hx Hy HLx HLy. unfold compute_mean.
    destruct (bs_two bs) as [bx [by_ E]]. rewrite E. cbn [nth].
    destruct (block_convert_fin ys wy sy by_ Hy HLy) as [b1 [p1 [Hb1 E1]]]. rewrite E1.
    destruct (block_convert_fin xs wx sx bx Hx HLx) as [b2 [p2 [Hb2 E2]]].
    cbn [bind]. rewrite E2. cbn [bind].
    pose proof (scan_core ys (norm_w wy) xs (norm_w wx) b1 p1 b2 p2 Hb1 Hb2
      (eq_trans HLy (eq_sym (norm_w_length wy))) (eq_trans HLx (eq_sym (norm_w_length wx)))) as H.
    destruct (block_scan _ _ _ _) as [total cols]. destruct H as [_ H]. now rewrite H.
  Qed.

  Lemma compute_mean_none xs wx sx ys wy sy bs :
    xs <> [] -> ys <> [] -> length xs = length wx -> length ys = length wy ->
    compute_mean EROps p0 y0 kE (mkData xs (map Fin wx) sx) (mkData ys (map Fin wy) sy) AxisNone bs
    = Ok (MScalar (Fin (Rdot (map (fun x => Rdot (map (k x) ys) (norm_w wy)) xs) (norm_w wx)))).
  Proof.
    intros Hx Hy HLx HLy. unfold compute_mean.
    destruct (bs_two bs) as [bx [by_ E]]. rewrite E. cbn [nth].
    destruct (block_convert_fin xs wx sx bx Hx HLx) as [b1 [p1 [Hb1 E1]]]. rewrite E1.
    destruct (block_convert_fin ys wy sy by_ Hy HLy) as [b2 [p2 [Hb2 E2]]].
    cbn [bind]. rewrite E2. cbn [bind].
    pose proof (scan_core xs (norm_w wx) ys (norm_w wy) b1 p1 b2 p2 Hb1 Hb2
      (eq_trans HLx (eq_sym (norm_w_length wx))) (eq_trans HLy (eq_sym (norm_w_length wy)))) as H.
    destruct (block_scan _ _ _ _) as [total cols]. destruct H as [H _]. now rewrite H.
  Qed.

  (** ** Specification-level consequences *)
  Lemma Rdot_wsum (f : P -> R) ys ws : Rdot (map f ys) ws = wsum f ys ws.
  Proof.
    unfold Rdot, wsum. revert ws; induction ys; destruct ws; simpl; auto. rewrite IHys. lra.
  Qed.
  Lemma wsum_norm f (ys : list P) ws :
    Rsum ws <> 0 -> wsum f ys (norm_w ws) = wavg f ys ws.
  Proof.
    intros H. rewrite <- Rdot_wsum, norm_w_nonzero, Rdot_map_div, Rdot_wsum by assumption.
    reflexivity.
  Qed.
  Lemma wsum_norm_zero f (ys : list P) ws :
    (forall a, In a ws -> a = 0) -> wsum f ys (norm_w ws) = 0.
  Proof.
    intros H. rewrite <- Rdot_wsum, norm_w_zero by assumption.
    replace (map (fun _ : R => 0) ws) with (repeat 0 (length ws)); [apply Rdot_zero_r|].
    clear. induction ws; simpl; auto. now f_equal.
  Qed.
End Mean.
