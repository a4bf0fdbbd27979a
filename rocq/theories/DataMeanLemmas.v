(** * Lemmas behind PropData *)
From Coq Require Import List ZArith Reals Lra Lia Bool.
From Verif Require Import Num Jax RSum JaxFacts DataModel MeanModel MeanSpec MeanProofs DataProofs.
Import ListNotations.

Lemma gather_nth_map {A} (d : A) l idx :
  Forall (in_range (length l)) idx ->
  gather d l idx = map (fun z => nth (Z.to_nat z) l d) idx.
Proof.
  intros H. apply map_ext_in. intros z Hz. rewrite Forall_forall in H.
  apply jget_in_range. exact (H z Hz).
Qed.
Lemma getitem_compose_nth :
  forall V (O : FOps V) P Y (p0 : P) (y0 : Y) (d : Data P Y V) (i j : list Z),
    Forall (fun z => (0 <= z < Z.of_nat (length i))%Z) j ->
    d_getitem O p0 y0 (d_getitem O p0 y0 d i) j
    = d_getitem O p0 y0 d (map (fun z => nth (Z.to_nat z) i 0%Z) j).
Proof.
  intros. rewrite getitem_compose by assumption. now rewrite gather_nth_map.
Qed.

Open Scope R_scope.
Lemma normalize_spec :
  forall P Y (b : bool) (x : list P) (w : list R) (s : option (list Y)),
    Rsum w <> 0 ->
    let d' := normalize EROps b (mkData x (map Fin w) s) in
    d_x d' = x /\ d_y d' = s /\
    exists w', d_w d' = map Fin w' /\ length w' = length w /\ Rsum w' = 1 /\
      (forall i j, (i < length w)%nat -> (j < length w)%nat ->
         nth i w' 0 * nth j w 0 = nth j w' 0 * nth i w 0) /\
      normalize EROps b d' = d'.
Proof.
  intros P Y b x w s H. cbn [normalize d_x d_w d_y]. unfold normalize. cbn [d_x d_w d_y].
  rewrite normalize_any_fin by assumption. repeat split; auto.
  exists (map (fun a => a / Rsum w) w). split; [reflexivity|].
  split; [apply map_length|]. split; [now apply Rsum_normalized|]. split.
  - intros i j Hi Hj.
    rewrite !(nth_indep (map _ w) 0 (0 / Rsum w)) by (rewrite map_length; auto).
    rewrite !(map_nth (fun a => a / Rsum w)). field. assumption.
  - rewrite normalize_any_fin by (rewrite Rsum_normalized; [lra|assumption]).
    rewrite Rsum_normalized by assumption. f_equal. f_equal.
    rewrite map_map. apply map_ext. intros a. field. assumption.
Qed.
Lemma map_Fin_repeat (a : R) n : map Fin (repeat a n) = repeat (Fin a) n.
Proof. induction n; simpl; auto. now rewrite IHn. Qed.
Lemma map_repeat {A B} (f : A -> B) a n : map f (repeat a n) = repeat (f a) n.
Proof. induction n; simpl; auto. now rewrite IHn. Qed.
Lemma normalize_zeros :
  forall P Y (x : list P) (s : option (list Y)) n,
    normalize EROps true (mkData x (repeat (Fin 0) n) s) = mkData x (repeat (Fin 0) n) s /\
    d_w (normalize EROps false (mkData x (repeat (Fin 0) n) s)) = repeat NaN n.
Proof.
  intros. unfold normalize. cbn [d_x d_w d_y]. rewrite <- map_Fin_repeat. split.
  - rewrite normalize_w_true_fin, norm_w_zero.
    + now rewrite map_repeat.
    + intros a Ha. now apply repeat_spec in Ha.
  - unfold normalize_w. rewrite fsum_fin, Rsum_repeat, map_map, map_repeat.
    f_equal. replace (INR n * 0) with 0 by lra. apply fdiv_zero_zero.
Qed.
Lemma normalize_cancelling :
  exists w : list R, Rsum w = 0 /\
    normalize_w EROps true (map Fin w) = [Fin (IZR (2 ^ 128)); Fin (- IZR (2 ^ 128))].
Proof.
  exists [1; -1]. split; [simpl; lra|]. rewrite normalize_w_true_fin.
  unfold norm_w. destruct (Req_EM_T _ _) as [E|E]; [|simpl in E; lra]. cbn [map].
  destruct (Rlt_dec 0 1); [|lra]. destruct (Rlt_dec 0 (-1)); [lra|].
  destruct (Rlt_dec (-1) 0); [|lra]. reflexivity.
Qed.

Lemma constructor_guard :
  forall V (O : FOps V) P Y (p0 : P) (y0 : Y) (idx : list Z) (w : list V) (d nodes : Data P Y V),
    (cs_init O p0 y0 (IData idx w) (AData d) = Err ValueError <-> (d_len d < length idx)%nat) /\
    (cs_build O p0 y0 (IArray idx) (AData d) = Err ValueError <-> (d_len d < length idx)%nat) /\
    (cs_build O p0 y0 (IData idx w) (AData d) = Err ValueError <-> (d_len d < length idx)%nat) /\
    (pc_init (AData nodes) (AData d) = Err ValueError <-> (d_len d < d_len nodes)%nat) /\
    (pc_build O (AData nodes) (AData d) = Err ValueError <-> (d_len d < d_len nodes)%nat).
Proof.
  intros. rewrite cs_build_array.
  change (cs_build O p0 y0 (IData idx w) (AData d)) with (cs_init O p0 y0 (IData idx w) (AData d)).
  rewrite cs_init_ok.
  change (pc_build O (AData nodes) (AData d)) with (pc_init (AData nodes) (AData d)).
  destruct (Nat.ltb_spec (d_len d) (length idx)); unfold pc_init;
    destruct (Nat.ltb_spec (d_len d) (d_len nodes)); repeat split; intros; auto; try discriminate; lia.
Qed.

Lemma wavg_ext {P} (f g : P -> R) ys ws : (forall y, f y = g y) -> wavg f ys ws = wavg g ys ws.
Proof.
  intros E. unfold wavg, wsum. f_equal. apply Rsum_map_ext. intros q _. now rewrite E.
Qed.
Section M.
  Context {P Y : Type} (p0 : P) (y0 : Y) (k : P -> P -> R).
  Notation kE := (fun a b => Fin (k a b) : ER).
  Lemma column_mean_spec xs wx (sx : option (list Y)) ys wy sy (bs : bsarg) :
    xs <> [] -> ys <> [] -> length xs = length wx -> length ys = length wy -> Rsum wy <> 0 ->
    compute_mean EROps p0 y0 kE
      (mkData xs (map Fin wx) sx) (mkData ys (map Fin wy) sy) Axis1 bs
    = Ok (MVec (map (fun x => Fin (wavg (fun y => k x y) ys wy)) xs)).
  Proof.
    intros. rewrite compute_mean_axis1 by assumption. do 2 f_equal. apply map_ext. intros x.
    f_equal. rewrite Rdot_wsum. now apply wsum_norm.
  Qed.
  Lemma row_mean_spec xs wx (sx : option (list Y)) ys wy sy (bs : bsarg) :
    (forall a b, k a b = k b a) ->
    xs <> [] -> ys <> [] -> length xs = length wx -> length ys = length wy -> Rsum wx <> 0 ->
    compute_mean EROps p0 y0 kE
      (mkData xs (map Fin wx) sx) (mkData ys (map Fin wy) sy) Axis0 bs
    = Ok (MVec (map (fun y => Fin (wavg (fun x => k x y) xs wx)) ys)).
  Proof.
    intros Hs **. rewrite compute_mean_axis0 by assumption. do 2 f_equal. apply map_ext. intros y.
    f_equal. rewrite Rdot_wsum, wsum_norm by assumption. unfold wavg, wsum. f_equal.
    apply Rsum_map_ext. intros q _. now rewrite Hs.
  Qed.
  Lemma full_mean_spec xs wx (sx : option (list Y)) ys wy sy (bs : bsarg) :
    xs <> [] -> ys <> [] -> length xs = length wx -> length ys = length wy ->
    Rsum wx <> 0 -> Rsum wy <> 0 ->
    compute_mean EROps p0 y0 kE
      (mkData xs (map Fin wx) sx) (mkData ys (map Fin wy) sy) AxisNone bs
    = Ok (MScalar (Fin (wavg (fun x => wavg (fun y => k x y) ys wy) xs wx))).
  Proof.
    intros. rewrite compute_mean_none by assumption. do 3 f_equal.
    rewrite Rdot_wsum, wsum_norm by assumption. apply wavg_ext.
    intros q. rewrite Rdot_wsum. now apply wsum_norm.
  Qed.
  Lemma empty_rejected kk wx sx (y : Data P Y ER) bs :
    compute_mean EROps p0 y0 kk (mkData [] wx sx) y Axis1 bs = Err ZeroDivisionError /\
    compute_mean EROps p0 y0 kk (mkData [] wx sx) y AxisNone bs = Err ZeroDivisionError.
  Proof.
    unfold compute_mean. destruct (bs_two bs) as [bx [by_ E]]. rewrite E. cbn [nth].
    now rewrite block_convert_empty.
  Qed.
  Lemma block_size_irrelevant xs wx (sx : option (list Y)) ys wy sy ax (bs bs' : bsarg) :
    length xs = length wx -> length ys = length wy ->
    compute_mean EROps p0 y0 kE
      (mkData xs (map Fin wx) sx) (mkData ys (map Fin wy) sy) ax bs
    = compute_mean EROps p0 y0 kE
      (mkData xs (map Fin wx) sx) (mkData ys (map Fin wy) sy) ax bs'.
  Proof.
    intros Hx Hy. destruct xs as [|a xs]; [|destruct ys as [|b ys]].
    - unfold compute_mean. destruct (bs_two bs) as [bx [by_ E]]. rewrite E.
      destruct (bs_two bs') as [bx' [by_' E']]. rewrite E'. cbn [nth].
      destruct ax; try now rewrite !block_convert_empty.
      destruct ys as [|b ys]; [now rewrite !block_convert_empty|].
      destruct (block_convert_fin p0 y0 (b :: ys) wy sy by_ ltac:(discriminate) Hy) as [b1 [p1 [_ E1]]].
      destruct (block_convert_fin p0 y0 (b :: ys) wy sy by_' ltac:(discriminate) Hy) as [b2 [p2 [_ E2]]].
      rewrite E1, E2. cbn [bind]. now rewrite !block_convert_empty.
    - unfold compute_mean. destruct (bs_two bs) as [bx [by_ E]]. rewrite E.
      destruct (bs_two bs') as [bx' [by_' E']]. rewrite E'. cbn [nth].
      destruct (block_convert_fin p0 y0 (a :: xs) wx sx bx ltac:(discriminate) Hx) as [b1 [p1 [_ E1]]].
      destruct (block_convert_fin p0 y0 (a :: xs) wx sx bx' ltac:(discriminate) Hx) as [b2 [p2 [_ E2]]].
      destruct ax; rewrite ?E1, ?E2; cbn [bind]; now rewrite !block_convert_empty.
    - destruct ax.
      + rewrite !compute_mean_axis0 by (try discriminate; assumption). reflexivity.
      + rewrite !compute_mean_axis1 by (try discriminate; assumption). reflexivity.
      + rewrite !compute_mean_none by (try discriminate; assumption). reflexivity.
  Qed.
  Lemma Rsum_pad w n : Rsum (w ++ repeat 0 n) = Rsum w.
  Proof. rewrite Rsum_app, Rsum_repeat. lra. Qed.
  Lemma norm_w_pad w n : norm_w (w ++ repeat 0 n) = norm_w w ++ repeat 0 n.
  Proof.
    unfold norm_w. rewrite Rsum_pad. destruct (Req_EM_T (Rsum w) 0); rewrite map_app, map_repeat.
    - destruct (Rlt_dec 0 0); [lra|]. destruct (Rlt_dec 0 0); [lra|]. reflexivity.
    - do 2 f_equal. field. assumption.
  Qed.
  Lemma Rdot_pad_gen (f : P -> R) xs zs w :
    length xs = length w -> Rdot (map f (xs ++ zs)) (w ++ repeat 0 (length zs)) = Rdot (map f xs) w.
  Proof.
    intros H. rewrite map_app, Rdot_app by (rewrite map_length; auto).
    rewrite Rdot_zero_r. lra.
  Qed.
  Lemma padding_mean xs wx (sx : option (list Y)) ys wy sy zs sy' (bs : bsarg) :
    xs <> [] -> ys <> [] -> length xs = length wx -> length ys = length wy ->
    let mean := compute_mean EROps p0 y0 kE in
    let x := mkData xs (map Fin wx) sx in
    let y := mkData ys (map Fin wy) sy in
    let y_padded := mkData (ys ++ zs) (map Fin wy ++ repeat (Fin 0) (length zs)) sy' in
    mean x y_padded Axis1 bs = mean x y Axis1 bs /\
    mean y_padded x Axis0 bs = mean y x Axis0 bs /\
    mean x y_padded AxisNone bs = mean x y AxisNone bs /\
    mean y_padded x AxisNone bs = mean y x AxisNone bs /\
    (exists r extra, mean y x Axis1 bs = Ok (MVec r) /\
       mean y_padded x Axis1 bs = Ok (MVec (r ++ extra)) /\
       length r = length ys /\ length extra = length zs) /\
    (exists r extra, mean x y Axis0 bs = Ok (MVec r) /\
       mean x y_padded Axis0 bs = Ok (MVec (r ++ extra)) /\
       length r = length ys /\ length extra = length zs).
  Proof.
    intros Hx Hy HLx HLy mean x y yp.
    assert (Hyz : ys ++ zs <> []) by (destruct ys; [congruence|discriminate]).
    assert (HLz : length (ys ++ zs) = length (wy ++ repeat 0 (length zs)))
      by (rewrite !app_length, repeat_length; lia).
    subst mean x y yp. rewrite <- (map_Fin_repeat 0), <- map_app.
    assert (HN : length ys = length (norm_w wy)) by now rewrite norm_w_length.
    repeat split.
    - rewrite !compute_mean_axis1 by assumption. do 2 f_equal. apply map_ext. intros a.
      rewrite norm_w_pad. now rewrite Rdot_pad_gen.
    - rewrite !compute_mean_axis0 by assumption. do 2 f_equal. apply map_ext. intros a.
      rewrite norm_w_pad. now rewrite Rdot_pad_gen.
    - rewrite !compute_mean_none by assumption. do 4 f_equal. apply map_ext. intros a.
      rewrite norm_w_pad. now rewrite Rdot_pad_gen.
    - rewrite !compute_mean_none by assumption. do 3 f_equal. rewrite norm_w_pad.
      apply (Rdot_pad_gen (fun a => Rdot (map (k a) xs) (norm_w wx))). assumption.
    - rewrite !compute_mean_axis1 by assumption.
      exists (map (fun x0 : P => Fin (Rdot (map (k x0) xs) (norm_w wx))) ys),
             (map (fun x0 : P => Fin (Rdot (map (k x0) xs) (norm_w wx))) zs).
      rewrite map_app, !map_length. auto.
    - rewrite !compute_mean_axis0 by assumption.
      exists (map (fun x0 : P => Fin (Rdot (map (k x0) xs) (norm_w wx))) ys),
             (map (fun x0 : P => Fin (Rdot (map (k x0) xs) (norm_w wx))) zs).
      rewrite map_app, !map_length. auto.
  Qed.
End M.

Lemma row_mean_asymmetric :
  exists (k : R -> R -> R) xs ys,
    compute_mean EROps 0 tt (fun a b => Fin (k a b))
      (mkData xs (map Fin [1]) None) (mkData ys (map Fin [1]) None) Axis0 (BOne None)
    <> Ok (MVec (map (fun y => Fin (wavg (fun x => k x y) xs [1])) ys)).
Proof.
  exists (fun a _ => a), [2], [3]. rewrite compute_mean_axis0 by (try discriminate; reflexivity).
  intros E. injection E as E. revert E. rewrite norm_w_nonzero by (simpl; lra).
  unfold Rdot, wavg, wsum. simpl. lra.
Qed.

Lemma solve_weights_spec :
  forall V (O : FOps V) P Y (p0 : P) (y0 : Y) solve (c c' : Coresubset P Y V),
    cs_solve_weights O p0 y0 solve c = Ok c' ->
    solve (c_pre c) (points O p0 y0 c) = Ok (c_w c') /\
    c_idx c' = c_idx c /\ c_pre c' = c_pre c /\
    d_x (points O p0 y0 c') = d_x (points O p0 y0 c) /\
    d_y (points O p0 y0 c') = d_y (points O p0 y0 c) /\
    d_w (points O p0 y0 c') = c_w c'.
Proof.
  intros V O P Y p0 y0 solve c c'. unfold cs_solve_weights.
  destruct (solve (c_pre c) (points O p0 y0 c)) eqn:E; cbn [bind]; [|discriminate].
  injection 1 as <-. repeat split.
Qed.
Lemma pc_solve_weights_spec :
  forall V P Y solve (c c' : PseudoCoreset P Y V),
    pc_solve_weights solve c = Ok c' ->
    solve (pc_pre c) (pc_nodes c) = Ok (d_w (pc_nodes c')) /\
    d_x (pc_nodes c') = d_x (pc_nodes c) /\ d_y (pc_nodes c') = d_y (pc_nodes c) /\
    pc_pre c' = pc_pre c.
Proof.
  intros V P Y solve c c'. unfold pc_solve_weights.
  destruct (solve (pc_pre c) (pc_nodes c)) eqn:E; cbn [bind]; [|discriminate].
  injection 1 as <-. repeat split.
Qed.
