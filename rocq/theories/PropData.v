(** * Properties C01-C06, C43: data, coresets and kernel means *)
From Coq Require Import List ZArith QArith Reals Lra Lia Bool.
From Verif Require Import Num Jax RSum JaxFacts DataModel MeanModel MeanSpec MeanProofs DataProofs.
From Verif Require Import DataMeanLemmas.
Import ListNotations.

(** ** C01 *)
(** Constructors: given/default/scalar weights, matching supervision. *)
Theorem C01_constructor :
  forall V (O : FOps V) P Y (x : list P) (w : warg V) (d : Data P Y V),
    make_data O x w = Ok d ->
    d_x d = x /\ d_y d = None /\ wf_data d /\
    match w with WNone => d_w d = repeat (f1 O) (length x)
               | WScalar v => d_w d = repeat v (length x)
               | WVec l => length l = length x -> d_w d = l end.
Proof. intros. eapply make_data_ok; eassumption. Qed.
Print Assumptions C01_constructor.
Example C01_constructor_ex :
  exists d : Data nat nat EQ, make_data EQOps [7;8;9]%nat WNone = Ok d /\ length (d_w d) = 3%nat.
Proof. eexists. split; reflexivity. Qed.

Theorem C01_supervised_constructor :
  forall V (O : FOps V) P Y (x : list P) (y : list Y) (w : warg V),
    (forall d, make_supervised O x y w = Ok d ->
       d_x d = x /\ d_y d = Some y /\ wf_data d /\ length y = length x) /\
    (length y <> length x -> make_supervised O x y w = Err ValueError).
Proof.
  intros. split.
  - intros d. apply make_supervised_ok.
  - apply make_supervised_mismatch.
Qed.
Print Assumptions C01_supervised_constructor.
Example C01_supervised_ex :
  make_supervised EQOps [7;8]%nat [1;2;3]%nat WNone = Err ValueError /\
  exists d, make_supervised EQOps [7;8]%nat [1;2]%nat WNone = Ok d.
Proof. split; [reflexivity|]. eexists. reflexivity. Qed.

(** [wf_data d]: weights and supervision have the length of the data, as every
    constructed data set does (above). *)
Theorem C01_index_pairing :
  forall V (O : FOps V) P Y (p0 : P) (y0 : Y) (d : Data P Y V) (idx : list Z),
    wf_data d -> Forall (fun i => (0 <= i < Z.of_nat (d_len d))%Z) idx ->
    let r := d_getitem O p0 y0 d idx in
    d_len r = length idx /\ wf_data r /\
    forall i, (i < length idx)%nat ->
      let j := Z.to_nat (nth i idx 0%Z) in
      (j < d_len d)%nat /\
      nth i (d_x r) p0 = nth j (d_x d) p0 /\
      nth i (d_w r) (f0 O) = nth j (d_w d) (f0 O) /\
      match d_y d, d_y r with
      | None, None => True
      | Some y, Some y' => nth i y' y0 = nth j y y0
      | _, _ => False
      end.
Proof. intros. apply getitem_pairing; assumption. Qed.
Print Assumptions C01_index_pairing.
Example C01_index_pairing_ex :
  let d := mkData [10;20;30]%nat [Fin 1;Fin 2;Fin 3]%Q (Some [5;6;7]%nat) in
  wf_data d /\ Forall (fun i => (0 <= i < Z.of_nat (d_len d))%Z) [2;0;2]%Z /\
  d_x (d_getitem EQOps 0%nat 0%nat d [2;0;2]%Z) = [30;10;30]%nat.
Proof. cbn. repeat split; repeat constructor; lia. Qed.

Theorem C01_index_compose :
  forall V (O : FOps V) P Y (p0 : P) (y0 : Y) (d : Data P Y V) (i j : list Z),
    Forall (fun z => (0 <= z < Z.of_nat (length i))%Z) j ->
    d_getitem O p0 y0 (d_getitem O p0 y0 d i) j
    = d_getitem O p0 y0 d (map (fun z => nth (Z.to_nat z) i 0%Z) j).
Proof. exact getitem_compose_nth. Qed.
Print Assumptions C01_index_compose.
Example C01_index_compose_ex :
  Forall (fun z => (0 <= z < Z.of_nat (length [4;2;9]%Z))%Z) [2;0]%Z.
Proof. repeat constructor; cbn; lia. Qed.

(** ** C02 *)
Open Scope R_scope.
Theorem C02_normalize :
  forall P Y (b : bool) (x : list P) (w : list R) (s : option (list Y)),
    Rsum w <> 0 ->
    let d' := normalize EROps b (mkData x (map Fin w) s) in
    d_x d' = x /\ d_y d' = s /\
    exists w', d_w d' = map Fin w' /\ length w' = length w /\ Rsum w' = 1 /\
      (forall i j, (i < length w)%nat -> (j < length w)%nat ->
         nth i w' 0 * nth j w 0 = nth j w' 0 * nth i w 0) /\
      normalize EROps b d' = d'.
Proof. exact normalize_spec. Qed.
Print Assumptions C02_normalize.
Example C02_normalize_ex : Rsum [1; 3; -2] <> 0.
Proof. simpl. lra. Qed.

Theorem C02_preserve_zeros :
  forall P Y (x : list P) (s : option (list Y)) n,
    normalize EROps true (mkData x (repeat (Fin 0) n) s) = mkData x (repeat (Fin 0) n) s /\
    d_w (normalize EROps false (mkData x (repeat (Fin 0) n) s)) = repeat NaN n.
Proof. exact normalize_zeros. Qed.
Print Assumptions C02_preserve_zeros.

(** Finding: with [preserve_zeros=True], weights of mixed sign that cancel are
    turned into huge finite weights: they neither sum to one nor stay zero. *)
Theorem C02_cancelling_weights_refuted :
  exists w : list R, Rsum w = 0 /\
    normalize_w EROps true (map Fin w) = [Fin (IZR (2 ^ 128)); Fin (- IZR (2 ^ 128))].
Proof. exact normalize_cancelling. Qed.
Print Assumptions C02_cancelling_weights_refuted.

(** ** C03 *)
Theorem C03_points :
  forall V (O : FOps V) P Y (p0 : P) (y0 : Y) (c : Coresubset P Y V),
    wf_data (c_pre c) ->
    Forall (fun i => (0 <= i < Z.of_nat (d_len (c_pre c)))%Z) (c_idx c) ->
    let pts := points O p0 y0 c in
    d_len pts = length (c_idx c) /\ d_w pts = c_w c /\
    forall i, (i < length (c_idx c))%nat ->
      let j := Z.to_nat (nth i (c_idx c) 0%Z) in
      (j < d_len (c_pre c))%nat /\
      nth i (d_x pts) p0 = nth j (d_x (c_pre c)) p0 /\
      match d_y (c_pre c), d_y pts with
      | None, None => True
      | Some y, Some y' => nth i y' y0 = nth j y y0
      | _, _ => False
      end.
Proof. intros. apply points_spec; assumption. Qed.
Print Assumptions C03_points.
Example C03_points_ex :
  let c := mkCS [2;0]%Z [Fin 5; Fin 6]%Q (mkData [10;20;30]%nat [Fin 1;Fin 2;Fin 3]%Q (Some [5;6;7]%nat)) in
  wf_data (c_pre c) /\ Forall (fun i => (0 <= i < Z.of_nat (d_len (c_pre c)))%Z) (c_idx c) /\
  points EQOps 0%nat 0%nat c = mkData [30;10]%nat [Fin 5; Fin 6]%Q (Some [7;5]%nat).
Proof. cbn. repeat split; repeat constructor; lia. Qed.

(** ** C04 *)
Theorem C04_constructor_guard :
  forall V (O : FOps V) P Y (p0 : P) (y0 : Y) (idx : list Z) (w : list V) (d nodes : Data P Y V),
    (cs_init O p0 y0 (IData idx w) (AData d) = Err ValueError <-> (d_len d < length idx)%nat) /\
    (cs_build O p0 y0 (IArray idx) (AData d) = Err ValueError <-> (d_len d < length idx)%nat) /\
    (cs_build O p0 y0 (IData idx w) (AData d) = Err ValueError <-> (d_len d < length idx)%nat) /\
    (pc_init (AData nodes) (AData d) = Err ValueError <-> (d_len d < d_len nodes)%nat) /\
    (pc_build O (AData nodes) (AData d) = Err ValueError <-> (d_len d < d_len nodes)%nat).
Proof. exact constructor_guard. Qed.
Print Assumptions C04_constructor_guard.
Theorem C04_constructor_bound :
  forall V (O : FOps V) P Y (p0 : P) (y0 : Y) i n d,
    (forall c, cs_init O p0 y0 i d = Ok c -> (length (c_idx c) <= d_len (c_pre c))%nat) /\
    (forall c, cs_build O p0 y0 i d = Ok c -> (length (c_idx c) <= d_len (c_pre c))%nat) /\
    (forall c : PseudoCoreset P Y V, pc_init n d = Ok c -> (d_len (pc_nodes c) <= d_len (pc_pre c))%nat) /\
    (forall c, pc_build O n d = Ok c -> (d_len (pc_nodes c) <= d_len (pc_pre c))%nat).
Proof.
  intros. repeat split; intros c.
  - apply cs_init_bound.
  - apply cs_build_bound.
  - apply pc_init_bound.
  - apply pc_build_bound.
Qed.
Print Assumptions C04_constructor_bound.
Example C04_ex :
  cs_build EQOps 0%nat 0%nat (IArray [0;1;1]%Z) (AArray [5;6]%nat) = Err ValueError /\
  exists c, cs_build EQOps 0%nat 0%nat (IArray [1;0]%Z) (AArray [5;6]%nat) = Ok c.
Proof. split; [reflexivity|]. eexists. reflexivity. Qed.

(** ** C05: blocked kernel means *)
Theorem C05_column_mean :
  forall P Y (p0 : P) (y0 : Y) (k : P -> P -> R) xs wx sx ys wy sy (bs : bsarg),
    xs <> [] -> ys <> [] -> length xs = length wx -> length ys = length wy -> Rsum wy <> 0 ->
    compute_mean EROps p0 y0 (fun a b => Fin (k a b))
      (mkData xs (map Fin wx) sx) (mkData ys (map Fin wy) sy) Axis1 bs
    = Ok (MVec (map (fun x => Fin (wavg (fun y => k x y) ys wy)) xs)).
Proof. exact @column_mean_spec. Qed.
Print Assumptions C05_column_mean.

Theorem C05_row_mean :
  forall P Y (p0 : P) (y0 : Y) (k : P -> P -> R) xs wx sx ys wy sy (bs : bsarg),
    (forall a b, k a b = k b a) ->
    xs <> [] -> ys <> [] -> length xs = length wx -> length ys = length wy -> Rsum wx <> 0 ->
    compute_mean EROps p0 y0 (fun a b => Fin (k a b))
      (mkData xs (map Fin wx) sx) (mkData ys (map Fin wy) sy) Axis0 bs
    = Ok (MVec (map (fun y => Fin (wavg (fun x => k x y) xs wx)) ys)).
Proof. exact @row_mean_spec. Qed.
Print Assumptions C05_row_mean.

Theorem C05_full_mean :
  forall P Y (p0 : P) (y0 : Y) (k : P -> P -> R) xs wx sx ys wy sy (bs : bsarg),
    xs <> [] -> ys <> [] -> length xs = length wx -> length ys = length wy ->
    Rsum wx <> 0 -> Rsum wy <> 0 ->
    compute_mean EROps p0 y0 (fun a b => Fin (k a b))
      (mkData xs (map Fin wx) sx) (mkData ys (map Fin wy) sy) AxisNone bs
    = Ok (MScalar (Fin (wavg (fun x => wavg (fun y => k x y) ys wy) xs wx))).
Proof. exact @full_mean_spec. Qed.
Print Assumptions C05_full_mean.

Theorem C05_block_size_irrelevant :
  forall P Y (p0 : P) (y0 : Y) (k : P -> P -> R) xs wx sx ys wy sy ax (bs bs' : bsarg),
    length xs = length wx -> length ys = length wy ->
    compute_mean EROps p0 y0 (fun a b => Fin (k a b))
      (mkData xs (map Fin wx) sx) (mkData ys (map Fin wy) sy) ax bs
    = compute_mean EROps p0 y0 (fun a b => Fin (k a b))
      (mkData xs (map Fin wx) sx) (mkData ys (map Fin wy) sy) ax bs'.
Proof. exact @block_size_irrelevant. Qed.
Print Assumptions C05_block_size_irrelevant.

Theorem C05_gramian_row_mean :
  forall P Y (p0 : P) (y0 : Y) (k : P -> P -> R) xs w s (bs : bsarg),
    (forall a b, k a b = k b a) -> xs <> [] -> length xs = length w -> Rsum w <> 0 ->
    gramian_row_mean EROps p0 y0 (fun a b => Fin (k a b)) (mkData xs (map Fin w) s) bs
    = Ok (MVec (map (fun y => Fin (wavg (fun x => k x y) xs w)) xs)).
Proof. intros. apply row_mean_spec; assumption. Qed.
Print Assumptions C05_gramian_row_mean.

(** the hypotheses hold for a weighted 3-point/2-point data set *)
Example C05_ex :
  compute_mean EROps 0 tt (fun a b => Fin (a * b)) (mkData [1;2;3] (map Fin [1;1;2]) None)
    (mkData [1;5] (map Fin [1;3]) None) Axis1 (BOne (Some 2%Z))
  = Ok (MVec [Fin 4; Fin 8; Fin 12]).
Proof.
  rewrite C05_column_mean by (try discriminate; simpl; try reflexivity; lra).
  unfold wavg, wsum. simpl. do 2 f_equal. repeat (f_equal; try lra).
Qed.

(** The row mean is computed with swapped arguments: symmetry is needed. *)
Theorem C05_row_mean_asymmetric_refuted :
  exists (k : R -> R -> R) xs ys,
    compute_mean EROps 0 tt (fun a b => Fin (k a b))
      (mkData xs (map Fin [1]) None) (mkData ys (map Fin [1]) None) Axis0 (BOne None)
    <> Ok (MVec (map (fun y => Fin (wavg (fun x => k x y) xs [1])) ys)).
Proof. exact row_mean_asymmetric. Qed.
Print Assumptions C05_row_mean_asymmetric_refuted.

(** Empty data is rejected, but with ZeroDivisionError: the intended
    ValueError("'x' must not be empty") is unreachable. *)
Theorem C05_empty_rejected :
  forall P Y (p0 : P) (y0 : Y) k wx sx (y : Data P Y ER) bs,
    compute_mean EROps p0 y0 k (mkData [] wx sx) y Axis1 bs = Err ZeroDivisionError /\
    compute_mean EROps p0 y0 k (mkData [] wx sx) y AxisNone bs = Err ZeroDivisionError.
Proof. exact @empty_rejected. Qed.
Print Assumptions C05_empty_rejected.

(** ** C06: zero-weight padding *)
Theorem C06_padding_mean :
  forall P Y (p0 : P) (y0 : Y) (k : P -> P -> R) xs wx sx ys wy sy zs sy' (bs : bsarg),
    xs <> [] -> ys <> [] -> length xs = length wx -> length ys = length wy ->
    let mean := compute_mean EROps p0 y0 (fun a b => Fin (k a b)) in
    let x := mkData xs (map Fin wx) sx in
    let y := mkData ys (map Fin wy) sy in
    let y_padded := mkData (ys ++ zs) (map Fin wy ++ repeat (Fin 0) (length zs)) sy' in
    mean x y_padded Axis1 bs = mean x y Axis1 bs /\
    mean y_padded x Axis0 bs = mean y x Axis0 bs /\
    mean x y_padded AxisNone bs = mean x y AxisNone bs /\
    mean y_padded x AxisNone bs = mean y x AxisNone bs /\
    (exists r extra, mean y x Axis1 bs = Ok (MVec r) /\
       mean y_padded x Axis1 bs = Ok (MVec (r ++ extra)) /\
       length r = length ys /\ length extra = length zs) /\
    (exists r extra, mean x y Axis0 bs = Ok (MVec r) /\
       mean x y_padded Axis0 bs = Ok (MVec (r ++ extra)) /\
       length r = length ys /\ length extra = length zs).
Proof. exact @padding_mean. Qed.
Print Assumptions C06_padding_mean.
Example C06_ex : [1;2] <> [] /\ [3] <> [] /\ length [1;2] = length [4;5] /\ length [3] = length [6].
Proof. repeat split; discriminate. Qed.

(** ** C43 *)
Theorem C43_solve_weights :
  forall V (O : FOps V) P Y (p0 : P) (y0 : Y) solve (c c' : Coresubset P Y V),
    cs_solve_weights O p0 y0 solve c = Ok c' ->
    solve (c_pre c) (points O p0 y0 c) = Ok (c_w c') /\
    c_idx c' = c_idx c /\ c_pre c' = c_pre c /\
    d_x (points O p0 y0 c') = d_x (points O p0 y0 c) /\
    d_y (points O p0 y0 c') = d_y (points O p0 y0 c) /\
    d_w (points O p0 y0 c') = c_w c'.
Proof. exact solve_weights_spec. Qed.
Print Assumptions C43_solve_weights.
Theorem C43_solve_weights_pseudo :
  forall V P Y solve (c c' : PseudoCoreset P Y V),
    pc_solve_weights solve c = Ok c' ->
    solve (pc_pre c) (pc_nodes c) = Ok (d_w (pc_nodes c')) /\
    d_x (pc_nodes c') = d_x (pc_nodes c) /\ d_y (pc_nodes c') = d_y (pc_nodes c) /\
    pc_pre c' = pc_pre c.
Proof. exact pc_solve_weights_spec. Qed.
Print Assumptions C43_solve_weights_pseudo.
Example C43_ex :
  exists c', cs_solve_weights EQOps 0%nat 0%nat (fun _ _ => Ok [Fin 9]%Q)
    (mkCS [1]%Z [Fin 1]%Q (mkData [10;20]%nat [Fin 1;Fin 2]%Q None)) = Ok c' /\ c_w c' = [Fin 9]%Q.
Proof. eexists. split; reflexivity. Qed.
