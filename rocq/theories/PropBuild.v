(** * C93: building data sets and coresets from arrays, slicing, and evaluating a metric *)
From Coq Require Import List ZArith QArith Lia Bool.
From Verif Require Import Num Jax JaxFacts DataModel MeanModel MeanSpec MeanProofs DataProofs DataMeanLemmas MapReduceProofs2.
Import ListNotations.
Open Scope nat_scope.

(** ** Vocabulary: what an argument stands for *)
(** a data argument: a data set, an array (unit weights, no targets), or a pair of arrays of
    the same length (unit weights) *)
Inductive data_meant {P Y V} (one : V) : darg P Y V -> Data P Y V -> Prop :=
| meant_data d : data_meant one (AData d) d
| meant_array x : data_meant one (AArray x) (mkData x (repeat one (length x)) None)
| meant_pair x y : length y = length x -> data_meant one (ATuple x y) (mkData x (repeat one (length x)) (Some y)).
(** an index argument: weighted indices, or an array of indices (unit weights) *)
Inductive indices_meant {V} (one : V) : iarg V -> list Z -> list V -> Prop :=
| meant_weighted i w : indices_meant one (IData i w) i w
| meant_indices i : indices_meant one (IArray i) i (repeat one (length i)).
(** nodes of a pseudo-coreset: a data set or an array *)
Inductive nodes_meant {P Y V} (one : V) : darg P Y V -> Data P Y V -> Prop :=
| meant_nodes d : nodes_meant one (AData d) d
| meant_node_array x : nodes_meant one (AArray x) (mkData x (repeat one (length x)) None).

(** ** [Coresubset.build] returns the coreset meant by its arguments, or raises: ValueError if
    there are more indices than rows, ValueError for arrays of different lengths, TypeError for
    any other argument.  The constructor accepts data only. *)
Theorem C93_build :
  forall V (O : FOps V) P Y (p0 : P) (y0 : Y) (i : iarg V) (d : darg P Y V) idx w pre,
    indices_meant (f1 O) i idx w -> data_meant (f1 O) d pre ->
    cs_build O p0 y0 i d = if d_len pre <? length idx then Err ValueError else Ok (mkCS idx w pre).
Proof.
  intros V O P Y p0 y0 i d idx w pre HI HD.
  destruct HD as [d|x|x y HL]; unfold cs_build, conv_data, make_supervised, broadcast_weights; cbn [bind];
    [| |rewrite HL, Nat.eqb_refl; cbn [bind]]; destruct HI; now rewrite cs_init_ok.
Qed.
Print Assumptions C93_build.

Theorem C93_build_errors :
  forall V (O : FOps V) P Y (p0 : P) (y0 : Y) (i : iarg V) (d : darg P Y V) (x : list P) (y : list Y),
    (forall n, (length y <> length x) -> cs_build O p0 y0 i (ATuple x y) = Err ValueError /\ pc_build O n (ATuple x y) = Err ValueError) /\
    (forall n, cs_build O p0 y0 i AOther = Err TypeError /\ pc_build O n (AOther : darg P Y V) = Err TypeError) /\
    ((forall u v, d <> ATuple u v) -> cs_build O p0 y0 IOther d = Err TypeError /\ pc_build O AOther d = Err TypeError) /\
    (forall e, (forall a b, i <> IData a b) -> cs_init O p0 y0 i e = Err TypeError) /\
    ((forall a, d <> AData a) -> cs_init O p0 y0 i d = Err TypeError /\ forall e, pc_init d e = Err TypeError /\ pc_init e d = Err TypeError).
Proof.
  intros V O P Y p0 y0 i d x y. split; [|split; [|split; [|split]]].
  - intros n H. apply Nat.eqb_neq in H. unfold cs_build, pc_build, conv_data, make_supervised, broadcast_weights. cbn [bind]. rewrite H. auto.
  - intros n. unfold cs_build, pc_build, conv_data; cbn [bind]. split; [destruct i; reflexivity|destruct n; reflexivity].
  - intros H. destruct d as [d|u|u v|]; [| |exfalso; now apply (H u v)|]; split; reflexivity.
  - intros e H. destruct i as [a b| |]; try reflexivity. exfalso. now apply (H a b).
  - intros H. split; [destruct i, d; try reflexivity; exfalso; eapply H; reflexivity|].
    intros e. split; destruct d, e; try reflexivity; exfalso; eapply H; reflexivity.
Qed.
Print Assumptions C93_build_errors.

(** ** [PseudoCoreset.build] *)
Theorem C93_build_pseudo :
  forall V (O : FOps V) P Y (n d : darg P Y V) nodes pre,
    nodes_meant (f1 O) n nodes -> data_meant (f1 O) d pre ->
    pc_build O n d = if d_len pre <? d_len nodes then Err ValueError else Ok (mkPC nodes pre).
Proof.
  intros V O P Y n d nodes pre HN HD.
  destruct HD as [d|x|x y HL]; unfold pc_build, conv_data, make_supervised, broadcast_weights; cbn [bind];
    [| |rewrite HL, Nat.eqb_refl; cbn [bind]]; destruct HN; reflexivity.
Qed.
Print Assumptions C93_build_pseudo.
Example C93_build_applies :
  let pre : Data nat nat EQ := mkData [5; 6; 7] [Fin 1; Fin 1; Fin 1]%Q (Some [1; 2; 3]) in
  indices_meant (f1 EQOps) (IArray [2; 0]%Z) [2; 0]%Z [Fin 1; Fin 1]%Q /\ data_meant (f1 EQOps) (ATuple [5; 6; 7] [1; 2; 3]) pre /\
  nodes_meant (f1 EQOps) (AArray [9; 9]) (mkData [9; 9] [Fin 1; Fin 1]%Q None : Data nat nat EQ) /\
  cs_build EQOps 0 0 (IArray [2; 0]%Z) (ATuple [5; 6; 7] [1; 2; 3]) = Ok (mkCS [2; 0]%Z [Fin 1; Fin 1]%Q pre) /\
  cs_build EQOps 0 0 (IArray [2; 0; 0; 1]%Z) (ATuple [5; 6; 7] [1; 2; 3]) = Err ValueError.
Proof.
  split; [apply (meant_indices (f1 EQOps))|]. split; [now apply (meant_pair (f1 EQOps))|]. split; [apply (meant_node_array (f1 EQOps))|].
  split; reflexivity.
Qed.

(** ** The constructors of data sets raise exactly on arrays whose lengths do not fit: a weight
    array must have one entry per row, or one entry in all *)
Theorem C93_data_errors :
  forall V (O : FOps V) P Y (x : list P) (y : list Y) (w : warg V),
    let fits := match w with WVec l => length l = length x \/ length l = 1 | _ => True end in
    ((exists e, make_data (Y := Y) O x w = Err e) <-> ~ fits) /\
    ((exists e, make_supervised O x y w = Err e) <-> ~ (fits /\ length y = length x)) /\
    (forall e, make_data (Y := Y) O x w = Err e \/ make_supervised O x y w = Err e -> e = ValueError).
Proof.
  intros V O P Y x y w fits.
  assert (B : (exists ws, broadcast_weights O (length x) w = Ok ws /\ fits) \/ (broadcast_weights O (length x) w = Err ValueError /\ ~ fits)).
  { unfold fits, broadcast_weights. destruct w as [|v|l]; [left; eauto|left; eauto|]. destruct (Nat.eqb_spec (length l) (length x)) as [E|E]; [left; eauto|].
    destruct l as [|v [|v' l]]; [right|left; eauto|right]; (split; [reflexivity|]); cbn in *; lia. }
  unfold make_data, make_supervised. destruct B as [(ws & -> & F)|(-> & F)]; cbn [bind].
  - split; [|split].
    + split; [intros [e E]; discriminate|intros N; contradiction].
    + destruct (Nat.eqb_spec (length y) (length x)) as [E|E].
      * split; [intros [e E']; discriminate|intros N; exfalso; apply N; auto].
      * split; [intros _ [_ N]; contradiction|eauto].
    + intros e [E|E]; [discriminate|]. destruct (length y =? length x); [discriminate|congruence].
  - split; [split; eauto|]. split; [split; [intros _ [N _]; contradiction|eauto]|]. intros e [E|E]; congruence.
Qed.
Print Assumptions C93_data_errors.
Example C93_data_errors_applies :
  make_data (Y := nat) EQOps [1; 2; 3] (WVec [Fin 1; Fin 1]%Q) = Err ValueError /\
  (exists d, make_data (Y := nat) EQOps [1; 2; 3] (WVec [Fin 4]%Q) = Ok d /\ d_w d = [Fin 4; Fin 4; Fin 4]%Q) /\
  make_supervised EQOps [1; 2; 3] [7] WNone = Err ValueError.
Proof. split; [reflexivity|]. split; [eexists; split; reflexivity|reflexivity]. Qed.

(** ** A slice keeps the first rows with their weights and targets *)
Theorem C93_slice :
  forall V (O : FOps V) P Y (d : Data P Y V) n,
    length (d_w d) = length (d_x d) -> (forall y, d_y d = Some y -> length y = length (d_x d)) ->
    let s := d_take d n in
    d_len s = Nat.min n (d_len d) /\ length (d_w s) = d_len s /\
    (d_y s = None <-> d_y d = None) /\
    forall i p v, i < d_len s ->
      nth i (d_x s) p = nth i (d_x d) p /\ nth i (d_w s) v = nth i (d_w d) v /\
      forall y y' q, d_y d = Some y -> d_y s = Some y' -> length y' = d_len s /\ nth i y' q = nth i y q.
Proof.
  intros V O P Y d n HW HY s. unfold s, d_take, d_len. cbn [d_x d_w d_y].
  assert (N : forall A (l : list A) i q, i < length (firstn n l) -> nth i (firstn n l) q = nth i l q).
  { intros A l i q Hi. rewrite <- (firstn_skipn n l) at 2. now rewrite app_nth1. }
  split; [apply firstn_length|]. split; [now rewrite !firstn_length, HW|]. split; [destruct (d_y d); cbn; split; congruence|].
  intros i p v Hi. split; [now apply N|]. split; [apply N; rewrite firstn_length in *; lia|].
  intros y y' q E E'. rewrite E in E'. cbn in E'. injection E' as <-. specialize (HY y E). split; [now rewrite !firstn_length, HY|]. apply N. rewrite firstn_length in *. lia.
Qed.
Print Assumptions C93_slice.
Example C93_slice_applies :
  let d : Data nat nat EQ := mkData [5; 6; 7] [Fin 1; Fin 2; Fin 3]%Q (Some [1; 2; 3]) in
  d_take d 2 = mkData [5; 6] [Fin 1; Fin 2]%Q (Some [1; 2]).
Proof. reflexivity. Qed.

(** ** [compute_metric] compares the original data, as first argument, with the selected rows
    under the coreset's weights, whatever the metric *)
Theorem C93_compute_metric :
  forall V (O : FOps V) P Y M (p0 : P) (y0 : Y) (metric : Data P Y V -> Data P Y V -> M) xs dw dy l w,
    (forall i, In i l -> i < length xs) -> (forall y, dy = Some y -> length y = length xs) ->
    cs_compute_metric O p0 y0 metric (mkCS (map Z.of_nat l) w (mkData xs dw dy))
    = metric (mkData xs dw dy)
             (mkData (map (fun i => nth i xs p0) l) w (option_map (fun y => map (fun i => nth i y y0) l) dy)).
Proof.
  intros V O P Y M p0 y0 metric xs dw dy l w HI HY. unfold cs_compute_metric, points, d_getitem. cbn [c_pre c_idx c_w d_x d_w d_y].
  rewrite gather_nats by auto. f_equal. f_equal. destruct dy as [y|]; [|reflexivity]. cbn [option_map].
  rewrite gather_nats by (intros i Hi; rewrite (HY y eq_refl); auto). reflexivity.
Qed.
Print Assumptions C93_compute_metric.
Example C93_compute_metric_applies :
  cs_compute_metric EQOps 0 0 (fun a b => (d_x a, d_w b)) (mkCS [2; 0]%Z [Fin 4; Fin 5]%Q (mkData [5; 6; 7] [Fin 1; Fin 1; Fin 1]%Q None))
  = ([5; 6; 7], [Fin 4; Fin 5]%Q).
Proof. reflexivity. Qed.
