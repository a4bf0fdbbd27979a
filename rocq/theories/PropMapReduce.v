(** * MapReduce: properties C31, C32, C33 *)
From Coq Require Import List ZArith QArith Bool Arith Reals Lia Lra Permutation.
From Verif Require Import Num Jax JaxFacts RSum DataModel MeanModel GreedyModel GreedySpec
  MapReduceModel MapReduceSpec MapReduceProofs MapReduceProofs2 MapReduceProofs3.
Import ListNotations.
Open Scope nat_scope.

(** ** C31: MapReduce.reduce terminates and returns a coreset of the requested size.

    Full property: for every base solver that succeeds on data sets with at least
    [coreset_size] points, every [leaf_size > coreset_size] (the constructor's only
    requirement) and every data set of at least [coreset_size] points, [reduce]
    returns, and the coreset has [coreset_size] points.

    It holds when the data fit in one leaf or [2 * coreset_size <= leaf_size]: a
    recursion depth above the number of points always suffices, and neither the
    recursion limit nor a too-small leaf is ever hit. *)
Theorem C31_terminates_partial :
  forall V (O : FOps V) P Y (p0 : P) (y0 : Y) sup m base tree leaf fuel (d : Data P Y V),
    sized sup m base -> tree_sized tree ->
    1 <= m -> mr_init leaf m = Ok tt ->
    d_len d <= leaf \/ 2 * m <= leaf ->
    wfd d -> is_sup d = sup -> m <= d_len d -> d_len d < fuel ->
    exists c, map_reduce O p0 y0 base tree leaf fuel d = Ok c /\
      length (c_idx c) = m /\ length (c_w c) = m /\ c_pre c = d.
Proof.
  intros V O P Y p0 y0 sup m base tree leaf fuel d HB HT Hm _ [Hle|Hl] Hw Hs Hn Hf.
  - unfold map_reduce. destruct fuel; [lia|]. cbn [reduce_coreset].
    rewrite (proj2 (Nat.leb_le _ _) Hle). destruct (HB d Hw Hs Hn) as [c [-> [A [B C]]]]. cbn [bind].
    eexists. split; [reflexivity|]. auto.
  - now apply (map_reduce_terminates O p0 y0 sup m).
Qed.
Print Assumptions C31_terminates_partial.

(** KernelHerding (in either selection mode) and SteinThinning are such base solvers. *)
Theorem C31_base_solvers_partial :
  forall V (O : FOps V) P Y (p0 : P) (y0 : Y) h s ord,
    (1 <= h_size h -> sized false (h_size h) (herding_base O p0 y0 h ord)) /\
    (1 <= s_size s -> sized (P := P) (Y := Y) false (s_size s) (stein_reduce O p0 y0 s ord)).
Proof. intros. split; intros H; [now apply herding_sized|now apply stein_sized]. Qed.
Print Assumptions C31_base_solvers_partial.

Example C31_partial_applies :
  exists c, map_reduce EQOps 0%Z tt
    (herding_base EQOps 0%Z tt (mkHerding 2 (fun a b => Fin (1 # Z.to_pos (1 + (a - b) * (a - b)))%Q) true (BOne None) Greedy) (fun _ => seq 0 2))
    (fun xs _ _ => seq 0 (length xs)) 5 20
    (as_data EQOps (map (fun i => Z.of_nat (i * i)) (seq 0 17))) = Ok c /\ length (c_idx c) = 2.
Proof.
  destruct (C31_terminates_partial EQ EQOps Z unit 0%Z tt false 2
    (herding_base EQOps 0%Z tt (mkHerding 2 (fun a b => Fin (1 # Z.to_pos (1 + (a - b) * (a - b)))%Q) true (BOne None) Greedy) (fun _ => seq 0 2))
    (fun xs _ _ => seq 0 (length xs)) 5 20
    (as_data EQOps (map (fun i => Z.of_nat (i * i)) (seq 0 17)))) as [c [E [L _]]].
  - apply (herding_sized EQOps 0%Z tt (mkHerding 2 _ true (BOne None) Greedy)). simpl. lia.
  - intros xs w l. apply seq_length.
  - lia.
  - reflexivity.
  - right; lia.
  - split; [reflexivity|discriminate].
  - reflexivity.
  - vm_compute. lia.
  - vm_compute. lia.
  - eauto.
Qed.

(** Finding: when [leaf_size // 2 < coreset_size < leaf_size], a configuration the
    constructor accepts, [reduce] fails on EVERY data set with more than
    [leaf_size] points, whatever the recursion limit ... *)
Theorem C31_never_returns_refuted :
  forall V (O : FOps V) P Y (p0 : P) (y0 : Y) m base tree leaf fuel (d : Data P Y V),
    (forall e c, base e = Ok c -> length (c_idx c) = m) -> tree_sized tree ->
    mr_init leaf m = Ok tt -> leaf / 2 < m -> leaf < d_len d ->
    exists e, map_reduce O p0 y0 base tree leaf fuel d = Err e.
Proof.
  intros V O P Y p0 y0 m base tree leaf fuel d HB HT Hi Hm Hn.
  assert (2 <= leaf).
  { unfold mr_init in Hi. destruct (Nat.leb_spec leaf m); [discriminate|].
    destruct leaf as [|[|leaf]]; simpl in *; lia. }
  destruct (reduce_never O p0 y0 m base tree leaf HB HT ltac:(assumption) Hm fuel d None Hn) as [e E].
  exists e. unfold map_reduce. rewrite E. reflexivity.
Qed.
Print Assumptions C31_never_returns_refuted.

(** Together: a base solver that always returns [m] indices returns through [MapReduce]
    exactly if the data fit into one leaf or two coresets fit into one leaf. *)
Theorem C31_returns_iff_partial :
  forall V (O : FOps V) P Y (p0 : P) (y0 : Y) sup m base tree leaf (d : Data P Y V),
    sized sup m base -> (forall e c, base e = Ok c -> length (c_idx c) = m) -> tree_sized tree ->
    1 <= m -> mr_init leaf m = Ok tt -> wfd d -> is_sup d = sup -> m <= d_len d ->
    (exists fuel c, map_reduce O p0 y0 base tree leaf fuel d = Ok c) <-> d_len d <= leaf \/ 2 * m <= leaf.
Proof.
  intros V O P Y p0 y0 sup m base tree leaf d HB HB' HT Hm Hi Hw Hs Hn. split.
  - intros (fuel & c & E). destruct (Nat.le_gt_cases (d_len d) leaf) as [|H1]; [now left|].
    destruct (Nat.le_gt_cases (2 * m) leaf) as [|H2]; [now right|]. exfalso.
    destruct (C31_never_returns_refuted V O P Y p0 y0 m base tree leaf fuel d HB' HT Hi) as [e E']; auto; [|congruence].
    apply Nat.div_lt_upper_bound; lia.
  - intros H. destruct (C31_terminates_partial V O P Y p0 y0 sup m base tree leaf (S (d_len d)) d HB HT Hm Hi H Hw Hs Hn ltac:(lia)) as (c & E & _).
    eauto.
Qed.
Print Assumptions C31_returns_iff_partial.

(** ... and with a leaf size of [2 h] and [h + 1] points per coreset the recursion
    itself never ends: every recursion limit is exceeded, although the base solver
    succeeds each time. *)
Theorem C31_infinite_recursion_refuted :
  forall V (O : FOps V) P Y (p0 : P) (y0 : Y) sup h q base tree fuel (d : Data P Y V),
    sized sup (h + 1) base -> tree_sized tree -> 2 <= h -> 1 <= q ->
    wfd d -> is_sup d = sup -> d_len d = 2 ^ q * (h + 1) ->
    mr_init (2 * h) (h + 1) = Ok tt /\
    map_reduce O p0 y0 base tree (2 * h) fuel d = Err RecursionLimit.
Proof.
  intros. split.
  - unfold mr_init. destruct (Nat.leb_spec (2 * h) (h + 1)); [lia|reflexivity].
  - unfold map_reduce. rewrite (reduce_diverges O p0 y0 sup h base tree) with (q := q); auto.
Qed.
Print Assumptions C31_infinite_recursion_refuted.

Example C31_infinite_recursion_applies : forall fuel,
  map_reduce EQOps 0%Z tt
    (herding_base EQOps 0%Z tt (mkHerding 6 (fun a b => Fin (1 # Z.to_pos (1 + (a - b) * (a - b)))%Q) true (BOne None) Greedy) (fun _ => seq 0 6))
    (fun xs _ _ => seq 0 (length xs)) 10 fuel
    (as_data EQOps (map Z.of_nat (seq 0 12))) = Err RecursionLimit.
Proof.
  intros fuel.
  refine (proj2 (C31_infinite_recursion_refuted EQ EQOps Z unit 0%Z tt false 5 1 _ _ fuel _ _ _ _ _ _ _ _)); try lia; try reflexivity.
  - apply (herding_sized EQOps 0%Z tt (mkHerding 6 _ true (BOne None) Greedy)). simpl. lia.
  - intros xs w l. apply seq_length.
  - split; [reflexivity|discriminate].
Qed.

(** ** C32: the indices MapReduce reports are row numbers of the original data.

    Full property: for every data set, base solver and tree, the points of the
    returned coreset are exactly the points that the base solver selected in the
    last reduction, the data of which arise by splitting, reducing and merging.  Proved when no level of the recursion pads its data; with
    padding it fails (see C33). *)
Theorem C32_provenance_partial :
  forall V (O : FOps V) P Y (p0 : P) (y0 : Y) m base tree leaf fuel (d : Data P Y V) r,
    (forall e c, base e = Ok c -> c_pre c = e /\ length (c_idx c) = m /\ length (c_w c) = m) ->
    tree_perm tree -> 1 <= m -> mr_init leaf m = Ok tt ->
    wfd d -> 0 < d_len d -> no_padding leaf m fuel (d_len d) = true ->
    map_reduce O p0 y0 base tree leaf fuel d = Ok r ->
    c_pre r = d /\
    exists e c, reached O p0 y0 base d e /\ base e = Ok c /\
      d_x (points O p0 y0 r) = d_x (points O p0 y0 c) /\
      d_y (points O p0 y0 r) = d_y (points O p0 y0 c) /\
      d_w (points O p0 y0 r) = d_w (points O p0 y0 c).
Proof.
  intros V O P Y p0 y0 m base tree leaf fuel d r HB HT Hm Hi Hw Hn Hnp E.
  assert (Hl : 2 <= leaf) by (unfold mr_init in Hi; destruct (Nat.leb_spec leaf m); [discriminate|lia]).
  unfold map_reduce in E.
  destruct (reduce_coreset O p0 y0 base tree leaf fuel d None) as [[c ix]|] eqn:ER; cbn [bind] in E; [|discriminate].
  injection E as <-. split; [reflexivity|].
  apply (reduce_provenance O p0 y0 (is_sup d) m base tree leaf d HB HT Hm Hl) in ER; auto; [|constructor|reflexivity].
  destruct ER as [E1 [E0 [E2 E3]]]. exists (c_pre c), c. split; [exact E0|]. split; [exact E1|].
  split; [|split; [|reflexivity]].
  - rewrite E2. reflexivity.
  - rewrite E3. reflexivity.
Qed.
Print Assumptions C32_provenance_partial.

Example C32_partial_applies : no_padding 10 5 30 40 = true /\ no_padding 4 2 30 16 = true /\
  mr_init 10 5 = Ok tt /\ leaf_count 10 40 = 4 /\ leaf_rows 10 40 = 10.
Proof. repeat split; reflexivity. Qed.

(** ** C33: padding never reaches the result.

    Full property: with strictly positive weights, and a base solver that picks
    distinct points of positive weight whenever enough exist, the reported indices
    are distinct rows of the data.  Proved when at every level a leaf holding all
    the padding would still contain [coreset_size] data points. *)
Theorem C33_no_padding_selected_partial :
  forall P Y (p0 : P) (y0 : Y) m base tree leaf fuel (xs : list P) (w : list R) r,
    picks m base -> tree_perm tree -> 1 <= m -> mr_init leaf m = Ok tt ->
    length w = length xs -> Forall (fun v => 0 < v)%R w -> m <= length xs ->
    never_starves leaf m fuel (length xs) = true ->
    map_reduce EROps p0 y0 base tree leaf fuel (@mkData P Y ER xs (map Fin w) None) = Ok r ->
    exists t ws, r = mkCS (map Z.of_nat t) (map Fin ws) (mkData xs (map Fin w) None) /\
      NoDup t /\ length t = m /\ (forall i, In i t -> i < length xs) /\
      length ws = m /\ Forall (fun v => 0 < v)%R ws.
Proof.
  intros. assert (Hl : 2 <= leaf) by (unfold mr_init in *; destruct (Nat.leb_spec leaf m); [discriminate|lia]).
  eapply picks_map_reduce; eauto.
Qed.
Print Assumptions C33_no_padding_selected_partial.

(** End to end for KernelHerding with [unique=True]: it returns, with distinct row
    numbers and unit weights. *)
Theorem C33_herding_partial :
  forall P Y (p0 : P) (y0 : Y) (k : P -> P -> R) m bs ord tree leaf fuel (xs : list P) (w : list R),
    (forall i, Permutation (ord i) (seq 0 m)) -> tree_perm tree -> 1 <= m -> 2 * m <= leaf ->
    length w = length xs -> Forall (fun v => 0 < v)%R w -> m <= length xs -> length xs < fuel ->
    never_starves leaf m fuel (length xs) = true ->
    exists t ws,
      map_reduce EROps p0 y0 (herding_base EROps p0 y0 (mkHerding m (fun a b => Fin (k a b)) true bs Greedy) ord)
        tree leaf fuel (mkData xs (map Fin w) None)
      = Ok (mkCS (map Z.of_nat t) ws (mkData xs (map Fin w) None)) /\
      NoDup t /\ length t = m /\ (forall i, In i t -> i < length xs).
Proof.
  intros P Y p0 y0 k m bs ord tree leaf fuel xs w Ho HT Hm Hl HL Hw Hn Hf Hns.
  destruct (map_reduce_terminates EROps p0 y0 false m
    (herding_base EROps p0 y0 (mkHerding m (fun a b => Fin (k a b)) true bs Greedy) ord) tree leaf fuel (mkData xs (map Fin w) None))
    as [c [E _]]; auto.
  - apply (herding_sized EROps p0 y0 (mkHerding m _ true bs Greedy)). assumption.
  - intros x v l. rewrite (Permutation_length (HT x v l)). apply seq_length.
  - split; [cbn [d_w d_x]; now rewrite map_length|discriminate].
  - destruct (picks_map_reduce p0 y0 m _ tree leaf fuel xs w c (herding_picks p0 y0 k m bs ord Hm Ho) HT Hm ltac:(lia) HL Hw Hn Hns E)
      as [t [ws [E1 [E2 [E3 [E4 _]]]]]].
    exists t, (map Fin ws). rewrite E, E1. auto.
Qed.
Print Assumptions C33_herding_partial.

Example C33_herding_applies : exists t ws,
  map_reduce EROps 0%R tt
    (herding_base EROps 0%R tt (mkHerding 2 (fun a b => Fin (a * b)%R) true (BOne None) Greedy) (fun _ => seq 0 2))
    (fun xs _ _ => seq 0 (length xs)) 8 20
    (mkData (map INR (seq 0 15)) (map Fin (repeat 1%R 15)) None)
  = Ok (mkCS (map Z.of_nat t) ws (mkData (map INR (seq 0 15)) (map Fin (repeat 1%R 15)) None)) /\
  NoDup t /\ length t = 2 /\ (forall i, In i t -> i < 15).
Proof.
  destruct (C33_herding_partial R unit 0%R tt (fun a b => (a * b)%R) 2 (BOne None) (fun _ => seq 0 2)
    (fun xs _ _ => seq 0 (length xs)) 8 20 (map INR (seq 0 15)) (repeat 1%R 15)) as [t [ws [E [A [B C]]]]].
  - intros; reflexivity.
  - intros xs w l; reflexivity.
  - lia.
  - lia.
  - rewrite map_length, seq_length, repeat_length. reflexivity.
  - apply Forall_forall; intros v Hv; apply repeat_spec in Hv; subst; lra.
  - rewrite map_length, seq_length. lia.
  - rewrite map_length, seq_length. lia.
  - rewrite map_length, seq_length. reflexivity.
  - rewrite map_length, seq_length in C. exists t, ws. auto.
Qed.

(** Finding: without that condition padding is selected.  Nine distinct points of
    weight one, leaf size four, coreset size two, KernelHerding with
    [unique=True], and the rows partitioned in sorted order as a one-dimensional
    k-d tree does: one leaf consists of the three padding rows, the base solver
    returns one of them (twice), and the result reports the last row of the data
    twice. *)
Fixpoint insert (le : nat -> nat -> bool) (a : nat) (l : list nat) : list nat :=
  match l with [] => [a] | b :: t => if le a b then a :: l else b :: insert le a t end.
Definition sorted_tree (xs : list Z) (_ : list EQ) (_ : nat) : list nat :=
  fold_right (insert (fun i j => Z.leb (nth i xs 0%Z) (nth j xs 0%Z))) [] (seq 0 (length xs)).
Lemma sorted_tree_perm xs w leaf : Permutation (sorted_tree xs w leaf) (seq 0 (length xs)).
Proof.
  unfold sorted_tree. generalize (seq 0 (length xs)) as l. induction l as [|a l IH]; simpl; [constructor|].
  rewrite <- IH at 2. generalize (fold_right (insert (fun i j => Z.leb (nth i xs 0%Z) (nth j xs 0%Z))) [] l) as t. clear.
  induction t as [|b t IH]; simpl; [reflexivity|].
  destruct (Z.leb _ _); [reflexivity|]. rewrite IH. apply perm_swap.
Qed.
Theorem C33_padding_selected_refuted :
  let xs := [3; -1; 8; 2; 5; -3; -2; 1; 7]%Z in
  let d := @as_data EQ EQOps Z unit xs in
  let base := herding_base EQOps 0%Z tt
    (mkHerding 2 (fun a b => Fin (1 # Z.to_pos (1 + (a - b) * (a - b)))%Q) true (BOne None) Greedy) (fun _ => seq 0 2) in
  NoDup xs /\ mr_init 4 2 = Ok tt /\
  (forall ys w leaf, Permutation (sorted_tree ys w leaf) (seq 0 (length ys))) /\
  (* the base solver ends on a data set containing the point 0, which is no data point *)
  (exists c ix, reduce_coreset EQOps 0%Z tt base sorted_tree 4 10 d None = Ok (c, ix) /\
     In 0%Z (d_x (points EQOps 0%Z tt c)) /\ ~ In 0%Z xs) /\
  (* and the reported indices are not distinct *)
  exists r, map_reduce EQOps 0%Z tt base sorted_tree 4 10 d = Ok r /\ ~ NoDup (c_idx r).
Proof.
  cbv zeta. split; [|split; [|split; [|split]]].
  - repeat constructor; simpl; intuition discriminate.
  - reflexivity.
  - exact sorted_tree_perm.
  - eexists _, _. split; [vm_compute; reflexivity|]. split; [vm_compute; auto|]. simpl. intuition discriminate.
  - eexists. split; [vm_compute; reflexivity|]. simpl. intros H. inversion_clear H as [|? ? H1 _]. apply H1. simpl. auto.
Qed.
Print Assumptions C33_padding_selected_refuted.
