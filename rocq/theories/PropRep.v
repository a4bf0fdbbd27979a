(** * C77: coresets do not depend on how the data set is written down *)
From Coq Require Import List ZArith Reals Lra Lia Bool Permutation.
From Verif Require Import Num Jax RSum JaxFacts DataModel MeanModel MeanSpec GreedySpec GreedyModel MetricSpec MetricProofs GreedyProofs5 RepSpec RepProofs PropGreedy.
Import ListNotations.
Open Scope R_scope.

(** ** Ways of writing down the same data set *)
(** another order of the rows, another scale of the weights, extra rows of weight zero *)
Theorem C77_same_data_sources :
  forall P (xs ys zs : list P) (w v : list R) (c : R),
    (length w = length xs -> length v = length ys -> Permutation (combine xs w) (combine ys v) -> same_rows xs w ys v) /\
    (0 < c -> same_rows xs w xs (map (Rmult c) w)) /\
    (length w = length xs -> same_rows xs w (xs ++ zs) (w ++ repeat 0 (length zs))) /\
    (weighted xs w -> weighted ys v -> same_rows xs w ys v -> same_dist xs w ys v).
Proof.
  intros P xs ys zs w v c.
  assert (ID : forall l : list (P * R), map (fun p => (fst p, 1 * snd p)) l = l).
  { intro l. rewrite <- (map_id l) at 2. apply map_ext. intros [a b]. cbn. f_equal. ring. }
  split; [|split; [|split]].
  - intros L1 L2 HP. exists 1. split; [lra|]. rewrite ID. unfold positive_rows. symmetry.
    clear -HP. induction HP as [|p l l' H IH|p q l|l l' l'' H1 IH1 H2 IH2]; cbn; auto.
    + destruct (Rlt_dec 0 (snd p)); auto.
    + destruct (Rlt_dec 0 (snd p)), (Rlt_dec 0 (snd q)); auto; apply perm_swap.
    + now transitivity (filter (fun p => if Rlt_dec 0 (snd p) then true else false) l').
  - intro Hc. exists c. split; [exact Hc|].
    match goal with |- Permutation ?a ?b => replace a with b; [reflexivity|] end. unfold positive_rows.
    revert w. induction xs as [|a xs IH]; intros [|u w]; cbn [combine map filter snd]; try reflexivity.
    assert (E : (if Rlt_dec 0 (c * u) then true else false) = if Rlt_dec 0 u then true else false).
    { destruct (Rlt_dec 0 u) as [H|H], (Rlt_dec 0 (c * u)) as [H2|H2]; auto; exfalso.
      - apply H2. now apply Rmult_lt_0_compat.
      - apply H. apply Rmult_lt_reg_l with c; [exact Hc|]. now rewrite Rmult_0_r. }
    rewrite E. destruct (Rlt_dec 0 u); cbn [map fst snd]; rewrite IH; reflexivity.
  - intro L. exists 1. split; [lra|]. rewrite ID. unfold positive_rows.
    assert (E : combine (xs ++ zs) (w ++ repeat 0 (length zs)) = combine xs w ++ combine zs (repeat 0 (length zs))).
    { revert w L. induction xs as [|a xs IH]; intros [|u w] L; try discriminate; [reflexivity|]. cbn. f_equal. apply IH. cbn in L. lia. }
    rewrite E, filter_app.
    assert (Z : filter (fun p : P * R => if Rlt_dec 0 (snd p) then true else false) (combine zs (repeat 0 (length zs))) = []).
    { clear. induction zs as [|z zs IH]; [reflexivity|]. cbn. destruct (Rlt_dec 0 0); [lra|]. exact IH. }
    rewrite Z, app_nil_r. reflexivity.
  - apply rows_dist.
Qed.
Print Assumptions C77_same_data_sources.
(** integer weights instead of repeated rows *)
Theorem C77_integer_weights :
  forall P (rows : list (P * nat)),
    same_dist (map fst rows) (map (fun r => INR (snd r)) rows)
      (flat_map (fun r => repeat (fst r) (snd r)) rows) (flat_map (fun r => repeat 1 (snd r)) rows).
Proof.
  intros P rows f. unfold wavg, wsum. 
  assert (A : forall (x : P) n xs w, combine (repeat x n ++ xs) (repeat 1 n ++ w) = repeat (x, 1) n ++ combine xs w).
  { intros x n xs w. induction n as [|n IH]; [reflexivity|]. cbn. now rewrite IH. }
  assert (B : forall g n, Rsum (map g (repeat 1 n)) = INR n * g 1).
  { intros g n. induction n as [|n IH]; [cbn; lra|]. rewrite S_INR. cbn [repeat map]. change (Rsum (?u :: ?t)) with (u + Rsum t). rewrite IH. lra. }
  assert (C : forall (x : P) n, Rsum (map (fun p => snd p * f (fst p)) (repeat (x, 1) n)) = INR n * f x).
  { intros x n. induction n as [|n IH]; [cbn; lra|]. rewrite S_INR. cbn [repeat map fst snd]. change (Rsum (?u :: ?t)) with (u + Rsum t). rewrite IH. lra. }
  apply (f_equal2 Rdiv).
  - induction rows as [|[x n] rows IH]; [reflexivity|]. cbn [map flat_map combine fst snd]. rewrite A, map_app, Rsum_app, C, <- IH. reflexivity.
  - clear -B. induction rows as [|[x n] rows IH]; [reflexivity|]. cbn [map flat_map fst snd]. rewrite Rsum_app, <- IH.
    specialize (B (fun a => a) n). rewrite map_id in B. rewrite B, Rmult_1_r. reflexivity.
Qed.
Print Assumptions C77_integer_weights.

(** ** Herding selects the same points in the same order *)
Theorem C77_herding_representation :
  forall P Y (p0 : P) (y0 : Y) (k : P -> P -> R) (m : nat) (unique : bool) (bs bs' : bsarg)
         (ord ord' : nat -> list nat) (xs ys : list P) (w v : list R),
    weighted xs w -> weighted ys v -> same_data unique xs w ys v ->
    size_ok m unique w -> size_ok m unique v ->
    (forall i, Permutation (ord i) (seq 0 m)) -> (forall i, Permutation (ord' i) (seq 0 m)) ->
    exists l l' g g',
      herding_reduce EROps p0 y0 (mkHerding m (kE k) unique bs Greedy) ord (unsup xs w) None
        = Ok (mkCS (map Z.of_nat l) (repeat (Fin 1) m) (unsup xs w), g) /\
      herding_reduce EROps p0 y0 (mkHerding m (kE k) unique bs' Greedy) ord' (unsup ys v) None
        = Ok (mkCS (map Z.of_nat l') (repeat (Fin 1) m) (unsup ys v), g') /\
      length l = m /\ length l' = m /\
      (no_ties p0 (herding_value k xs w) xs w unique l -> points_at p0 xs l = points_at p0 ys l').
Proof.
  intros P Y p0 y0 k m unique bs bs' ord ord' xs ys w v W1 W2 D [S1 U1] [S2 U2] O1 O2.
  pose proof W1 as (L1 & P1 & N1). pose proof W2 as (L2 & P2 & N2). rewrite L1 in S1. rewrite L2 in S2.
  pose proof (Rsum_pos w P1 N1). pose proof (Rsum_pos v P2 N2).
  destruct (C18_herding_greedy P Y p0 y0 k m unique bs ord xs w L1 ltac:(lra) S1 O1 N1 U1) as (l & g & E1 & M1 & G1).
  destruct (C18_herding_greedy P Y p0 y0 k m unique bs' ord' ys v L2 ltac:(lra) S2 O2 N2 U2) as (l' & g' & E2 & M2 & G2).
  exists l, l', g, g'. split; [exact E1|]. split; [exact E2|]. split; [exact M1|]. split; [exact M2|]. intro NT.
  apply (greedy_same p0 (herding_value k xs w) (herding_value k ys v) xs w ys v unique l l' W1 W2 D); auto; [| | |lia].
  - intros ch a. unfold herding_value. f_equal. assert (SD : same_dist xs w ys v) by (destruct unique; [now apply rows_dist|exact D]). apply SD.
  - eapply greedy_argmax_score_ext; [|exact G1]. intros ch j _. unfold herding_value, herding_score, points_at. rewrite map_map, map_length. reflexivity.
  - eapply greedy_argmax_score_ext; [|exact G2]. intros ch j _. unfold herding_value, herding_score, points_at. rewrite map_map, map_length. reflexivity.
Qed.
Print Assumptions C77_herding_representation.

(** ** Stein thinning selects the same points in the same order *)
(** without regularisation *)
Theorem C77_stein_representation :
  forall P Y (p0 : P) (y0 : Y) (k : P -> P -> R) (m : nat) (unique : bool) (bs bs' : bsarg)
         (ord ord' : nat -> list nat) (xs ys : list P) (w v : list R),
    weighted xs w -> weighted ys v -> same_data unique xs w ys v ->
    size_ok m unique w -> size_ok m unique v ->
    (forall i, Permutation (ord i) (seq 0 m)) -> (forall i, Permutation (ord' i) (seq 0 m)) ->
    exists l l',
      stein_reduce EROps p0 y0 (mkStein m (kE k) unique bs None) ord (unsup xs w)
        = Ok (mkCS (map Z.of_nat l) (repeat (Fin 1) m) (unsup xs w)) /\
      stein_reduce EROps p0 y0 (mkStein m (kE k) unique bs' None) ord' (unsup ys v)
        = Ok (mkCS (map Z.of_nat l') (repeat (Fin 1) m) (unsup ys v)) /\
      length l = m /\ length l' = m /\
      (no_ties p0 (stein_value k (fun _ => 0) (fun _ => 0)) xs w unique l -> points_at p0 xs l = points_at p0 ys l').
Proof.
  intros P Y p0 y0 k m unique bs bs' ord ord' xs ys w v W1 W2 D [S1 U1] [S2 U2] O1 O2.
  pose proof W1 as (L1 & P1 & N1). pose proof W2 as (L2 & P2 & N2). rewrite L1 in S1. rewrite L2 in S2.
  destruct (C22_stein_greedy_unregularised_partial P Y p0 y0 k m unique bs ord xs w L1 S1 O1 N1 U1) as (l & E1 & M1 & _ & _ & G1).
  destruct (C22_stein_greedy_unregularised_partial P Y p0 y0 k m unique bs' ord' ys v L2 S2 O2 N2 U2) as (l' & E2 & M2 & _ & _ & G2).
  exists l, l'. split; [exact E1|]. split; [exact E2|]. split; [exact M1|]. split; [exact M2|]. intro NT.
  apply (greedy_same p0 (stein_value k (fun _ => 0) (fun _ => 0)) (stein_value k (fun _ => 0) (fun _ => 0)) xs w ys v unique l l' W1 W2 D); auto; [| |lia].
  - eapply greedy_argmax_score_ext; [|exact G1]. intros ch j _. unfold stein_value, stein_score, points_at. rewrite map_map, map_length. reflexivity.
  - eapply greedy_argmax_score_ext; [|exact G2]. intros ch j _. unfold stein_value, stein_score, points_at. rewrite map_map, map_length. reflexivity.
Qed.
Print Assumptions C77_stein_representation.
(** with regularisation, when the log density estimate and the Laplacian term are the same
    functions of the point for both data sets *)
Theorem C77_stein_regularised_representation :
  forall P Y (p0 : P) (y0 : Y) (k : P -> P -> R) (m : nat) (unique : bool) (bs bs' : bsarg)
         (ord ord' : nat -> list nat) (xs ys : list P) (w v : list R)
         (lam : option R) (logpdf : list P -> list ER -> list ER) (lapl : list P -> list ER) (lp lap : P -> R),
    weighted xs w -> weighted ys v -> same_data unique xs w ys v ->
    size_ok m unique w -> size_ok m unique v ->
    (forall i, Permutation (ord i) (seq 0 m)) -> (forall i, Permutation (ord' i) (seq 0 m)) ->
    logpdf xs (map Fin w) = map (fun a => Fin (lp a)) xs -> logpdf ys (map Fin v) = map (fun a => Fin (lp a)) ys ->
    lapl xs = map (fun a => Fin (lap a)) xs -> lapl ys = map (fun a => Fin (lap a)) ys ->
    let weight := match lam with Some l => l | None => 1 / INR m end in
    exists l l',
      stein_reduce EROps p0 y0 (mkStein m (kE k) unique bs (Some (option_map Fin lam, logpdf, lapl))) ord (unsup xs w)
        = Ok (mkCS (map Z.of_nat l) (repeat (Fin 1) m) (unsup xs w)) /\
      stein_reduce EROps p0 y0 (mkStein m (kE k) unique bs' (Some (option_map Fin lam, logpdf, lapl))) ord' (unsup ys v)
        = Ok (mkCS (map Z.of_nat l') (repeat (Fin 1) m) (unsup ys v)) /\
      length l = m /\ length l' = m /\
      (no_ties p0 (stein_value k lap (fun a => weight * lp a)) xs w unique l -> points_at p0 xs l = points_at p0 ys l').
Proof.
  intros P Y p0 y0 k m unique bs bs' ord ord' xs ys w v lam logpdf lapl lp lap W1 W2 D [S1 U1] [S2 U2] O1 O2 A1 A2 B1 B2 weight.
  pose proof W1 as (L1 & P1 & N1). pose proof W2 as (L2 & P2 & N2). rewrite L1 in S1. rewrite L2 in S2.
  rewrite <- (map_map lp Fin) in A1, A2. rewrite <- (map_map lap Fin) in B1, B2.
  destruct (C22_stein_greedy_partial P Y p0 y0 k m unique bs ord xs w lam logpdf lapl (map lp xs) (map lap xs) L1 S1 O1 N1 U1 A1 (map_length _ _) B1 (map_length _ _)) as (l & E1 & M1 & _ & _ & G1).
  destruct (C22_stein_greedy_partial P Y p0 y0 k m unique bs' ord' ys v lam logpdf lapl (map lp ys) (map lap ys) L2 S2 O2 N2 U2 A2 (map_length _ _) B2 (map_length _ _)) as (l' & E2 & M2 & _ & _ & G2).
  exists l, l'. split; [exact E1|]. split; [exact E2|]. split; [exact M1|]. split; [exact M2|]. intro NT.
  assert (NM : forall (h : P -> R) zs j, (j < length zs)%nat -> nth j (map h zs) 0 = h (nth j zs p0)).
  { intros h zs j Hj. rewrite (nth_indep _ 0 (h p0)) by now rewrite map_length. apply map_nth. }
  apply (greedy_same p0 (stein_value k lap (fun a => weight * lp a)) (stein_value k lap (fun a => weight * lp a)) xs w ys v unique l l' W1 W2 D); auto; [| |lia].
  - eapply greedy_argmax_score_ext; [|exact G1]. intros ch j (Hj & _). unfold stein_value, stein_score, points_at. rewrite map_map, map_length, !NM by lia. reflexivity.
  - eapply greedy_argmax_score_ext; [|exact G2]. intros ch j (Hj & _). unfold stein_value, stein_score, points_at. rewrite map_map, map_length, !NM by lia. reflexivity.
Qed.
Print Assumptions C77_stein_regularised_representation.

(** ** What can go wrong otherwise *)
(** with ties, the order of the rows decides *)
Theorem C77_ties_refuted :
  exists (k : R -> R -> R) (xs ys : list R) (w : list R) l l' g g',
    weighted xs w /\ Permutation xs ys /\ same_rows xs w ys w /\
    herding_reduce EROps 0 tt (mkHerding 1 (kE k) true (BOne None) Greedy) (fun _ => seq 0 1) (unsup xs w) None
      = Ok (mkCS (map Z.of_nat l) [Fin 1] (unsup xs w), g) /\
    herding_reduce EROps 0 tt (mkHerding 1 (kE k) true (BOne None) Greedy) (fun _ => seq 0 1) (unsup ys w) None
      = Ok (mkCS (map Z.of_nat l') [Fin 1] (unsup ys w), g') /\
    points_at 0 xs l = [1] /\ points_at 0 ys l' = [2].
Proof.
  assert (W : forall xs : list R, length xs = 2%nat -> weighted xs [1; 1]).
  { intros xs H. split; [now rewrite H|]. split; [intros a [<-|[<-|[]]]; lra|]. unfold npos. cbn. destruct (Rlt_dec 0 1); [cbn; lia|lra]. }
  assert (N : npos [1; 1] = 2%nat) by (unfold npos; cbn; destruct (Rlt_dec 0 1); [reflexivity|lra]).
  assert (Q : forall xs : list R, length xs = 2%nat -> exists g,
    herding_reduce EROps 0 tt (mkHerding 1 (kE (fun _ _ : R => 1)) true (BOne None) Greedy) (fun _ => seq 0 1) (unsup xs [1; 1]) None
      = Ok (mkCS (map Z.of_nat [0%nat]) [Fin 1] (unsup xs [1; 1]), g)).
  { intros xs H. destruct (C18_herding_greedy R unit 0 tt (fun _ _ => 1) 1 true (BOne None) (fun _ => seq 0 1) xs [1;1]) as (l & g & E & L & G);
      [now rewrite H|cbn; lra|lia|intro; reflexivity|rewrite N; lia|intro; rewrite N; lia|].
    destruct l as [|a [|b l]]; try discriminate. exists g. rewrite E. repeat f_equal.
    destruct (G 0%nat ltac:(cbn; lia)) as [_ B]. cbn [nth firstn] in B. destruct (B 0%nat) as [_ Z].
    - split; [cbn; lia|]. split; [cbn; lra|]. intros _ [].
    - specialize (Z eq_refl). cbn. replace a with 0%nat by lia. reflexivity. }
  destruct (Q [1; 2] eq_refl) as (g & E). destruct (Q [2; 1] eq_refl) as (g' & E').
  exists (fun _ _ => 1), [1; 2], [2; 1], [1; 1], [0%nat], [0%nat], g, g'.
  split; [now apply W|]. split; [apply perm_swap|]. split; [destruct (C77_same_data_sources R [1; 2] [2; 1] [] [1; 1] [1; 1] 1) as (S1 & _); apply S1; auto; cbn; apply perm_swap|].
  split; [exact E|]. split; [exact E'|]. split; reflexivity.
Qed.
Print Assumptions C77_ties_refuted.
(** when rows may not be chosen twice, merging equal rows into one of larger weight changes the
    coreset *)
Theorem C77_merge_refuted :
  exists (k : R -> R -> R) (xs ys : list R) (w v : list R) l l' g g',
    weighted xs w /\ weighted ys v /\ same_dist xs w ys v /\
    herding_reduce EROps 0 tt (mkHerding 2 (kE k) true (BOne None) Greedy) (fun _ => seq 0 2) (unsup xs w) None
      = Ok (mkCS (map Z.of_nat l) [Fin 1; Fin 1] (unsup xs w), g) /\
    herding_reduce EROps 0 tt (mkHerding 2 (kE k) true (BOne None) Greedy) (fun _ => seq 0 2) (unsup ys v) None
      = Ok (mkCS (map Z.of_nat l') [Fin 1; Fin 1] (unsup ys v), g') /\
    no_ties 0 (herding_value k xs w) xs w true l /\
    points_at 0 xs l = [1; 1] /\ points_at 0 ys l' = [1; 0].
Proof.
  set (k := fun a b : R => a * b).
  assert (N1 : npos [5; 5; 1] = 3%nat) by (unfold npos; cbn; destruct (Rlt_dec 0 5), (Rlt_dec 0 1); try lra; reflexivity).
  assert (N2 : npos [10; 1] = 2%nat) by (unfold npos; cbn; destruct (Rlt_dec 0 10), (Rlt_dec 0 1); try lra; reflexivity).
  assert (W1 : weighted [1; 1; 0] [5; 5; 1]) by (split; [reflexivity|split; [intros a [<-|[<-|[<-|[]]]]; lra|rewrite N1; lia]]).
  assert (W2 : weighted [1; 0] [10; 1]) by (split; [reflexivity|split; [intros a [<-|[<-|[]]]; lra|rewrite N2; lia]]).
  assert (D : same_dist [1; 1; 0] [5; 5; 1] [1; 0] [10; 1]) by (intro f; unfold wavg, wsum; cbn; field).
  destruct (C18_herding_greedy R unit 0 tt k 2 true (BOne None) (fun _ => seq 0 2) [1; 1; 0] [5; 5; 1]) as (l & g & E & L & G);
    [reflexivity|cbn; lra|cbn; lia|intro; reflexivity|rewrite N1; lia|intro; rewrite N1; lia|].
  destruct (C18_herding_greedy R unit 0 tt k 2 true (BOne None) (fun _ => seq 0 2) [1; 0] [10; 1]) as (l' & g' & E' & L' & G');
    [reflexivity|cbn; lra|cbn; lia|intro; reflexivity|rewrite N2; lia|intro; rewrite N2; lia|].
  assert (C1 : forall ch j, (j < 3)%nat -> ~ In j ch -> candidate [5; 5; 1] true ch j).
  { intros ch j Hj NI. split; [exact Hj|]. split; [destruct j as [|[|[|j]]]; cbn; try lra; lia|auto]. }
  assert (C2 : forall ch j, (j < 2)%nat -> ~ In j ch -> candidate [10; 1] true ch j).
  { intros ch j Hj NI. split; [exact Hj|]. split; [destruct j as [|[|j]]; cbn; try lra; lia|auto]. }
  assert (L1 : l = [0; 1]%nat).
  { destruct l as [|a [|b [|]]]; try discriminate.
    destruct (G 0%nat ltac:(cbn; lia)) as [[A0 _] A]. destruct (G 1%nat ltac:(cbn; lia)) as [(B0 & _ & B1) B]. cbn [nth firstn] in *.
    assert (a = 0%nat).
    { destruct (A 0%nat (C1 [] 0%nat ltac:(lia) ltac:(intros []))) as [I1 I2]. destruct a as [|[|[|a]]]; [reflexivity| | |cbn in A0; lia]; exfalso.
      - specialize (I2 eq_refl). lia.
      - revert I1. unfold herding_score, wavg, wsum, k. cbn. lra. }
    subst a. destruct (B 1%nat (C1 [0%nat] 1%nat ltac:(lia) ltac:(cbn; lia))) as [I1 I2].
    destruct b as [|[|[|b]]]; [exfalso; apply B1; [reflexivity|now left]|reflexivity| |cbn in B0; lia]. exfalso.
    revert I1. unfold herding_score, wavg, wsum, k. cbn. lra. }
  assert (L2 : l' = [0; 1]%nat).
  { destruct l' as [|a [|b [|]]]; try discriminate.
    destruct (G' 0%nat ltac:(cbn; lia)) as [[A0 _] A]. destruct (G' 1%nat ltac:(cbn; lia)) as [(B0 & _ & B1) B]. cbn [nth firstn] in *.
    assert (a = 0%nat).
    { destruct (A 0%nat (C2 [] 0%nat ltac:(lia) ltac:(intros []))) as [I1 I2]. destruct a as [|[|a]]; [reflexivity| |cbn in A0; lia]; exfalso.
      revert I1. unfold herding_score, wavg, wsum, k. cbn. lra. }
    subst a. destruct b as [|[|b]]; [exfalso; apply B1; [reflexivity|now left]|reflexivity|cbn in B0; lia]. }
  subst l l'. exists k, [1; 1; 0], [1; 0], [5; 5; 1], [10; 1], [0; 1]%nat, [0; 1]%nat, g, g'.
  split; [exact W1|]. split; [exact W2|]. split; [exact D|]. split; [exact E|]. split; [exact E'|]. split; [|split; reflexivity].
  intros [|[|t]] j Ht (Hj & _ & NI); [| |cbn in Ht; lia].
  - destruct j as [|[|[|j]]]; [reflexivity|reflexivity| |cbn in Hj; lia]. unfold herding_value, points_at, wavg, wsum, k. cbn. lra.
  - destruct j as [|[|[|j]]]; [exfalso; apply NI; [reflexivity|now left]|reflexivity| |cbn in Hj; lia]. unfold herding_value, points_at, wavg, wsum, k. cbn. lra.
Qed.
Print Assumptions C77_merge_refuted.

(** ** The hypotheses are met: rows [1; 1; 0] with weights [5; 5; 1] reversed, rescaled and
    padded, and the same data with its equal rows merged *)
Example C77_applies :
  weighted [1; 1; 0] [5; 5; 1] /\ weighted [0; 1; 1; 7] [2; 10; 10; 0] /\
  same_data true [1; 1; 0] [5; 5; 1] [0; 1; 1; 7] [2; 10; 10; 0] /\
  same_data false [1; 1; 0] [5; 5; 1] [1; 0] [10; 1] /\
  size_ok 2 true [5; 5; 1] /\ size_ok 2 true [2; 10; 10; 0].
Proof.
  assert (N1 : npos [5; 5; 1] = 3%nat) by (unfold npos; cbn; destruct (Rlt_dec 0 5), (Rlt_dec 0 1); try lra; reflexivity).
  assert (N2 : npos [2; 10; 10; 0] = 3%nat) by (unfold npos; cbn; destruct (Rlt_dec 0 2), (Rlt_dec 0 10), (Rlt_dec 0 0); try lra; reflexivity).
  split; [split; [reflexivity|split; [intros a [<-|[<-|[<-|[]]]]; lra|rewrite N1; lia]]|].
  split; [split; [reflexivity|split; [intros a [<-|[<-|[<-|[<-|[]]]]]; lra|rewrite N2; lia]]|].
  split; [|split; [intro f; unfold wavg, wsum; cbn; field|unfold size_ok; rewrite N1, N2; cbn; repeat split; lia]].
  exists 2. split; [lra|]. unfold positive_rows. cbn.
  destruct (Rlt_dec 0 2), (Rlt_dec 0 10), (Rlt_dec 0 0), (Rlt_dec 0 5), (Rlt_dec 0 1); try lra. cbn.
  replace (2 * 5) with 10 by lra. replace (2 * 1) with 2 by lra.
  apply (Permutation_rev [(0, 2); (1, 10); (1, 10)]).
Qed.
