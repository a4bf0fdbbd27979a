(** * Property C60: the temperature of probabilistic herding *)
From Coq Require Import List ZArith Reals Lra Lia Bool Permutation.
From Verif Require Import Num Jax RSum JaxFacts DataModel MeanModel MeanSpec GreedySpec GreedyModel GreedyProofs GreedyProofs4 GreedyProofs5 TempSpec TempProofs TempProofs2.
From Coquelicot Require Import Coquelicot.
Import ListNotations.
Open Scope R_scope.

Notation kE k := (fun a b => Fin (k a b) : ER).
Notation unsup xs dw := (mkData xs (map Fin dw) None).

(** The sampler receives the softmax of metric / temperature over the rows that
    may be selected: a probability distribution that gives nothing to the others. *)
Theorem C60_probabilities :
  forall (mean : list R) (penalties : list (option R)) (size : Z) (T : R) (choice : nat -> list ER -> Z) (i : nat),
    length mean = length penalties -> (0 < size)%Z -> 0 < T -> (exists p, In (Some p) penalties) ->
    let s := score_list mean penalties size in
    let probs := map (share s T) (seq 0 (length mean)) in
    herding_select EROps (Prob expE (Fin T) choice) (map Fin mean) i (map penE penalties) size
      = choice i (map Fin probs) /\
    Rsum probs = 1 /\ (forall q, In q probs -> 0 <= q) /\
    (forall j, (j < length mean)%nat -> (0 < share s T j <-> nth j penalties None <> None)).
Proof.
  intros mean pens size T choice i HL Hs HT [p Hp] s probs.
  assert (Hin : exists r, In (Some r) s).
  { apply (In_nth _ _ None) in Hp. destruct Hp as (j & Hj & E). exists (nth j mean 0 - p / IZR size).
    assert (E' : nth j s None = Some (nth j mean 0 - p / IZR size)).
    { unfold s, score_list. rewrite (nth_map2 _ _ _ _ 0 None) by lia. now rewrite E. }
    now apply (nth_some_in s j). }
  destruct Hin as [r Hr]. split; [|split; [|split]].
  - now apply (select_share mean pens size T choice i r).
  - unfold probs. rewrite <- (score_length mean pens size) by assumption. now apply (share_sum s T r).
  - intros q Hq. apply in_map_iff in Hq. destruct Hq as (j & <- & _). now apply (share_nonneg s T r).
  - intros j Hj. pose proof (boltz_sum_pos T s r Hr) as Pz. unfold share.
    assert (E : nth j s None = option_map (fun p => nth j mean 0 - p / IZR size) (nth j pens None)).
    { unfold s, score_list. now rewrite (nth_map2 _ _ _ _ 0 None) by lia. }
    rewrite E. destruct (nth j pens None) as [q|]; cbn [option_map boltzmann]; split; intro H; try congruence.
    + apply Rdiv_lt_0_compat; [apply exp_pos|assumption].
    + unfold Rdiv in H. lra.
Qed.
Print Assumptions C60_probabilities.

(** As the temperature grows the probabilities become uniform over the selectable
    rows; as it falls to zero they concentrate, evenly, on the rows of highest metric. *)
Theorem C60_temperature_limits :
  forall (s : scores) (j : nat) (r : R),
    nth j s None = Some r ->
    filterlim (fun T => share s T j) (Rbar_locally p_infty) (locally (/ INR (selectable s))) /\
    (best s r -> filterlim (fun T => share s T j) (at_right 0) (locally (/ INR (ties s r)))) /\
    (forall b, best s b -> r < b -> filterlim (fun T => share s T j) (at_right 0) (locally 0)).
Proof.
  intros s j r Hj. split; [now apply (share_hot s j r)|]. split; [now apply share_cold_best|].
  intros b. now apply share_cold_other.
Qed.
Print Assumptions C60_temperature_limits.
Example C60_applies :
  let s := score_list [1; 2; 3; 0] [Some 1; Some 2; None; Some 1] 2 in
  nth 1 s None = Some 1 /\ selectable s = 3%nat /\ best s 1 /\ ties s 1 = 1%nat.
Proof.
  cbn. replace (1 - 1 / 2) with (1 / 2) by lra. replace (2 - 2 / 2) with 1 by lra. replace (0 - 1 / 2) with (- (1 / 2)) by lra.
  repeat split.
  - cbn; auto.
  - intros r' [E|[E|[E|[E|[]]]]]; try discriminate; injection E as <-; lra.
  - unfold ties. cbn. destruct (Req_EM_T (1 / 2) 1); [lra|]. destruct (Req_EM_T 1 1); [|lra].
    destruct (Req_EM_T (- (1 / 2)) 1); [lra|reflexivity].
Qed.

(** At low temperature a whole probabilistic run is the deterministic one: for
    every list [l] each of whose entries is the strict best choice given the
    entries before it, both modes return [l]. *)
Theorem C60_cold_run :
  forall P Y (p0 : P) (y0 : Y) (k : P -> P -> R) (m : nat) (unique : bool) (bs : bsarg)
         (ord : nat -> list nat) (xs : list P) (dw : list R) (choice : nat -> list ER -> Z) (l : list nat),
    length dw = length xs -> (1 <= m <= length xs)%nat -> (forall i, Permutation (ord i) (seq 0 m)) ->
    (forall a, In a dw -> 0 < a) -> choice_concentrates choice -> length l = m ->
    strict_argmax (candidate dw unique)
      (herding_score k (fun j => wavg (fun b => k (nth j xs p0) b) xs dw) (fun j => nth j xs p0)) l ->
    exists T0 g, 0 < T0 /\
      herding_reduce EROps p0 y0 (mkHerding m (kE k) unique bs Greedy) ord (@mkData P Y ER xs (map Fin dw) None) None
      = Ok (mkCS (map Z.of_nat l) (repeat (Fin 1) m) (unsup xs dw), g) /\
      forall T, 0 < T < T0 ->
        herding_reduce EROps p0 y0 (mkHerding m (kE k) unique bs (Prob expE (Fin T) choice)) ord (unsup xs dw) None
        = Ok (mkCS (map Z.of_nat l) (repeat (Fin 1) m) (unsup xs dw), g).
Proof.
  intros P Y p0 y0 k m unique bs ord xs dw choice l Hdw Hm Hord Hall Hc Hl Hs.
  assert (Hsum : Rsum dw <> 0).
  { destruct dw as [|a w]; [cbn in Hdw; lia|]. cbn [Rsum]. assert (0 < a) by (apply Hall; now left).
    assert (0 <= Rsum w) by (apply Rsum_nonneg; intros x Hx; left; apply Hall; now right). lra. }
  assert (Hs' : forall t, (t < m)%nat -> candidate dw unique (firstn t l) (nth t l 0%nat) /\
       forall j, candidate dw unique (firstn t l) j -> j <> nth t l 0%nat ->
         herding_score k (fun j => nth j (used_grm k xs dw None) 0) (fun j => nth j xs p0) (firstn t l) j
         < herding_score k (fun j => nth j (used_grm k xs dw None) 0) (fun j => nth j xs p0) (firstn t l) (nth t l 0%nat)).
  { intros t Ht. rewrite <- Hl in Ht. destruct (Hs t Ht) as [A B]. split; [assumption|]. intros j Hj Hn. specialize (B j Hj Hn).
    unfold herding_score in *. cbn [used_grm].
    rewrite !(grm_wavg' p0 k xs dw) by (try assumption; destruct A, Hj; lia). exact B. }
  destruct (cold_reduce p0 y0 k xs dw m unique ord bs choice None l Hdw Hm Hord Hall) as (T0 & P0 & HT); auto.
  { intros g E; discriminate. }
  assert (Hnp : npos dw = length xs).
  { unfold npos. rewrite GreedyProofs3.filter_all; [assumption|]. intros a Ha. specialize (Hall a Ha). now destruct (Rlt_dec 0 a). }
  destruct (herding_reduce_outcome p0 y0 k m unique bs ord xs dw None Hdw Hm Hord ltac:(lia) ltac:(intros; lia))
    as (l' & E & L' & _ & _ & G). { intros g Eg; discriminate. }
  cbn [option_map] in E. exists T0, (map Fin (used_grm k xs dw None)). split; [assumption|]. split; [|exact HT].
  rewrite E. do 3 f_equal.
  assert (F : forall t, (t <= m)%nat -> firstn t l' = firstn t l).
  { induction t as [|t IH]; intro Ht; [reflexivity|]. specialize (IH ltac:(lia)).
    assert (N : nth t l' 0%nat = nth t l 0%nat).
    { destruct (G t ltac:(lia)) as [A B]. cbv zeta in A, B. rewrite IH in A, B. destruct (Hs' t ltac:(lia)) as [C D].
      destruct (Nat.eq_dec (nth t l' 0%nat) (nth t l 0%nat)) as [|N]; [assumption|exfalso].
      specialize (D _ A N). destruct (B _ C) as [B1 _]. lra. }
    rewrite (GreedyProofs3.firstn_map_nth l' (S t) 0%nat), (GreedyProofs3.firstn_map_nth l (S t) 0%nat) by lia.
    rewrite seq_S, !map_app. cbn [map Nat.add]. rewrite N. f_equal. rewrite <- !GreedyProofs3.firstn_map_nth by lia. exact IH. }
  rewrite <- (firstn_all l'), <- (firstn_all l), L', Hl. now rewrite F.
Qed.
Print Assumptions C60_cold_run.

(** samplers meeting the contract: inversion of the cumulative distribution at any
    fixed uniform draws *)
Lemma inverse_cdf_spec p : forall u j, (forall q, In q p -> 0 <= q) -> (j < length p)%nat ->
  Rsum (firstn j p) < u <= Rsum (firstn j p) + nth j p 0 -> inverse_cdf u p = j.
Proof.
  induction p as [|a p IH]; intros u j Hn Hj H; [cbn in Hj; lia|]. cbn [inverse_cdf].
  destruct j as [|j].
  - cbn in H. destruct (Rle_dec u a); [reflexivity|lra].
  - cbn [firstn Rsum nth] in H.
    assert (0 <= Rsum (firstn j p)).
    { apply Rsum_nonneg. intros x Hx. apply Hn. right. rewrite <- (firstn_skipn j p). apply in_or_app. now left. }
    destruct (Rle_dec u a); [lra|]. f_equal. apply IH; [intros; apply Hn; now right|cbn in Hj; lia|lra].
Qed.
Example C60_sampler (u : nat -> R) : (forall i, 0 < u i < 1) ->
  choice_concentrates (fun i p => Z.of_nat (inverse_cdf (u i) (map (fun v => match v with Fin x => x | _ => 0 end) p))).
Proof.
  intros Hu i n. specialize (Hu i). exists (Rmin (u i) (1 - u i)). split; [apply Rmin_pos; lra|].
  intros p j HL Hn Hsum Hj Hp. rewrite map_map, map_id. f_equal. subst n.
  apply inverse_cdf_spec; auto.
  pose proof (Rmin_l (u i) (1 - u i)). pose proof (Rmin_r (u i) (1 - u i)).
  assert (E : Rsum p = Rsum (firstn j p) + nth j p 0 + Rsum (skipn (S j) p)).
  { clear - Hj. revert j Hj. induction p as [|a p IH]; intros j Hj; [cbn in Hj; lia|]. destruct j as [|j].
    - cbn. lra.
    - cbn [firstn Rsum nth]. change (skipn (S (S j)) (a :: p)) with (skipn (S j) p). rewrite (IH j) by (cbn in Hj; lia). lra. }
  assert (0 <= Rsum (firstn j p)).
  { apply Rsum_nonneg. intros x Hx. apply Hn. rewrite <- (firstn_skipn j p). apply in_or_app. now left. }
  assert (0 <= Rsum (skipn (S j) p)).
  { apply Rsum_nonneg. intros x Hx. apply Hn. rewrite <- (firstn_skipn (S j) p). apply in_or_app. now right. }
  lra.
Qed.
(** a strict list *)
Example C60_strict :
  let k := fun a b : nat => if (a =? b)%nat then 1 else match (a + b)%nat with 1%nat => 1/2 | 3%nat => 1/4 | _ => 0 end in
  strict_argmax (candidate [1;1;1] true)
    (herding_score k (fun j => wavg (fun b => k (nth j [0;1;2]%nat 0%nat) b) [0;1;2]%nat [1;1;1]) (fun j => nth j [0;1;2]%nat 0%nat)) [1;2]%nat.
Proof.
  intros k t Ht. destruct t as [|[|t]]; [| |cbn in Ht; lia]; cbn [firstn nth]; cbv zeta; (split; [repeat split; cbn; try lia; try lra; intros _ H; cbn in H; lia|]);
    intros j (Hj & _ & Hn) N; specialize (Hn eq_refl); cbn in Hj, Hn; destruct j as [|[|[|j]]]; try lia;
    unfold herding_score, k; cbn; unfold wavg; cbn; lra.
Qed.
