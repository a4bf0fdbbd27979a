(** * Property theorems: who is kept by random sampling (C96)

    As in C78, outcomes [s] of a finite probability space [(space, q)] decide what
    [jr.choice] draws ([draw s]); [uniform_without_replacement] and [independent_draws]
    say how the draws are distributed (SampleSpec). *)
From Coq Require Import List ZArith Reals Lra Lia Arith Bool.
From Verif Require Import Num Jax RSum JaxFacts DataModel MeanSpec GreedySpec CholModel MapReduceModel MapReduceSpec
  SampleSpec SampleProofs SampleProofs2 MetricProofs PropMetric PropGreedy CholSpec PropChol PropSample.
Import ListNotations.
Open Scope R_scope.

(** RandomSample is fair: whatever is measured about the rows, its average over the sample
    has expectation equal to its average over the data.  With [g] the indicator of one
    row, every row is sampled with probability [m / n]. *)
Theorem C96_random_sample_partial :
  forall P Y W (p0 : P) (y0 : Y) (d : Data P Y ER) (m : nat)
         (space : list W) (q : W -> R) (sample : W -> random_sample) (draw : W -> list nat),
    let n := d_len d in
    (1 <= m <= n)%nat ->
    (forall s, In s space -> rs_size (sample s) = m /\ rs_weighted (sample s) = false /\ rs_unique (sample s) = true /\
                             rs_choice (sample s) n m None false = Ok (draw s)) ->
    uniform_without_replacement space q draw n m ->
    (forall s, In s space -> random_reduce EROps p0 y0 (sample s) d = Ok (mkCS (map Z.of_nat (draw s)) (repeat (Fin 1) m) d)) /\
    forall g : nat -> R, expectation space q (fun s => average g (draw s)) = average g (seq 0 n).
Proof.
  intros P Y W p0 y0 d m space q sample draw n Hm HS HU. split.
  - intros s Hs. destruct (HS s Hs) as (E1 & E2 & E3 & E4). destruct HU as [HI _]. destruct (orderings_in m _ _ (HI s Hs)) as (L & _).
    unfold random_reduce. rewrite E1, E2, E3. cbn [negb]. fold n. rewrite E4. cbn [bind]. rewrite L.
    unfold cs_init, points, d_getitem, d_len. cbn [d_x c_idx]. rewrite gather_length, map_length, L. fold (d_len d). fold n.
    destruct (Nat.ltb_spec n m); [lia|reflexivity].
  - intro g. destruct HU as [_ HL]. rewrite (HL (average g)).
    pose proof (seq_NoDup n 0) as ND.
    rewrite (Rsum_in _ (fun l => / INR (length (orderings m (seq 0 n))) * (/ INR m * ssum g l))).
    2:{ intros l Hl. f_equal. unfold average. rewrite (proj1 (orderings_in m _ l Hl)). unfold ssum, Rdiv. ring. }
    rewrite Rsum_map_scal, Rsum_map_scal, orderings_length, orderings_single by assumption. rewrite seq_length.
    assert (Hm0 : INR m <> 0) by (apply not_0_INR; lia). assert (Hn0 : INR n <> 0) by (apply not_0_INR; lia).
    assert (Hf : fall n m = INR n * fall (n - 1) (m - 1)) by (symmetry; apply fall_step; lia).
    assert (Hf1 : fall (n - 1) (m - 1) <> 0) by (apply Rgt_not_eq, fall_pos; lia).
    rewrite Hf. unfold average. rewrite seq_length. unfold ssum. field. auto.
Qed.
Print Assumptions C96_random_sample_partial.

(** Sampling with replacement is fair to the weights: every draw has the distribution of
    the data, so averages over the sample estimate the weighted average of the data. *)
Theorem C96_with_replacement_partial :
  forall P Y W (p0 : P) (y0 : Y) (xs : list P) (dw : list R) (m : nat) (weighted : bool)
         (space : list W) (q : W -> R) (sample : W -> random_sample) (draw : W -> list nat),
    let n := length xs in
    (1 <= m <= n)%nat -> length dw = n -> Rsum dw <> 0 ->
    let p := if weighted then map (fun v => v / Rsum dw) dw else repeat (1 / INR n) n in
    (forall s, In s space -> rs_size (sample s) = m /\ rs_weighted (sample s) = weighted /\ rs_unique (sample s) = false /\
       rs_choice (sample s) n m (if weighted then Some (map Fin dw) else None) true = Ok (draw s)) ->
    independent_draws space q draw p m ->
    (forall s, In s space -> random_reduce EROps p0 y0 (sample s) (unsup xs dw)
                             = Ok (mkCS (map Z.of_nat (draw s)) (repeat (Fin 1) m) (unsup xs dw))) /\
    forall g : nat -> R,
      expectation space q (fun s => average g (draw s))
      = if weighted then wavg g (seq 0 n) dw else average g (seq 0 n).
Proof.
  intros P Y W p0 y0 xs dw m weighted space q sample draw n Hm Ld Hd p HS HU. split.
  - exact (proj1 (C78_random_sample_with_replacement P Y W p0 y0 (fun _ _ => 0) xs dw m weighted space q sample draw Hm Ld Hd HS HU)).
  - intro g. assert (Hn : INR n <> 0) by (apply not_0_INR; lia). assert (Hm0 : INR m <> 0) by (apply not_0_INR; lia).
    assert (Lp : length p = n) by (unfold p; destruct weighted; [now rewrite map_length|apply repeat_length]).
    assert (NS : forall l : list R, Rsum (map (fun i => nth i l 0) (seq 0 (length l))) = Rsum l).
    { intro l. f_equal. induction l as [|a l IH]; [reflexivity|]. cbn [length seq map nth]. f_equal. rewrite <- seq_shift, map_map. exact IH. }
    assert (Sp : Rsum (map (fun i => nth i p 0) (seq 0 n)) = 1).
    { rewrite <- Lp, NS. unfold p. destruct weighted.
      - unfold Rdiv. rewrite (Rsum_map_scal_r (/ Rsum dw) (fun v => v)), map_id. now field.
      - rewrite Rsum_repeat. now field. }
    destruct HU as [_ HL]. rewrite (HL (average g)). rewrite Lp.
    rewrite (Rsum_in _ (fun l => / INR m * (weight p l * ssum g l))).
    2:{ intros l Hl. fold (weight p l). unfold average. rewrite (proj1 (sequences_in m _ l Hl)). unfold ssum, Rdiv. ring. }
    rewrite Rsum_map_scal, (sequences_single p (seq 0 n) Sp). rewrite <- Rmult_assoc, Rinv_l, Rmult_1_l by assumption.
    unfold p, ssum. destruct weighted.
    + unfold wavg, wsum. rewrite (Rsum_in _ (fun i => nth i dw 0 * g i * / Rsum dw)).
      * rewrite Rsum_map_scal_r. unfold Rdiv. f_equal. fold n. rewrite <- Ld.
        assert (C : forall (l : list R) a, Rsum (map (fun i => nth (i - a) l 0 * g i) (seq a (length l))) = Rsum (map (fun r => snd r * g (fst r)) (combine (seq a (length l)) l))).
        { induction l as [|v l IH]; intro a; [reflexivity|]. cbn [length seq map combine Rsum fst snd]. rewrite Nat.sub_diag. cbn [nth]. f_equal.
          rewrite <- IH. apply Rsum_in. intros i Hi. apply in_seq in Hi. replace (i - a)%nat with (S (i - S a)) by lia. reflexivity. }
        rewrite <- (C dw 0%nat). apply Rsum_in. intros i _. now rewrite Nat.sub_0_r.
      * intros i Hi. apply in_seq in Hi. rewrite (nth_indep _ 0 ((fun v => v / Rsum dw) 0)) by (rewrite map_length; lia).
        rewrite (map_nth (fun v => v / Rsum dw)). unfold Rdiv. ring.
    + unfold average. rewrite seq_length. rewrite (Rsum_in _ (fun i => g i * / INR n)).
      * now rewrite Rsum_map_scal_r.
      * intros i Hi. apply in_seq in Hi. replace (nth i (repeat (1 / INR n) n) 0) with (1 / INR n); [unfold Rdiv; ring|].
        symmetry. apply nth_repeat_lt. lia.
Qed.
Print Assumptions C96_with_replacement_partial.

(** ** MapReduce *)
(** MapReduce runs its base solver with one key on every leaf and again on what the leaves
    return.  Eight rows in two leaves of four, two kept, RandomSample as base solver, all
    twelve ordered draws of two rows of four equally likely: row 0 is kept with
    probability 1/3 and row 4 with probability 1/6, though each of the eight rows should
    be kept with probability 1/4. *)
Definition eight : Data R unit ER := unsup [0; 1; 2; 3; 4; 5; 6; 7] (repeat 1 8).
Definition kept (row : Z) (c : result (Coresubset R unit ER)) : R :=
  match c with Ok c => if existsb (Z.eqb row) (c_idx c) then 1 else 0 | Err _ => 0 end.
Theorem C96_map_reduce_refuted :
  let sample l := mkRS 2 false true (fixed_choice l) in
  let tree (rows : list R) (_ : list ER) (_ : nat) := seq 0 (length rows) in
  let run l := map_reduce EROps 0 tt (random_reduce EROps 0 tt (sample l)) tree 4 3 eight in
  uniform_without_replacement two_of_four (fun _ => / 12) (fun l => l) 4 2 /\
  (forall l, In l two_of_four -> choice_ok (fixed_choice l) /\ rs_choice (sample l) 4 2 None false = Ok l /\
     exists c, run l = Ok c /\ length (c_idx c) = 2%nat) /\
  expectation two_of_four (fun _ => / 12) (fun l => kept 0 (run l)) = 1 / 3 /\
  expectation two_of_four (fun _ => / 12) (fun l => kept 4 (run l)) = 1 / 6.
Proof.
  intros sample tree run.
  assert (IX : map (fun l => match run l with Ok c => c_idx c | Err _ => [] end) two_of_four
    = [[0; 1]; [0; 4]; [0; 7]; [0; 1]; [2; 5]; [3; 7]; [6; 2]; [6; 1]; [6; 7]; [4; 3]; [5; 1]; [6; 7]]%Z) by (vm_compute; reflexivity).
  assert (EX : forall row, expectation two_of_four (fun _ => / 12) (fun l => kept row (run l))
    = Rsum (map (fun idx => / 12 * (if existsb (Z.eqb row) idx then 1 else 0))
        [[0; 1]; [0; 4]; [0; 7]; [0; 1]; [2; 5]; [3; 7]; [6; 2]; [6; 1]; [6; 7]; [4; 3]; [5; 1]; [6; 7]]%Z)).
  { intro row. rewrite <- IX, map_map. unfold expectation. apply Rsum_in. intros l _. unfold kept. destruct (run l); reflexivity. }
  split; [exact (proj1 (proj2 C78_applies))|]. split; [|split].
  - intros l Hl. split; [now apply fixed_choice_ok|]. split; [reflexivity|].
    cbn in Hl. repeat (destruct Hl as [<-|Hl]; [eexists; split; reflexivity|]). contradiction.
  - rewrite EX. cbn [map existsb Z.eqb Pos.eqb orb Rsum]. lra.
  - rewrite EX. cbn [map existsb Z.eqb Pos.eqb orb Rsum]. lra.
Qed.
Print Assumptions C96_map_reduce_refuted.

(** The hypotheses on the draws are met by the twelve ordered samples of [C78_applies];
    for draws with replacement, by all pairs of three rows of weights 1, 2 and 3. *)
Example C96_applies :
  (forall l, In l two_of_four -> rs_choice (mkRS 2 false true (fixed_choice l)) 4 2 None false = Ok l) /\
  uniform_without_replacement two_of_four (fun _ => / 12) (fun l => l) 4 2 /\
  let p := map (fun v => v / Rsum [1; 2; 3]) [1; 2; 3] in
  Rsum [1; 2; 3] <> 0 /\ independent_draws (sequences 2 (seq 0 3)) (weight p) (fun l => l) p 2.
Proof.
  split; [reflexivity|]. split; [exact (proj1 (proj2 C78_applies))|]. intro p. split; [cbn; lra|]. split; [now intros s Hs|reflexivity].
Qed.
