(** * Property C61: IterativeKernelHerding *)
From Coq Require Import List ZArith Reals Lra Lia Bool Permutation.
From Verif Require Import Num Jax RSum JaxFacts DataModel MeanModel MeanSpec GreedySpec GreedyModel GreedyProofs GreedyProofs3 GreedyProofs4 GreedyProofs5 PropGreedy BenchModel.
Import ListNotations.
Open Scope R_scope.

(** One deterministic iteration is KernelHerding.reduce: for all values, infinities
    and NaN included, all errors and any cached state. *)
Theorem C61_one_iteration_is_reduce :
  forall V (O : FOps V) P Y K (p0 : P) (y0 : Y) (exp : V -> V) (fold_in : K -> nat -> K) (choice : K -> nat -> list V -> Z)
         (size : nat) (kernel : P -> P -> V) (unique : bool) (bs : bsarg) (temperature : V) (key : K) (schedule : option (list V))
         (ords : nat -> nat -> list nat) (d : Data P Y V) (st : option (list V)),
    iterative_reduce O p0 y0 exp fold_in choice (mkIter size kernel unique bs false temperature key 1 schedule) ords d st
    = herding_reduce O p0 y0 (mkHerding size kernel unique bs Greedy) (ords 0%nat) d st.
Proof.
  intros. unfold iterative_reduce, herding_reduce_iterative, herding_reduce. cbn [it_size it_kernel it_unique it_bs it_iterations h_size h_kernel h_unique h_bs].
  destruct (initial_coresubset O p0 y0 0 size d) as [c|e]; cbn [bind]; [|reflexivity].
  unfold fori. cbn [seq fold_left bind]. unfold herding_refine. cbn [h_size h_kernel h_unique h_bs h_mode].
  unfold iteration_mode, mode_of. cbn [it_probabilistic].
  destruct st as [g|]; cbn [bind].
  - destruct (greedy_selection _ _ _ _ _ _ _ _ _ _) as [c'|e]; reflexivity.
  - destruct (gramian_row_mean O p0 y0 kernel (c_pre c) bs) as [[g|g]|e]; cbn [bind]; try reflexivity.
    destruct (greedy_selection _ _ _ _ _ _ _ _ _ _) as [c'|e]; reflexivity.
Qed.
Print Assumptions C61_one_iteration_is_reduce.

(** With [probabilistic = False] the temperature, its schedule and the random key
    have no effect. *)
Theorem C61_schedule_needs_probabilistic :
  forall V (O : FOps V) P Y K (p0 : P) (y0 : Y) (exp exp' : V -> V) (fold_in fold_in' : K -> nat -> K) (choice choice' : K -> nat -> list V -> Z)
         (size : nat) (kernel : P -> P -> V) (unique : bool) (bs : bsarg) (temperature temperature' : V) (key key' : K) (n : nat)
         (schedule schedule' : option (list V)) (ords : nat -> nat -> list nat) (d : Data P Y V) (st : option (list V)),
    iterative_reduce O p0 y0 exp fold_in choice (mkIter size kernel unique bs false temperature key n schedule) ords d st
    = iterative_reduce O p0 y0 exp' fold_in' choice' (mkIter size kernel unique bs false temperature' key' n schedule') ords d st.
Proof. reflexivity. Qed.
Print Assumptions C61_schedule_needs_probabilistic.

(** One more iteration is one more [refine], of the coreset so far, with the key
    folded with the iteration number and the temperature scheduled for it. *)
Theorem C61_iterations_compose :
  forall V (O : FOps V) P Y K (p0 : P) (y0 : Y) (exp : V -> V) (fold_in : K -> nat -> K) (choice : K -> nat -> list V -> Z)
         (size : nat) (kernel : P -> P -> V) (unique probabilistic : bool) (bs : bsarg) (temperature : V) (key : K) (n : nat)
         (schedule : option (list V)) (ords : nat -> nat -> list nat) (d : Data P Y V) (st : option (list V)),
    (forall t, schedule = Some t -> (n < length t)%nat) ->
    let now := match schedule with Some t => nth n t (f0 O) | None => temperature end in
    iterative_reduce O p0 y0 exp fold_in choice (mkIter size kernel unique bs probabilistic temperature key (S n) schedule) ords d st
    = do (c, g) <- iterative_reduce O p0 y0 exp fold_in choice (mkIter size kernel unique bs probabilistic temperature key n schedule) ords d st;
      herding_refine O p0 y0
        (mkHerding size kernel unique bs (if probabilistic then Prob exp now (choice (fold_in key n)) else Greedy)) (ords n) c (Some g).
Proof.
  intros V O P Y K p0 y0 exp fold_in choice size kernel unique probabilistic bs temperature key n schedule ords d st Hs now.
  unfold iterative_reduce, herding_reduce_iterative. cbn [it_size it_kernel it_unique it_bs it_iterations h_size h_kernel h_unique h_bs].
  destruct (initial_coresubset O p0 y0 0 size d) as [c|e]; cbn [bind]; [|reflexivity].
  match goal with |- bind ?m _ = _ => destruct m as [g|e]; cbn [bind]; [|reflexivity] end.
  rewrite fori_S.
  assert (Em : iteration_mode O exp fold_in choice (mkIter size kernel unique bs probabilistic temperature key (S n) schedule) n
    = if probabilistic then Prob exp now (choice (fold_in key n)) else Greedy).
  { unfold iteration_mode, mode_of, now. cbn [it_probabilistic it_schedule it_temperature it_key].
    destruct schedule as [t|]; [|reflexivity]. rewrite jget_nat; [reflexivity|]. now apply Hs. }
  match goal with |- context [fori n ?f (Ok c)] => set (F := f) end.
  match goal with |- _ = bind (bind ?m _) _ => change m with (fori n F (Ok c)) end.
  destruct (fori n F (Ok c)) as [c'|e]; unfold F; cbn [bind]; [|reflexivity].
  rewrite Em. unfold herding_refine at 1 2. cbn [h_size h_kernel h_unique h_bs h_mode bind].
  destruct (greedy_selection _ _ _ _ _ _ _ _ _ _) as [c''|e]; reflexivity.
Qed.
Print Assumptions C61_iterations_compose.

(** From the first iteration on the result is a coresubset of the requested size. *)
Theorem C61_valid_coreset_partial :
  forall P Y K (p0 : P) (y0 : Y) (fold_in : K -> nat -> K) (choice : K -> nat -> list ER -> Z) (k : P -> P -> R)
         (m : nat) (unique probabilistic : bool) (bs : bsarg) (temperature : R) (key : K) (n : nat) (schedule : option (list R))
         (ords : nat -> nat -> list nat) (xs : list P) (dw : list R),
    length dw = length xs -> (1 <= m <= length xs)%nat -> (forall j i, Permutation (ords j i) (seq 0 m)) ->
    (1 <= npos dw)%nat -> (unique = true -> (m <= npos dw)%nat) ->
    (probabilistic = true -> (forall a, In a dw -> 0 < a) /\ 0 < temperature /\
       (forall t, schedule = Some t -> length t = S n /\ forall x, In x t -> 0 < x) /\ (forall key, choice_ok (choice key))) ->
    exists l g,
      iterative_reduce EROps p0 y0 expE fold_in choice
        (mkIter m (kE k) unique bs probabilistic (Fin temperature) key (S n) (option_map (map Fin) schedule)) ords (@mkData P Y ER xs (map Fin dw) None) None
      = Ok (mkCS (map Z.of_nat l) (repeat (Fin 1) m) (unsup xs dw), g) /\
      length l = m /\ (forall i, In i l -> (i < length xs)%nat /\ 0 < nth i dw 0) /\ (unique = true -> NoDup l).
Proof.
  intros P Y K p0 y0 fold_in choice k m unique probabilistic bs temperature key n schedule ords xs dw Hdw Hm Hord Hp1 Hp Hpr.
  unfold iterative_reduce, herding_reduce_iterative. cbn [it_size it_kernel it_unique it_bs it_iterations h_size h_kernel h_unique h_bs].
  rewrite initial_ok by lia. cbn [bind c_pre].
  rewrite (gramian_eq p0 y0 k xs dw bs) by (try assumption; now apply (npos_nonempty xs dw)). cbn [bind].
  set (s := mkIter m (kE k) unique bs probabilistic (Fin temperature : ER) key (S n) (option_map (map Fin) schedule)).
  set (F := fun i r => _).
  assert (step : forall i idx cw, (i < S n)%nat -> length idx = m -> length cw = m ->
    exists l, F i (Ok (mkCS idx (map Fin cw) (@mkData P Y ER xs (map Fin dw) None))) = Ok (mkCS (map Z.of_nat l) (repeat (Fin 1) m) (unsup xs dw)) /\
      length l = m /\ (forall i, In i l -> (i < length xs)%nat /\ 0 < nth i dw 0) /\ (unique = true -> NoDup l)).
  { intros i idx cw Hi Li Lc. unfold F. cbn [bind].
    assert (Hord' : forall j, Permutation (ords i j) (seq 0 (Nat.max (length idx) m))) by (intros; rewrite Li, Nat.max_id; apply Hord).
    assert (Hp' : unique = true -> (Nat.max (length idx) m <= npos dw)%nat) by (rewrite Li, Nat.max_id; assumption).
    assert (Hst : forall g, Some (grm_of k xs dw) = Some g -> length g = length xs) by (intros g E; injection E as <-; apply map_length).
    change (Some (map Fin (grm_of k xs dw))) with (option_map (map (@Fin R)) (Some (grm_of k xs dw))).
    unfold iteration_mode, mode_of. cbn [s it_probabilistic it_schedule it_temperature it_key].
    destruct probabilistic.
    - destruct (Hpr eq_refl) as (Hall & HT & Hsch & Hch).
      assert (E : exists t, (match option_map (map (@Fin R)) schedule with None => Fin temperature | Some t => jget (f0 EROps) t (Z.of_nat i) end) = Fin t /\ 0 < t).
      { destruct schedule as [t|]; cbn [option_map]; [|eauto]. destruct (Hsch t eq_refl) as [Lt Ht].
        rewrite jget_nat by (rewrite map_length; lia). exists (nth i t 0). split; [apply nth_map_Fin; lia|]. apply Ht, nth_In. lia. }
      destruct E as (t & -> & Pt).
      assert (Hnp : npos dw = length xs).
      { unfold npos. rewrite filter_all; [assumption|]. intros a Ha. specialize (Hall a Ha). now destruct (Rlt_dec 0 a). }
      destruct (herding_prob_outcome p0 y0 k m unique bs (ords i) idx cw xs dw (Some (grm_of k xs dw)) t (choice (fold_in key i))
        Hdw ltac:(lia) (proj1 Hm) Hord' ltac:(lia) ltac:(intro Hu; specialize (Hp' Hu); lia) Hst Hall Pt (Hch _)) as (l & E & A & B & C).
      rewrite E. cbn [bind]. exists l. split; [reflexivity|]. split; [assumption|]. split; [|assumption].
      intros j Hj. split; [now apply B|]. apply Hall, nth_In. rewrite Hdw. now apply B.
    - destruct (herding_refine_outcome p0 y0 k m unique bs (ords i) idx cw xs dw (Some (grm_of k xs dw))
        Hdw ltac:(lia) (proj1 Hm) Hord' Hp1 Hp' Hst) as (l & E & A & B & C).
      rewrite E. cbn [bind]. exists l. auto. }
  assert (run : forall j, (j < S n)%nat -> exists l, fori (S j) F (Ok (mkCS (repeat 0%Z m) (map Fin (repeat 0 m)) (mkData xs (map Fin dw) None)))
      = Ok (mkCS (map Z.of_nat l) (repeat (Fin 1) m) (unsup xs dw)) /\
      length l = m /\ (forall i, In i l -> (i < length xs)%nat /\ 0 < nth i dw 0) /\ (unique = true -> NoDup l)).
  { induction j as [|j IH]; intro Hj; rewrite fori_S.
    - apply (step 0%nat (repeat 0%Z m) (repeat 0 m)); [lia| |]; apply repeat_length.
    - destruct IH as (l & E & L & _); [lia|]. rewrite E.
      pose proof (step (S j) (map Z.of_nat l) (repeat 1 m) ltac:(lia) ltac:(now rewrite map_length) ltac:(apply repeat_length)) as St.
      rewrite DataMeanLemmas.map_Fin_repeat in St. exact St. }
  destruct (run n ltac:(lia)) as (l & E & L & R & N). rewrite E. cbn [bind]. exists l. eexists. eauto.
Qed.
Print Assumptions C61_valid_coreset_partial.

(** Each further deterministic iteration is at least as good as the last. *)
Theorem C61_iterations_never_worse :
  forall P Y K (p0 : P) (y0 : Y) (exp : ER -> ER) (fold_in : K -> nat -> K) (choice : K -> nat -> list ER -> Z) (k : P -> P -> R)
         (m : nat) (unique : bool) (bs : bsarg) (temperature : ER) (key : K) (n : nat) (schedule : option (list ER))
         (ords : nat -> nat -> list nat) (xs : list P) (dw : list R),
    (forall a b, k a b = k b a) -> (forall a b, In a xs -> In b xs -> k a a = k b b) ->
    length dw = length xs -> Rsum dw <> 0 -> (1 <= m <= length xs)%nat -> (forall j i, Permutation (ords j i) (seq 0 m)) ->
    (1 <= npos dw)%nat -> (unique = true -> (m <= npos dw)%nat) ->
    exists l l' g,
      iterative_reduce EROps p0 y0 exp fold_in choice (mkIter m (kE k) unique bs false temperature key (S n) schedule) ords (@mkData P Y ER xs (map Fin dw) None) None
      = Ok (mkCS (map Z.of_nat l) (repeat (Fin 1) m) (unsup xs dw), g) /\
      iterative_reduce EROps p0 y0 exp fold_in choice (mkIter m (kE k) unique bs false temperature key (S (S n)) schedule) ords (@mkData P Y ER xs (map Fin dw) None) None
      = Ok (mkCS (map Z.of_nat l') (repeat (Fin 1) m) (unsup xs dw), g) /\
      mmd2 k xs dw (map (fun j => nth j xs p0) l') (repeat 1 m) <= mmd2 k xs dw (map (fun j => nth j xs p0) l) (repeat 1 m).
Proof.
  intros P Y K p0 y0 exp fold_in choice k m unique bs temperature key n schedule ords xs dw Hk Hd Hdw Hs Hm Ho Hp1 Hp.
  destruct (C19_iterations_never_worse P Y p0 y0 k m unique bs ords (fun _ => Greedy) xs dw n Hk Hd Hdw Hs Hm Ho Hp1 Hp (fun _ => eq_refl))
    as (l & l' & g & A & B & _ & _ & _ & C).
  exists l, l', g. split; [exact A|]. split; [exact B|]. exact C.
Qed.
Print Assumptions C61_iterations_never_worse.

(** Finding: [num_iterations = 0] is accepted and returns [m] copies of row 0 with
    weight zero, whatever the data and even when [unique] is set. *)
Theorem C61_zero_iterations_refuted :
  forall P Y K (p0 : P) (y0 : Y) (exp : ER -> ER) (fold_in : K -> nat -> K) (choice : K -> nat -> list ER -> Z) (k : P -> P -> R)
         (m : nat) (unique probabilistic : bool) (bs : bsarg) (temperature : ER) (key : K) (schedule : option (list ER))
         (ords : nat -> nat -> list nat) (xs : list P) (dw : list R),
    length dw = length xs -> (1 <= npos dw)%nat -> (m <= length xs)%nat ->
    exists g,
      iterative_reduce EROps p0 y0 exp fold_in choice (mkIter m (kE k) unique bs probabilistic temperature key 0 schedule) ords (@mkData P Y ER xs (map Fin dw) None) None
      = Ok (mkCS (repeat 0%Z m) (repeat (Fin 0) m) (unsup xs dw), g).
Proof.
  intros. unfold iterative_reduce, herding_reduce_iterative. cbn [it_size it_kernel it_unique it_bs it_iterations h_size h_kernel h_unique h_bs].
  rewrite initial_ok by lia. cbn [bind c_pre].
  rewrite (gramian_eq p0 y0 k xs dw bs) by (try assumption; now apply (npos_nonempty xs dw)). cbn [bind].
  rewrite DataMeanLemmas.map_Fin_repeat. unfold fori. cbn [seq fold_left bind]. eauto.
Qed.
Print Assumptions C61_zero_iterations_refuted.
(** the hypotheses of the theorems above are those of C17 and C19: see [C17_hyps], [C17_choice_ok], [C19_hyps]; a schedule: *)
Example C61_hyps : let schedule := [1; 1/2; 1/4] in length schedule = 3%nat /\ forall x, In x schedule -> 0 < x.
Proof. cbn. split; [reflexivity|]. intros x [<-|[<-|[<-|[]]]]; lra. Qed.
