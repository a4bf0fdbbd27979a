(** * KernelHerding / SteinThinning: padding, state reuse, iteration, rejections *)
From Coq Require Import List ZArith Reals Lra Lia Bool Permutation.
From Verif Require Import Num Jax RSum JaxFacts ArgFacts DataModel MeanModel MeanProofs DataMeanLemmas DataProofs
  MeanSpec GreedySpec GreedyModel GreedyProofs GreedyProofs2 GreedyProofs3 GreedyProofs4.
Import ListNotations.
Open Scope R_scope.

(** The greedy rule determines the result. *)
Lemma greedy_argmax_unique (cand cand' : list nat -> nat -> Prop) score score' l l' :
  (forall ch j, cand ch j <-> cand' ch j) ->
  (forall t j, (t < length l)%nat -> cand (firstn t l) j -> score (firstn t l) j = score' (firstn t l) j) ->
  length l = length l' -> greedy_argmax cand score l -> greedy_argmax cand' score' l' -> l = l'.
Proof.
  intros Hc Hs HL H H'.
  assert (E : forall t, (t <= length l)%nat -> firstn t l = firstn t l').
  { induction t; intros Ht; [reflexivity|]. specialize (IHt ltac:(lia)).
    destruct (H t ltac:(lia)) as [A B]. destruct (H' t ltac:(lia)) as [A' B'].
    cbv zeta in *. rewrite <- IHt in *.
    pose proof (B _ (proj2 (Hc _ _) A')) as [B1 B2]. pose proof (B' _ (proj1 (Hc _ _) A)) as [B1' B2'].
    assert (E1 := Hs t (nth t l 0%nat) ltac:(lia) A).
    assert (E2 := Hs t (nth t l' 0%nat) ltac:(lia) (proj2 (Hc _ _) A')).
    rewrite E1, E2 in B1, B2.
    assert (Es : score' (firstn t l) (nth t l' 0%nat) = score' (firstn t l) (nth t l 0%nat)) by lra.
    specialize (B2 Es). specialize (B2' (eq_sym Es)).
    rewrite (firstn_map_nth l (S t) 0%nat), (firstn_map_nth l' (S t) 0%nat) by lia.
    rewrite seq_S, !map_app. cbn [map plus].
    rewrite <- !firstn_map_nth, IHt by lia. do 2 f_equal. lia. }
  rewrite <- (firstn_all l), <- (firstn_all l'), <- HL. apply E. lia.
Qed.

Section Pad.
  Context {P Y : Type} (p0 : P) (y0 : Y) (k : P -> P -> R).
  Notation kE := (fun a b => Fin (k a b) : ER).
  Notation mkD xs dw := (mkData xs (map Fin dw) (@None (list Y))).

  Lemma npos_app a b : npos (a ++ b) = (npos a + npos b)%nat.
  Proof. unfold npos. now rewrite filter_app, app_length. Qed.
  Lemma npos_pad dw q : npos (dw ++ repeat 0 q) = npos dw.
  Proof. rewrite npos_app, npos_zero. lia. Qed.
  Lemma candidate_pad dw q u ch j : candidate dw u ch j <-> candidate (dw ++ repeat 0 q) u ch j.
  Proof.
    unfold candidate. rewrite app_length, repeat_length. destruct (Nat.lt_ge_cases j (length dw)).
    - rewrite app_nth1 by assumption. split; intros [A B]; split; auto; lia.
    - rewrite app_nth2, nth_repeat0 by assumption. split; intros [A [B C]]; [lia|lra].
  Qed.
  Lemma grm_pad xs dw zs : length dw = length xs ->
    exists tail, grm_of k (xs ++ zs) (dw ++ repeat 0 (length zs)) = grm_of k xs dw ++ tail.
  Proof.
    intros H. unfold grm_of. rewrite map_app. eexists. f_equal.
    apply map_ext. intros y. rewrite norm_w_pad. apply Rdot_pad_gen. rewrite norm_w_length. auto.
  Qed.
  Lemma in_firstn {A} (x : A) t l : In x (firstn t l) -> In x l.
  Proof. revert l; induction t; intros [|a l] H; simpl in *; try tauto. destruct H; auto. Qed.

  Lemma herding_padding m unique bs bs' ord ord' xs dw zs :
    length dw = length xs -> (1 <= m <= length xs)%nat ->
    (forall i, Permutation (ord i) (seq 0 m)) -> (forall i, Permutation (ord' i) (seq 0 m)) ->
    (1 <= npos dw)%nat -> (unique = true -> (m <= npos dw)%nat) ->
    exists l g g',
      herding_reduce EROps p0 y0 (mkHerding m kE unique bs Greedy) ord (mkD xs dw) None
      = Ok (mkCS (map Z.of_nat l) (repeat (Fin 1) m) (mkD xs dw), g) /\
      herding_reduce EROps p0 y0 (mkHerding m kE unique bs' Greedy) ord'
        (mkD (xs ++ zs) (dw ++ repeat 0 (length zs))) None
      = Ok (mkCS (map Z.of_nat l) (repeat (Fin 1) m) (mkD (xs ++ zs) (dw ++ repeat 0 (length zs))), g').
  Proof.
    intros Hdw Hm Ho Ho' Hp1 Hp.
    destruct (herding_reduce_outcome p0 y0 k m unique bs ord xs dw None) as [l [E [L [R [N G]]]]]; auto; [discriminate|].
    destruct (herding_reduce_outcome p0 y0 k m unique bs' ord' (xs ++ zs) (dw ++ repeat 0 (length zs)) None)
      as [l' [E' [L' [R' [N' G']]]]]; rewrite ?npos_pad; auto.
    - rewrite !app_length, repeat_length. lia.
    - rewrite app_length. lia.
    - discriminate.
    - assert (El : l = l').
      { refine (greedy_argmax_unique _ _ _ _ l l' _ _ _ G G').
        - intros. apply candidate_pad.
        - intros t j Ht [Hj _]. cbn [used_grm]. destruct (grm_pad xs dw zs Hdw) as [tail ->].
          unfold herding_score. rewrite app_nth1 by (unfold grm_of; rewrite map_length; lia).
          rewrite (app_nth1 xs) by lia. do 2 f_equal. apply Rsum_map_ext. intros a Ha.
          rewrite app_nth1; [reflexivity|]. apply R. now apply in_firstn in Ha.
        - congruence. }
      subst l'. eauto.
  Qed.

  (** SteinThinning: same, when the regularisation terms of the real rows do not
      depend on the padding *)
  Definition reg_pad_ok (xs : list P) (dw : list R) (zs : list P)
     (reg : option (option R * (list P -> list R -> list R) * (list P -> list R))) : Prop :=
    match reg with
    | None => True
    | Some (_, logpdf, lap) => forall j, (j < length xs)%nat ->
        nth j (logpdf (xs ++ zs) (dw ++ repeat 0 (length zs))) 0 = nth j (logpdf xs dw) 0 /\
        nth j (lap (xs ++ zs)) 0 = nth j (lap xs) 0
    end.
  Lemma stein_padding m unique bs bs' reg ord ord' xs dw zs :
    length dw = length xs -> (1 <= m <= length xs)%nat ->
    (forall i, Permutation (ord i) (seq 0 m)) -> (forall i, Permutation (ord' i) (seq 0 m)) ->
    (1 <= npos dw)%nat -> (unique = true -> (m <= npos dw)%nat) ->
    reg_ok xs dw reg -> reg_ok (xs ++ zs) (dw ++ repeat 0 (length zs)) reg -> reg_pad_ok xs dw zs reg ->
    exists l,
      stein_reduce EROps p0 y0 (stein_of k m unique bs reg) ord (mkD xs dw)
      = Ok (mkCS (map Z.of_nat l) (repeat (Fin 1) m) (mkD xs dw)) /\
      stein_reduce EROps p0 y0 (stein_of k m unique bs' reg) ord'
        (mkD (xs ++ zs) (dw ++ repeat 0 (length zs)))
      = Ok (mkCS (map Z.of_nat l) (repeat (Fin 1) m) (mkD (xs ++ zs) (dw ++ repeat 0 (length zs)))).
  Proof.
    intros Hdw Hm Ho Ho' Hp1 Hp Hr Hr' Hrp.
    destruct (stein_reduce_outcome p0 y0 k m unique bs reg ord xs dw) as [l [E [L [R [N G]]]]]; auto.
    destruct (stein_reduce_outcome p0 y0 k m unique bs' reg ord' (xs ++ zs) (dw ++ repeat 0 (length zs)))
      as [l' [E' [L' [R' [N' G']]]]]; rewrite ?npos_pad; auto.
    - rewrite !app_length, repeat_length. lia.
    - rewrite app_length. lia.
    - assert (El : l = l').
      { refine (greedy_argmax_unique _ _ _ _ l l' _ _ _ G G').
        - intros. apply candidate_pad.
        - intros t j Ht [Hj _]. unfold stein_score.
          rewrite (app_nth1 xs) by lia.
          rewrite (Rsum_map_ext (fun c => k (nth j xs p0) (nth c xs p0)) (fun c => k (nth j xs p0) (nth c (xs ++ zs) p0))).
          + destruct reg as [[[lam logpdf] lap]|]; [|reflexivity].
            destruct (Hrp j ltac:(lia)) as [-> ->]. reflexivity.
          + intros a Ha. rewrite app_nth1; [reflexivity|]. apply R. now apply in_firstn in Ha.
        - congruence. }
      subst l'. eauto.
  Qed.
End Pad.

Section Iter.
  Context {P Y : Type} (p0 : P) (y0 : Y) (k : P -> P -> R).
  Notation kE := (fun a b => Fin (k a b) : ER).
  Notation mkD xs dw := (mkData xs (map Fin dw) (@None (list Y))).

  (** one refinement of a full-size, uniformly weighted coreset *)
  Lemma herding_refine_mono l0 c xs dw unique bs ord :
    (forall a b, k a b = k b a) -> (forall a b, In a xs -> In b xs -> k a a = k b b) ->
    length dw = length xs -> Rsum dw <> 0 ->
    (1 <= length l0)%nat -> 0 < c ->
    (forall i, Permutation (ord i) (seq 0 (length l0))) ->
    (forall i, In i l0 -> (i < length xs)%nat /\ 0 < nth i dw 0) ->
    (unique = true -> NoDup l0) ->
    exists l,
      herding_refine EROps p0 y0 (mkHerding (length l0) kE unique bs Greedy) ord
        (mkCS (map Z.of_nat l0) (map Fin (repeat c (length l0))) (mkD xs dw)) None
      = Ok (mkCS (map Z.of_nat l) (repeat (Fin 1) (length l0)) (mkD xs dw), map Fin (grm_of k xs dw)) /\
      length l = length l0 /\
      (forall i, In i l -> (i < length xs)%nat /\ 0 < nth i dw 0) /\
      (unique = true -> NoDup l) /\
      mmd2 k xs dw (map (fun j => nth j xs p0) l) (repeat 1 (length l0))
      <= mmd2 k xs dw (map (fun j => nth j xs p0) l0) (repeat c (length l0)).
  Proof.
    intros Hsym Hdiag Hdw Hs Hm Hc Hord Hl0 Hnd.
    assert (Hp1 : (1 <= npos dw)%nat).
    { destruct l0 as [|a l0]; [simpl in Hm; lia|]. destruct (Hl0 a ltac:(now left)) as [A B].
      apply (npos_pos dw a); [lia|assumption]. }
    assert (Hp : unique = true -> (Nat.max (length (map Z.of_nat l0)) (length l0) <= npos dw)%nat).
    { intros U. rewrite map_length, Nat.max_id. rewrite <- (pos_idx_npos xs dw Hdw).
      apply NoDup_incl_length; [now apply Hnd|]. intros i Hi. apply pos_idx_spec. auto. }
    assert (Hg : length (grm_of k xs dw) = length xs) by apply map_length.
    pose proof (herding_sel_ok xs dw (pidx (map Z.of_nat l0) (length l0)) (grm_of k xs dw) Hg) as Hsel.
    assert (Hcw' : length (repeat c (length l0)) = length (map Z.of_nat l0)) by now rewrite map_length, repeat_length.
    assert (Hord' : forall i, Permutation (ord i) (seq 0 (Nat.max (length (map Z.of_nat l0)) (length l0))))
      by now rewrite map_length, Nat.max_id.
    destruct (selection_outcome p0 y0 k (map Z.of_nat l0) (repeat c (length l0)) xs dw _ (length l0) unique bs ord
       Hdw Hcw' Hm Hord' Hp1 Hp Hsel) as [E [A [B C]]].
    - eexists. change (@None (list ER)) with (option_map (map (@Fin R)) None).
      rewrite herding_refine_unfold by assumption. cbn [used_grm]. rewrite E. cbn [bind].
      split; [reflexivity|]. split; [assumption|]. split; [assumption|]. split; [assumption|].
      now apply herding_mono.
  Qed.

  (** the state is ignored except as a cache *)
  Lemma herding_refine_cached h ord (c : Coresubset P Y ER) c' g :
    herding_refine EROps p0 y0 h ord c None = Ok (c', g) ->
    herding_refine EROps p0 y0 h ord c (Some g) = Ok (c', g).
  Proof.
    unfold herding_refine. destruct (gramian_row_mean _ _ _ _ _ _) as [m|e]; cbn [bind]; [|discriminate].
    destruct m as [v|v]; cbn [bind]; [discriminate|].
    destruct (greedy_selection _ _ _ _ _ _ _ _ _ _) as [a|e] eqn:E; cbn [bind]; [|discriminate].
    intros H. injection H as <- <-. now rewrite E.
  Qed.

  Lemma reduce_iterative_mono m unique bs ords modes xs dw N :
    (forall a b, k a b = k b a) -> (forall a b, In a xs -> In b xs -> k a a = k b b) ->
    length dw = length xs -> Rsum dw <> 0 -> (1 <= m <= length xs)%nat ->
    (forall j i, Permutation (ords j i) (seq 0 m)) ->
    (1 <= npos dw)%nat -> (unique = true -> (m <= npos dw)%nat) ->
    (forall i, modes i = Greedy) ->
    exists l l' g,
      let h := mkHerding m kE unique bs Greedy in
      herding_reduce_iterative EROps p0 y0 h modes ords (mkD xs dw) None (S N)
      = Ok (mkCS (map Z.of_nat l) (repeat (Fin 1) m) (mkD xs dw), g) /\
      herding_reduce_iterative EROps p0 y0 h modes ords (mkD xs dw) None (S (S N))
      = Ok (mkCS (map Z.of_nat l') (repeat (Fin 1) m) (mkD xs dw), g) /\
      length l = m /\ (forall i, In i l -> (i < length xs)%nat /\ 0 < nth i dw 0) /\
      (unique = true -> NoDup l) /\
      mmd2 k xs dw (map (fun j => nth j xs p0) l') (repeat 1 m)
      <= mmd2 k xs dw (map (fun j => nth j xs p0) l) (repeat 1 m).
  Proof.
    intros Hsym Hdiag Hdw Hs Hm Hord Hp1 Hp Hmode.
    set (g := map Fin (grm_of k xs dw) : list ER).
    set (step := fun i (r : result (Coresubset P Y ER)) =>
               do c <- r;
               do (c', _) <- herding_refine EROps p0 y0 (mkHerding m kE unique bs (modes i)) (ords i) c (Some g);
               Ok c').
    set (c0 := mkCS (repeat 0%Z m) (map Fin (repeat 0 m)) (mkD xs dw)).
    assert (Hunf : forall n, herding_reduce_iterative EROps p0 y0 (mkHerding m kE unique bs Greedy) modes ords (mkD xs dw) None n
              = do c' <- fori n step (Ok c0); Ok (c', g)).
    { intros n. unfold herding_reduce_iterative. cbn [h_size h_kernel h_unique h_bs].
      rewrite initial_ok by lia. cbn [bind c_pre].
      rewrite gramian_eq by (try assumption; now apply (npos_nonempty xs dw)). cbn [bind]. reflexivity. }
    assert (Hstep : forall i l, length l = m -> (forall i, In i l -> (i < length xs)%nat /\ 0 < nth i dw 0) ->
              (unique = true -> NoDup l) ->
              exists l', step i (Ok (mkCS (map Z.of_nat l) (repeat (Fin 1) m) (mkD xs dw)))
                = Ok (mkCS (map Z.of_nat l') (repeat (Fin 1) m) (mkD xs dw)) /\ length l' = m /\
                (forall i, In i l' -> (i < length xs)%nat /\ 0 < nth i dw 0) /\ (unique = true -> NoDup l') /\
                mmd2 k xs dw (map (fun j => nth j xs p0) l') (repeat 1 m)
                <= mmd2 k xs dw (map (fun j => nth j xs p0) l) (repeat 1 m)).
    { intros i l L R N0.
      destruct (herding_refine_mono l 1 xs dw unique bs (ords i)) as [l' [E [L' [R' [N' M']]]]];
        try assumption; try lra; rewrite ?L; try lia; auto.
      exists l'. unfold step. cbn [bind]. rewrite Hmode.
      rewrite map_Fin_repeat, L in E. apply herding_refine_cached in E. fold g in E. rewrite E. cbn [bind].
      rewrite L in *. auto. }
    assert (Hfirst : exists l, step 0%nat (Ok c0) = Ok (mkCS (map Z.of_nat l) (repeat (Fin 1) m) (mkD xs dw)) /\
              length l = m /\ (forall i, In i l -> (i < length xs)%nat /\ 0 < nth i dw 0) /\ (unique = true -> NoDup l)).
    { destruct (herding_refine_outcome p0 y0 k m unique bs (ords 0%nat) (repeat 0%Z m) (repeat 0 m) xs dw (Some (grm_of k xs dw)))
        as [l [E [L [R N0]]]]; rewrite ?repeat_length, ?Nat.max_id; auto; try lia.
      - intros g' Eg. injection Eg as <-. apply map_length.
      - exists l. unfold step. cbn [bind]. rewrite Hmode. cbn [option_map] in E. fold g in E. unfold c0.
        rewrite E. cbn [bind]. auto. }
    assert (Hall : forall n, exists l, fori (S n) step (Ok c0) = Ok (mkCS (map Z.of_nat l) (repeat (Fin 1) m) (mkD xs dw)) /\
              length l = m /\ (forall i, In i l -> (i < length xs)%nat /\ 0 < nth i dw 0) /\ (unique = true -> NoDup l)).
    { induction n as [|n IH].
      - exact Hfirst.
      - destruct IH as [l [E [L [R N0]]]]. rewrite fori_S, E.
        destruct (Hstep (S n) l L R N0) as [l' [E' [L' [R' [N' _]]]]]. eauto. }
    destruct (Hall N) as [l [E [L [R N0]]]].
    destruct (Hstep (S N) l L R N0) as [l' [E' [L' [R' [N' M']]]]].
    exists l, l', g. cbv zeta. rewrite !Hunf, E. rewrite fori_S, E, E'. cbn [bind].
    repeat split; auto; now apply R.
  Qed.

  (** unregularised SteinThinning never increases the Stein discrepancy of a
      full-size coreset *)
  Lemma stein_refine_mono l0 c xs dw unique bs ord :
    (forall a b, k a b = k b a) ->
    length dw = length xs -> (1 <= length l0)%nat -> 0 < c ->
    (forall i, Permutation (ord i) (seq 0 (length l0))) ->
    (forall i, In i l0 -> (i < length xs)%nat /\ 0 < nth i dw 0) ->
    (unique = true -> NoDup l0) ->
    exists l,
      stein_refine EROps p0 y0 (mkStein (length l0) kE unique bs None) ord
        (mkCS (map Z.of_nat l0) (map Fin (repeat c (length l0))) (mkD xs dw))
      = Ok (mkCS (map Z.of_nat l) (repeat (Fin 1) (length l0)) (mkD xs dw)) /\
      length l = length l0 /\
      (forall i, In i l -> (i < length xs)%nat /\ 0 < nth i dw 0) /\
      (unique = true -> NoDup l) /\
      wavg (fun a => wavg (fun b => k a b) (map (fun j => nth j xs p0) l) (repeat 1 (length l0)))
           (map (fun j => nth j xs p0) l) (repeat 1 (length l0))
      <= wavg (fun a => wavg (fun b => k a b) (map (fun j => nth j xs p0) l0) (repeat c (length l0)))
              (map (fun j => nth j xs p0) l0) (repeat c (length l0)).
  Proof.
    intros Hsym Hdw Hm Hc Hord Hl0 Hnd.
    assert (Hp1 : (1 <= npos dw)%nat).
    { destruct l0 as [|a l0]; [simpl in Hm; lia|]. destruct (Hl0 a ltac:(now left)) as [A B].
      apply (npos_pos dw a); [lia|assumption]. }
    assert (Hp : unique = true -> (Nat.max (length (map Z.of_nat l0)) (length l0) <= npos dw)%nat).
    { intros U. rewrite map_length, Nat.max_id. rewrite <- (pos_idx_npos xs dw Hdw).
      apply NoDup_incl_length; [now apply Hnd|]. intros i Hi. apply pos_idx_spec. auto. }
    pose proof (stein_sel_ok xs dw (pidx (map Z.of_nat l0) (length l0)) (map (fun a => k a a) xs) None
                  (map_length _ _) ltac:(discriminate)) as Hsel.
    assert (Hcw' : length (repeat c (length l0)) = length (map Z.of_nat l0)) by now rewrite map_length, repeat_length.
    assert (Hord' : forall i, Permutation (ord i) (seq 0 (Nat.max (length (map Z.of_nat l0)) (length l0))))
      by now rewrite map_length, Nat.max_id.
    destruct (selection_outcome p0 y0 k (map Z.of_nat l0) (repeat c (length l0)) xs dw _ (length l0) unique bs ord
       Hdw Hcw' Hm Hord' Hp1 Hp Hsel) as [E [A [B C]]].
    - eexists. change (mkStein (length l0) kE unique bs None) with (stein_of k (length l0) unique bs None).
      rewrite stein_refine_unfold by (rewrite map_length; assumption). cbn [stein_reg option_map] in *. rewrite E.
      split; [reflexivity|]. split; [assumption|]. split; [assumption|]. split; [assumption|].
      set (RES := res _ _ _ _ _ _ _ _ _ _) in *.
      assert (Hq : forall l cc, cc <> 0 -> length l = length l0 ->
        wavg (fun a => wavg (fun b => k a b) (map (fun j => nth j xs p0) l) (repeat cc (length l0)))
           (map (fun j => nth j xs p0) l) (repeat cc (length l0))
        = quad (fun a b => k (nth a xs p0) (nth b xs p0)) l / (INR (length l0) * INR (length l0))).
      { intros l cc Hcc HL.
        assert (HLm : length l0 = length (map (fun j => nth j xs p0) l)) by now rewrite map_length.
        assert (Hne : map (fun j => nth j xs p0) l <> []).
        { intros E0. rewrite E0 in HLm. simpl in HLm. lia. }
        assert (HI : INR (length l0) <> 0) by (apply not_0_INR; lia).
        unfold quad. rewrite HLm in *. set (ys := map (fun j => nth j xs p0) l) in *.
        rewrite wavg_const by assumption.
        rewrite (Rsum_map_ext _ (fun a => Rsum (map (fun b => k a b) ys) / INR (length ys))).
        - rewrite Rsum_map_div. unfold ys at 2. rewrite map_map.
          rewrite (Rsum_map_ext (fun x => Rsum (map (fun b => k (nth x xs p0) b) ys))
                    (fun a => Rsum (map (fun b => k (nth a xs p0) (nth b xs p0)) l))).
          + field. assumption.
          + intros a _. unfold ys. now rewrite map_map.
        - intros a _. now rewrite wavg_const by assumption. }
      rewrite !Hq by (try lra; try reflexivity; try assumption).
      apply Rmult_le_compat_r.
      + left. apply Rinv_0_lt_compat. apply Rmult_lt_0_compat; apply lt_0_INR; lia.
      + now apply stein_mono.
  Qed.
End Iter.

(** ** Rejections *)
Section Reject.
  Context {V : Type} (O : FOps V) {P Y : Type} (p0 : P) (y0 : Y).
  Notation data := (Data P Y V).
  Lemma initial_too_large (d : data) fill m : (d_len d < m)%nat ->
    initial_coresubset O p0 y0 fill m d = Err ValueError.
  Proof.
    intros H. unfold initial_coresubset. rewrite cs_init_ok. rewrite repeat_length.
    destruct (Nat.ltb_spec (d_len d) m); [reflexivity|lia].
  Qed.
  Lemma initial_fine (d : data) fill m : (m <= d_len d)%nat ->
    initial_coresubset O p0 y0 fill m d = Ok (mkCS (repeat fill m) (repeat (f0 O) m) d).
  Proof.
    intros H. unfold initial_coresubset. rewrite cs_init_ok. rewrite repeat_length.
    destruct (Nat.ltb_spec (d_len d) m); [lia|reflexivity].
  Qed.
  Lemma herding_too_large h ord (d : data) st : (d_len d < h_size h)%nat ->
    herding_reduce O p0 y0 h ord d st = Err ValueError.
  Proof. intros H. unfold herding_reduce. now rewrite initial_too_large. Qed.
  Lemma stein_too_large s ord (d : data) : (d_len d < s_size s)%nat ->
    stein_reduce O p0 y0 s ord d = Err ValueError.
  Proof. intros H. unfold stein_reduce. now rewrite initial_too_large. Qed.
  Lemma herding_supervised h ord x w y (c := mkData x w (Some y) : data) g :
    herding_reduce O p0 y0 h ord c (Some g) = Err ValueError.
  Proof.
    unfold herding_reduce, initial_coresubset. rewrite cs_init_ok.
    destruct (Nat.ltb _ _); [reflexivity|]. reflexivity.
  Qed.
  Lemma stein_supervised s ord x w y (c := mkData x w (Some y) : data) :
    stein_reduce O p0 y0 s ord c = Err ValueError.
  Proof.
    unfold stein_reduce, initial_coresubset. rewrite cs_init_ok.
    destruct (Nat.ltb _ _); [reflexivity|]. reflexivity.
  Qed.
End Reject.
Lemma herding_supervised_fresh {P Y} (p0 : P) (y0 : Y) (k : P -> P -> R) m unique bs mode ord x w y :
  x <> [] -> length w = length x ->
  herding_reduce EROps p0 y0 (mkHerding m (fun a b => Fin (k a b)) unique bs mode) ord
    (mkData x (map Fin w) (Some y)) None = Err ValueError.
Proof.
  intros Hx Hw. unfold herding_reduce, initial_coresubset. rewrite cs_init_ok.
  destruct (Nat.ltb _ _); [reflexivity|]. cbn [bind]. unfold herding_refine. cbn [h_kernel h_bs c_pre].
  unfold gramian_row_mean. rewrite compute_mean_axis0 by auto. reflexivity.
Qed.

(** ** SteinThinning with arbitrary environment functions *)
Section SteinGen.
  Context {P Y : Type} (p0 : P) (y0 : Y) (k : P -> P -> R).
  Notation kE := (fun a b => Fin (k a b) : ER).
  Notation mkD xs dw := (mkData xs (map Fin dw) (@None (list Y))).
  Lemma stein_reduce_env m unique bs ord xs dw lam logpdf lapl lp lap :
    logpdf xs (map Fin dw) = map Fin lp -> lapl xs = map Fin lap ->
    stein_reduce EROps p0 y0 (mkStein m kE unique bs (Some (option_map Fin lam, logpdf, lapl))) ord (mkD xs dw)
    = stein_reduce EROps p0 y0 (stein_of k m unique bs (Some (lam, fun _ _ => lp, fun _ => lap))) ord (mkD xs dw).
  Proof.
    intros H1 H2. unfold stein_reduce, initial_coresubset. cbn [s_size stein_of]. rewrite !cs_init_ok.
    destruct (Nat.ltb _ _); [reflexivity|]. cbn [bind].
    unfold stein_refine. cbn [c_pre unpack2 d_y d_x d_w bind c_idx s_kernel s_size s_unique s_bs stein_of].
    unfold stein_terms. cbn [s_reg stein_of option_map]. rewrite H1, H2. reflexivity.
  Qed.
  Lemma grm_wavg' xs dw j : length dw = length xs -> Rsum dw <> 0 -> (j < length xs)%nat ->
    nth j (grm_of k xs dw) 0 = wavg (fun b => k (nth j xs p0) b) xs dw.
  Proof.
    intros Hd Hs Hj. unfold grm_of. rewrite (nth_map_lt _ _ _ p0) by assumption.
    rewrite Rdot_wsum, wsum_norm by auto. reflexivity.
  Qed.
  Lemma greedy_argmax_score_ext (cand : list nat -> nat -> Prop) (s s' : list nat -> nat -> R) l :
    (forall ch j, cand ch j -> s ch j = s' ch j) -> greedy_argmax cand s l -> greedy_argmax cand s' l.
  Proof.
    intros H G t Ht. destruct (G t Ht) as [A B]. split; [exact A|]. intros j Hj.
    cbv zeta in *. rewrite <- !H by assumption. now apply B.
  Qed.
  Lemma herding_rule_fresh m unique bs ord xs dw :
    length dw = length xs -> Rsum dw <> 0 -> (1 <= m <= length xs)%nat ->
    (forall i, Permutation (ord i) (seq 0 m)) ->
    (1 <= npos dw)%nat -> (unique = true -> (m <= npos dw)%nat) ->
    exists l g,
      herding_reduce EROps p0 y0 (mkHerding m kE unique bs Greedy) ord (mkD xs dw) None
      = Ok (mkCS (map Z.of_nat l) (repeat (Fin 1) m) (mkD xs dw), g) /\
      length l = m /\
      greedy_argmax (candidate dw unique)
        (herding_score k (fun j => wavg (fun b => k (nth j xs p0) b) xs dw) (fun j => nth j xs p0)) l.
  Proof.
    intros Hdw Hs Hm Hord Hp1 Hp.
    destruct (herding_reduce_outcome p0 y0 k m unique bs ord xs dw None) as [l [E [L [R [N G]]]]]; auto; [discriminate|].
    eexists l, _. split; [exact E|]. split; [assumption|].
    revert G. apply greedy_argmax_score_ext. intros ch j [Hj _]. unfold herding_score. cbn [used_grm].
    now rewrite grm_wavg' by (auto; lia).
  Qed.
  Lemma state_is_gramian_mean h h' ord ord' (d : Data P Y ER) c g c' :
    h_kernel h = h_kernel h' -> h_bs h = h_bs h' -> c_pre c' = d ->
    herding_reduce EROps p0 y0 h ord d None = Ok (c, g) ->
    herding_refine EROps p0 y0 h' ord' c' (Some g) = herding_refine EROps p0 y0 h' ord' c' None.
  Proof.
    intros Hk Hb Hp. unfold herding_reduce. unfold initial_coresubset. rewrite cs_init_ok.
    destruct (Nat.ltb _ _); cbn [bind]; [discriminate|].
    unfold herding_refine. cbn [c_pre]. rewrite Hp, Hk, Hb.
    destruct (gramian_row_mean _ _ _ _ _ _) as [m|e]; cbn [bind]; [|discriminate].
    destruct m as [v|v]; cbn [bind]; [discriminate|].
    destruct (greedy_selection _ _ _ _ _ _ _ _ _ _) as [a|e]; cbn [bind]; [|discriminate].
    intros H. injection H as _ <-. reflexivity.
  Qed.
End SteinGen.

(** ** probabilistic selection with a zero-weight row *)
Lemma prob_zero_weight :
  forall (dw cw : list R) (idx : list Z) (grm pen : list R) unique (ord : nat -> list nat)
         (temp : R) (choice : nat -> list ER -> Z) (i : nat) (size : Z) (z : nat),
    length grm = length dw -> length pen = length dw -> (z < length dw)%nat -> nth z dw 0 <= 0 ->
    (0 < size)%Z -> 0 < temp ->
    (forall p, (p < length idx)%nat -> nth p idx 0%Z <> Z.of_nat z) ->
    Forall (fun j => (0 <= j < Z.of_nat (length dw))%Z) idx ->
    (forall j, Permutation (ord j) (seq 0 (length idx))) ->
    herding_select EROps (Prob expE (Fin temp) choice) (map Fin grm) i
      (valid_penalty EROps unique (ord i) (map Fin dw) (map Fin cw) idx i (map Fin pen)) size
    = choice i (repeat NaN (length dw)).
Proof.
  intros dw cw idx grm pen unique ord temp choice i size z Hg Hp Hz Hwz Hs Ht Hidx Hr Hord.
  set (v := valid_penalty _ _ _ _ _ _ _ _).
  assert (HvL : length v = length dw).
  { unfold v, valid_penalty. destruct unique; rewrite ?scatter_length, map2_length, !map_length; lia. }
  assert (Hv : nth z v NaN = NaN).
  { unfold v, valid_penalty.
    assert (Hbase : nth z (map2 (fun w p => if fgt0 EROps w then p else fnan EROps) (map Fin dw) (map Fin pen)) NaN = NaN).
    { rewrite (nth_map2 _ _ _ _ NaN NaN) by (rewrite ?map_length; lia).
      rewrite !nth_map_Fin by lia. destruct (fgt0 EROps (Fin (nth z dw 0))) eqn:E; [|reflexivity].
      apply fgt0_fin in E. lra. }
    destruct unique; [|exact Hbase].
    rewrite scatter_nth_other; [exact Hbase|].
    - intros p Hin. rewrite map2_length, !map_length, Hp, Nat.min_id.
      assert (Hlt : (p < length idx)%nat).
      { apply (Permutation_in _ (Hord i)) in Hin. apply in_seq in Hin. lia. }
      rewrite Forall_forall in Hr. specialize (Hr (nth p idx 0%Z) (nth_In _ _ Hlt)).
      rewrite wrap_in_range by lia. now apply Hidx. }
  unfold herding_select. f_equal.
  set (l := map _ (map2 _ _ _)).
  assert (HlL : length l = length dw) by (unfold l; rewrite map_length, map2_length, map_length; lia).
  rewrite <- HlL. apply softmax_nan.
  replace (NaN : ER) with (nth z l NaN); [apply nth_In; lia|].
  unfold l. rewrite (nth_map_lt _ _ _ NaN) by (rewrite map2_length, map_length; lia).
  rewrite (nth_map2 _ _ _ _ NaN NaN) by (rewrite ?map_length; lia). rewrite Hv.
  destruct (nth z (map Fin grm) NaN); reflexivity.
Qed.
