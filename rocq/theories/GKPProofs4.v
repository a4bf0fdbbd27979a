(** * Greedy kernel points: fits on partly filled coresets *)
From Coq Require Import List ZArith Bool Reals Permutation Lia Lra.
From Verif Require Import Num Jax RSum JaxFacts MetricSpec GKPSpec GreedyProofs.
Import ListNotations.
Open Scope R_scope.

Definition entry := (Z * (R * R))%type.
Definition ei (t : entry) : Z := fst t.
Definition ev (t : entry) : R := fst (snd t).
Definition ez (t : entry) : R := snd (snd t).
Definition keep (T : list entry) := filter (fun t => 0 <=? ei t)%Z T.
Definition drop (T : list entry) := filter (fun t => negb (0 <=? ei t)%Z) T.

Lemma sum_keep_drop (f : entry -> R) T : Rsum (map f T) = Rsum (map f (keep T)) + Rsum (map f (drop T)).
Proof. induction T as [|t T IH]; simpl; [lra|]. destruct (0 <=? ei t)%Z; simpl; unfold keep, drop in *; rewrite IH; lra. Qed.

Lemma combine_entry (c : list Z) (v z : list R) : length v = length c -> length z = length c ->
  let T := combine c (combine v z) in map ei T = c /\ map ev T = v /\ map ez T = z.
Proof.
  revert v z. induction c as [|a c IH]; intros [|b v] [|d z]; simpl; intros; try discriminate; auto.
  destruct (IH v z) as [A [B C]]; [lia..|]. unfold ei, ev, ez in *. simpl. now rewrite A, B, C.
Qed.
Lemma entries_eq (T U : list entry) : map ei T = map ei U -> map ev T = map ev U -> map ez T = map ez U -> T = U.
Proof.
  revert U. induction T as [|[a [b c]] T IH]; intros [|[d [e f]] U]; simpl; intros; try discriminate; auto.
  unfold ei, ev, ez in *. simpl in *. f_equal; [congruence|]. apply IH; congruence.
Qed.
Lemma keep_ei T : map ei (keep T) = active (map ei T).
Proof. induction T as [|t T IH]; simpl; auto. unfold active in *. simpl. destruct (0 <=? ei t)%Z; simpl; now rewrite IH. Qed.
Lemma keep_ev_eq T U : map ei T = map ei U -> map ev T = map ev U -> map ev (keep T) = map ev (keep U).
Proof.
  revert U. induction T as [|t T IH]; intros [|u U]; simpl; intros; try discriminate; auto.
  injection H; injection H0; intros. rewrite H4. destruct (0 <=? ei u)%Z; simpl; [f_equal|]; auto.
Qed.

(** the entries of [z'] put back into the places that hold an index, zero elsewhere *)
Lemma expand T z' : length z' = length (keep T) ->
  exists U, map ei U = map ei T /\ map ev U = map ev T /\ map ez (keep U) = z' /\ forall t, In t (drop U) -> ez t = 0.
Proof.
  revert z'. induction T as [|t T IH]; intros z' H.
  - destruct z'; [|discriminate]. exists []. simpl. repeat split; auto. intros t [].
  - simpl in H. destruct (0 <=? ei t)%Z eqn:E.
    + destruct z' as [|a z']; [discriminate|]. destruct (IH z') as [U [A [B [C D]]]]; [simpl in H; unfold keep in *; lia|].
      exists ((ei t, (ev t, a)) :: U). simpl. unfold keep, drop, ei, ev, ez in *. simpl. rewrite E. simpl. rewrite A, B, C. repeat split; auto.
    + destruct (IH z' H) as [U [A [B [C D]]]].
      exists ((ei t, (ev t, 0)) :: U). simpl. unfold keep, drop, ei, ev, ez in *. simpl. rewrite E. simpl. rewrite A, B, C.
      repeat split; auto. intros u [<-|Hu]; auto.
Qed.

Section Fit.
  Context {P : Type} (p0 : P) (k : P -> P -> R) (x : list P) (y : list R).
  Notation kz := (kz p0 k x). Notation yz := (yz y).
  Variable r : R.

  Lemma kz_neg_l i j : (i < 0)%Z -> kz i j = 0.
  Proof. intros H. unfold GKPSpec.kz. destruct (Z.ltb_spec i 0); [reflexivity|lia]. Qed.
  Lemma kz_neg_r i j : (j < 0)%Z -> kz i j = 0.
  Proof. intros H. unfold GKPSpec.kz. destruct (Z.ltb_spec j 0); [now rewrite orb_true_r|lia]. Qed.
  Lemma yz_neg i : (i < 0)%Z -> yz i = 0.
  Proof. intros H. unfold GKPSpec.yz. destruct (Z.ltb_spec i 0); [reflexivity|lia]. Qed.

  Lemma pred_keep f T : (forall j, (j < 0)%Z -> f j = 0) ->
    Rdot (map f (map ei T)) (map ez T) = Rdot (map f (map ei (keep T))) (map ez (keep T)).
  Proof.
    intros F. induction T as [|t T IH]; [reflexivity|]. simpl. unfold Rdot in *. simpl. unfold keep in IH. destruct (Z.leb_spec 0 (ei t)); simpl.
    - now rewrite IH.
    - rewrite F by assumption. rewrite IH. unfold keep. ring.
  Qed.

  Definition resT (T : list entry) : R :=
    Rsum (map (fun t => (Rdot (map (kz (ei t)) (map ei T)) (map ez T) + r * ev t * ez t - yz (ei t)) ^ 2) T).
  Definition normT (T : list entry) : R := Rsum (map (fun t => ez t * ez t) T).

  Lemma norm_dot T : Rdot (map ez T) (map ez T) = normT T.
  Proof. unfold Rdot, normT. induction T; simpl; auto. now rewrite IHT. Qed.

  Lemma resT_split T : resT T = resT (keep T) + Rsum (map (fun t => (r * ev t * ez t) ^ 2) (drop T)).
  Proof.
    unfold resT at 1. rewrite sum_keep_drop. f_equal.
    - unfold resT. apply Rsum_map_ext. intros t Ht. rewrite (pred_keep (kz (ei t))) by (intros; now apply kz_neg_r). reflexivity.
    - apply Rsum_map_ext. intros t Ht. unfold drop in Ht. apply filter_In in Ht as [_ N]. apply negb_true_iff in N. apply Z.leb_gt in N.
      rewrite yz_neg by assumption. rewrite (pred_keep (kz (ei t))) by (intros; now apply kz_neg_r).
      replace (map (kz (ei t)) (map ei (keep T))) with (repeat 0 (length (keep T))).
      + rewrite Rdot_comm, Rdot_zero_r. ring.
      + clear -N. induction (keep T); simpl; auto. f_equal; auto. symmetry. now apply kz_neg_l.
  Qed.
  Lemma normT_split T : normT T = normT (keep T) + Rsum (map (fun t => ez t * ez t) (drop T)).
  Proof. apply sum_keep_drop. Qed.

  Lemma Rdiag_row v i : (i < length v)%nat -> nth i (Rdiag v) [] = upd i (nth i v 0) (repeat 0 (length v)).
  Proof. intros H. unfold Rdiag. rewrite (nth_map_lt _ (seq 0 (length v)) i 0%nat) by (rewrite seq_length; lia). now rewrite seq_nth. Qed.
  Lemma Rdot_unit i a n z : (i < n)%nat -> length z = n -> Rdot (upd i a (repeat 0 n)) z = a * nth i z 0.
  Proof.
    revert i z. induction n as [|n IH]; intros i z Hi Hz; [lia|]. destruct z as [|b z]; [discriminate|]. destruct i as [|i]; simpl; unfold Rdot in *; simpl.
    - fold (Rdot (repeat 0 n) z). rewrite Rdot_comm, Rdot_zero_r. ring.
    - rewrite IH by (simpl in Hz; lia). ring.
  Qed.
  Lemma ridge_dot row drow z : length row = length z -> length drow = length z ->
    Rdot (map2 (fun a e => a + r * e) row drow) z = Rdot row z + r * Rdot drow z.
  Proof.
    revert drow z. induction row as [|a row IH]; intros [|b drow] [|c z]; simpl; intros; try discriminate; unfold Rdot in *; simpl; [ring|].
    rewrite IH by lia. ring.
  Qed.

  Lemma residual_entries c v z : length v = length c -> length z = length c ->
    sq_residual (Rridge (gram_of p0 k x c) r (Rdiag v)) (responses_of y c) z = resT (combine c (combine v z)).
  Proof.
    intros Hv Hz. destruct (combine_entry c v z Hv Hz) as [E1 [E2 E3]].
    unfold sq_residual, resT. rewrite E1, E3. f_equal.
    assert (LT : length (combine c (combine v z)) = length c) by (rewrite !combine_length; lia).
    assert (LD : length (Rdiag v) = length c) by (unfold Rdiag; rewrite map_length, seq_length; lia).
    assert (LR : length (Rridge (gram_of p0 k x c) r (Rdiag v)) = length c) by (unfold Rridge, gram_of; rewrite map2_length, map_length; lia).
    apply list_ext with (d := 0).
    - rewrite map2_length. unfold Rmv, responses_of. rewrite !map_length. rewrite LR, Nat.min_id. symmetry. exact LT.
    - intros u Hu. rewrite map2_length in Hu. unfold Rmv, responses_of in *. rewrite !map_length in Hu.
      assert (Hc : (u < length c)%nat) by lia.
      rewrite (nth_map2 _ _ _ _ 0 0) by (rewrite !map_length; lia).
      rewrite (nth_map_lt _ _ u (0%Z,(0,0))) by (unfold entry in *; lia).
      rewrite (nth_map_lt (fun row => Rdot row z) _ u []) by lia. rewrite (nth_map_lt yz c u 0%Z) by lia.
      assert (N : nth u (combine c (combine v z)) (0%Z,(0,0)) = (nth u c 0%Z, (nth u v 0, nth u z 0))).
      { rewrite combine_nth by (rewrite combine_length; lia). rewrite combine_nth by lia. reflexivity. }
      rewrite N. unfold ei, ev, ez. cbn [fst snd]. f_equal. f_equal.
      unfold Rridge. rewrite (nth_map2 _ _ _ _ [] []) by (unfold gram_of; rewrite ?map_length; lia).
      unfold gram_of. rewrite (nth_map_lt _ c u 0%Z) by lia. rewrite Rdiag_row by lia.
      rewrite ridge_dot by (rewrite ?upd_length, ?repeat_length, ?map_length; lia).
      rewrite Rdot_unit by lia. ring.
  Qed.

  Definition consistent (c : list Z) (v : list R) : Prop := length v = length c /\ forall u, (u < length c)%nat -> (0 <= nth u c 0%Z)%Z -> nth u v 0 = 1.

  Lemma keep_ones c v z : consistent c v -> length z = length c -> map ev (keep (combine c (combine v z))) = repeat 1 (length (active c)).
  Proof.
    intros [Hv H] Hz. revert v z Hv Hz H. induction c as [|a c IH]; intros [|b v] [|d z] Hv Hz H; try discriminate; auto.
    simpl in Hv, Hz. assert (H' : forall u, (u < length c)%nat -> (0 <= nth u c 0%Z)%Z -> nth u v 0 = 1).
    { intros u Hu. apply (H (S u)). simpl. lia. }
    specialize (IH v z ltac:(lia) ltac:(lia) H'). unfold keep, active, ei, ev in *. simpl. destruct (Z.leb_spec 0 a); simpl; auto.
    f_equal; auto. apply (H 0%nat); simpl; [lia|assumption].
  Qed.

  (** a minimal-norm fit on a padded coreset is one on its occupied places *)
  Lemma padding_ignored c v z : consistent c v ->
    is_min_norm (Rridge (gram_of p0 k x c) r (Rdiag v)) (responses_of y c) z ->
    exists a, is_min_norm (Rridge (gram_of p0 k x (active c)) r (Rdiag (repeat 1 (length (active c))))) (responses_of y (active c)) a
      /\ forall l, prediction p0 k x c z l = prediction p0 k x (active c) a l.
  Proof.
    intros Cv [Lz Mz]. destruct Cv as [Hv H1] eqn:CE. assert (RLc : length (responses_of y c) = length c) by apply map_length.
    rewrite RLc in Lz, Mz. set (T := combine c (combine v z)).
    destruct (combine_entry c v z Hv Lz) as [E1 [E2 E3]]. fold T in E1, E2, E3.
    assert (KO := keep_ones c v z Cv Lz). fold T in KO.
    assert (AL : length (active c) = length (keep T)) by (rewrite <- E1, <- keep_ei; apply map_length).
    assert (EX : forall z', length z' = length (active c) -> exists w U, U = combine c (combine v w) /\ length w = length c /\ map ez U = w
              /\ resT U = resT (keep U) /\ normT U = normT (keep U) /\ keep U = combine (active c) (combine (repeat 1 (length (active c))) z')).
    { intros z' Hz'. destruct (expand T z') as [U [A [B [C D]]]]; [lia|]. exists (map ez U), U.
      assert (LU : length U = length c) by (rewrite <- (map_length ei U), A, E1; reflexivity).
      assert (EU : U = combine c (combine v (map ez U))).
      { destruct (combine_entry c v (map ez U) Hv) as [F1 [F2 F3]]; [now rewrite map_length|]. apply entries_eq; congruence. }
      split; [exact EU|]. split; [now rewrite map_length|]. split; [reflexivity|]. split; [|split].
      - rewrite resT_split, (Rsum_zero (map _ (drop U))); [lra|]. intros a Ha. apply in_map_iff in Ha as [t [<- Ht]]. rewrite D by assumption. ring.
      - rewrite normT_split, (Rsum_zero (map _ (drop U))); [lra|]. intros a Ha. apply in_map_iff in Ha as [t [<- Ht]]. rewrite D by assumption. ring.
      - destruct (combine_entry (active c) (repeat 1 (length (active c))) z') as [F1 [F2 F3]]; [apply repeat_length|assumption|].
        apply entries_eq.
        + rewrite F1, keep_ei, A, E1. reflexivity.
        + rewrite F2, <- KO. apply keep_ev_eq; congruence.
        + congruence. }
    assert (KT : keep T = combine (active c) (combine (repeat 1 (length (active c))) (map ez (keep T)))).
    { destruct (combine_entry (active c) (repeat 1 (length (active c))) (map ez (keep T))) as [F1 [F2 F3]]; [apply repeat_length|rewrite map_length; lia|].
      apply entries_eq; [rewrite F1, keep_ei, E1; reflexivity|congruence|congruence]. }
    assert (NN : forall (f : entry -> R) l, (forall t, 0 <= f t) -> 0 <= Rsum (map f l)).
    { intros f l Hf. apply Rsum_nonneg. intros a Ha. apply in_map_iff in Ha as [t [<- _]]. apply Hf. }
    assert (RES : forall w, length w = length c -> sq_residual (Rridge (gram_of p0 k x c) r (Rdiag v)) (responses_of y c) w = resT (combine c (combine v w))).
    { intros w Hw. now apply residual_entries. }
    (* no weight outside the occupied places *)
    destruct (EX (map ez (keep T))) as [w0 [U0 [EU0 [Lw0 [Zw0 [R0 [N0 K0]]]]]]]; [rewrite map_length; lia|].
    rewrite <- KT in K0. destruct (Mz w0 Lw0) as [M1 M2]. rewrite !RES in M1, M2 by assumption. rewrite <- EU0 in M1, M2. fold T in M1, M2.
    assert (SP := resT_split T). assert (SN := normT_split T).
    assert (D1 := NN (fun t => (r * ev t * ez t) ^ 2) (drop T) (fun t => pow2_ge_0 _)).
    assert (D2 := NN (fun t => ez t * ez t) (drop T) (fun t => Rle_0_sqr (ez t))).
    rewrite R0, K0 in M1, M2. rewrite SP in M2. specialize (M2 ltac:(lra)).
    assert (NT : Rdot z z = normT T) by (rewrite <- norm_dot, E3; reflexivity).
    assert (NU : Rdot w0 w0 = normT (keep T)) by (rewrite <- Zw0, norm_dot, N0, K0; reflexivity).
    assert (DZ : Rsum (map (fun t => (r * ev t * ez t) ^ 2) (drop T)) = 0) by lra.
    assert (DN : Rsum (map (fun t => ez t * ez t) (drop T)) = 0) by lra.
    exists (map ez (keep T)). split.
    - assert (RA : length (responses_of y (active c)) = length (active c)) by apply map_length.
      split; [rewrite RA, map_length; lia|]. rewrite RA. intros z' Hz'.
      rewrite !residual_entries by (rewrite ?repeat_length, ?map_length; auto). rewrite <- KT.
      destruct (EX z' Hz') as [w [U [EU [Lw [Zw [RU [NU' KU]]]]]]]. rewrite <- KU.
      destruct (Mz w Lw) as [Q1 Q2]. rewrite !RES in Q1, Q2 by assumption. rewrite <- EU in Q1, Q2. fold T in Q1, Q2. split; [lra|].
      intros Q3. specialize (Q2 ltac:(lra)).
      rewrite norm_dot. rewrite <- Zw, norm_dot in Q2.
      assert (EZ : map ez (keep U) = z').
      { rewrite KU. destruct (combine_entry (active c) (repeat 1 (length (active c))) z') as [_ [_ F3]]; [apply repeat_length|assumption|exact F3]. }
      rewrite <- EZ, norm_dot. lra.
    - intros l. unfold prediction. rewrite <- E1 at 1. rewrite <- E3 at 1. rewrite (pred_keep (fun i => kz i l)) by (intros; now apply kz_neg_l).
      rewrite keep_ei, E1. reflexivity.
  Qed.
End Fit.

(** ** minimal-norm least-squares solutions are unique *)
Lemma sumsq_zero (l : list R) : Rsum (map2 (fun a b => a * b) l l) <= 0 -> forall a, In a l -> a = 0.
Proof.
  induction l as [|b l IH]; simpl; [intros _ ? []|]. intros H.
  assert (0 <= b * b) by apply Rle_0_sqr.
  assert (0 <= Rsum (map2 (fun a b => a * b) l l)). { clear. induction l; simpl; [lra|]. assert (0 <= a * a) by apply Rle_0_sqr. lra. }
  intros a [<-|Ha]; [|apply IH; [lra|assumption]]. assert (E : b * b = 0) by lra. apply Rmult_integral in E. tauto.
Qed.

Definition mid (z z' : list R) := map2 (fun a b => (a + b) / 2) z z'.
Definition dif (z z' : list R) := map2 (fun a b => a - b) z z'.
Lemma Rdot_mid row z z' : length z = length z' -> Rdot row (mid z z') = (Rdot row z + Rdot row z') / 2.
Proof.
  revert z z'. induction row as [|a row IH]; intros [|b z] [|c z']; simpl; intros; try discriminate; unfold Rdot in *; simpl; try lra.
  unfold mid in IH. rewrite IH by lia. lra.
Qed.
Lemma norm_mid z z' : length z = length z' -> Rdot (mid z z') (mid z z') = (Rdot z z + Rdot z' z') / 2 - Rdot (dif z z') (dif z z') / 4.
Proof.
  revert z'. induction z as [|b z IH]; intros [|c z']; simpl; intros; try discriminate; unfold Rdot, mid, dif in *; simpl; try lra.
  rewrite IH by lia. lra.
Qed.
Lemma residual_mid A b z z' : length z = length z' ->
  sq_residual A b (mid z z') <= (sq_residual A b z + sq_residual A b z') / 2.
Proof.
  intros L. unfold sq_residual, Rmv. revert b. induction A as [|row A IH]; intros [|t b]; simpl; try lra.
  rewrite Rdot_mid by assumption. specialize (IH b). set (p := Rdot row z) in *. set (q := Rdot row z') in *.
  assert (((p + q) / 2 - t) ^ 2 <= ((p - t) ^ 2 + (q - t) ^ 2) / 2) by (pose proof (pow2_ge_0 (p - q)); simpl in *; lra).
  simpl in *. lra.
Qed.
Lemma min_norm_unique A b z z' : is_min_norm A b z -> is_min_norm A b z' -> z = z'.
Proof.
  intros [L1 M1] [L2 M2]. assert (L : length z = length z') by lia.
  assert (Lm : length (mid z z') = length b) by (unfold mid; rewrite map2_length; lia).
  destruct (M1 z' L2) as [A1 A2], (M2 z L1) as [B1 B2]. specialize (A2 B1). specialize (B2 A1).
  destruct (M1 (mid z z') Lm) as [C1 C2]. pose proof (residual_mid A b z z' L). specialize (C2 ltac:(lra)).
  rewrite norm_mid in C2 by assumption.
  assert (D : Rdot (dif z z') (dif z z') <= 0) by lra. pose proof (sumsq_zero _ D) as Z.
  clear -Z L. revert z' L Z. induction z as [|a z IH]; intros [|c z'] L Z; try discriminate; auto.
  unfold dif in *. simpl in Z. f_equal; [|apply IH; [simpl in L; lia|intros; apply Z; now right]].
  assert (a - c = 0) by (apply Z; now left). lra.
Qed.

(** a convenient way to recognise minimal-norm solutions of symmetric systems *)
