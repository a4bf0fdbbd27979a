(** * Proofs for C77 *)
From Coq Require Import List Reals Permutation Lra Lia Arith Bool ClassicalDedekindReals Classical_Prop.
From Verif Require Import Num RSum JaxFacts MeanSpec GreedySpec MetricSpec RepSpec.
Import ListNotations.
Open Scope R_scope.

Section Rep.
  Context {P : Type} (p0 : P).
  Definition same (a b : P) : bool := if sig_not_dec (a = b) then true else false.
  Lemma same_true a b : same a b = true <-> a = b.
  Proof.
    unfold same. destruct (sig_not_dec (a = b)) as [H|H]; split; intro E; auto; try discriminate; try contradiction; now apply NNPP.
  Qed.
  Definition ispos (a : R) : bool := if Rlt_dec 0 a then true else false.
  Lemma ispos_true a : ispos a = true <-> 0 < a.
  Proof. unfold ispos. destruct (Rlt_dec 0 a); split; intro; auto; try discriminate; contradiction. Qed.
  Notation pos p := (if Rlt_dec 0 (snd p) then true else false).

  (** *** rows of positive weight with a given point *)
  Definition ncopies (xs : list P) (w : list R) (a : P) : nat := length (filter (fun p => same (fst p) a) (positive_rows xs w)).
  Definition copy_idx (xs : list P) (w : list R) (a : P) : list nat :=
    filter (fun j => ispos (nth j w 0) && same (nth j xs p0) a) (seq 0 (length xs)).
  Lemma filter_map {A B} (f : B -> bool) (g : A -> B) l : filter f (map g l) = map g (filter (fun a => f (g a)) l).
  Proof. induction l as [|a l IH]; cbn; [reflexivity|]. rewrite IH. now destruct (f (g a)). Qed.
  Lemma filter_filter {A} (f g : A -> bool) l : filter f (filter g l) = filter (fun a => g a && f a) l.
  Proof. induction l as [|a l IH]; cbn; [reflexivity|]. destruct (g a); cbn; rewrite IH; reflexivity. Qed.
  Lemma combine_seq (xs : list P) w : length w = length xs -> combine xs w = map (fun j => (nth j xs p0, nth j w 0)) (seq 0 (length xs)).
  Proof.
    revert w. induction xs as [|a xs IH]; intros [|v w] L; try discriminate; [reflexivity|]. cbn [combine length seq map nth]. f_equal.
    rewrite IH by (cbn in L; lia). rewrite <- seq_shift, map_map. reflexivity.
  Qed.
  Lemma copies_length xs w a : length w = length xs -> length (copy_idx xs w a) = ncopies xs w a.
  Proof.
    intro L. unfold ncopies, positive_rows, copy_idx. rewrite (combine_seq xs w L), filter_filter, filter_map, map_length. reflexivity.
  Qed.
  Lemma copies_same (xs : list P) w (ys : list P) v a : same_rows xs w ys v -> ncopies xs w a = ncopies ys v a.
  Proof.
    intros (c & Hc & HP). unfold ncopies. 
    assert (Q : forall l l' : list (P * R), Permutation l l' -> length (filter (fun p => same (fst p) a) l) = length (filter (fun p => same (fst p) a) l')).
    { induction 1 as [|p l l' H IH|p q l|l l' l'' H1 IH1 H2 IH2]; cbn; auto; [destruct (same (fst p) a); cbn; lia|destruct (same (fst p) a), (same (fst q) a); cbn; lia|lia]. }
    rewrite (Q _ _ HP), filter_map, map_length. f_equal.
  Qed.
  Lemma in_copies xs w a j : In j (copy_idx xs w a) <-> (j < length xs)%nat /\ 0 < nth j w 0 /\ nth j xs p0 = a.
  Proof.
    unfold copy_idx. rewrite filter_In, in_seq, andb_true_iff, ispos_true, same_true. intuition lia.
  Qed.
  (** a row with the point [a] is left iff fewer than all copies were chosen *)
  Lemma left_over xs w L a : length w = length xs -> NoDup L -> (forall i, In i L -> (i < length xs)%nat /\ 0 < nth i w 0) ->
    (exists j, candidate w true L j /\ nth j xs p0 = a) <-> (length (filter (fun q => same q a) (points_at p0 xs L)) < ncopies xs w a)%nat.
  Proof.
    intros Lw ND HL. rewrite <- (copies_length xs w a Lw). unfold points_at. rewrite filter_map, map_length.
    set (La := filter (fun i => same (nth i xs p0) a) L).
    assert (NL : NoDup La) by now apply NoDup_filter.
    assert (IL : forall i, In i La <-> In i L /\ nth i xs p0 = a) by (intro i; unfold La; now rewrite filter_In, same_true).
    split.
    - intros (j & (Hj & Hw & HU) & Ha).
      assert (N : NoDup (j :: La)) by (constructor; [rewrite IL; intros [I _]; now apply HU|exact NL]).
      pose proof (NoDup_incl_length N (l' := copy_idx xs w a)) as Q. cbn in Q. apply Q. intros i [<-|I]; apply in_copies.
      + split; [lia|auto].
      + apply IL in I as [I E]. destruct (HL i I). auto.
    - intro Hlt. destruct (classic (exists j, In j (copy_idx xs w a) /\ ~ In j La)) as [(j & I & NI)|N].
      + apply in_copies in I as (A & B & C). exists j. split; [|exact C]. split; [lia|]. split; [exact B|]. intros _ I. apply NI. apply IL. auto.
      + exfalso. assert (incl (copy_idx xs w a) La).
        { intros j I. destruct (classic (In j La)); [assumption|]. exfalso. apply N. now exists j. }
        pose proof (NoDup_incl_length (NoDup_filter _ (seq_NoDup (length xs) 0)) H). unfold copy_idx in Hlt. lia.
  Qed.

  (** *** the support of a distribution *)
  Lemma wsum_nonneg (f : P -> R) xs w : (forall a, In a w -> 0 <= a) -> (forall p, 0 <= f p) -> 0 <= wsum f xs w.
  Proof.
    intros Hw Hf. unfold wsum. revert w Hw. induction xs as [|a xs IH]; intros [|v w] Hw; cbn; try lra.
    assert (0 <= v * f a) by (apply Rmult_le_pos; auto; apply Hw; now left). specialize (IH w (fun b Hb => Hw b (or_intror Hb))). lra.
  Qed.
  Lemma wsum_support f xs w : (forall a, In a w -> 0 <= a) -> (forall p, 0 <= f p) -> length w = length xs ->
    (0 < wsum f xs w <-> exists j, (j < length w)%nat /\ 0 < nth j w 0 /\ 0 < f (nth j xs p0)).
  Proof.
    intros Hw Hf. revert w Hw. induction xs as [|a xs IH]; intros [|v w] Hw L; try discriminate.
    - unfold wsum. cbn. split; [lra|]. intros (j & Hj & _). lia.
    - assert (Hv : 0 <= v) by (apply Hw; now left). assert (HW : forall b, In b w -> 0 <= b) by (intros; apply Hw; now right).
      pose proof (wsum_nonneg f xs w HW Hf) as N. specialize (IH w HW ltac:(cbn in L; lia)).
      change (wsum f (a :: xs) (v :: w)) with (v * f a + wsum f xs w). pose proof (Hf a) as Fa. split.
      + intro H. destruct (Rlt_dec 0 (wsum f xs w)) as [Q|Q].
        * apply IH in Q as (j & A & B & C). exists (S j). cbn. split; [lia|auto].
        * exists 0%nat. cbn. split; [lia|]. assert (0 < v * f a) by lra. split.
          -- destruct (Req_dec v 0); [subst; lra|lra].
          -- destruct (Req_dec (f a) 0) as [E|]; [rewrite E in *; lra|lra].
      + intros ([|j] & A & B & C); cbn in *.
        * assert (0 < v * f a) by now apply Rmult_lt_0_compat. lra.
        * assert (0 < wsum f xs w) by (apply IH; exists j; split; [lia|auto]). assert (0 <= v * f a) by now apply Rmult_le_pos. lra.
  Qed.
  Lemma Rsum_pos w : (forall a, In a w -> 0 <= a) -> (1 <= npos w)%nat -> 0 < Rsum w.
  Proof.
    unfold npos. induction w as [|a w IH]; intros H1 H2; [cbn in H2; lia|]. cbn [filter] in H2. change (Rsum (a :: w)) with (a + Rsum w).
    assert (0 <= Rsum w). { clear -H1. assert (forall b, In b w -> 0 <= b) by (intros; apply H1; now right). clear H1. induction w as [|b w IH]; cbn; [lra|].
      assert (0 <= b) by (apply H; now left). assert (0 <= Rsum w) by (apply IH; intros; apply H; now right). unfold Rsum in *. lra. }
    destruct (Rlt_dec 0 a); [lra|]. assert (0 <= a) by (apply H1; now left). assert (0 < Rsum w) by (apply IH; auto; intros; apply H1; now right). lra.
  Qed.
  Lemma support_dist (xs : list P) w (ys : list P) v a : weighted xs w -> weighted ys v -> same_dist xs w ys v ->
    (exists j, candidate w false [] j /\ nth j xs p0 = a) -> exists j, candidate v false [] j /\ nth j ys p0 = a.
  Proof.
    intros (L1 & W1 & N1) (L2 & W2 & N2) D (j & (A & B & _) & C). set (f := fun p => if same p a then 1 else 0).
    assert (Hf : forall p, 0 <= f p) by (intro p; unfold f; destruct (same p a); lra).
    assert (Q : 0 < wsum f xs w).
    { apply wsum_support; auto. exists j. split; [exact A|]. split; [exact B|]. unfold f. rewrite (proj2 (same_true _ _) C). lra. }
    pose proof (D f) as E. unfold wavg in E. pose proof (Rsum_pos w W1 N1). pose proof (Rsum_pos v W2 N2).
    assert (Q2 : 0 < wsum f ys v).
    { assert (0 < wsum f ys v / Rsum v) by (rewrite <- E; now apply Rdiv_lt_0_compat).
      replace (wsum f ys v) with (wsum f ys v / Rsum v * Rsum v) by (field; lra). now apply Rmult_lt_0_compat. }
    apply wsum_support in Q2; auto. destruct Q2 as (i & I1 & I2 & I3). exists i. split; [split; [exact I1|split; [exact I2|discriminate]]|].
    unfold f in I3. destruct (same (nth i ys p0) a) eqn:S; [now apply same_true|lra].
  Qed.
  (** *** the same rows have the same distribution *)
  Lemma wsum_rows (f : P -> R) xs w : (forall a, In a w -> 0 <= a) -> wsum f xs w = Rsum (map (fun p => snd p * f (fst p)) (positive_rows xs w)).
  Proof.
    unfold wsum, positive_rows. revert w. induction xs as [|a xs IH]; intros [|v w] Hw; try reflexivity. cbn [combine map filter snd fst].
    specialize (IH w (fun b Hb => Hw b (or_intror Hb))). assert (0 <= v) by (apply Hw; now left).
    destruct (Rlt_dec 0 v); cbn [map snd fst]; change (Rsum (?u :: ?t)) with (u + Rsum t); rewrite IH; [reflexivity|].
    replace v with 0 by lra. lra.
  Qed.
  Lemma Rsum_permut l l' : Permutation l l' -> Rsum l = Rsum l'.
  Proof. induction 1; cbn in *; unfold Rsum in *; cbn in *; lra. Qed.
  Lemma Rsum_scale c l : Rsum (map (Rmult c) l) = c * Rsum l.
  Proof. induction l as [|a l IH]; cbn; [lra|]. unfold Rsum in *. rewrite IH. lra. Qed.
  Lemma rows_dist (xs : list P) w (ys : list P) v : weighted xs w -> weighted ys v -> same_rows xs w ys v -> same_dist xs w ys v.
  Proof.
    intros (L1 & W1 & N1) (L2 & W2 & N2) (c & Hc & HP) f.
    assert (Q : forall f, wsum f ys v = c * wsum f xs w).
    { intro h. rewrite (wsum_rows h xs w W1), (wsum_rows h ys v W2).
      rewrite (Rsum_permut _ _ (Permutation_map (fun p => snd p * h (fst p)) HP)), map_map. cbn [fst snd].
      rewrite <- Rsum_scale, map_map. f_equal. apply map_ext. intro. ring. }
    assert (One : forall (zs : list P) u, length u = length zs -> wsum (fun _ => 1) zs u = Rsum u).
    { unfold wsum. induction zs as [|z zs IH]; intros [|b u] E; try discriminate; [reflexivity|]. cbn. rewrite <- (IH u) by (cbn in E; lia). unfold Rsum. lra. }
    pose proof (Q (fun _ => 1)) as Q1. rewrite (One xs w L1), (One ys v L2) in Q1.
    unfold wavg. rewrite Q, Q1. pose proof (Rsum_pos w W1 N1). field. split; lra.
  Qed.

  (** *** two greedy runs *)
  Lemma available (xs : list P) w (ys : list P) v unique L L' a : weighted xs w -> weighted ys v -> same_data unique xs w ys v ->
    points_at p0 xs L = points_at p0 ys L' ->
    (unique = true -> NoDup L /\ NoDup L' /\ (forall i, In i L -> (i < length xs)%nat /\ 0 < nth i w 0) /\ (forall i, In i L' -> (i < length ys)%nat /\ 0 < nth i v 0)) ->
    (exists j, candidate w unique L j /\ nth j xs p0 = a) -> exists j, candidate v unique L' j /\ nth j ys p0 = a.
  Proof.
    intros W1 W2 D EP HU HJ. destruct unique.
    - destruct (HU eq_refl) as (N1 & N2 & I1 & I2). apply (left_over ys v L' a); auto; [apply W2|].
      apply (left_over xs w L a) in HJ; auto; [|apply W1]. cbn [same_data] in D. rewrite <- (copies_same _ _ _ _ a D), <- EP. exact HJ.
    - cbn [same_data] in D. destruct (support_dist xs w ys v a W1 W2 D) as (j & C & E).
      + destruct HJ as (j & (A & B & _) & E). exists j. split; [split; [exact A|split; [exact B|discriminate]]|exact E].
      + exists j. destruct C as (A & B & _). split; [split; [exact A|split; [exact B|discriminate]]|exact E].
  Qed.
  Lemma same_data_sym unique (xs : list P) w (ys : list P) v : same_data unique xs w ys v -> same_data unique ys v xs w.
  Proof.
    destruct unique; cbn [same_data].
    - intros (c & Hc & HP). exists (/ c). split; [now apply Rinv_0_lt_compat|].
      apply (Permutation_map (fun p => (fst p, / c * snd p))) in HP. rewrite map_map in HP. cbn [fst snd] in HP.
      apply Permutation_sym. rewrite HP. erewrite map_ext; [rewrite map_id; reflexivity|]. intros [a u]. cbn. f_equal. field. lra.
    - intros D f. now rewrite D.
  Qed.
  Lemma greedy_nodup w unique score l : unique = true -> greedy_argmax (candidate w unique) score l ->
    forall t, (t <= length l)%nat -> NoDup (firstn t l) /\ forall i, In i (firstn t l) -> (i < length w)%nat /\ 0 < nth i w 0.
  Proof.
    intros -> G. induction t as [|t IH]; intro Ht; [split; [constructor|contradiction]|].
    destruct (IH ltac:(lia)) as [ND HI]. destruct (G t ltac:(lia)) as [(A & B & C) _].
    assert (E : firstn (S t) l = firstn t l ++ [nth t l 0%nat]).
    { clear -Ht. revert l Ht. induction t as [|t IH]; intros [|a l] Ht; cbn in Ht; try lia; [reflexivity|]. cbn [firstn nth app]. f_equal. apply IH. lia. }
    rewrite E. split.
    - apply NoDup_Add with (a := nth t l 0%nat) (l := firstn t l); [|split; [exact ND|now apply C]].
      rewrite <- (app_nil_r (firstn t l)) at 1. apply Add_app.
    - intros i I. apply in_app_iff in I as [I|[<-|[]]]; auto.
  Qed.
  Lemma greedy_same (value value' : list P -> P -> R) xs w ys v unique l l' :
    weighted xs w -> weighted ys v -> same_data unique xs w ys v -> (forall ch a, value ch a = value' ch a) ->
    greedy_argmax (candidate w unique) (fun ch j => value (points_at p0 xs ch) (nth j xs p0)) l ->
    greedy_argmax (candidate v unique) (fun ch j => value' (points_at p0 ys ch) (nth j ys p0)) l' ->
    length l = length l' -> no_ties p0 value xs w unique l -> points_at p0 xs l = points_at p0 ys l'.
  Proof.
    intros W1 W2 D EV G1 G2 EL NT.
    assert (Q : forall t, (t <= length l)%nat -> points_at p0 xs (firstn t l) = points_at p0 ys (firstn t l')).
    { induction t as [|t IH]; intro Ht; [reflexivity|]. specialize (IH ltac:(lia)).
      assert (E : forall l : list nat, (t < length l)%nat -> firstn (S t) l = firstn t l ++ [nth t l 0%nat]).
      { clear. induction t as [|t IH]; intros [|a l] Ht; cbn in Ht; try lia; [reflexivity|]. cbn [firstn nth app]. f_equal. apply IH. lia. }
      rewrite (E l), (E l') by lia. unfold points_at in *. rewrite !map_app. cbn [map]. f_equal; [exact IH|]. f_equal.
      destruct (G1 t ltac:(lia)) as [C1 M1]. destruct (G2 t ltac:(lia)) as [C2 M2].
      set (c1 := nth t l 0%nat) in *. set (c2 := nth t l' 0%nat) in *.
      assert (U : unique = true -> NoDup (firstn t l) /\ NoDup (firstn t l') /\
        (forall i, In i (firstn t l) -> (i < length xs)%nat /\ 0 < nth i w 0) /\ (forall i, In i (firstn t l') -> (i < length ys)%nat /\ 0 < nth i v 0)).
      { intro HU. destruct (greedy_nodup w unique _ l HU G1 t ltac:(lia)) as [A1 A2]. destruct (greedy_nodup v unique _ l' HU G2 t ltac:(lia)) as [B1 B2].
        destruct W1 as [LW1 _]. destruct W2 as [LW2 _]. rewrite <- LW1, <- LW2. auto. }
      destruct (available xs w ys v unique (firstn t l) (firstn t l') (nth c1 xs p0) W1 W2 D IH U) as (j2 & J2 & E2); [now exists c1|].
      destruct (available ys v xs w unique (firstn t l') (firstn t l) (nth c2 ys p0) W2 W1 (same_data_sym _ _ _ _ _ D) (eq_sym IH)) as (j1 & J1 & E1); [tauto|now exists c2|].
      destruct (M1 j1 J1) as [K1 _]. destruct (M2 j2 J2) as [K2 _]. cbn beta in K1, K2.
      symmetry. rewrite <- E1. apply (NT t j1); [lia|exact J1|]. rewrite E1, E2 in *. unfold points_at in *. fold c1. rewrite <- !EV, <- IH in K2. lra. }
    specialize (Q (length l) ltac:(lia)). rewrite EL in Q at 2. now rewrite !firstn_all in Q.
  Qed.
End Rep.
