(** * Expected discrepancy of kernel halving *)
From Coq Require Import List ZArith Reals Lra Lia Bool.
From Verif Require Import Num Jax RSum MeanSpec GreedySpec MetricSpec MetricProofs KTSpec RateProofs RateProofs2 HalvingSpec.
From Coquelicot Require Import Coquelicot.
Import ListNotations.
Open Scope R_scope.

Lemma expect_unique n : forall F v v', expect n F v -> expect n F v' -> v = v'.
Proof.
  induction n as [|n IH]; intros F v v' H H'; cbn in *; [congruence|].
  destruct H as (g & G1 & G2). destruct H' as (g' & G1' & G2').
  assert (E : is_RInt g' 0 1 v).
  { apply (is_RInt_ext g); [|exact G2]. rewrite Rmin_left, Rmax_right by lra. intros u Hu.
    apply (IH _ _ _ (G1 u ltac:(lra)) (G1' u ltac:(lra))). }
  rewrite <- (is_RInt_unique _ _ _ _ E). now apply is_RInt_unique.
Qed.
Lemma expect_ext n : forall F G v, (forall us, length us = n -> (forall u, In u us -> 0 <= u <= 1) -> F us = G us) -> expect n F v -> expect n G v.
Proof.
  induction n as [|n IH]; intros F G v H E; cbn in *; [rewrite E; apply H; [reflexivity|contradiction]|].
  destruct E as (g & G1 & G2). exists g. split; [|exact G2]. intros u Hu. apply (IH (fun us => F (u :: us))); [|now apply G1].
  intros us HL Hus. apply H; [cbn; lia|]. intros w [<-|Hw]; auto.
Qed.
Lemma expect_scal n : forall F v c, expect n F v -> expect n (fun us => c * F us) (c * v).
Proof.
  induction n as [|n IH]; intros F v c E; cbn in *; [now rewrite E|].
  destruct E as (g & G1 & G2). exists (fun u => c * g u). split; [intros u Hu; apply IH; now apply G1|].
  exact (is_RInt_scal g 0 1 c v G2).
Qed.

Definition clip01 (p : R) : R := Rmax 0 (Rmin 1 p).
Lemma clip01_range p : 0 <= clip01 p <= 1.
Proof. unfold clip01, Rmax, Rmin. repeat destruct (Rle_dec _ _); lra. Qed.
Lemma step_integral p A B : is_RInt (fun u => if Rle_dec u p then A else B) 0 1 (clip01 p * A + (1 - clip01 p) * B).
Proof.
  pose proof (clip01_range p) as [C0 C1]. set (c := clip01 p) in *.
  assert (I1 : is_RInt (fun u => if Rle_dec u p then A else B) 0 c (c * A)).
  { apply (is_RInt_ext (fun _ => A)).
    - rewrite Rmin_left, Rmax_right by lra. intros u Hu. destruct (Rle_dec u p) as [|N]; [reflexivity|]. exfalso.
      revert Hu. unfold c, clip01, Rmax, Rmin. repeat destruct (Rle_dec _ _); lra.
    - replace (c * A) with (scal (c - 0) A) by (unfold scal; cbn; unfold mult; cbn; ring). apply (is_RInt_const (V := R_NormedModule) 0 c A). }
  assert (I2 : is_RInt (fun u => if Rle_dec u p then A else B) c 1 ((1 - c) * B)).
  { apply (is_RInt_ext (fun _ => B)).
    - rewrite Rmin_left, Rmax_right by lra. intros u Hu. destruct (Rle_dec u p) as [N|]; [|reflexivity]. exfalso.
      revert Hu. unfold c, clip01, Rmax, Rmin. repeat destruct (Rle_dec _ _); lra.
    - apply (is_RInt_const (V := R_NormedModule) c 1 B). }
  exact (is_RInt_Chasles _ 0 c 1 _ _ I1 I2).
Qed.

Lemma firstn_snoc' (t : nat) (l : list bool) : (t < length l)%nat -> firstn (S t) l = firstn t l ++ [nth t l false].
Proof.
  revert t. induction l as [|a l IH]; intros t Ht; [cbn in Ht; lia|]. destruct t as [|t]; [reflexivity|].
  cbn [firstn nth app]. f_equal. apply IH. cbn in Ht. lia.
Qed.

(** ** a sequence of decisions, each with a probability depending on the earlier ones *)
Section Decide.
  Context (prob : list bool -> R) (G : list bool -> R).
  Definition rle (u p : R) : bool := if Rle_dec u p then true else false.
  Fixpoint walk (us : list R) (hist : list bool) : list bool :=
    match us with [] => hist | u :: us => walk us (hist ++ [rle u (prob hist)]) end.
  Fixpoint value (n : nat) (hist : list bool) : R :=
    match n with
    | 0%nat => G hist
    | S n => clip01 (prob hist) * value n (hist ++ [true]) + (1 - clip01 (prob hist)) * value n (hist ++ [false])
    end.
  Lemma expect_walk n : forall hist, expect n (fun us => G (walk us hist)) (value n hist).
  Proof.
    induction n as [|n IH]; intro hist; cbn; [reflexivity|].
    exists (fun u => if Rle_dec u (prob hist) then value n (hist ++ [true]) else value n (hist ++ [false])).
    split; [|apply step_integral]. intros u _. unfold rle. destruct (Rle_dec u (prob hist)); apply IH.
  Qed.
  Lemma walk_length us : forall hist, length (walk us hist) = (length hist + length us)%nat.
  Proof. induction us as [|u us IH]; intro hist; cbn; [lia|]. rewrite IH, app_length. cbn. lia. Qed.
  Lemma walk_prefix us : forall hist, firstn (length hist) (walk us hist) = hist.
  Proof.
    induction us as [|u us IH]; intro hist; cbn; [apply firstn_all|].
    specialize (IH (hist ++ [rle u (prob hist)])). rewrite app_length in IH. cbn [length] in IH.
    rewrite Nat.add_1_r in IH. apply (f_equal (firstn (length hist))) in IH. rewrite firstn_firstn, Nat.min_l in IH by lia.
    rewrite IH, firstn_app, Nat.sub_diag, firstn_all. cbn. apply app_nil_r.
  Qed.
  (** the decisions are the only sequence with these comparisons *)
  Lemma walk_spec us : forall hist ds, length ds = (length hist + length us)%nat -> firstn (length hist) ds = hist ->
    (forall i, (i < length us)%nat -> nth (length hist + i) ds false = rle (nth i us 0) (prob (firstn (length hist + i) ds))) ->
    ds = walk us hist.
  Proof.
    induction us as [|u us IH]; intros hist ds HL HP HD; cbn [walk length] in *.
    - rewrite <- HP. rewrite firstn_all2 by lia. reflexivity.
    - assert (E : firstn (length (hist ++ [rle u (prob hist)])) ds = hist ++ [rle u (prob hist)]).
      { rewrite app_length. cbn [length]. rewrite Nat.add_1_r, firstn_snoc' by lia. rewrite HP. f_equal.
        specialize (HD 0%nat ltac:(lia)). rewrite Nat.add_0_r in HD. rewrite HD, HP. reflexivity. }
      apply IH; [rewrite app_length; cbn; lia|exact E|].
      intros i Hi. rewrite app_length. cbn [length]. specialize (HD (S i) ltac:(lia)).
      replace (length hist + 1 + i)%nat with (length hist + S i)%nat by lia. exact HD.
  Qed.
End Decide.

(** ** the self-balancing walk *)
Section Balance.
  Context {P : Type} (k : P -> P -> R) (Hk : psd k) (x : nat -> P) (a : nat -> R).
  Definition pickp (hist : list bool) (i : nat) : nat := pair_first (nth i hist false) i.
  Definition chosen (hist : list bool) : list nat := map (pickp hist) (seq 0 (length hist)).
  Definition psi (hist : list bool) : list (P * R) :=
    map (fun i => (x i, 1)) (seq 0 (2 * length hist)) ++ map (fun i => (x i, -2)) (chosen hist).
  Definition pairf (i : nat) : list (P * R) := [(x (2 * i)%nat, 1); (x (2 * i + 1)%nat, -1)].
  Definition alpha (hist : list bool) : R := bil k (psi hist) (pairf (length hist)).
  Definition prob (hist : list bool) : R := 1 / 2 * (1 - alpha hist / a (length hist)).
  Lemma chosen_snoc hist d : chosen (hist ++ [d]) = chosen hist ++ [pair_first d (length hist)].
  Proof.
    unfold chosen. rewrite app_length. cbn [length]. rewrite Nat.add_1_r, seq_S, map_app. cbn [map Nat.add]. f_equal.
    - apply map_ext_in. intros i Hi. apply in_seq in Hi. unfold pickp. now rewrite app_nth1 by lia.
    - unfold pickp. rewrite app_nth2, Nat.sub_diag by lia. reflexivity.
  Qed.
  Lemma psi_snoc hist d ms : bil k (psi (hist ++ [d])) ms
    = bil k (psi hist) ms + (if d then 1 else -1) * bil k (pairf (length hist)) ms.
  Proof.
    unfold psi. rewrite chosen_snoc, app_length. cbn [length]. set (t := length hist).
    replace (2 * (t + 1))%nat with (2 * t + 2)%nat by lia. rewrite seq_app, !map_app. cbn [seq map Nat.add].
    rewrite !bil_app_l. unfold pairf. unfold pair_first.
    assert (C : forall c q ms, bil k [(q, c)] ms = c * bil k [(q, 1)] ms) by (intros; unfold bil; cbn; ring).
    assert (D : forall c c' q q' ms, bil k [(q, c); (q', c')] ms = c * bil k [(q, 1)] ms + c' * bil k [(q', 1)] ms)
      by (intros; unfold bil; cbn; ring).
    rewrite !D, (C (-2)). replace (S (2 * t)) with (2 * t + 1)%nat by lia. destruct d; ring.
  Qed.
  Lemma psi_norm hist d : bil k (psi (hist ++ [d])) (psi (hist ++ [d]))
    = bil k (psi hist) (psi hist) + 2 * (if d then 1 else -1) * alpha hist + bil k (pairf (length hist)) (pairf (length hist)).
  Proof.
    rewrite psi_snoc, (bil_sym k (psi hist)), (bil_sym k (pairf _)), !psi_snoc by apply Hk.
    unfold alpha. rewrite (bil_sym k (pairf _) (psi hist)) by apply Hk. destruct d; ring.
  Qed.
  Notation G := (fun hist => bil k (psi hist) (psi hist)).
  Notation b2 i := (bil k (pairf i) (pairf i)).
  Lemma value_bound N (Ha : forall i, (i < N)%nat -> 0 < a i) n : forall hist, (length hist + n <= N)%nat ->
    value prob G n hist <= G hist + Rsum (map (fun i => b2 i) (seq (length hist) n)).
  Proof.
    induction n as [|n IH]; intros hist HN; cbn [value seq map Rsum]; [lra|].
    pose proof (IH (hist ++ [true]) ltac:(rewrite app_length; cbn; lia)) as I1.
    pose proof (IH (hist ++ [false]) ltac:(rewrite app_length; cbn; lia)) as I2.
    rewrite app_length in I1, I2. cbn [length] in I1, I2. rewrite Nat.add_1_r in I1, I2. cbv beta in I1, I2. rewrite psi_norm in I1, I2.
    set (s := Rsum _) in *. pose proof (clip01_range (prob hist)) as [C0 C1].
    assert (D : (2 * clip01 (prob hist) - 1) * alpha hist <= 0).
    { unfold prob. specialize (Ha (length hist) ltac:(lia)). set (aa := a (length hist)) in *. set (al := alpha hist).
      assert (Q : al / aa * aa = al) by (field; lra). set (q := al / aa) in *.
      destruct (Rle_dec 0 q) as [Hq|Hq].
      - assert (0 <= al) by nra. assert (clip01 (1 / 2 * (1 - q)) <= 1 / 2) by (unfold clip01, Rmax, Rmin; repeat destruct (Rle_dec _ _); lra). nra.
      - assert (al <= 0) by nra. assert (1 / 2 <= clip01 (1 / 2 * (1 - q))) by (unfold clip01, Rmax, Rmin; repeat destruct (Rle_dec _ _); lra). nra. }
    set (c := clip01 (prob hist)) in *.
    assert (J1 : c * value prob G n (hist ++ [true]) <= c * (bil k (psi hist) (psi hist) + 2 * alpha hist + b2 (length hist) + s)) by (apply Rmult_le_compat_l; lra).
    assert (J2 : (1 - c) * value prob G n (hist ++ [false]) <= (1 - c) * (bil k (psi hist) (psi hist) - 2 * alpha hist + b2 (length hist) + s)) by (apply Rmult_le_compat_l; lra).
    cbv beta. lra.
  Qed.
  (** the other half *)
  Lemma psi_negb hist ms : bil k (psi (map negb hist)) ms = - bil k (psi hist) ms.
  Proof.
    induction hist as [|d hist IH] using rev_ind; [unfold bil; cbn; ring|].
    rewrite map_app. cbn [map]. rewrite !psi_snoc, IH, map_length. destruct d; cbn [negb]; ring.
  Qed.
  Lemma psi_negb_norm hist : bil k (psi (map negb hist)) (psi (map negb hist)) = bil k (psi hist) (psi hist).
  Proof. rewrite psi_negb, (bil_sym k), psi_negb by apply Hk. ring. Qed.
  Lemma alpha_imbalance hist :
    alpha hist = imbalance k (map x (seq 0 (2 * length hist))) (map x (chosen hist)) (x (2 * length hist)%nat) (x (2 * length hist + 1)%nat).
  Proof.
    unfold alpha, psi, imbalance, pairf. rewrite bil_app_l. set (y := x (2 * _)%nat). set (z := x _).
    assert (C : forall c l, bil k (map (fun i => (x i, c)) l) [(y, 1); (z, -1)] = c * Rsum (map (fun s => k s y - k s z) (map x l))).
    { intros c l. unfold bil. induction l as [|i l IH]; cbn [map Rsum fst snd] in *; [ring|]. rewrite IH. cbn [map Rsum fst snd]. ring. }
    rewrite !C. ring.
  Qed.
  (** fair coins *)
  Lemma value_fair n : forall hist,
    value (fun _ => 1 / 2) G n hist = G hist + Rsum (map (fun i => b2 i) (seq (length hist) n)).
  Proof.
    induction n as [|n IH]; intro hist; cbn [value seq map Rsum]; [lra|].
    rewrite !IH, !app_length. cbn [length]. rewrite Nat.add_1_r. cbv beta. rewrite !psi_norm.
    replace (clip01 (1 / 2)) with (1 / 2) by (unfold clip01, Rmax, Rmin; repeat destruct (Rle_dec _ _); lra). lra.
  Qed.
End Balance.

Lemma nm_repeat {P} (ys : list P) w : w <> 0 -> ys <> [] ->
  nm ys (repeat w (length ys)) = map (fun y => (y, / INR (length ys))) ys.
Proof.
  intros Hw Hy. unfold nm. rewrite Rsum_repeat. assert (HN : INR (length ys) <> 0) by (apply not_0_INR; destruct ys; [congruence|discriminate]).
  revert HN. generalize (INR (length ys)). intros N HN. clear Hy. induction ys as [|y ys IH]; [reflexivity|].
  cbn [length repeat combine map fst snd]. rewrite IH. f_equal. f_equal. field. now split.
Qed.
Lemma mmd2_psi {P} (k : P -> P -> R) (Hk : psd k) p0 xs w hist : w <> 0 -> length xs = (2 * length hist)%nat -> hist <> [] ->
  let x i := nth i xs p0 in
  mmd2 k xs (repeat w (length xs)) (map x (chosen hist)) (repeat 1 (length hist))
  = / (4 * INR (length hist) ^ 2) * bil k (psi x hist) (psi x hist).
Proof.
  intros Hw HL Hh x. assert (HN : 0 < INR (length hist)) by (apply lt_0_INR; destruct hist; [congruence|cbn; lia]).
  rewrite mmd2_bil by apply Hk.
  assert (Hx : xs <> []) by (destruct xs; [destruct hist; [congruence|discriminate]|discriminate]).
  rewrite (nm_repeat xs) by assumption.
  assert (LC : length (map x (chosen hist)) = length hist) by (unfold chosen; now rewrite !map_length, seq_length).
  rewrite <- LC at 1 2. rewrite nm_repeat, LC; [|lra|intro E; rewrite E in LC; destruct hist; [congruence|discriminate]].
  set (v := _ ++ _).
  assert (E : forall ms, bil k v ms = / (2 * INR (length hist)) * bil k (psi x hist) ms).
  { intro ms. unfold v, psi. rewrite !bil_app_l.
    assert (C : forall c (l : list P), bil k (map (fun y => (y, c)) l) ms = c * bil k (map (fun y => (y, 1)) l) ms).
    { intros c l. induction l as [|y l IH]; [unfold bil; cbn; ring|]. unfold bil in *. cbn [map Rsum fst snd]. rewrite IH. ring. }
    rewrite bil_scal_l, C, HL, mult_INR. cbn [INR].
    rewrite (C (/ INR (length hist))).
    rewrite <- (map_map x (fun y => (y, 1)) (seq 0 _)), <- (map_map x (fun y => (y, -2)) (chosen hist)).
    rewrite (C (-2)). replace (map x (seq 0 (2 * length hist))) with xs; [field; lra|].
    rewrite <- HL. unfold x. symmetry. apply GreedyProofs2.map_nth_seq. }
  rewrite E, (bil_sym k), E by apply Hk. field. lra.
Qed.
