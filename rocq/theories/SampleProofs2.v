(** * Proofs for C78: the discrepancy of a random sample *)
From Coq Require Import List Reals Permutation Lra Lia Arith.
From Verif Require Import Num RSum MeanSpec GreedySpec MetricSpec SampleSpec SampleProofs.
Import ListNotations.
Open Scope R_scope.

Lemma orderings_in m : forall L l, In l (orderings m L) -> length l = m /\ (forall i, In i l -> In i L) /\ NoDup l.
Proof.
  induction m as [|m IH]; intros L l H; cbn in H.
  - destruct H as [<-|[]]. split; [reflexivity|]. split; [contradiction|constructor].
  - apply in_flat_map in H as (i & Hi & H). apply in_map_iff in H as (l' & <- & H). destruct (IH _ _ H) as (A & B & C).
    split; [cbn; lia|]. split.
    + intros j [<-|Hj]; [exact Hi|]. apply B in Hj. apply in_remove in Hj. tauto.
    + constructor; [|exact C]. intro Q. apply B in Q. apply in_remove in Q. tauto.
Qed.
Lemma sequences_in m : forall L l, In l (sequences m L) -> length l = m /\ (forall i, In i l -> In i L).
Proof.
  induction m as [|m IH]; intros L l H; cbn in H.
  - destruct H as [<-|[]]. split; [reflexivity|]. contradiction.
  - apply in_flat_map in H as (i & Hi & H). apply in_map_iff in H as (l' & <- & H). destruct (IH _ _ H) as (A & B).
    split; [cbn; lia|]. intros j [<-|Hj]; auto.
Qed.

Section Mmd.
  Context {P : Type} (p0 : P) (k : P -> P -> R) (xs : list P) (dw : list R).
  Notation pts l := (map (fun j => nth j xs p0) l).
  Let n := length xs.
  Let kk (i j : nat) := k (nth i xs p0) (nth j xs p0).
  Let g (j : nat) := wavg (fun a => k a (nth j xs p0)) xs dw.
  Let A := wavg (fun a => wavg (fun b => k a b) xs dw) xs dw.
  Lemma wavg_ones {Q} (f : Q -> R) ys : wavg f ys (repeat 1 (length ys)) = Rsum (map f ys) / INR (length ys).
  Proof.
    unfold wavg. rewrite Rsum_repeat, Rmult_1_r. f_equal. unfold wsum. induction ys as [|y ys IH]; [reflexivity|].
    cbn [length repeat combine map fst snd]. change (Rsum (?u :: ?t)) with (u + Rsum t). rewrite IH. lra.
  Qed.
  Lemma wavg_fun (f f' : P -> R) : (forall a, f a = f' a) -> wavg f xs dw = wavg f' xs dw.
  Proof. intro H. unfold wavg, wsum. f_equal. apply Rsum_in. intros r _. now rewrite H. Qed.
  Lemma wavg_ssum (c : nat -> R) (f : P -> nat -> R) l : wavg (fun a => ssum (fun i => c i * f a i) l) xs dw = ssum (fun i => c i * wavg (fun a => f a i) xs dw) l.
  Proof.
    unfold wavg, wsum, ssum, Rdiv. rewrite (Rsum_in _ (fun r => Rsum (map (fun i => snd r * (c i * f (fst r) i)) l))) by (intros; now rewrite Rsum_map_scal).
    rewrite (Rsum_swap (fun r i => snd r * (c i * f (fst r) i))), <- Rsum_map_scal_r. apply Rsum_in. intros i _.
    rewrite <- Rmult_assoc. f_equal. rewrite <- Rsum_map_scal. apply Rsum_in. intros r _. ring.
  Qed.
  Lemma wavg_swap (l : list nat) c : wavg (fun a => Rsum (map (fun b => k a b) (pts l)) / c) xs dw = ssum g l / c.
  Proof.
    unfold g, ssum, wavg, wsum. unfold Rdiv at 1 2. rewrite (Rsum_in _ (fun p => / c * Rsum (map (fun j => snd p * k (fst p) (nth j xs p0)) l))).
    - rewrite Rsum_map_scal. rewrite (Rsum_swap (fun p j => snd p * k (fst p) (nth j xs p0))).
      unfold Rdiv. rewrite Rsum_map_scal_r. ring.
    - intros p _. rewrite map_map, Rsum_map_scal. unfold Rdiv. ring.
  Qed.
  Lemma mmd2_sample m l : length l = m -> mmd2 k xs dw (pts l) (repeat 1 m) = A + psum kk l / (INR m * INR m) - 2 * (ssum g l / INR m).
  Proof.
    intro L. unfold mmd2. fold A. assert (E : length (pts l) = m) by now rewrite map_length. rewrite <- E. 
    assert (W : forall a, wavg (fun b => k a b) (pts l) (repeat 1 (length (pts l))) = Rsum (map (fun b => k a b) (pts l)) / INR (length (pts l))) by (intro; apply wavg_ones).
    f_equal; [f_equal|f_equal].
    - rewrite wavg_ones. rewrite (Rsum_in _ (fun a => Rsum (map (fun b => k a b) (pts l)) / INR (length (pts l)))) by (intros; apply W).
      rewrite map_map. unfold Rdiv. rewrite Rsum_map_scal_r. unfold psum, ssum, kk. rewrite Rinv_mult. 
      rewrite (Rsum_in (fun x => Rsum (map (fun b => k (nth x xs p0) b) (pts l))) (fun i => Rsum (map (fun j => k (nth i xs p0) (nth j xs p0)) l))) by (intros; now rewrite map_map). ring.
    - rewrite <- wavg_swap. unfold wavg. f_equal. unfold wsum. apply Rsum_in. intros a _. f_equal. apply W.
  Qed.
  Lemma pts_seq : pts (seq 0 n) = xs.
  Proof.
    unfold n. clear. induction xs as [|a l IH]; [reflexivity|]. cbn [length seq map nth]. f_equal. rewrite <- seq_shift, map_map. exact IH.
  Qed.
  Lemma ssum_seq (f : P -> R) : ssum (fun i => f (nth i xs p0)) (seq 0 n) = Rsum (map f xs).
  Proof. unfold ssum. rewrite <- (map_map (fun i => nth i xs p0) f). now rewrite pts_seq. Qed.
  Lemma psum_seq : psum kk (seq 0 n) = Rsum (map (fun a => Rsum (map (k a) xs)) xs).
  Proof.
    unfold psum, kk. rewrite <- (ssum_seq (fun a => Rsum (map (k a) xs))). unfold ssum at 1 3. apply Rsum_in. intros i _. apply ssum_seq.
  Qed.
  Lemma average_k : average (fun a => average (k a) xs) xs = psum kk (seq 0 n) / (INR n * INR n).
  Proof. rewrite psum_seq. unfold average. fold n. unfold Rdiv. rewrite Rsum_map_scal_r, Rinv_mult. ring. Qed.
  Lemma average_d : average (fun a => k a a) xs = ssum (fun i => kk i i) (seq 0 n) / INR n.
  Proof. unfold kk. rewrite (ssum_seq (fun a => k a a)). reflexivity. Qed.

  (** without replacement *)
  Lemma expected_without {W} (space : list W) q draw m : (1 <= m <= n)%nat -> uniform_without_replacement space q draw n m ->
    expectation space q (fun s => mmd2 k xs dw (pts (draw s)) (repeat 1 m))
    = mmd2 k xs dw xs (repeat 1 n) + INR (n - m) / (INR m * INR (n - 1)) * (average (fun a => k a a) xs - average (fun a => average (k a) xs) xs).
  Proof.
    intros Hm [_ HL]. rewrite (HL (fun l => mmd2 k xs dw (pts l) (repeat 1 m))).
    rewrite (Rsum_in _ (fun l => / INR (length (orderings m (seq 0 n))) * (A * 1 + / (INR m * INR m) * psum kk l - 2 * / INR m * ssum g l))).
    2:{ intros l Hl. f_equal. rewrite (mmd2_sample m l) by (apply (orderings_in m _ l Hl)). unfold Rdiv. ring. }
    rewrite Rsum_map_scal, Rsum_map_sub, Rsum_map_add, !Rsum_map_scal.
    pose proof (seq_NoDup n 0) as ND. rewrite orderings_length, orderings_count, orderings_single, orderings_pair by assumption.
    rewrite seq_length. rewrite average_d, average_k. rewrite <- pts_seq at 2. rewrite (mmd2_sample n (seq 0 n)) by apply seq_length.
    set (D := ssum (fun i => kk i i) (seq 0 n)). set (S2 := psum kk (seq 0 n)). set (G := ssum g (seq 0 n)).
    assert (Hm0 : INR m <> 0) by (apply not_0_INR; lia). assert (Hn0 : INR n <> 0) by (apply not_0_INR; lia).
    assert (Hf : fall n m = INR n * fall (n - 1) (m - 1)) by (symmetry; apply fall_step; lia).
    assert (Hf1 : fall (n - 1) (m - 1) <> 0) by (apply Rgt_not_eq, fall_pos; lia).
    destruct (Nat.eq_dec m 1) as [->|Hm1].
    - cbn [Nat.sub fall INR] in *. destruct (Nat.eq_dec n 1) as [E|E].
      + assert (S2 = D) by (unfold S2, D, psum, ssum; rewrite E; cbn; lra). rewrite H, E. cbn [Nat.sub INR]. unfold Rdiv. rewrite !Rmult_0_l. field.
      + rewrite minus_INR by lia. cbn [INR]. assert (INR n - 1 <> 0). { apply Rgt_not_eq. assert (1 < INR n) by (apply (lt_INR 1); lia). lra. } field. auto.
    - assert (Hf2 : fall (n - 1) (m - 1) = (INR n - 1) * fall (n - 2) (m - 2)).
      { rewrite <- (fall_step (n - 1) (m - 1)) by lia. rewrite minus_INR by lia. cbn [INR]. replace (n - 1 - 1)%nat with (n - 2)%nat by lia. replace (m - 1 - 1)%nat with (m - 2)%nat by lia. reflexivity. }
      assert (fall (n - 2) (m - 2) <> 0) by (apply Rgt_not_eq, fall_pos; lia).
      assert (INR n - 1 <> 0) by (intro Q; rewrite Q, Rmult_0_l in Hf2; contradiction).
      rewrite Hf, Hf2, !minus_INR by lia. cbn [INR]. field. auto.
  Qed.
  (** with replacement *)
  Lemma expected_with {W} (space : list W) q draw p m : (1 <= m)%nat -> length p = n -> Rsum p = 1 -> independent_draws space q draw p m ->
    expectation space q (fun s => mmd2 k xs dw (pts (draw s)) (repeat 1 m))
    = mmd2 k xs dw xs p + 1 / INR m * (wavg (fun a => k a a) xs p - wavg (fun a => wavg (fun b => k a b) xs p) xs p).
  Proof.
    intros Hm Lp Hp [_ HL]. rewrite (HL (fun l => mmd2 k xs dw (pts l) (repeat 1 m))). rewrite Lp.
    assert (Ep : Rsum (map (fun i => nth i p 0) (seq 0 n)) = 1).
    { rewrite <- Hp. f_equal. rewrite <- Lp. clear. induction p as [|a l IH]; [reflexivity|]. cbn [length seq map nth]. f_equal. rewrite <- seq_shift, map_map. exact IH. }
    rewrite (Rsum_in _ (fun l => (A * weight p l + / (INR m * INR m) * (weight p l * psum kk l) - 2 * / INR m * (weight p l * ssum g l)))).
    2:{ intros l Hl. rewrite (mmd2_sample m l) by (apply (sequences_in m _ l Hl)). fold (weight p l). unfold Rdiv. ring. }
    rewrite Rsum_map_sub, Rsum_map_add, !Rsum_map_scal.
    rewrite sequences_count, sequences_single, sequences_pair by exact Ep.
    assert (WS : forall f : P -> R, wavg f xs p = ssum (fun i => nth i p 0 * f (nth i xs p0)) (seq 0 n)).
    { intro f. unfold wavg. rewrite Hp. unfold Rdiv. rewrite Rinv_1, Rmult_1_r. unfold wsum, ssum. f_equal. unfold n. rewrite <- Lp in *. clear -Lp. unfold n in Lp.
      revert p Lp. induction xs as [|a l IH]; intros [|u p] Lp; try discriminate; [reflexivity|]. cbn [length seq map combine nth fst snd]. f_equal.
      rewrite <- seq_shift, map_map. apply IH. now injection Lp. }
    assert (W2 : wavg (fun a => wavg (fun b => k a b) xs p) xs p = psum (fun i j => nth i p 0 * nth j p 0 * kk i j) (seq 0 n)).
    { rewrite WS. unfold psum, ssum. apply Rsum_in. intros i _. rewrite WS. unfold ssum. rewrite <- Rsum_map_scal. apply Rsum_in. intros j _. unfold kk. ring. }
    assert (WC : wavg (fun a => wavg (fun b => k a b) xs p) xs dw = ssum (fun i => nth i p 0 * g i) (seq 0 n)).
    { rewrite (wavg_fun (fun a => wavg (fun b => k a b) xs p) (fun a => ssum (fun i => nth i p 0 * k a (nth i xs p0)) (seq 0 n))) by (intro a; apply WS).
      apply (wavg_ssum (fun i => nth i p 0) (fun a i => k a (nth i xs p0))). }
    unfold mmd2. fold A. rewrite W2, WC, WS. assert (INR m <> 0) by (apply not_0_INR; lia). change (ssum (fun i => nth i p 0 * k (nth i xs p0) (nth i xs p0)) (seq 0 n)) with (ssum (fun i => nth i p 0 * kk i i) (seq 0 n)). field. assumption.
  Qed.
End Mmd.
