(** * Proofs for C78 *)
From Coq Require Import List Reals Permutation Lra Lia Arith.
From Verif Require Import Num RSum MeanSpec GreedySpec MetricSpec SampleSpec.
Import ListNotations.
Open Scope R_scope.

Fixpoint fall (n m : nat) : R := match m with O => 1 | S m' => INR n * fall (n - 1) m' end.
Lemma fall_pos n m : (m <= n)%nat -> 0 < fall n m.
Proof.
  revert n. induction m as [|m IH]; intros n H; cbn; [lra|]. apply Rmult_lt_0_compat; [apply lt_0_INR; lia|apply IH; lia].
Qed.
Lemma Rsum_flat_map {A B} (F : B -> R) (h : A -> list B) l : Rsum (map F (flat_map h l)) = Rsum (map (fun i => Rsum (map F (h i))) l).
Proof. induction l as [|a l IH]; [reflexivity|]. cbn [flat_map map]. rewrite map_app, Rsum_app, IH. reflexivity. Qed.
Lemma remove_perm i L : NoDup L -> In i L -> Permutation L (i :: remove Nat.eq_dec i L).
Proof.
  induction L as [|a L IH]; intros ND HI; [contradiction|]. inversion ND as [|? ? NA NL]; subst. cbn [remove].
  destruct (Nat.eq_dec i a) as [->|N].
  - rewrite notin_remove by assumption. reflexivity.
  - destruct HI as [E|HI]; [congruence|]. rewrite perm_swap. constructor. auto.
Qed.
Lemma remove_facts i L : NoDup L -> In i L -> NoDup (remove Nat.eq_dec i L) /\ length (remove Nat.eq_dec i L) = (length L - 1)%nat /\
  forall f : nat -> R, Rsum (map f (remove Nat.eq_dec i L)) = Rsum (map f L) - f i.
Proof.
  intros ND HI. pose proof (remove_perm i L ND HI) as HP. split; [|split].
  - eapply Permutation_NoDup in HP; [|exact ND]. now inversion HP.
  - apply Permutation_length in HP. cbn in HP. lia.
  - intro f. rewrite (Rsum_perm _ _ (Permutation_map f HP)). cbn [map]. change (Rsum (?u :: ?t)) with (u + Rsum t). lra.
Qed.
Lemma Rsum_in {A} (f g : A -> R) l : (forall a, In a l -> f a = g a) -> Rsum (map f l) = Rsum (map g l).
Proof. intro H. f_equal. now apply map_ext_in. Qed.
(** *** without replacement *)
Lemma orderings_count m : forall L, NoDup L -> Rsum (map (fun _ => 1) (orderings m L)) = fall (length L) m.
Proof.
  induction m as [|m IH]; intros L ND; [cbn; lra|]. cbn [orderings fall]. rewrite Rsum_flat_map.
  rewrite (Rsum_in _ (fun _ => fall (length L - 1) m)); [now rewrite Rsum_map_const|]. intros i Hi. rewrite map_map.
  destruct (remove_facts i L ND Hi) as (A & B & _). rewrite IH by assumption. now rewrite B.
Qed.
Lemma orderings_length m L : NoDup L -> INR (length (orderings m L)) = fall (length L) m.
Proof. intro ND. rewrite <- (orderings_count m L ND), Rsum_map_const. lra. Qed.
Definition ssum (f : nat -> R) (l : list nat) : R := Rsum (map f l).
Definition psum (k : nat -> nat -> R) (l : list nat) : R := ssum (fun i => ssum (k i) l) l.
Lemma ssum_cons f i l : ssum f (i :: l) = f i + ssum f l.
Proof. reflexivity. Qed.
Lemma psum_cons k i l : psum k (i :: l) = k i i + ssum (fun j => k i j + k j i) l + psum k l.
Proof.
  unfold psum at 1. rewrite !ssum_cons.
  assert (E : ssum (fun a => ssum (k a) (i :: l)) l = ssum (fun a => k a i) l + psum k l).
  { unfold psum. unfold ssum at 1 3 4. rewrite <- Rsum_map_add. apply f_equal. apply map_ext. intro a. apply ssum_cons. }
  rewrite E. unfold ssum. rewrite Rsum_map_add. lra.
Qed.
Lemma fall_step n m : (1 <= m)%nat -> INR n * fall (n - 1) (m - 1) = fall n m.
Proof. intro H. destruct m; [lia|]. cbn. now rewrite Nat.sub_0_r. Qed.
Lemma orderings_single f m : forall L, NoDup L ->
  Rsum (map (ssum f) (orderings m L)) = INR m * fall (length L - 1) (m - 1) * ssum f L.
Proof.
  induction m as [|m IH]; intros L ND; [cbn; unfold ssum; cbn; lra|].
  cbn [orderings]. rewrite Rsum_flat_map.
  rewrite (Rsum_in _ (fun i => fall (length L - 1) m * f i + INR m * fall (length L - 1 - 1) (m - 1) * (ssum f L - f i))).
  2:{ intros i Hi. rewrite map_map. destruct (remove_facts i L ND Hi) as (A & B & C).
      rewrite (Rsum_in _ (fun l => f i * 1 + ssum f l)) by (intros; rewrite ssum_cons; lra).
      rewrite Rsum_map_add, IH by assumption. rewrite (Rsum_map_scal (f i)), orderings_count by assumption. rewrite B. unfold ssum. rewrite C. lra. }
  rewrite Rsum_map_add, !Rsum_map_scal, Rsum_map_sub, Rsum_map_const. fold (ssum f L). rewrite S_INR. replace (S m - 1)%nat with m by lia.
  destruct (Nat.eq_dec m 0) as [->|Hm]; [cbn [INR]; ring|].
  destruct (length L) as [|n] eqn:EL; [destruct L; [|discriminate]; unfold ssum; cbn; lra|].
  replace (S n - 1)%nat with n by lia. rewrite <- (fall_step n m) by lia. rewrite S_INR. ring.
Qed.
Lemma orderings_pair k m : forall L, NoDup L ->
  Rsum (map (psum k) (orderings m L)) = INR m * fall (length L - 1) (m - 1) * ssum (fun i => k i i) L
    + INR m * (INR m - 1) * fall (length L - 2) (m - 2) * (psum k L - ssum (fun i => k i i) L).
Proof.
  induction m as [|m IH]; intros L ND; [cbn; unfold psum, ssum; cbn; lra|].
  set (D := ssum (fun i => k i i) L). set (n := length L) in *.
  cbn [orderings]. rewrite Rsum_flat_map.
  rewrite (Rsum_in _ (fun i => fall (n - 1) m * k i i + INR m * fall (n - 2) (m - 1) * (ssum (fun j => k i j + k j i) L - 2 * k i i)
     + (INR m * fall (n - 2) (m - 1) * (D - k i i) + INR m * (INR m - 1) * fall (n - 3) (m - 2) * (psum k L - ssum (fun j => k i j + k j i) L + 2 * k i i - D)))).
  2:{ intros i Hi. rewrite map_map. destruct (remove_facts i L ND Hi) as (A & B & C).
      rewrite (Rsum_in _ (fun l => k i i * 1 + ssum (fun j => k i j + k j i) l + psum k l)) by (intros; rewrite psum_cons; lra).
      rewrite !Rsum_map_add, IH by assumption. rewrite orderings_single by assumption. rewrite (Rsum_map_scal (k i i)), orderings_count by assumption. rewrite B.
      fold n. replace (n - 1 - 1)%nat with (n - 2)%nat by lia. replace (n - 1 - 2)%nat with (n - 3)%nat by lia.
      assert (E1 : ssum (fun j => k i j + k j i) (remove Nat.eq_dec i L) = ssum (fun j => k i j + k j i) L - 2 * k i i) by (unfold ssum; rewrite C; lra).
      assert (E2 : ssum (fun i0 => k i0 i0) (remove Nat.eq_dec i L) = D - k i i) by (unfold ssum; rewrite C; reflexivity).
      assert (E3 : psum k (remove Nat.eq_dec i L) = psum k L - ssum (fun j => k i j + k j i) L + k i i).
      { assert (Q : forall L L' : list nat, Permutation L L' -> psum k L = psum k L').
        { clear. intros L L' H. unfold psum, ssum. rewrite (Rsum_perm _ _ (Permutation_map _ H)). apply Rsum_in. intros a _. now rewrite (Rsum_perm _ _ (Permutation_map _ H)). }
        rewrite (Q L _ (remove_perm i L ND Hi)), psum_cons, E1. lra. }
      rewrite E1, E2, E3. ring. }
  rewrite !Rsum_map_add. rewrite !Rsum_map_scal. rewrite !Rsum_map_sub, !Rsum_map_add, !Rsum_map_sub, !Rsum_map_const. fold n.
  rewrite (Rsum_map_scal 2). 
  assert (E : Rsum (map (fun a => ssum (fun j => k a j + k j a) L) L) = 2 * psum k L).
  { unfold psum, ssum. rewrite (Rsum_in _ (fun a => Rsum (map (k a) L) + Rsum (map (fun j => k j a) L))) by (intros; now rewrite Rsum_map_add).
    rewrite Rsum_map_add, (Rsum_swap (fun a j => k j a)). match goal with |- ?a + ?b = 2 * ?c => change b with c; change a with c end. lra. }
  change (Rsum (map (fun i => k i i) L)) with D. rewrite E. rewrite S_INR. replace (S m - 1)%nat with m by lia. replace (S m - 2)%nat with (m - 1)%nat by lia.
  destruct (Nat.eq_dec m 0) as [->|Hm]; [cbn [INR]; ring|].
  assert (N0 : n = 0%nat -> D = 0 /\ psum k L = 0) by (intro Hn; unfold n in Hn; destruct L; [|discriminate]; unfold D, psum, ssum; cbn; lra).
  destruct (Nat.eq_dec n 0) as [Hn|Hn]; [destruct (N0 Hn) as [-> ->]; cbn; ring|].
  assert (Hf1 : fall (n - 1) m = (INR n - 1) * fall (n - 2) (m - 1)).
  { rewrite <- (fall_step (n - 1) m) by lia. rewrite minus_INR by lia. cbn [INR]. f_equal. f_equal. lia. }
  destruct (Nat.eq_dec m 1) as [->|Hm1].
  - cbn [Nat.sub fall INR] in *. rewrite Hf1. ring.
  - destruct (Nat.eq_dec n 1) as [Hn1|Hn1].
    + assert (psum k L = D) by (unfold n in Hn1; destruct L as [|a [|]]; try discriminate; unfold D, psum, ssum; cbn; lra).
      rewrite H, Hf1, Hn1. cbn [INR]. ring.
    + assert (Hf2 : fall (n - 2) (m - 1) = (INR n - 2) * fall (n - 3) (m - 2)).
      { rewrite <- (fall_step (n - 2) (m - 1)) by lia. rewrite minus_INR by lia. cbn [INR]. replace (n - 2 - 1)%nat with (n - 3)%nat by lia. replace (m - 1 - 1)%nat with (m - 2)%nat by lia. lra. }
      rewrite Hf1, Hf2. ring.
Qed.
(** *** with replacement *)
Definition weight (p : list R) (l : list nat) : R := fold_right Rmult 1 (map (fun i => nth i p 0) l).
Section With.
  Context (p : list R) (L : list nat) (Hp : Rsum (map (fun i => nth i p 0) L) = 1).
  Notation w i := (nth i p 0).
  Lemma sequences_count m : Rsum (map (weight p) (sequences m L)) = 1.
  Proof.
    induction m as [|m IH]; [cbn; lra|]. cbn [sequences]. rewrite Rsum_flat_map. rewrite (Rsum_in _ (fun i => w i)); [exact Hp|].
    intros i _. rewrite map_map. change (fun x => weight p (i :: x)) with (fun x => w i * weight p x). rewrite (Rsum_map_scal (w i)). rewrite IH. lra.
  Qed.
  Lemma sequences_single f m : Rsum (map (fun l => weight p l * ssum f l) (sequences m L)) = INR m * ssum (fun i => w i * f i) L.
  Proof.
    induction m as [|m IH]; [cbn; unfold ssum; cbn; lra|]. cbn [sequences]. rewrite Rsum_flat_map.
    rewrite (Rsum_in _ (fun i => w i * f i + INR m * ssum (fun i => w i * f i) L * w i)).
    - rewrite Rsum_map_add, (Rsum_map_scal (INR m * ssum (fun i => w i * f i) L)), Hp, S_INR. unfold ssum. lra.
    - intros i _. rewrite map_map. 
      rewrite (Rsum_in _ (fun l => w i * f i * weight p l + w i * (weight p l * ssum f l))).
      + rewrite Rsum_map_add, (Rsum_map_scal (w i * f i)), (Rsum_map_scal (w i)), sequences_count, IH. lra.
      + intros l _. change (weight p (i :: l)) with (w i * weight p l). rewrite ssum_cons. ring.
  Qed.
  Lemma sequences_pair k m : Rsum (map (fun l => weight p l * psum k l) (sequences m L))
    = INR m * ssum (fun i => w i * k i i) L + INR m * (INR m - 1) * psum (fun i j => w i * w j * k i j) L.
  Proof.
    induction m as [|m IH]; [cbn; unfold psum, ssum; cbn; lra|]. cbn [sequences]. rewrite Rsum_flat_map.
    set (D := ssum (fun i => w i * k i i) L) in *. set (S2 := psum (fun i j => w i * w j * k i j) L) in *.
    rewrite (Rsum_in _ (fun i => w i * k i i + INR m * (w i * ssum (fun j => w j * (k i j + k j i)) L) + (INR m * D + INR m * (INR m - 1) * S2) * w i)).
    - rewrite !Rsum_map_add, (Rsum_map_scal (INR m * D + INR m * (INR m - 1) * S2)), (Rsum_map_scal (INR m)), Hp, S_INR.
      assert (E : Rsum (map (fun i => w i * ssum (fun j => w j * (k i j + k j i)) L) L) = 2 * S2).
      { unfold S2, psum, ssum. 
        rewrite (Rsum_in _ (fun i => Rsum (map (fun j => w i * w j * k i j) L) + Rsum (map (fun j => w j * w i * k j i) L))).
        - rewrite Rsum_map_add, (Rsum_swap (fun i j => w j * w i * k j i)). lra.
        - intros i _. rewrite <- Rsum_map_add, <- Rsum_map_scal. apply Rsum_in. intros; ring. }
      rewrite E. change (Rsum (map (fun i => w i * k i i) L)) with D. ring.
    - intros i _. rewrite map_map. 
      rewrite (Rsum_in _ (fun l => w i * k i i * weight p l + (w i * (weight p l * ssum (fun j => k i j + k j i) l) + w i * (weight p l * psum k l)))).
      + rewrite !Rsum_map_add, (Rsum_map_scal (w i * k i i)), !(Rsum_map_scal (w i)), sequences_count, sequences_single, IH. ring.
      + intros l _. change (weight p (i :: l)) with (w i * weight p l). rewrite psum_cons. ring.
  Qed.
End With.
