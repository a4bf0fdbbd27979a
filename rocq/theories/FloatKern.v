(** * Rounding errors of the built-in kernels *)
From Coq Require Import List ZArith Bool Reals Permutation Lia Lra.
From Coq Require Import Floats.SpecFloat.
From Flocq Require Import Core.Core IEEE754.BinarySingleNaN.
From Verif Require Import Num Jax RSum SumSpec SumProofs Float MeanModel UtilModel KernelModel KernelSpec FloatProofs2 FloatGreedy FloatErr FloatRate3.
Import ListNotations.
Open Scope R_scope.

Section Kern.
  Context (prec emax : Z) {Hprec : Prec_gt_0 prec} {Hmax : Prec_lt_emax prec emax} {Sm : SumOrder prec emax}.
  Notation flt := (binary_float prec emax).
  Notation O := (FOpsIEEE prec emax).
  Notation rnd := (round radix2 (SpecFloat.fexp prec emax) (round_mode mode_NE)).
  Notation big := (bpow radix2 emax).
  Notation uu := (uu prec).
  Notation tau := (tau emax).
  Notation gg := (gg prec).
  Notation apx := (apx prec emax).

  (** as [apx], unless the result overflowed, which happens for large numbers only *)
  Definition apxo (N : nat) (v : flt) (x S : R) : Prop :=
    apx N v x S \/ is_finite v = false /\ 0 <= S /\ big <= gg N * S.
  Lemma apx_S0 N v x S : apx N v x S -> 0 <= S.
  Proof. intros (_ & A & _). pose proof (Rabs_pos x). lra. Qed.
  Lemma apxo_S0 N v x S : apxo N v x S -> 0 <= S.
  Proof. intros [A|(_ & A & _)]; [now apply apx_S0 in A|auto]. Qed.
  Lemma apxo_mono N N' v x S S' : apxo N v x S -> (N <= N')%nat -> S <= S' -> apxo N' v x S'.
  Proof.
    intros [A|(A & B & C)] HN HS; [left; eapply apx_mono; eauto|right]. split; auto. split; [lra|].
    eapply Rle_trans; [exact C|]. pose proof (gg_ge1 prec N). apply Rmult_le_compat; try lra. now apply gg_mono.
  Qed.
  Lemma plus_nonfin (a b : flt) : is_finite a = false \/ is_finite b = false -> is_finite (Bplus mode_NE a b) = false.
  Proof. destruct a as [[]|[]| |[] ? ? ?], b as [[]|[]| |[] ? ? ?]; cbn; intros [E|E]; congruence. Qed.
  Lemma apxo_add N a b x y S T : apxo N a x S -> apxo N b y T -> apxo (Datatypes.S N) (Bplus mode_NE a b) (x + y) (S + T).
  Proof.
    intros A B. pose proof (apxo_S0 _ _ _ _ A) as PS. pose proof (apxo_S0 _ _ _ _ B) as PT.
    pose proof (gg_ge1 prec N) as G. pose proof (gg_mono prec N (Datatypes.S N) (Nat.le_succ_diag_r N)) as GM.
    destruct A as [A|(FA & _ & LA)], B as [B|(FB & _ & LB)]; try (right; split; [apply plus_nonfin; auto|]; split; [lra|];
      first [apply Rle_trans with (1 := LA)|apply Rle_trans with (1 := LB)]; apply Rmult_le_compat; lra).
    destruct (Rlt_or_le (gg (Datatypes.S N) * (S + T)) big) as [L|L]; [left; now apply apx_add|].
    destruct A as (FA & A1 & A2), B as (FB & B1 & B2).
    destruct (plus_cases prec emax a b FA FB) as [[R F]|(E & _ & C)].
    - left. destruct (apx_round prec N (B2R a + B2R b) (x + y) (S + T) 0 (rnd (B2R a + B2R b))) as [R1 R2].
      + eapply Rle_trans; [apply Rabs_triang|]. lra.
      + replace (B2R a + B2R b - (x + y)) with ((B2R a - x) + (B2R b - y)) by ring. eapply Rle_trans; [apply Rabs_triang|]. lra.
      + lra.
      + pose proof (rnd_add prec emax a b). lra.
      + rewrite Rplus_0_r in *. split; auto. rewrite R. split; [|lra]. eapply Rle_trans; [apply Rabs_triang|]. lra.
    - right. split; [now rewrite E|]. split; [lra|exact L].
  Qed.
  Lemma apxo_sum {A} (f : A -> flt) (x S : A -> R) N l : (forall a, In a l -> apxo N (f a) (x a) (S a)) ->
    apxo (N + length l) (fsum O (map f l)) (Rsum (map x l)) (Rsum (map S l)).
  Proof.
    pose proof (sum_fun_ok (map f l)) as H. revert H. change (sum_fun (map f l)) with (fsum O (map f l)). generalize (fsum O (map f l)) as v. intros v H. revert l v H.
    apply (summed_map_ind _ _ f (fun l v => (forall a, In a l -> apxo N (f a) (x a) (S a)) -> apxo (N + length l) v (Rsum (map x l)) (Rsum (map S l)))).
    - intros _. left. split; [reflexivity|]. cbn. rewrite Rminus_0_r, Rabs_R0. lra.
    - intros a H. cbn [map Rsum length]. rewrite !Rplus_0_r. eapply apxo_mono; [apply H; now left|lia|lra].
    - intros l1 l2 a b H1 H2 H. rewrite app_length, !map_app, !Rsum_app in *.
      assert (I1 : forall a, In a l1 -> apxo N (f a) (x a) (S a)) by (intros c Hc; apply H; apply in_or_app; auto).
      assert (I2 : forall a, In a l2 -> apxo N (f a) (x a) (S a)) by (intros c Hc; apply H; apply in_or_app; auto).
      specialize (H1 I1). specialize (H2 I2).
      pose proof (apxo_S0 _ _ _ _ H1) as P1. pose proof (apxo_S0 _ _ _ _ H2) as P2.
      assert (Z : forall v N, apxo N v 0 0 -> is_finite v = true /\ B2R v = 0).
      { intros v N0 [(F & _ & B)|(_ & _ & C)]; [|pose proof (bpow_gt_0 radix2 emax); lra]. split; auto. rewrite Rmult_0_r, Rminus_0_r in B.
        pose proof (Rabs_pos (B2R v)). destruct (Req_dec (B2R v) 0) as [E|E]; auto. apply Rabs_pos_lt in E. lra. }
      assert (NF : forall v : flt, is_finite v = true \/ is_finite v = false) by (intro v; destruct (is_finite v); auto).
      destruct l1 as [|c1 l1].
      { cbn [map Rsum length plus] in *. rewrite !Rplus_0_l. destruct (Z _ _ H1) as [F1 Z1].
        destruct H2 as [(F2 & A2 & B2)|(F2 & A2 & B2)]; [|right; split; [apply plus_nonfin; auto|auto]].
        destruct (proj1 (plus_zero prec emax a b F1 F2) Z1) as [F E]. left. split; auto. rewrite E. auto. }
      destruct l2 as [|c2 l2].
      { cbn [map Rsum length] in *. rewrite Nat.add_0_r in *. rewrite !Rplus_0_r in *. destruct (Z _ _ H2) as [F2 Z2].
        destruct H1 as [(F1 & A1 & B1)|(F1 & A1 & B1)]; [|right; split; [apply plus_nonfin; auto|auto]].
        destruct (proj2 (plus_zero prec emax a b F1 F2) Z2) as [F E]. left. split; auto. rewrite E. auto. }
      set (m1 := c1 :: l1) in *. set (m2 := c2 :: l2) in *. assert (1 <= length m1 /\ 1 <= length m2)%nat as [L1 L2] by (cbn; lia). clearbody m1 m2.
      set (M := (N + Nat.max (length m1) (length m2))%nat).
      apply apxo_mono with (N := Datatypes.S M) (S := Rsum (map S m1) + Rsum (map S m2)); [|unfold M; lia|lra].
      apply apxo_add; [eapply apxo_mono; [exact H1|unfold M; lia|lra]|eapply apxo_mono; [exact H2|unfold M; lia|lra]].
    - intros l l' v HP H HA. rewrite <- (Permutation_length HP), <- (Rsum_perm_map x _ _ HP), <- (Rsum_perm_map S _ _ HP). apply H.
      intros a Ha. apply HA. eapply Permutation_in; eauto.
  Qed.

  (** ** distances *)
  Lemma diff_apxo (a b : flt) : is_finite a = true -> is_finite b = true ->
    apxo 1 (Bminus mode_NE a b) (B2R a - B2R b) (Rabs (B2R a - B2R b)).
  Proof.
    intros FA FB. pose proof (Bminus_correct prec emax _ _ mode_NE a b FA FB) as P2.
    assert (E : Rabs (rnd (B2R a - B2R b) - (B2R a - B2R b)) <= uu * Rabs (B2R a - B2R b)).
    { pose proof (rnd_add prec emax a (Bopp b)) as E. rewrite B2R_Bopp in E. exact E. }
    assert (G1 : gg 1 = 1 + uu) by (unfold FloatErr.gg; cbn; ring). pose proof (uu_pos prec) as U.
    destruct (Rlt_bool_spec (Rabs (rnd (B2R a - B2R b))) big) as [L|L].
    - destruct P2 as (P2 & P3 & _). left. split; auto. split; [lra|]. rewrite P2, G1. lra.
    - right. destruct P2 as [P2 _]. apply overflow_inf in P2. split; [now rewrite P2|]. split; [apply Rabs_pos|]. rewrite G1.
      eapply Rle_trans; [exact L|]. replace (rnd (B2R a - B2R b)) with (rnd (B2R a - B2R b) - (B2R a - B2R b) + (B2R a - B2R b)) by ring.
      eapply Rle_trans; [apply Rabs_triang|]. lra.
  Qed.
  Lemma mult_nonfin (a : flt) : is_finite a = false -> is_finite (Bmult mode_NE a a) = false.
  Proof. destruct a as [[]|[]| |[] ? ? ?]; cbn; congruence. Qed.
  Lemma big_ge2 : 2 <= big.
  Proof. change 2 with (bpow radix2 1). apply bpow_le. assert (0 < prec < emax)%Z by (split; assumption). lia. Qed.
  Lemma square_apxo N a x S : apxo N a x S -> apxo (Datatypes.S (N + N)) (Bmult mode_NE a a) (x * x) (S * S + tau).
  Proof.
    intros A. pose proof (tau_pos emax) as TP. pose proof (apxo_S0 _ _ _ _ A) as PS. pose proof (gg_ge1 prec N) as G. pose proof (gg_ge1 prec (Datatypes.S (N + N))) as G2.
    assert (QS : 0 <= S * S + tau) by nra.
    assert (GN : gg N * gg N <= gg (Datatypes.S (N + N))) by (rewrite <- gg_add; apply gg_mono; lia).
    destruct A as [A|(FA & _ & LA)].
    - destruct (Rlt_or_le (gg (Datatypes.S (N + N)) * (S * S + tau)) big) as [L|L]; [left; now apply apx_mult|].
      pose proof (apx_mag _ _ _ _ _ _ A) as MA. destruct A as (FA & A1 & A2).
      destruct (mult_cases prec emax a a FA FA) as [[R F]|(E & C)]; [|right; split; [now rewrite E|auto]].
      left. destruct (apx_round prec (N + N) (B2R a * B2R a) (x * x) (S * S) tau (rnd (B2R a * B2R a))) as [R1 R2].
      + rewrite Rabs_mult. apply Rmult_le_compat; auto using Rabs_pos.
      + replace (B2R a * B2R a - x * x) with (B2R a * (B2R a - x) + (B2R a - x) * x) by ring.
        eapply Rle_trans; [apply Rabs_triang|]. rewrite !Rabs_mult, gg_add.
        assert (Rabs (B2R a) * Rabs (B2R a - x) <= (gg N * S) * ((gg N - 1) * S)) by (apply Rmult_le_compat; auto using Rabs_pos).
        assert (Rabs (B2R a - x) * Rabs x <= ((gg N - 1) * S) * S) by (apply Rmult_le_compat; auto using Rabs_pos). lra.
      + lra.
      + apply rnd_err; assumption.
      + split; auto. rewrite R. split; [|exact R1]. rewrite Rabs_mult. assert (Rabs x * Rabs x <= S * S) by (apply Rmult_le_compat; auto using Rabs_pos). lra.
    - right. split; [now apply mult_nonfin|]. split; auto. pose proof big_ge2 as B2.
      apply Rle_trans with (big * big); [nra|]. apply Rle_trans with ((gg N * S) * (gg N * S)); [apply Rmult_le_compat; lra|].
      replace (gg N * S * (gg N * S)) with ((gg N * gg N) * (S * S)) by ring. apply Rmult_le_compat; nra.
  Qed.
  Lemma abs_apxo N a x S : apxo N a x S -> apxo N (fabs O a) (Rabs x) S.
  Proof.
    assert (FA : is_finite (fabs O a) = is_finite a /\ (is_finite a = true -> B2R (fabs O a) = Rabs (B2R a))).
    { destruct a as [[]|[]| |[] m e H]; (split; [reflexivity|]); cbn; intros _; try discriminate; try (now rewrite Rabs_R0).
      - rewrite Rabs_left by apply neg_lt0. rewrite <- F2R_Zopp. reflexivity.
      - symmetry. apply Rabs_pos_eq. apply F2R_ge_0. cbn. lia. }
    destruct FA as [F1 F2]. intros [(F & A & B)|(F & A & B)].
    - left. split; [now rewrite F1|]. rewrite F2, Rabs_Rabsolu by auto. split; auto. eapply Rle_trans; [apply Rabs_triang_inv2|exact B].
    - right. split; [now rewrite F1|auto].
  Qed.

  Definition pair_diff (p : flt * flt) : R := B2R (fst p) - B2R (snd p).
  Lemma map2_combine {A B C} (f : A -> B -> C) x y : map2 f x y = map (fun p => f (fst p) (snd p)) (combine x y).
  Proof. revert y. induction x as [|a x IH]; intros [|b y]; cbn; auto. now rewrite IH. Qed.
  Lemma map2_diag {A C} (f : A -> A -> C) l : map2 f l l = map (fun a => f a a) l.
  Proof. induction l; cbn; auto. now rewrite IHl. Qed.
  Lemma combine_map {A B C D} (f : A -> C) (g : B -> D) x y : combine (map f x) (map g y) = map (fun p => (f (fst p), g (snd p))) (combine x y).
  Proof. revert y. induction x as [|a x IH]; intros [|b y]; cbn; auto. now rewrite IH. Qed.
  Lemma vsub_pairs (x y : list flt) : vsub (map B2R x) (map B2R y) = map pair_diff (combine x y).
  Proof. unfold vsub. rewrite map2_combine, combine_map, map_map. reflexivity. Qed.
  Lemma finite_pairs x y p : all_finite prec emax x -> all_finite prec emax y -> In p (combine x y) -> is_finite (fst p) = true /\ is_finite (snd p) = true.
  Proof.
    intros X Y Hp. destruct p as [a b]. split; cbn.
    - apply in_combine_l in Hp. exact (proj1 (Forall_forall _ _) X a Hp).
    - apply in_combine_r in Hp. exact (proj1 (Forall_forall _ _) Y b Hp).
  Qed.
  Lemma Rsum_plus {A} (f g : A -> R) l : Rsum (map (fun a => f a + g a) l) = Rsum (map f l) + Rsum (map g l).
  Proof. induction l; cbn [map Rsum]; lra. Qed.
  Lemma Rsum_const {A} c (l : list A) : Rsum (map (fun _ => c) l) = INR (length l) * c.
  Proof. induction l; [cbn; ring|]. cbn [map Rsum length]. rewrite IHl, S_INR. ring. Qed.

  Lemma sqd_apxo x y : all_finite prec emax x -> all_finite prec emax y ->
    let n := length (combine x y) in
    apxo (n + 3) (squared_distance O x y) (sqdist (map B2R x) (map B2R y)) (sqdist (map B2R x) (map B2R y) + INR n * tau).
  Proof.
    intros X Y n. unfold squared_distance, fdot, difference, sqdist, Rdot. rewrite vsub_pairs.
    rewrite !map2_diag, map2_combine, !map_map.
    set (l := combine x y) in *.
    assert (A : forall p, In p l -> apxo 3 (Bmult mode_NE (Bminus mode_NE (fst p) (snd p)) (Bminus mode_NE (fst p) (snd p))) (pair_diff p * pair_diff p) (pair_diff p * pair_diff p + tau)).
    { intros p Hp. destruct (finite_pairs x y p X Y Hp) as [F1 F2].
      pose proof (square_apxo _ _ _ _ (diff_apxo (fst p) (snd p) F1 F2)) as Q. cbn [plus] in Q. fold (pair_diff p) in Q.
      rewrite <- Rabs_mult, (Rabs_pos_eq (pair_diff p * pair_diff p)) in Q by apply Rle_0_sqr. exact Q. }
    pose proof (apxo_sum _ _ _ 3 l A) as Q. rewrite Rsum_plus, Rsum_const in Q. rewrite Nat.add_comm. exact Q.
  Qed.
  Lemma norm1_apxo x y : all_finite prec emax x -> all_finite prec emax y ->
    apxo (length (combine x y) + 1) (norm1 O (difference O x y)) (dist1 (map B2R x) (map B2R y)) (dist1 (map B2R x) (map B2R y)).
  Proof.
    intros X Y. unfold norm1, difference, dist1. rewrite vsub_pairs, map2_combine, !map_map.
    rewrite Nat.add_comm. apply (apxo_sum _ (fun p => Rabs (pair_diff p)) (fun p => Rabs (pair_diff p)) 1).
    intros p Hp. destruct (finite_pairs x y p X Y Hp) as [F1 F2]. apply abs_apxo. now apply diff_apxo.
  Qed.
End Kern.
