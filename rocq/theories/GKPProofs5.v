(** * Greedy kernel points: ridge regression fits *)
From Coq Require Import List ZArith Bool Reals Permutation Lia Lra.
From Verif Require Import Num Jax RSum JaxFacts MetricSpec GKPSpec GreedyProofs MetricProofs MetricProofs2 GKPProofs4.
Import ListNotations.
Open Scope R_scope.

(** ** first-order condition for least squares *)
Definition shift (t : R) (z h : list R) := map2 (fun a c => a + t * c) z h.
Definition defect (A : list (list R)) (b z : list R) := map2 (fun row bi => Rdot row z - bi) A b.
Lemma Rdot_shift row t z h : length z = length h -> Rdot row (shift t z h) = Rdot row z + t * Rdot row h.
Proof.
  revert z h. induction row as [|a row IH]; intros [|b z] [|c h]; simpl; intros; try discriminate; unfold Rdot in *; simpl; try lra.
  unfold shift in IH. rewrite IH by lia. lra.
Qed.
Lemma Rdot_cons a b l m : Rdot (a :: l) (b :: m) = a * b + Rdot l m.
Proof. reflexivity. Qed.
Lemma residual_shift A b z h t : length z = length h -> length A = length b ->
  sq_residual A b (shift t z h) = sq_residual A b z + 2 * t * Rdot (defect A b z) (Rmv A h) + t * t * Rdot (Rmv A h) (Rmv A h).
Proof.
  intros L. revert b. induction A as [|row A IH]; intros [|bi b] LA; try discriminate; [unfold sq_residual, Rmv, defect, Rdot; simpl; ring|].
  simpl in LA. specialize (IH b ltac:(lia)). unfold sq_residual in *.
  unfold Rmv, defect in *. cbn [map map2]. rewrite !Rdot_cons. cbn [Rsum]. rewrite IH, Rdot_shift by assumption. ring.
Qed.
Lemma quad_zero g n : 0 <= n -> (forall t, 0 <= 2 * t * g + t * t * n) -> g = 0.
Proof.
  intros Hn H. specialize (H (- g / (n + 1))).
  assert (E : 2 * (- g / (n + 1)) * g + - g / (n + 1) * (- g / (n + 1)) * n = - ((g / (n + 1)) ^ 2 * (n + 2))) by (field; lra).
  rewrite E in H. assert (0 <= (g / (n + 1)) ^ 2) by apply pow2_ge_0.
  assert ((g / (n + 1)) ^ 2 = 0) by nra. assert (Q : g / (n + 1) = 0) by nra.
  assert (g = g / (n + 1) * (n + 1)) by (field; lra). rewrite Q in *. lra.
Qed.
Lemma first_order A b z h : is_min_norm A b z -> length h = length b -> length A = length b -> Rdot (defect A b z) (Rmv A h) = 0.
Proof.
  intros [L M] Lh LA. apply (quad_zero _ (Rdot (Rmv A h) (Rmv A h))); [apply Rdot_self_nonneg|].
  intros t. destruct (M (shift t z h)) as [Q _]; [unfold shift; rewrite map2_length; lia|]. rewrite residual_shift in Q by lia. lra.
Qed.
Lemma dot_self_zero l : Rdot l l <= 0 -> forall i, nth i l 0 = 0.
Proof.
  intros H i. destruct (Nat.lt_ge_cases i (length l)); [|now apply nth_overflow]. apply (sumsq_zero l H). now apply nth_In.
Qed.
Lemma residual_defect A b z : sq_residual A b z = Rdot (defect A b z) (defect A b z).
Proof.
  unfold sq_residual, Rmv, defect. revert b. induction A as [|row A IH]; intros [|bi b]; cbn [map map2]; auto. rewrite Rdot_cons. cbn [Rsum]. rewrite IH. ring.
Qed.

Section Ridge.
  Context {P : Type} (p0 : P) (k : P -> P -> R) (x : list P) (y : list R) (reg : R).
  Notation kz := (kz p0 k x). Notation yz := (yz y).
  Notation pts c := (map (fun i => nth (Z.to_nat i) x p0) c).

  Lemma ridge_rgram c r : Forall (fun i => 0 <= i)%Z c -> Rridge (gram_of p0 k x c) r (Rdiag (repeat 1 (length c))) = rgram p0 k r (pts c).
  Proof.
    intros H. rewrite Forall_forall in H. unfold rgram. rewrite map_length.
    assert (LD : length (Rdiag (repeat 1 (length c))) = length c) by (unfold Rdiag; now rewrite map_length, seq_length, repeat_length).
    apply list_ext with (d := []).
    - unfold Rridge, gram_of. rewrite map2_length, !map_length, seq_length. lia.
    - intros i Hi. unfold Rridge, gram_of in Hi. rewrite map2_length, map_length in Hi.
      unfold Rridge. rewrite (nth_map2 _ _ _ _ [] []) by (unfold gram_of; rewrite ?map_length; lia).
      unfold gram_of. rewrite (nth_map_lt _ c i 0%Z) by lia. rewrite Rdiag_row by (rewrite repeat_length; lia).
      rewrite (nth_map_lt _ (seq 0 (length c)) i 0%nat) by (rewrite seq_length; lia). rewrite seq_nth by lia. cbn [plus].
      apply list_ext with (d := 0).
      + rewrite map2_length, upd_length, !map_length, !repeat_length, seq_length. lia.
      + intros j Hj. rewrite map2_length, map_length, upd_length, !repeat_length in Hj.
        rewrite (nth_map2 _ _ _ _ 0 0) by (rewrite ?map_length, ?upd_length, ?repeat_length; lia).
        rewrite (nth_map_lt _ c j 0%Z) by lia. rewrite (nth_map_lt _ (seq 0 (length c)) j 0%nat) by (rewrite seq_length; lia).
        rewrite seq_nth by lia. cbn [plus]. rewrite nth_repeat_lt by lia.
        rewrite (nth_map_lt _ c i 0%Z) by lia. rewrite (nth_map_lt _ c j 0%Z) by lia.
        assert (A1 := H (nth i c 0%Z) ltac:(apply nth_In; lia)). assert (A2 := H (nth j c 0%Z) ltac:(apply nth_In; lia)).
        unfold GKPSpec.kz. destruct (Z.ltb_spec (nth i c 0%Z) 0); [lia|]. destruct (Z.ltb_spec (nth j c 0%Z) 0); [lia|]. cbn [orb].
        destruct (Nat.eqb_spec i j) as [->|Ne].
        * rewrite nth_upd_eq by (rewrite !repeat_length; lia). ring.
        * rewrite nth_upd_neq by auto. rewrite !repeat_length, nth_repeat. ring.
  Qed.

  Hypothesis Hpsd : psd k.
  Hypothesis Hreg : reg <> 0.

  Lemma rgram_defect c z : Forall (fun i => 0 <= i)%Z c -> length z = length c ->
    defect (rgram p0 k (Rabs reg) (pts c)) (responses_of y c) z
    = map (fun i => Rdot (map (kz (nth i c 0%Z)) c) z + Rabs reg * nth i z 0 - yz (nth i c 0%Z)) (seq 0 (length c)).
  Proof.
    intros H Hz. rewrite <- ridge_rgram by assumption. unfold defect.
    assert (LD : length (Rdiag (repeat 1 (length c))) = length c) by (unfold Rdiag; now rewrite map_length, seq_length, repeat_length).
    apply list_ext with (d := 0).
    - unfold Rridge, gram_of, responses_of. rewrite !map2_length, !map_length, seq_length. lia.
    - intros i Hi. unfold Rridge, gram_of, responses_of in Hi. rewrite !map2_length, !map_length in Hi.
      rewrite (nth_map2 _ _ _ _ [] 0) by (unfold Rridge, gram_of, responses_of; rewrite ?map2_length, ?map_length; lia).
      rewrite (nth_map_lt _ (seq 0 (length c)) i 0%nat) by (rewrite seq_length; lia). rewrite seq_nth by lia. cbn [plus].
      unfold responses_of. rewrite (nth_map_lt yz c i 0%Z) by lia. f_equal.
      unfold Rridge. rewrite (nth_map2 _ _ _ _ [] []) by (unfold gram_of; rewrite ?map_length; lia).
      unfold gram_of. rewrite (nth_map_lt _ c i 0%Z) by lia. rewrite Rdiag_row by (rewrite repeat_length; lia).
      rewrite ridge_dot by (rewrite ?upd_length, ?repeat_length, ?map_length; lia).
      rewrite Rdot_unit by (rewrite ?repeat_length; lia). rewrite nth_repeat_lt by lia. ring.
  Qed.

  Lemma fitted_ridge c a : Forall (fun i => 0 <= i)%Z c -> (fitted p0 k x y reg c a <-> ridge_equations p0 k x y reg c a).
  Proof.
    intros H. unfold fitted. rewrite ridge_rgram by assumption.
    set (A := rgram p0 k (Rabs reg) (pts c)). set (b := responses_of y c).
    assert (Lb : length b = length c) by apply map_length.
    assert (LA : length A = length b) by (unfold A, rgram; now rewrite map_length, seq_length, map_length, Lb).
    assert (Rp : 0 < Rabs reg) by now apply Rabs_pos_lt.
    assert (LD : forall z, length (defect A b z) = length c) by (intros; unfold defect; rewrite map2_length; lia).
    assert (PD : forall h, length h = length c -> Rdot h (Rmv A h) = 0 -> forall i, nth i h 0 = 0).
    { intros h Lh Z. unfold A in Z. rewrite rgram_quad in Z by (now rewrite map_length).
      pose proof (proj2 Hpsd (combine (pts c) h)). pose proof (Rdot_self_nonneg h). apply dot_self_zero.
      destruct (Rle_or_lt (Rdot h h) 0); [assumption|]. assert (0 < Rabs reg * Rdot h h) by now apply Rmult_lt_0_compat. lra. }
    assert (DEF : forall z, length z = length c -> (forall i, nth i (defect A b z) 0 = 0) <-> ridge_equations p0 k x y reg c z).
    { intros z Lz. unfold A, b. rewrite rgram_defect by assumption. split.
      - intros Z. split; [assumption|]. intros i Hi. specialize (Z i).
        rewrite (nth_map_lt _ (seq 0 (length c)) i 0%nat), seq_nth in Z by (rewrite ?seq_length; lia). cbn [plus] in Z. lra.
      - intros [_ E] i. destruct (Nat.lt_ge_cases i (length c)); [|apply nth_overflow; now rewrite map_length, seq_length].
        rewrite (nth_map_lt _ (seq 0 (length c)) i 0%nat), seq_nth by (rewrite ?seq_length; lia). cbn [plus]. rewrite E by assumption. ring. }
    split.
    - intros M. assert (La : length a = length c) by (destruct M; lia). apply DEF; [assumption|]. apply PD; [apply LD|].
      apply (first_order A b a); auto. rewrite LD. lia.
    - intros E. assert (La : length a = length c) by apply E. assert (Z := proj2 (DEF a La) E).
      assert (R0 : sq_residual A b a = 0).
      { rewrite residual_defect. unfold Rdot. apply Rsum_zero. intros q Hq. apply In_nth with (d := 0) in Hq as [i [Hi <-]].
        rewrite map2_length in Hi. rewrite (nth_map2 _ _ _ _ 0 0) by lia. rewrite Z. ring. }
      split; [lia|]. intros z' Lz'. assert (N : 0 <= sq_residual A b z') by (rewrite residual_defect; apply Rdot_self_nonneg).
      split; [lra|]. intros Q. enough (a = z') by (subst; lra).
      assert (Z' : forall i, nth i (defect A b z') 0 = 0) by (apply dot_self_zero; rewrite <- residual_defect; lra).
      assert (Zd : forall i, nth i (dif a z') 0 = 0).
      { apply PD; [unfold dif; rewrite map2_length; lia|]. unfold Rdot. apply Rsum_zero. intros q Hq. apply In_nth with (d := 0) in Hq as [i [Hi <-]].
        rewrite map2_length in Hi. rewrite (nth_map2 _ _ _ _ 0 0) by lia. enough (nth i (Rmv A (dif a z')) 0 = 0) as -> by ring.
        specialize (Z i). specialize (Z' i). unfold defect in Z, Z'. assert (HA : (i < length A)%nat) by (unfold Rmv in Hi; rewrite map_length in Hi; lia). rewrite (nth_map2 _ _ _ _ [] 0) in Z by lia. rewrite (nth_map2 _ _ _ _ [] 0) in Z' by lia.
        unfold Rmv. rewrite (nth_map_lt _ A i []) by (unfold Rmv in Hi; rewrite map_length in Hi; lia).
        assert (DD : forall row u v, length u = length v -> Rdot row (dif u v) = Rdot row u - Rdot row v).
        { clear. induction row as [|q row IH]; intros [|b u] [|c v]; simpl; intros; try discriminate; unfold Rdot, dif in *; simpl; try lra.
          rewrite IH by lia. lra. }
        rewrite DD by lia. lra. }
      apply list_ext with (d := 0); [lia|]. intros i Hi. specialize (Zd i). unfold dif in Zd. rewrite (nth_map2 _ _ _ _ 0 0) in Zd by lia. lra.
  Qed.
End Ridge.
