(** * Convergence rates of the greedy solvers *)
From Coq Require Import List ZArith Reals Lra Lia Bool Permutation.
From Verif Require Import Num Jax RSum MeanSpec GreedySpec MetricSpec GreedyProofs GreedyProofs2 GreedyProofs3 MetricProofs.
Import ListNotations.
Open Scope R_scope.

Lemma lin_bound {P} (ms : list (P * R)) (f : P -> R) (M : R) :
  (forall q, In q ms -> 0 <= snd q /\ (0 < snd q -> f (fst q) <= M)) -> lin ms f <= M * lin ms (fun _ => 1).
Proof.
  induction ms as [|[a c] ms IH]; intro H; unfold lin in *; cbn [map Rsum fst snd]; [lra|].
  destruct (H (a, c) (or_introl eq_refl)) as [H1 H2]. cbn [fst snd] in *.
  specialize (IH (fun q Hq => H q (or_intror Hq))).
  assert (c * f a <= M * c). { destruct H1 as [H1|<-]; [rewrite (Rmult_comm M); apply Rmult_le_compat_l; [lra|auto]|lra]. }
  lra.
Qed.
Lemma not_chosen_perm (l : list nat) n : NoDup l -> (forall i, In i l -> (i < n)%nat) ->
  Permutation (seq 0 n) (l ++ filter (fun i => negb (existsb (Nat.eqb i) l)) (seq 0 n)).
Proof.
  intros HN HI. apply NoDup_Permutation.
  - apply seq_NoDup.
  - assert (X : forall i, existsb (Nat.eqb i) l = true <-> In i l).
    { intro i. rewrite existsb_exists. split; [intros (j & Hj & E); apply Nat.eqb_eq in E; now subst|intro H; exists i; split; [auto|apply Nat.eqb_refl]]. }
    assert (D : forall l1 l2 : list nat, NoDup l1 -> NoDup l2 -> (forall a, In a l1 -> ~ In a l2) -> NoDup (l1 ++ l2)).
    { induction l1 as [|a l1 IH]; intros l2 N1 N2 H; [exact N2|]. inversion N1; subst. cbn. constructor.
      - rewrite in_app_iff. intros [?|?]; [contradiction|]. eapply H; [now left|eassumption].
      - apply IH; auto. intros b Hb. apply H. now right. }
    apply D; [exact HN|apply NoDup_filter, seq_NoDup|]. intros a Ha Hf. apply filter_In in Hf. destruct Hf as [_ Hf].
    rewrite (proj2 (X a) Ha) in Hf. discriminate.
  - intro i. rewrite in_app_iff, filter_In, in_seq. split.
    + intro H. destruct (existsb (Nat.eqb i) l) eqn:E; [|right; split; [exact H|reflexivity]].
      left. apply existsb_exists in E. destruct E as (j & Hj & E). apply Nat.eqb_eq in E. now subst.
    + intros [H|[H _]]; [|exact H]. specialize (HI i H). lia.
Qed.
Lemma Rsum_perm l l' : Permutation l l' -> Rsum l = Rsum l'.
Proof. induction 1; cbn; lra. Qed.
Lemma Rsum_not_chosen (f : nat -> R) l n : NoDup l -> (forall i, In i l -> (i < n)%nat) ->
  Rsum (map f (seq 0 n)) = Rsum (map f l) + Rsum (map f (filter (fun i => negb (existsb (Nat.eqb i) l)) (seq 0 n))).
Proof. intros HN HI. rewrite <- Rsum_app, <- map_app. apply Rsum_perm, Permutation_map, not_chosen_perm; assumption. Qed.
Lemma length_not_chosen l n : NoDup l -> (forall i, In i l -> (i < n)%nat) ->
  (length (filter (fun i => negb (existsb (Nat.eqb i) l)) (seq 0 n)) + length l = n)%nat.
Proof.
  intros HN HI. pose proof (Permutation_length (not_chosen_perm l n HN HI)) as H. rewrite seq_length, app_length in H. lia.
Qed.
Lemma in_not_chosen l n i : In i (filter (fun i => negb (existsb (Nat.eqb i) l)) (seq 0 n)) -> (i < n)%nat /\ ~ In i l.
Proof.
  intro H. apply filter_In in H. destruct H as [H1 H2]. apply in_seq in H1. split; [lia|]. intro HI.
  assert (E : existsb (Nat.eqb i) l = true) by (apply existsb_exists; exists i; split; [exact HI|apply Nat.eqb_refl]).
  rewrite E in H2. discriminate.
Qed.
Lemma Rsum_bound (f : nat -> R) l M : (forall i, In i l -> f i <= M) -> Rsum (map f l) <= INR (length l) * M.
Proof.
  induction l as [|a l IH]; intro H; [cbn; lra|]. cbn [map Rsum length]. rewrite S_INR. pose proof (H a (or_introl eq_refl)).
  specialize (IH (fun i Hi => H i (or_intror Hi))). lra.
Qed.

Section Rate.
  Context {P : Type} (k : P -> P -> R) (Hk : psd k) (x : nat -> P).
  Let Ks : forall a b, k a b = k b a := proj1 Hk.
  Definition phi (l : list nat) : list (P * R) := map (fun c => (x c, 1)) l.
  Lemma bil_phi l ms : bil k (phi l) ms = Rsum (map (fun c => bil k [(x c, 1)] ms) l).
  Proof.
    induction l as [|c l IH]; [reflexivity|]. cbn [map Rsum]. rewrite <- IH.
    change (phi (c :: l)) with ([(x c, 1)] ++ phi l). apply bil_app_l.
  Qed.
  Lemma phi_snoc l c : phi (l ++ [c]) = phi l ++ [(x c, 1)].
  Proof. unfold phi. now rewrite map_app. Qed.
  Lemma bil_one a ms : bil k [(a, 1)] ms = lin ms (k a).
  Proof. unfold bil, lin. cbn. ring. Qed.
  Lemma bil_one_phi a l : bil k [(a, 1)] (phi l) = Rsum (map (fun c => k a (x c)) l).
  Proof. rewrite bil_one. unfold lin, phi. rewrite map_map. apply Rsum_map_ext. intros; cbn; ring. Qed.
  Lemma bil_as_lin ms ns : bil k ms ns = lin ms (fun a => bil k [(a, 1)] ns).
  Proof. rewrite bil_lin. apply lin_ext. intro a. now rewrite bil_one. Qed.

  (** ** Herding *)
  Section Herding.
    Context (p : list (P * R)) (kappa e : R) (l : list nat).
    Hypothesis Hp : bil k p p <= kappa.
    Hypothesis Hc : forall c, In c l -> k (x c) (x c) <= kappa.
    Definition wv (l : list nat) : list (P * R) := scal (INR (length l) + 1) p ++ scal (-1) (phi l).
    Lemma bil_wv l' ms : bil k (wv l') ms = (INR (length l') + 1) * bil k p ms - bil k (phi l') ms.
    Proof. unfold wv. rewrite bil_app_l, !bil_scal_l. ring. Qed.
    Lemma bil_wv_snoc l' c ms : bil k (wv (l' ++ [c])) ms = bil k (wv l') ms + bil k p ms - bil k [(x c, 1)] ms.
    Proof. rewrite !bil_wv, phi_snoc, bil_app_l, app_length, plus_INR. cbn [length INR]. ring. Qed.
    Lemma sym a b : bil k a b = bil k b a. Proof. apply bil_sym. exact Ks. Qed.
    (** gap of the greedy choice *)
    Hypothesis Hgap : forall t, (t < length l)%nat ->
      2 * (bil k p (wv (firstn t l)) - bil k [(x (nth t l 0%nat), 1)] (wv (firstn t l))) <= e.
    Lemma firstn_snoc t : (t < length l)%nat -> firstn (S t) l = firstn t l ++ [nth t l 0%nat].
    Proof.
      clear. revert t. induction l as [|a l' IH]; intros t Ht; [cbn in Ht; lia|]. destruct t as [|t]; [reflexivity|].
      cbn [firstn nth app]. f_equal. apply IH. cbn in Ht. lia.
    Qed.
    Lemma energy t : (t <= length l)%nat -> bil k (wv (firstn t l)) (wv (firstn t l)) <= bil k p p + INR t * (4 * kappa + e).
    Proof using Hk Hp Hc Hgap.
      induction t as [|t IH]; intro Ht.
      - cbn [firstn INR]. rewrite !bil_wv. rewrite (sym p (wv [])), !bil_wv. unfold phi. cbn [map length INR].
        rewrite (sym [] (wv [])). assert (Z : forall ms, bil k [] ms = 0) by reflexivity.
        rewrite (sym (wv []) []), Z. rewrite Z. lra.
      - rewrite firstn_snoc by lia. set (l' := firstn t l) in *. set (c := nth t l 0%nat).
        assert (Ic : In c l) by (apply nth_In; lia).
        specialize (IH ltac:(lia)). pose proof (Hgap t ltac:(lia)) as G. fold l' c in G.
        rewrite bil_wv_snoc. rewrite (sym (wv l') (wv (l' ++ [c]))), (sym p (wv (l' ++ [c]))), (sym [(x c, 1)] (wv (l' ++ [c]))), !bil_wv_snoc.
        rewrite (sym (wv l') p), (sym (wv l') [(x c, 1)]), (sym p [(x c, 1)]).
        pose proof (proj2 Hk (p ++ [(x c, 1)])) as PS. rewrite bil_app_l, !bil_app_r, (sym p [(x c, 1)]) in PS.
        assert (E1 : bil k [(x c, 1)] [(x c, 1)] = k (x c) (x c)) by (unfold bil; cbn; ring).
        rewrite E1 in *. pose proof (Hc c Ic). rewrite S_INR. lra.
    Qed.
    Lemma herding_bound : l <> [] ->
      sqrt (bil k (p ++ scal (- / INR (length l)) (phi l)) (p ++ scal (- / INR (length l)) (phi l)))
      <= (sqrt kappa + sqrt (kappa + INR (length l) * (4 * kappa + e))) / INR (length l).
    Proof using Hk Hp Hc Hgap.
      intro Hl. set (T := INR (length l)). assert (HT : 0 < T) by (apply lt_0_INR; destruct l; [congruence|cbn; lia]).
      set (d := p ++ scal (- / T) (phi l)).
      assert (E : forall ms, bil k (scal (-1) p ++ wv l) ms = T * bil k d ms).
      { intro ms. rewrite bil_app_l, bil_scal_l, bil_wv. unfold d. rewrite bil_app_l, bil_scal_l. fold T. field. lra. }
      assert (E2 : bil k (scal (-1) p ++ wv l) (scal (-1) p ++ wv l) = T * T * bil k d d).
      { rewrite E, (sym d), E. ring. }
      pose proof (minkowski k Hk (scal (-1) p) (wv l)) as M. rewrite E2 in M.
      rewrite bil_scal_l, bil_scal_r in M. replace (-1 * (-1 * bil k p p)) with (bil k p p) in M by ring.
      pose proof (energy (length l) (le_n _)) as W. rewrite firstn_all in W. fold T in W.
      rewrite sqrt_mult_alt, sqrt_square in M by nra.
      apply Rmult_le_reg_l with T; [exact HT|]. replace (T * ((sqrt kappa + sqrt (kappa + T * (4 * kappa + e))) / T)) with (sqrt kappa + sqrt (kappa + T * (4 * kappa + e))) by (field; lra).
      eapply Rle_trans; [exact M|]. apply Rplus_le_compat; apply sqrt_le_1_alt; [exact Hp|lra].
    Qed.
  End Herding.
End Rate.
