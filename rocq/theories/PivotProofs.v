(** * Expected residual of randomly pivoted Cholesky *)
From Coq Require Import List ZArith Bool Reals Lia Lra.
From Verif Require Import Num Jax RSum JaxFacts MetricSpec MetricProofs CholSpec CholProofs2 HalvingSpec HalvingProofs PivotSpec.
From Coquelicot Require Import Coquelicot.
Import ListNotations.
Open Scope R_scope.

(** ** elimination without assuming a positive pivot *)
Lemma psd_ext {I} (k k' : I -> I -> R) : (forall a b, k a b = k' a b) -> psd k -> psd k'.
Proof.
  intros E [S1 S2]. split; [intros; rewrite <- !E; apply S1|]. intro ms. specialize (S2 ms). unfold bil in *.
  erewrite Rsum_map_ext; [exact S2|]. intros a _. cbv beta. f_equal. apply Rsum_map_ext. intros b _. cbv beta. now rewrite E.
Qed.
Lemma eliminate_null {I} (k : I -> I -> R) p : psd k -> k p p = 0 -> forall a b, eliminate k p a b = k a b.
Proof.
  intros H Z a b. unfold eliminate. rewrite (proj1 H a p), (psd_zero k p a H Z). unfold Rdiv. ring.
Qed.
Lemma eliminate_psd' {I} (k : I -> I -> R) p : psd k -> psd (eliminate k p).
Proof.
  intro H. destruct (Req_dec (k p p) 0) as [Z|Z].
  - apply (psd_ext k); [|exact H]. intros. now rewrite eliminate_null.
  - apply eliminate_psd; [exact H|]. pose proof (psd_diag k p H). lra.
Qed.
Lemma residual_psd {I} l : forall (k : I -> I -> R), psd k -> psd (residual k l).
Proof. induction l as [|p l IH]; intros k H; [exact H|]. cbn. apply IH. now apply eliminate_psd'. Qed.
Lemma bil_elim {I} (k : I -> I -> R) p ms : psd k -> k p p <> 0 ->
  bil (eliminate k p) ms ms = bil k ms ms - lin ms (fun i => k i p) ^ 2 / k p p.
Proof.
  intros H Hp. rewrite bil_eliminate by (try apply H; exact Hp). rewrite bil_app_l, !bil_app_r, bil1.
  set (L := lin ms (fun i => k i p)).
  assert (E2 : forall c, bil k ms [(p, c)] = c * L).
  { intro c. rewrite bil_lin. unfold lin at 2. cbn [map Rsum fst snd].
    rewrite (lin_ext ms _ (fun q => c * k q p)) by (intros; ring). rewrite lin_mul. reflexivity. }
  rewrite (bil_sym k [_] ms (proj1 H)), !E2. field. exact Hp.
Qed.

(** ** the residual diagonal is a squared distance to a span *)
Lemma bil_snoc {I} (k : I -> I -> R) (Hk : psd k) ms p c :
  bil k ((p, c) :: ms) ((p, c) :: ms) = bil k ms ms + 2 * c * lin ms (fun i => k i p) + c * c * k p p.
Proof.
  change ((p, c) :: ms) with ([(p, c)] ++ ms). rewrite bil_app_l, !bil_app_r, bil1, (bil_sym k [_] ms (proj1 Hk)).
  assert (E2 : bil k ms [(p, c)] = c * lin ms (fun i => k i p)).
  { rewrite bil_lin. unfold lin at 2. cbn [map Rsum fst snd].
    rewrite (lin_ext ms _ (fun q => c * k q p)) by (intros; ring). rewrite lin_mul. reflexivity. }
  rewrite E2. ring.
Qed.
Lemma bil_swap {I} (k : I -> I -> R) (Hk : psd k) a b ms : bil k (a :: b :: ms) (a :: b :: ms) = bil k (b :: a :: ms) (b :: a :: ms).
Proof.
  destruct a as [p c], b as [q d]. rewrite !(bil_snoc k Hk). unfold lin. cbn [map Rsum fst snd]. rewrite (proj1 Hk p q). ring.
Qed.
Lemma residual_span {I} l : forall (k : I -> I -> R), psd k -> forall i, span_distance2 k l i (residual k l i i).
Proof.
  induction l as [|p l IH]; intros k Hk i; unfold span_distance2; cbv zeta.
  - cbn [residual fold_left length combine]. rewrite bil1. split; [intros; right; ring|]. exists []. split; [reflexivity|ring].
  - change (residual k (p :: l)) with (residual (eliminate k p) l).
    destruct (IH (eliminate k p) (eliminate_psd' k p Hk) i) as [A (cs & HL & B)].
    pose proof (psd_diag k p Hk) as Hpp.
    split.
    + intros ds HD. destruct ds as [|c ds]; [discriminate|]. cbn [combine]. rewrite (bil_swap k Hk), (bil_snoc k Hk).
      specialize (A ds ltac:(cbn in HD; lia)). cbv zeta in A. set (v := (i, 1) :: combine l ds) in *.
      eapply Rle_trans; [exact A|]. destruct (Req_dec (k p p) 0) as [Z|Z].
      * replace (bil (eliminate k p) v v) with (bil k v v).
        2: { unfold bil. apply Rsum_map_ext. intros a _. cbv beta. f_equal. apply Rsum_map_ext. intros b _. cbv beta. now rewrite eliminate_null. }
        replace (lin v (fun q => k q p)) with 0; [rewrite Z; lra|]. unfold lin.
        rewrite (Rsum_map_ext _ (fun _ => 0)); [now rewrite Rsum_map_const0|]. intros a _. cbv beta. rewrite (proj1 Hk (fst a) p), (psd_zero k p _ Hk Z). ring.
      * rewrite bil_elim by assumption. set (L := lin v _).
        assert (X : 0 <= (L + c * k p p) ^ 2 / k p p) by (apply Rmult_le_pos; [apply pow2_ge_0|left; apply Rinv_0_lt_compat; lra]).
        replace ((L + c * k p p) ^ 2 / k p p) with (L ^ 2 / k p p + 2 * c * L + c * c * k p p) in X by (field; exact Z). lra.
    + set (v := (i, 1) :: combine l cs) in *. exists ((if Req_EM_T (k p p) 0 then 0 else - lin v (fun q => k q p) / k p p) :: cs).
      split; [cbn; lia|]. cbn [combine]. rewrite (bil_swap k Hk), (bil_snoc k Hk). fold v. rewrite B. cbv zeta. fold v.
      destruct (Req_EM_T (k p p) 0) as [Z|Z].
      * rewrite Z. rewrite !Rmult_0_r, Rmult_0_l, !Rplus_0_r. unfold bil. apply Rsum_map_ext. intros a _. cbv beta. f_equal.
        apply Rsum_map_ext. intros b _. cbv beta. now rewrite eliminate_null.
      * rewrite bil_elim by assumption. field. exact Z.
Qed.

(** ** Bessel's inequality *)
Definition vec (n : nat) (v : nat -> R) : list (nat * R) := map (fun i => (i, v i)) (seq 0 n).
Lemma inner_sym n v w : inner n v w = inner n w v.
Proof. unfold inner. apply Rsum_map_ext. intros; ring. Qed.
Lemma inner_sub n v g c w : inner n w (fun i => g i - c * v i) = inner n w g - c * inner n w v.
Proof.
  unfold inner. rewrite <- Rsum_map_scal, <- Rsum_map_sub. apply Rsum_map_ext. intros; ring.
Qed.
Lemma inner_nonneg n v : 0 <= inner n v v.
Proof. unfold inner. induction (seq 0 n) as [|a l IH]; cbn; [lra|]. pose proof (Rle_0_sqr (v a)). unfold Rsqr in *. lra. Qed.
Lemma bessel n vs : orthonormal n vs -> forall g, Rsum (map (fun v => inner n v g ^ 2) vs) <= inner n g g.
Proof.
  induction vs as [|v vs IH]; intros HO g; [cbn; apply inner_nonneg|]. destruct HO as (H1 & H2 & H3). cbn [map Rsum].
  set (c := inner n v g). specialize (IH H3 (fun i => g i - c * v i)).
  assert (E : Rsum (map (fun w => inner n w (fun i => g i - c * v i) ^ 2) vs) = Rsum (map (fun w => inner n w g ^ 2) vs)).
  { apply Rsum_map_ext. intros w Hw. cbv beta. rewrite inner_sub, (inner_sym n w v), (H2 w Hw). ring. }
  assert (N : inner n (fun i => g i - c * v i) (fun i => g i - c * v i) = inner n g g - c ^ 2).
  { rewrite (inner_sub n v g c (fun i => g i - c * v i)), (inner_sym n _ g), (inner_sym n _ v), !inner_sub, H1, (inner_sym n g v). fold c. ring. }
  rewrite E, N in IH. lra.
Qed.
Lemma orthonormal_unit n vs : orthonormal n vs -> forall v, In v vs -> inner n v v = 1.
Proof. induction vs as [|w vs IH]; intros H v Hv; [contradiction|]. destruct H as (A & _ & B). destruct Hv as [<-|Hv]; auto. Qed.
Lemma sum_square_le (l : list R) : (Rsum l) ^ 2 <= INR (length l) * Rsum (map (fun a => a ^ 2) l).
Proof.
  induction l as [|a l IH]; [cbn; lra|]. cbn [map Rsum length]. rewrite S_INR. set (S := Rsum l) in *. set (q := Rsum (map _ l)) in *.
  assert (N : 0 <= INR (length l)) by apply pos_INR.
  assert (H : 2 * a * S <= INR (length l) * a ^ 2 + q).
  { destruct (Req_dec (INR (length l)) 0) as [Z|Z].
    - assert (length l = 0)%nat by (apply INR_eq; rewrite Z; reflexivity). destruct l; [|discriminate]. unfold S, q. cbn. lra.
    - assert (0 < INR (length l)) by lra. set (N' := INR (length l)) in *.
      assert (0 <= (N' * a - S) ^ 2) by apply pow2_ge_0. apply (Rmult_le_reg_l N'); [lra|]. nra. }
  nra.
Qed.

(** ** the scalar recursion *)
Section Scalar.
  Context (r B : R) (Hr : 1 <= r) (HB : 0 < B).
  Definition step (a : R) : R := a - a ^ 2 / (r * (a + B)).
  Lemma step_alt a : 0 <= a -> step a = (1 - / r) * a + / r * (B - B ^ 2 / (a + B)).
  Proof using Hr HB. intro Ha. unfold step. field. lra. Qed.
  Lemma inv_r : 0 < / r <= 1.
  Proof using Hr. split; [apply Rinv_0_lt_compat; lra|]. rewrite <- Rinv_1. apply Rinv_le_contravar; lra. Qed.
  Lemma step_le a a' : 0 <= a <= a' -> step a <= step a'.
  Proof using Hr HB.
    intro H. rewrite !step_alt by lra. pose proof inv_r.
    assert (/ (a' + B) <= / (a + B)) by (apply Rinv_le_contravar; lra).
    assert (B ^ 2 / (a' + B) <= B ^ 2 / (a + B)) by (apply Rmult_le_compat_l; [apply pow2_ge_0|assumption]). nra.
  Qed.
  Lemma step_nonneg a : 0 <= a -> 0 <= step a.
  Proof using Hr HB.
    intro H. replace 0 with (step 0); [apply step_le; lra|]. unfold step. unfold Rdiv. ring.
  Qed.
  Lemma iter_nonneg m a : 0 <= a -> 0 <= Nat.iter m step a.
  Proof using Hr HB. intro H. induction m; cbn; auto using step_nonneg. Qed.
  Lemma iter_le m a a' : 0 <= a <= a' -> Nat.iter m step a <= Nat.iter m step a'.
  Proof using Hr HB. intro H. induction m as [|m IH]; cbn; [lra|]. apply step_le. split; [apply iter_nonneg; lra|exact IH]. Qed.

  Context {J : Type} (js : list J) (p : J -> R) (Hp : forall j, In j js -> 0 <= p j) (Hs : Rsum (map p js) = 1).
  Notation avg f := (Rsum (map (fun j => p j * f j) js)).
  Lemma avg_le (f g : J -> R) : (forall j, In j js -> f j <= g j) -> avg f <= avg g.
  Proof using Hp.
    clear Hs. revert Hp. induction js as [|j l IH]; intros Hp' H; cbn; [lra|].
    pose proof (H j (or_introl eq_refl)). pose proof (Hp' j (or_introl eq_refl)).
    specialize (IH ltac:(intros; apply Hp'; now right) ltac:(intros; apply H; now right)). nra.
  Qed.
  Lemma avg_lin c d (f : J -> R) : avg (fun j => c + d * f j) = c + d * avg f.
  Proof using Hs.
    transitivity (c * Rsum (map p js) + d * avg f); [|rewrite Hs; ring].
    rewrite <- !Rsum_map_scal, <- Rsum_map_add. apply Rsum_map_ext. intros; ring.
  Qed.
  Lemma step_jensen (a : J -> R) : (forall j, In j js -> 0 <= a j) -> avg (fun j => step (a j)) <= step (avg a).
  Proof using Hr HB Hp Hs.
    intro Ha. set (c := avg a + B).
    assert (Hc : 0 <= avg a).
    { replace 0 with (avg (fun _ : J => 0)); [now apply avg_le|]. rewrite (Rsum_map_ext _ (fun _ => 0)); [apply Rsum_map_const0|]. intros; ring. }
    eapply Rle_trans.
    - apply (avg_le _ (fun j => (/ r * (B - B ^ 2 * (2 / c - B / c ^ 2))) + ((1 - / r) + / r * (B ^ 2 / c ^ 2)) * a j)).
      intros j Hj. specialize (Ha j Hj). rewrite step_alt by exact Ha. pose proof inv_r.
      assert (T : 2 / c - (a j + B) / c ^ 2 <= / (a j + B)).
      { set (y := a j + B). assert (0 < y) by (unfold y; lra). assert (0 < c) by (unfold c; lra).
        assert (Hyc : 0 < y * c ^ 2) by (apply Rmult_lt_0_compat; [assumption|apply pow_lt; assumption]).
        assert (X : 0 <= (y - c) ^ 2 / (y * c ^ 2)) by (apply Rmult_le_pos; [apply pow2_ge_0|left; now apply Rinv_0_lt_compat]).
        replace ((y - c) ^ 2 / (y * c ^ 2)) with (/ y - (2 / c - y / c ^ 2)) in X by (field; lra). lra. }
      assert (T2 : B ^ 2 * (2 / c - (a j + B) / c ^ 2) <= B ^ 2 / (a j + B)) by (apply Rmult_le_compat_l; [apply pow2_ge_0|exact T]).
      assert (T3 : / r * (B - B ^ 2 / (a j + B)) <= / r * (B - B ^ 2 * (2 / c - (a j + B) / c ^ 2))) by (apply Rmult_le_compat_l; lra).
      eapply Rle_trans; [apply Rplus_le_compat_l; exact T3|]. right. unfold Rdiv. ring.
    - rewrite avg_lin. rewrite step_alt by exact Hc. fold c. right. unfold c. field. lra.
  Qed.
  Lemma iter_jensen m (a : J -> R) : (forall j, In j js -> 0 <= a j) ->
    avg (fun j => Nat.iter m step (a j)) <= Nat.iter m step (avg a).
  Proof using Hr HB Hp Hs.
    intro Ha. induction m as [|m IH]; [right; reflexivity|]. cbn [Nat.iter].
    eapply Rle_trans; [apply (step_jensen (fun j => Nat.iter m step (a j))); intros; apply iter_nonneg; auto|].
    apply step_le. split; [|exact IH].
    replace 0 with (avg (fun _ : J => 0)); [apply avg_le; intros; apply iter_nonneg; auto|].
    rewrite (Rsum_map_ext _ (fun _ => 0)); [apply Rsum_map_const0|]. intros; ring.
  Qed.
End Scalar.

(** after enough steps the recursion is below [eps * B] *)
Section Descent.
  Context (r B eps a0 : R) (Hr : 1 <= r) (HB : 0 < B) (He : 0 < eps) (Ha : 0 <= a0).
  Notation f m := (Nat.iter m (step r B) a0).
  Lemma ln_ge x : 0 < x -> 1 - / x <= ln x.
  Proof.
    intro H. assert (L : ln (/ x) <= / x - 1).
    { assert (Hx : 0 < / x) by now apply Rinv_0_lt_compat. pose proof (exp_ineq1_le (ln (/ x))) as E. rewrite exp_ln in E by exact Hx. lra. }
    rewrite ln_Rinv in L by exact H. lra.
  Qed.
  Lemma step_lt a : 0 < a -> step r B a < a.
  Proof using Hr HB.
    intro H. unfold step. assert (0 < a ^ 2 / (r * (a + B))); [|lra]. apply Rdiv_lt_0_compat; [nra|]. apply Rmult_lt_0_compat; lra.
  Qed.
  Lemma step_pos a : 0 < a -> 0 < step r B a.
  Proof using Hr HB.
    intro H. rewrite (step_alt r B Hr HB) by lra. pose proof (inv_r r Hr).
    assert (B ^ 2 / (a + B) < B).
    { apply (Rmult_lt_reg_r (a + B)); [lra|]. unfold Rdiv. rewrite Rmult_assoc, Rinv_l by lra. nra. }
    assert (0 < / r * (B - B ^ 2 / (a + B))) by (apply Rmult_lt_0_compat; lra).
    assert (0 <= (1 - / r) * a) by (apply Rmult_le_pos; lra). lra.
  Qed.
  Lemma potential m : 0 < a0 -> INR m <= r * (ln (a0 / f m) + B * (/ f m - / a0)).
  Proof using Hr HB.
    intro H0. assert (P : forall m, 0 < f m) by (induction m0; cbn; [exact H0|now apply step_pos]).
    induction m as [|m IH].
    - cbn. unfold Rdiv. rewrite Rinv_r, ln_1 by lra. right. ring.
    - rewrite S_INR. change (f (S m)) with (step r B (f m)). pose proof (P m) as Hm. set (a := f m) in *. pose proof (step_lt a Hm) as L1. pose proof (step_pos a Hm) as L2.
      set (b := step r B a) in *.
      assert (LN : ln (a0 / b) = ln (a0 / a) + ln (a / b)).
      { rewrite <- ln_mult by (apply Rdiv_lt_0_compat; lra). f_equal. field. lra. }
      assert (G1 : (a - b) / a <= ln (a / b)).
      { pose proof (ln_ge (a / b) ltac:(apply Rdiv_lt_0_compat; lra)) as G. rewrite Rinv_div in G. replace ((a - b) / a) with (1 - b / a) by (field; lra). exact G. }
      assert (G2 : (a - b) / a ^ 2 <= / b - / a).
      { replace (/ b - / a) with ((a - b) / (a * b)) by (field; lra). apply Rmult_le_compat_l; [lra|]. apply Rinv_le_contravar; nra. }
      assert (D : r * ((a - b) / a + B * ((a - b) / a ^ 2)) = 1).
      { unfold b, step. field. lra. }
      rewrite LN.
      assert (r * ((a - b) / a + B * ((a - b) / a ^ 2)) <= r * (ln (a / b) + B * (/ b - / a))).
      { apply Rmult_le_compat_l; [lra|]. apply Rplus_le_compat; [exact G1|]. apply Rmult_le_compat_l; lra. }
      nra.
  Qed.
  Lemma descent m t : a0 <= t -> 0 < t -> r / eps + r * ln (t / (eps * B)) <= INR m -> f m <= eps * B.
  Proof using Hr HB He Ha.
    intros Ht Ht0 Hm. destruct (Rle_dec (f m) (eps * B)) as [L|L]; [exact L|exfalso]. apply Rnot_le_lt in L.
    assert (HeB : 0 < eps * B) by (apply Rmult_lt_0_compat; lra).
    assert (H0 : 0 < a0).
    { destruct Ha as [|E]; [assumption|exfalso]. rewrite <- E in L. assert (Z : Nat.iter m (step r B) 0 = 0).
      { clear. induction m as [|m IH]; [reflexivity|]. change (step r B (Nat.iter m (step r B) 0) = 0). rewrite IH. unfold step, Rdiv. ring. }
      rewrite Z in L. lra. }
    pose proof (potential m H0) as P. set (a := f m) in *.
    assert (Q1 : ln (a0 / a) < ln (t / (eps * B))).
    { apply ln_increasing; [apply Rdiv_lt_0_compat; lra|]. apply Rle_lt_trans with (t / a).
      - apply Rmult_le_compat_r; [left; apply Rinv_0_lt_compat; lra|exact Ht].
      - apply Rmult_lt_compat_l; [exact Ht0|]. apply Rinv_lt_contravar; nra. }
    assert (Q2 : B * (/ a - / a0) < / eps).
    { assert (0 < / a0) by now apply Rinv_0_lt_compat. assert (/ a < / (eps * B)) by (apply Rinv_lt_contravar; nra).
      replace (/ eps) with (B * / (eps * B)) by (field; lra). apply Rmult_lt_compat_l; lra. }
    nra.
  Qed.
End Descent.
