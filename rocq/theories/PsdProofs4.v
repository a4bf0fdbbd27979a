(** * Positive semi-definiteness of the shipped kernels *)
From Coq Require Import List ZArith Reals Lia Lra.
From Coquelicot Require Import Coquelicot.
From Verif Require Import Num Jax RSum JaxFacts MetricSpec MetricProofs MetricProofs2 KernelModel KernelSpec KernelProofs
  KernelProofs2 KernelProofs3 KernelProofs4 KernelProofs5 KernelProofs6 PsdProofs PsdProofs2 PsdProofs3 PsdSpec.
Import ListNotations.
Open Scope R_scope.

(** ** Matern *)
(** coefficients of the Matern polynomial *)
Definition mcoef (p i : nat) : R :=
  if (i <=? p)%nat then INR (fact (p + i)) / (INR (fact i) * INR (fact (p - i))) else 0.
Definition msum (p : nat) (u : R) : R := Rsum (map (fun i => mcoef p i * u ^ (p - i)) (seq 0 (S p))).
Lemma INR_fact_S n : INR (fact (S n)) = (INR n + 1) * INR (fact n).
Proof. change (fact (S n)) with (S n * fact n)%nat. now rewrite mult_INR, S_INR. Qed.
Lemma mcoef_0 p : mcoef p 0 = 1.
Proof. unfold mcoef. cbn [Nat.leb]. rewrite Nat.add_0_r, Nat.sub_0_r. cbn [fact INR]. field. apply INR_fact_neq_0. Qed.
Lemma mcoef_out p i : (p < i)%nat -> mcoef p i = 0.
Proof. intro. unfold mcoef. destruct (Nat.leb_spec i p); auto. lia. Qed.
Lemma mcoef_step p i : (i <= S p)%nat -> mcoef (S (S p)) (S i) = (4 * INR p + 6) * mcoef (S p) i + mcoef p (S i).
Proof.
  intro H. unfold mcoef.
  destruct (Nat.leb_spec (S i) (S (S p))) as [_|]; [|lia]. destruct (Nat.leb_spec i (S p)) as [_|]; [|lia].
  assert (F1 := INR_fact_neq_0 i).
  destruct (Nat.leb_spec (S i) p) as [L|L].
  - destruct (Nat.le_exists_sub (S i) p L) as (m & -> & _).
    replace (S (S (m + S i)) + S i)%nat with (S (S (m + 2 * S i))) by lia.
    replace (S (S (m + S i)) - S i)%nat with (S (S m)) by lia.
    replace (S (m + S i) + i)%nat with (m + 2 * S i)%nat by lia.
    replace (S (m + S i) - i)%nat with (S (S m)) by lia.
    replace (m + S i + S i)%nat with (m + 2 * S i)%nat by lia.
    replace (m + S i - S i)%nat with m by lia.
    assert (F2 := INR_fact_neq_0 m). assert (0 <= INR m) by apply pos_INR. assert (0 <= INR i) by apply pos_INR.
    rewrite !INR_fact_S. generalize (INR (fact (m + 2 * S i))). intro F. rewrite ?S_INR, ?plus_INR, ?mult_INR, ?S_INR. change (INR 0) with 0.
    field. repeat split; lra || auto.
  - assert (i = p \/ i = S p) as [->| ->] by lia.
    + replace (S (S p) + S p)%nat with (S (S (p + S p))) by lia. replace (S (S p) - S p)%nat with 1%nat by lia.
      replace (S p + p)%nat with (p + S p)%nat by lia. replace (S p - p)%nat with 1%nat by lia.
      assert (0 <= INR p) by apply pos_INR. rewrite !INR_fact_S. generalize (INR (fact (p + S p))). intro F. change (fact 0) with 1%nat.
      rewrite ?S_INR, ?plus_INR, ?S_INR. change (INR 0) with 0. field. repeat split; lra || auto.
    + replace (S (S p) + S (S p))%nat with (S (S (S p + S p))) by lia. replace (S (S p) - S (S p))%nat with 0%nat by lia.
      replace (S p - S p)%nat with 0%nat by lia.
      assert (0 <= INR p) by apply pos_INR. rewrite (INR_fact_S (S (S p + S p))), (INR_fact_S (S p + S p)), (INR_fact_S (S p)).
      generalize (INR (fact (S p + S p))). intro F. change (fact 0) with 1%nat. revert F1. generalize (INR (fact (S p))). intros G F1.
      rewrite ?S_INR, ?plus_INR, ?S_INR. change (INR 0) with 0. field. repeat split; lra || auto.
Qed.
Lemma msum_rec p u : msum (S (S p)) u = (4 * INR p + 6) * msum (S p) u + u ^ 2 * msum p u.
Proof.
  assert (E : u ^ 2 * msum p u = Rsum (map (fun i => mcoef p i * u ^ (S (S p) - i)) (seq 0 (S (S (S p)))))).
  { unfold msum. rewrite (seq_S (S (S p))), (seq_S (S p)), !map_app, !Rsum_app. cbn [map Rsum Nat.add].
    rewrite !(mcoef_out p) by lia. rewrite <- Rsum_map_scal.
    transitivity (Rsum (map (fun i => mcoef p i * u ^ (S (S p) - i)) (seq 0 (S p)))); [|change (n0 ROps) with 0; ring].
    apply Rsum_map_ext. intros i Hi. apply in_seq in Hi. replace (S (S p) - i)%nat with (2 + (p - i))%nat by lia. rewrite pow_add. ring. }
  rewrite E. unfold msum. rewrite <- Rsum_map_scal.
  change (seq 0 (S (S (S p)))) with (0%nat :: seq 1 (S (S p))). rewrite <- seq_shift, !map_cons, !map_map.
  change (Rsum (?a :: ?l)) with (a + Rsum l). rewrite !mcoef_0.
  rewrite (Rsum_map_ext (fun i => mcoef (S (S p)) (S i) * u ^ (S (S p) - S i))
    (fun i => (4 * INR p + 6) * (mcoef (S p) i * u ^ (S p - i)) + mcoef p (S i) * u ^ (S (S p) - S i))).
  - rewrite Rsum_map_add. ring.
  - intros i Hi. apply in_seq in Hi. rewrite mcoef_step by lia. cbn [Nat.sub]. ring.
Qed.
Lemma msum_Dp p : forall c, msum p (4 * c) = 4 ^ p * Dp p c /\ msum (S p) (4 * c) = 4 ^ S p * Dp (S p) c.
Proof.
  induction p; intro c.
  - split; unfold msum, mcoef; cbn; field.
  - destruct (IHp c) as [E1 E2]. split; auto. rewrite msum_rec, E1, E2.
    change (Dp (S (S p)) c) with ((INR p + 3 / 2) * Dp (S p) c + c ^ 2 * Dp p c). cbn [pow]. field.
Qed.

Section Matern.
  Context {P : Type}.
  Variable s : P -> P -> R.
  Hypothesis Pos : forall p q, 0 <= s p q.
  Hypothesis C : cnd s.
  Lemma psd_Dp p a : 0 <= a -> psd (fun x y => erf_inf * exp (- (2 * (a * sqrt (s x y)))) * Dp p (a * sqrt (s x y))).
  Proof.
    intro Ha. assert (Sy : forall x y, s x y = s y x) by apply C.
    apply psd_lim with (f := fun n x y => Ap p (a * sqrt (s x y)) (hi n) - Ap p (a * sqrt (s x y)) (/ hi n)).
    2:{ intros x y. apply Ap_lim. apply Rmult_le_pos; auto. apply sqrt_pos. }
    intro n. split; [intros x y; now rewrite (Sy x y)|]. intro ms.
    assert (H := hi_pos n). assert (V1 : 1 <= hi n). { unfold hi. rewrite S_INR. assert (0 <= INR n) by apply pos_INR. lra. }
    assert (I1 : / hi n <= 1). { apply Rle_trans with (/ 1); [apply Rinv_le_contravar; lra|lra]. }
    assert (I0 := Rinv_0_lt_compat _ H).
    assert (M : bil (fun x y => Ap p (a * sqrt (s x y)) (/ hi n)) ms ms <= bil (fun x y => Ap p (a * sqrt (s x y)) (hi n)) ms ms).
    { apply (increasing_from (fun v => bil (fun x y => Ap p (a * sqrt (s x y)) v) ms ms)
        (fun v => bil (fun x y => v ^ (2 * p) * mixw (a * sqrt (s x y)) v) ms ms)); [lra| |].
      - intros v Hv. apply (derive_bil ms ms (fun v x y => Ap p (a * sqrt (s x y)) v)). intros x y. apply Ap_d. lra.
      - intros v Hv. assert (0 < v) by lra. assert (0 < v ^ 2) by (now apply pow_lt).
        rewrite (bil_ext _ (fun x y => v ^ (2 * p) * exp (- v ^ 2) * exp (- (a ^ 2 / v ^ 2 * s x y)))).
        + rewrite bil_scalk. apply Rmult_le_pos.
          * apply Rmult_le_pos; [apply pow_le; lra|left; apply exp_pos].
          * apply psd_gauss; auto. apply Rmult_le_pos; [apply pow2_ge_0|left; now apply Rinv_0_lt_compat].
        + intros x y. rewrite Rmult_assoc. f_equal. unfold mixw. rewrite <- exp_plus. f_equal.
          rewrite Rpow_mult_distr. replace (sqrt (s x y) ^ 2) with (s x y) by (rewrite pow2_sqrt; auto). field. lra. }
    rewrite (bil_ext _ (fun x y => Ap p (a * sqrt (s x y)) (hi n) + (-1) * Ap p (a * sqrt (s x y)) (/ hi n))) by (intros; ring).
    rewrite bil_addk, bil_scalk. lra.
  Qed.
  Lemma psd_matern p b : 0 <= b -> psd (fun x y => exp (- (b * sqrt (s x y))) * msum p (2 * (b * sqrt (s x y)))).
  Proof.
    intro Hb. assert (E := erf_inf_pos). assert (F : 0 < 4 ^ p) by (apply pow_lt; lra).
    apply psd_ext with (fun x y => 4 ^ p / erf_inf * (erf_inf * exp (- (2 * (b / 2 * sqrt (s x y)))) * Dp p (b / 2 * sqrt (s x y)))).
    - intros x y. set (t := sqrt (s x y)). replace (2 * (b * t)) with (4 * (b / 2 * t)) by field.
      rewrite (proj1 (msum_Dp p _)). replace (2 * (b / 2 * t)) with (b * t) by field. field. lra.
    - apply psd_scal; [left; now apply Rdiv_lt_0_compat|]. apply psd_Dp. lra.
  Qed.
End Matern.

(** ** Conditionally negative definite distances *)
Lemma cnd_ext {P} (k k' : P -> P -> R) : (forall p q, k p q = k' p q) -> cnd k -> cnd k'.
Proof. intros E [H1 H2]. split; [intros; now rewrite <- !E|]. intros ms Z. rewrite <- (bil_ext k k') by auto. now apply H2. Qed.
Lemma cnd_add {P} (k k' : P -> P -> R) : cnd k -> cnd k' -> cnd (fun p q => k p q + k' p q).
Proof.
  intros [H1 H2] [H3 H4]. split; [intros; now rewrite (H1 a), (H3 a)|]. intros ms Z. rewrite bil_addk.
  specialize (H2 ms Z). specialize (H4 ms Z). lra.
Qed.
Lemma bil_zero {P} (ms ns : list (P * R)) : bil (fun _ _ => 0) ms ns = 0.
Proof. transitivity (bil (fun _ _ : P => 0 * 0) ms ns); [apply bil_ext; intros; ring|]. rewrite bil_scalk. ring. Qed.
Lemma cnd_sum {P A} (f : A -> P -> P -> R) (l : list A) : (forall a, In a l -> cnd (f a)) -> cnd (fun p q => Rsum (map (fun a => f a p q) l)).
Proof.
  induction l; intro H.
  - split; [reflexivity|]. intros ms _. cbn. change (n0 ROps) with 0. rewrite bil_zero. lra.
  - apply (cnd_add (f a) (fun p q => Rsum (map (fun a => f a p q) l))); [apply H; now left|]. apply IHl. intros. apply H. now right.
Qed.
Lemma cnd_sq {P} (f : P -> R) : cnd (fun p q => (f p - f q) ^ 2).
Proof.
  split; [intros; ring|]. intros ms Z.
  rewrite (bil_ext _ (fun p q => (f p ^ 2 * 1 + 1 * f q ^ 2) + (-2) * (f p * f q))) by (intros; ring).
  rewrite !bil_addk, (bil_scalk (-2)), (bil_rank1 (fun p => f p ^ 2) (fun _ => 1)), (bil_rank1 (fun _ => 1) (fun q => f q ^ 2)), (bil_rank1 f f).
  rewrite lin_const, Z. assert (Q := Rle_0_sqr (lin ms f)). unfold Rsqr in Q. lra.
Qed.
Definition point (d : nat) := {x : list R | length x = d}.
Definition pt {d} (p : point d) : list R := proj1_sig p.
Definition coord {d} (i : nat) (p : point d) : R := nth i (pt p) 0.
Lemma pt_len {d} (p : point d) : length (pt p) = d. Proof. exact (proj2_sig p). Qed.
Lemma vsub_seq {d} (p q : point d) : vsub (pt p) (pt q) = map (fun i => coord i p - coord i q) (seq 0 d).
Proof.
  unfold vsub. rewrite (list_seq (pt p) 0), (list_seq (pt q) 0), !pt_len at 1. apply map2_map_same.
Qed.
Lemma sqdist_seq {d} (p q : point d) : sqdist (pt p) (pt q) = Rsum (map (fun i => (coord i p - coord i q) ^ 2) (seq 0 d)).
Proof.
  unfold sqdist. rewrite (Rdot_seq d) by (rewrite vsub_seq, map_length, seq_length; auto).
  apply Rsum_map_ext. intros i Hi. apply in_seq in Hi. rewrite vsub_seq, nth_map_seq by lia. ring.
Qed.
Lemma dist1_seq {d} (p q : point d) : dist1 (pt p) (pt q) = Rsum (map (fun i => sqrt ((coord i p - coord i q) ^ 2)) (seq 0 d)).
Proof.
  unfold dist1. rewrite vsub_seq, map_map. apply Rsum_map_ext. intros i _. now rewrite <- Rsqr_pow2, sqrt_Rsqr_abs.
Qed.
Lemma cnd_sqdist d : cnd (fun p q : point d => sqdist (pt p) (pt q)).
Proof.
  eapply cnd_ext; [intros; symmetry; apply sqdist_seq|]. apply (cnd_sum (fun i (p q : point d) => (coord i p - coord i q) ^ 2)).
  intros i _. apply cnd_sq.
Qed.
Lemma cnd_dist1 d : cnd (fun p q : point d => dist1 (pt p) (pt q)).
Proof.
  eapply cnd_ext; [intros; symmetry; apply dist1_seq|]. apply (cnd_sum (fun i (p q : point d) => sqrt ((coord i p - coord i q) ^ 2))).
  intros i _. apply (cnd_sqrt (fun p q : point d => (coord i p - coord i q) ^ 2)); [intros; apply pow2_ge_0|apply cnd_sq].
Qed.
Lemma psd_dot d : psd (fun p q : point d => Rdot (pt p) (pt q)).
Proof.
  apply psd_ext with (fun p q => Rsum (map (fun k => k p q) (map (fun i (p q : point d) => coord i p * coord i q) (seq 0 d)))).
  - intros. rewrite (Rdot_seq d) by apply pt_len. now rewrite map_map.
  - apply psd_sum. intros k Hk. apply in_map_iff in Hk as (i & <- & _). apply psd_rank1.
Qed.

(** ** Trigonometric kernels *)
Lemma psd_cos {P} (f : P -> R) : psd (fun p q => cos (f p - f q)).
Proof.
  apply psd_ext with (fun p q => cos (f p) * cos (f q) + sin (f p) * sin (f q)); [intros; now rewrite cos_minus|].
  apply psd_add; [apply (psd_rank1 (fun p => cos (f p)))|apply (psd_rank1 (fun p => sin (f p)))].
Qed.
Definition poisson_sum (r th : R) (N : nat) : R := 1 + 2 * Rsum (map (fun n => r ^ S n * cos (INR (S n) * th)) (seq 0 N)).
Lemma poisson_partial r th N : (1 - 2 * r * cos th + r ^ 2) * poisson_sum r th N
  = 1 - r ^ 2 - 2 * r ^ (N + 1) * cos (INR (N + 1) * th) + 2 * r ^ (N + 2) * cos (INR N * th).
Proof.
  induction N.
  - unfold poisson_sum. cbn [Nat.add seq map Rsum INR]. change (n0 ROps) with 0. rewrite Rmult_0_l, cos_0, Rmult_1_l. ring.
  - assert (E : poisson_sum r th (S N) = poisson_sum r th N + 2 * (r ^ S N * cos (INR (S N) * th))).
    { unfold poisson_sum. rewrite seq_S, map_app, Rsum_app. cbn [map Rsum Nat.add]. change (n0 ROps) with 0. ring. }
    rewrite E, Rmult_plus_distr_l, IHN. replace (N + 1)%nat with (S N) by lia. replace (N + 2)%nat with (S (S N)) by lia.
    replace (S N + 1)%nat with (S (S N)) by lia. replace (S N + 2)%nat with (S (S (S N))) by lia.
    rewrite (S_INR (S N)).
    assert (C1 : cos ((INR (S N) + 1) * th) = cos (INR (S N) * th) * cos th - sin (INR (S N) * th) * sin th).
    { rewrite <- cos_plus. f_equal. ring. }
    assert (C2 : cos (INR N * th) = cos (INR (S N) * th) * cos th + sin (INR (S N) * th) * sin th).
    { rewrite <- cos_minus. f_equal. rewrite S_INR. ring. }
    rewrite C1, C2. cbn [pow]. ring.
Qed.
Lemma poisson_lim r th : 0 < r < 1 -> is_lim_seq (fun N => / (1 - r ^ 2) * poisson_sum r th N) (/ (1 - 2 * r * cos th + r ^ 2)).
Proof.
  intro Hr. assert (D := poisson_den_pos r th ltac:(lra)). unfold poisson_den in D.
  assert (R2 : 0 < 1 - r ^ 2) by nra.
  assert (B : forall (u : nat -> nat) (v : nat -> R), (forall n, (n <= u n)%nat) -> is_lim_seq (fun n => 2 * r ^ u n * cos (v n)) 0).
  { intros u v U. apply is_lim_seq_abs_0. apply is_lim_seq_le_le with (fun _ => 0) (fun n => 2 * r ^ n).
    - intro n. split; [apply Rabs_pos|]. rewrite !Rabs_mult, (Rabs_right 2) by lra.
      assert (P : 0 < r ^ u n) by (apply pow_lt; lra). rewrite (Rabs_right (r ^ u n)) by lra.
      assert (Q : r ^ u n <= r ^ n). { replace (u n) with (n + (u n - n))%nat by (specialize (U n); lia). rewrite pow_add.
        assert (0 < r ^ n) by (apply pow_lt; lra). assert (r ^ (u n - n) <= 1) by (rewrite <- (pow1 (u n - n)); apply pow_incr; lra). nra. }
      assert (Rabs (cos (v n)) <= 1) by (apply Rabs_le; apply COS_bound). assert (0 <= Rabs (cos (v n))) by apply Rabs_pos. nra.
    - apply is_lim_seq_const.
    - replace (Finite 0) with (Finite (2 * 0)) by (f_equal; ring). apply (is_lim_seq_scal_l (fun n => r ^ n) 2 0).
      apply is_lim_seq_geom. rewrite Rabs_right; lra. }
  assert (L := is_lim_seq_plus' _ _ _ _ (is_lim_seq_minus' _ _ _ _ (is_lim_seq_const (1 - r ^ 2))
    (B (fun n => n + 1)%nat (fun n => INR (n + 1) * th) ltac:(intro; cbv beta; lia))) (B (fun n => n + 2)%nat (fun n => INR n * th) ltac:(intro; cbv beta; lia))).
  assert (L2 := lim_lin2 _ _ (/ (1 - r ^ 2) / (1 - 2 * r * cos th + r ^ 2)) 0 _ _ L L).
  match type of L2 with is_lim_seq _ (Finite ?a) => replace (/ (1 - 2 * r * cos th + r ^ 2)) with a by (field; lra) end.
  apply is_lim_seq_ext with (2 := L2). intro n. cbv beta. rewrite <- poisson_partial. field. lra.
Qed.
Lemma psd_poisson {P} r (f : P -> R) : 0 < r < 1 -> psd (fun p q => / (1 - 2 * r * cos (f p - f q) + r ^ 2)).
Proof.
  intro Hr. apply psd_lim with (f := fun N p q => / (1 - r ^ 2) * poisson_sum r (f p - f q) N); [|intros; now apply poisson_lim].
  intro N. apply psd_scal; [left; apply Rinv_0_lt_compat; nra|]. unfold poisson_sum.
  apply psd_add; [apply psd_const; lra|]. apply psd_scal; [lra|].
  apply psd_ext with (fun p q => Rsum (map (fun k => k p q) (map (fun n (p q : P) => r ^ S n * cos (INR (S n) * f p - INR (S n) * f q)) (seq 0 N)))).
  - intros. rewrite map_map. apply Rsum_map_ext. intros n _. do 2 f_equal. ring.
  - apply psd_sum. intros k Hk. apply in_map_iff in Hk as (n & <- & _). apply psd_scal; [apply pow_le; lra|].
    apply (psd_cos (fun p => INR (S n) * f p)).
Qed.
Lemma dist2_one (p q : point 1) : dist2 (pt p) (pt q) = Rabs (coord 0 p - coord 0 q).
Proof.
  unfold dist2. rewrite sqdist_seq. cbn [seq map Rsum]. change (n0 ROps) with 0. rewrite Rplus_0_r.
  now rewrite <- Rsqr_pow2, sqrt_Rsqr_abs.
Qed.
Lemma cos_abs x : cos (Rabs x) = cos x.
Proof. unfold Rabs. destruct (Rcase_abs x); auto. apply cos_neg. Qed.

(** ** All shipped kernels *)
Lemma kernel_psd d k : well_formed k -> one_dim_ok d k -> psd (fun p q : point d => kfun k (pt p) (pt q)).
Proof.
  assert (SP : forall p q : point d, 0 <= sqdist (pt p) (pt q)) by (intros; apply sqdist_nonneg).
  assert (LP : forall l, 0 < l -> 0 < / (2 * l ^ 2)).
  { intros l H. assert (0 < l ^ 2) by (now apply pow_lt). apply Rinv_0_lt_compat. lra. }
  induction k; intros W H; cbn [well_formed documented_params one_dim_ok] in W, H; cbn [kfun]; try (destruct W as [W1 W2]).
  - now apply psd_const.
  - apply psd_add; [apply psd_scal; [lra|apply psd_dot]|apply psd_const; lra].
  - apply psd_scal; [lra|]. apply psd_pow. apply psd_add; [apply psd_dot|apply psd_const; lra].
  - apply psd_scal; [lra|]. apply psd_ext with (fun p q => exp (- (/ (2 * len ^ 2) * sqrt (sqdist (pt p) (pt q))))).
    + intros. do 2 f_equal. unfold dist2, Rdiv. ring.
    + apply (psd_exp_sqrt (fun p q : point d => sqdist (pt p) (pt q))); auto; [apply cnd_sqdist|left; now apply LP].
  - apply psd_scal; [lra|]. apply psd_ext with (fun p q => exp (- (/ (2 * len ^ 2) * dist1 (pt p) (pt q)))).
    + intros. do 2 f_equal. unfold Rdiv. ring.
    + apply schoenberg, cnd_scal; [left; now apply LP|apply cnd_dist1].
  - apply psd_scal; [lra|]. apply psd_ext with (fun p q => exp (- (/ (2 * len ^ 2) * sqdist (pt p) (pt q)))).
    + intros. do 2 f_equal. unfold Rdiv. ring.
    + apply (psd_gauss (fun p q : point d => sqdist (pt p) (pt q))); [apply cnd_sqdist|left; now apply LP].
  - apply psd_scal; [lra|]. apply psd_ext with (fun p q => Rpower (1 + / (2 * len ^ 2) * sqdist (pt p) (pt q)) (- / 2)).
    + intros. specialize (SP p q). assert (L := LP len ltac:(lra)). assert (0 <= / (2 * len ^ 2) * sqdist (pt p) (pt q)) by (apply Rmult_le_pos; lra).
      rewrite Rpower_Ropp, Rpower_sqrt by lra. do 3 f_equal. unfold Rdiv. ring.
    + apply (psd_power (fun p q : point d => sqdist (pt p) (pt q))); auto; [apply cnd_sqdist|left; now apply LP|lra].
  - apply psd_scal; [lra|]. destruct W1 as (W1 & W3 & W4). destruct (Req_dec rw 0) as [->|N].
    + apply psd_ext with (fun _ _ => 1); [|apply psd_const; lra]. intros. unfold Rpower. now rewrite Ropp_0, Rmult_0_l, exp_0.
    + apply psd_ext with (fun p q => Rpower (1 + / (2 * rw * len ^ 2) * sqdist (pt p) (pt q)) (- rw)).
      * intros. do 2 f_equal. unfold Rdiv. ring.
      * apply (psd_power (fun p q : point d => sqdist (pt p) (pt q))); auto; [apply cnd_sqdist|].
        assert (0 < len ^ 2) by (now apply pow_lt). left. apply Rinv_0_lt_compat. nra.
  - set (n := Z.to_nat degree). unfold matern_fun. assert (R0 := sqrt_pos (2 * INR n + 1)). destruct W1 as (W1 & W3 & W4).
    assert (IL := Rinv_0_lt_compat _ W1).
    apply psd_ext with (fun p q => scale ^ 2 * (INR (fact n) / INR (fact (2 * n))) *
      (exp (- (sqrt (2 * INR n + 1) / len * sqrt (sqdist (pt p) (pt q)))) * msum n (2 * (sqrt (2 * INR n + 1) / len * sqrt (sqdist (pt p) (pt q)))))).
    + intros p q. cbv zeta. unfold dist2. replace (sqrt (2 * INR n + 1) * sqrt (sqdist (pt p) (pt q)) / len)
        with (sqrt (2 * INR n + 1) / len * sqrt (sqdist (pt p) (pt q))) by (unfold Rdiv; ring).
      set (b := sqrt (2 * INR n + 1) / len * sqrt (sqdist (pt p) (pt q))).
      assert (E : msum n (2 * b) = Rsum (map (fun i => INR (fact (n + i)) / (INR (fact i) * INR (fact (n - i))) * (2 * b) ^ (n - i)) (seq 0 (n + 1)))).
      { unfold msum. replace (n + 1)%nat with (S n) by lia. apply Rsum_map_ext. intros i Hi. apply in_seq in Hi. unfold mcoef.
        destruct (Nat.leb_spec i n); [reflexivity|lia]. }
      rewrite <- E. ring.
    + apply psd_scal.
      * apply Rmult_le_pos; [apply pow2_ge_0|]. apply Rmult_le_pos; [apply pos_INR|left; apply Rinv_0_lt_compat, INR_fact_lt_0].
      * apply (psd_matern (fun p q : point d => sqdist (pt p) (pt q))); auto; [apply cnd_sqdist|]. apply Rmult_le_pos; lra.
  - subst d. apply psd_scal; [lra|].
    assert (0 < len ^ 2) by (apply pow_lt; lra).
    apply psd_ext with (fun p q => exp (- / len ^ 2) * exp (/ len ^ 2 * cos (2 * PI / period * coord 0 p - 2 * PI / period * coord 0 q))).
    + intros p q. rewrite <- exp_plus. f_equal. rewrite dist2_one.
      replace (cos (2 * PI / period * coord 0 p - 2 * PI / period * coord 0 q)) with (1 - 2 * sin (PI * Rabs (coord 0 p - coord 0 q) / period) ^ 2).
      * field. lra.
      * set (u := coord 0 p - coord 0 q). replace (2 * PI / period * coord 0 p - 2 * PI / period * coord 0 q) with (2 * (PI * u / period)) by (unfold u; field; auto).
        rewrite cos_2a_sin. unfold Rabs. destruct (Rcase_abs u); [|ring].
        replace (PI * - u / period) with (- (PI * u / period)) by (field; auto). rewrite sin_neg. ring.
    + apply psd_scal; [left; apply exp_pos|]. apply psd_exp, psd_scal; [left; now apply Rinv_0_lt_compat|].
      apply (psd_cos (fun p : point 1 => 2 * PI / period * coord 0 p)).
  - subst d. apply psd_scal; [lra|].
    apply psd_ext with (fun p q => / (1 - 2 * index * cos (coord 0 p - coord 0 q) + index ^ 2)).
    + intros p q. now rewrite dist2_one, cos_abs.
    + apply psd_poisson. tauto.
  - apply psd_add; [apply IHk1|apply IHk2]; tauto.
  - apply psd_mul; [apply IHk1|apply IHk2]; tauto.
  - apply psd_pow. apply IHk; tauto.
  - tauto.
Qed.
