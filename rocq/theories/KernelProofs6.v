(** * Symmetry, bounds and Stein kernels *)
From Coq Require Import List ZArith Reals Lia Lra Bool.
From Coquelicot Require Import Coquelicot.
From Verif Require Import Num Jax RSum JaxFacts MetricProofs MetricProofs2 UtilModel KernelModel KernelSpec
  KernelProofs KernelProofs2 KernelProofs3 KernelProofs4 KernelProofs5.
Import ListNotations.
Open Scope R_scope.

(** ** Symmetry of the derivatives *)
Lemma sign_opp_sub a b : sign (a - b) = - sign (b - a).
Proof. replace (a - b) with (- (b - a)) by ring. apply sign_opp. Qed.
Lemma poisson_den_sym r a b : poisson_den r (a - b) = poisson_den r (b - a).
Proof. unfold poisson_den. replace (a - b) with (- (b - a)) by ring. now rewrite cos_neg. Qed.
Lemma kfun_sym k : closed_form k -> forall x y, kfun k x y = kfun k y x.
Proof.
  induction 1; intros x y; cbn [kfun]; try (rewrite IHclosed_form1, IHclosed_form2; auto; fail);
    try (rewrite IHclosed_form; auto; fail);
    rewrite ?(Rdot_comm x y), ?(dist2_sym x y), ?(dist1_sym x y), ?(sqdist_sym x y); auto.
Qed.
Lemma GX_GY k : closed_form k -> forall x y i, GX k x y i = GY k y x i.
Proof.
  induction 1; intros x y i; cbn [GX GY]; rewrite ?(Rdot_comm x y), ?(sqdist_sym x y); try ring.
  - cbn [kfun]. rewrite (dist1_sym x y), (sign_opp_sub (nth i x 0)). unfold Rdiv. ring.
  - rewrite (poisson_den_sym r (nth i x 0)). replace (nth i x 0 - nth i y 0) with (- (nth i y 0 - nth i x 0)) by ring.
    rewrite sin_neg. unfold Rdiv. ring.
  - rewrite IHclosed_form1, IHclosed_form2. auto.
  - rewrite IHclosed_form. auto.
  - rewrite IHclosed_form1, IHclosed_form2, (kfun_sym a), (kfun_sym b) by auto. auto.
  - rewrite IHclosed_form, (kfun_sym a) by auto. auto.
  - rewrite IHclosed_form, (kfun_sym a) by auto. auto.
Qed.
Lemma MX_sym k : closed_form k -> forall x y i, MX k x y i = MX k y x i.
Proof.
  induction 1; intros x y i; cbn [MX]; rewrite ?(Rdot_comm x y), ?(sqdist_sym x y); try ring.
  - cbn [kfun]. now rewrite (dist1_sym x y).
  - rewrite !(poisson_den_sym r (nth i x 0)). replace (nth i x 0 - nth i y 0) with (- (nth i y 0 - nth i x 0)) by ring.
    rewrite sin_neg, cos_neg. unfold Rdiv. ring.
  - rewrite IHclosed_form1, IHclosed_form2. auto.
  - rewrite IHclosed_form. auto.
  - rewrite IHclosed_form1, IHclosed_form2, (kfun_sym a H x y), (kfun_sym b H0 x y).
    rewrite (GX_GY a H x y), (GX_GY b H0 x y), <- (GX_GY a H y x), <- (GX_GY b H0 y x). ring.
  - rewrite IHclosed_form, (kfun_sym a H x y), (GX_GY a H x y), <- (GX_GY a H y x). cbn [GX GY kfun]. ring.
  - rewrite IHclosed_form, (kfun_sym a H x y), (GX_GY a H x y), <- (GX_GY a H y x). ring.
Qed.
Lemma smooth_sym k x y : length x = length y -> smooth_at k x y -> smooth_at k y x.
Proof.
  intro L. induction k; cbn; auto; try congruence; try tauto.
  intros H i Hi E. apply (H i); [lia|auto].
Qed.
Lemma div_ok_sym k x y : closed_form k -> div_ok k x y -> div_ok k y x.
Proof.
  induction 1; cbn [div_ok]; try tauto.
  - intros [A B]. split; auto. now rewrite (kfun_sym a H y x).
Qed.

(** ** Symmetry of [compute], for arbitrary hyper-parameters *)
Fixpoint stein_free {V} (k : kern V) : Prop :=
  match k with
  | KAdd a b | KProd a b => stein_free a /\ stein_free b
  | KPow a _ => stein_free a
  | KStein _ _ => False
  | _ => True
  end.
Section Sym.
  Variable jgrad : (list ER -> ER) -> list ER -> list ER.
  Variable keq : kern ER -> kern ER -> bool.
  Notation meths := (methods EROps ERT jgrad keq).
  Lemma fdot_sym (x y : list R) : fdot EROps (map Fin x) (map Fin y) = fdot EROps (map Fin y) (map Fin x).
  Proof. rewrite !fdot_fin. now rewrite Rdot_comm. Qed.
  Lemma sqd_sym (x y : list R) : squared_distance EROps (map Fin x) (map Fin y) = squared_distance EROps (map Fin y) (map Fin x).
  Proof. rewrite !squared_distance_fin. now rewrite sqdist_sym. Qed.
  Lemma n2_sym (x y : list R) : norm2 EROps (difference EROps (map Fin x) (map Fin y)) = norm2 EROps (difference EROps (map Fin y) (map Fin x)).
  Proof. rewrite !difference_fin, !norm2_fin. now rewrite dist2_sym. Qed.
  Lemma n1_sym (x y : list R) : norm1 EROps (difference EROps (map Fin x) (map Fin y)) = norm1 EROps (difference EROps (map Fin y) (map Fin x)).
  Proof. rewrite !difference_fin, !norm1_fin. now rewrite dist1_sym. Qed.
  Lemma compute_sym k x y : stein_free k ->
    m_val (meths k) (map Fin x) (map Fin y) = m_val (meths k) (map Fin y) (map Fin x).
  Proof.
    induction k; cbn [stein_free methods const_meth linear_meth poly_meth exp_meth lap_meth se_meth pcimq_meth rq_meth
      auto_meth per_meth poisson_meth add_meth prod_meth pow_meth m_val]; intro S; auto; try contradiction;
      unfold lap_val, se_val, pcimq_val, rq_val, matern_val;
      rewrite ?(fdot_sym x y), ?(sqd_sym x y), ?(n2_sym x y), ?(n1_sym x y); auto.
    - destruct S. now rewrite IHk1, IHk2.
    - destruct S. now rewrite IHk1, IHk2.
    - now rewrite IHk.
  Qed.
End Sym.

(** ** Bounds *)
Lemma exp_neg_le1 t : 0 <= t -> 0 < exp (- t) <= 1.
Proof.
  intro H. split; [apply exp_pos|]. rewrite <- exp_0. destruct (Req_dec t 0) as [->|N].
  - rewrite Ropp_0. lra.
  - left. apply exp_increasing. lra.
Qed.
Lemma scaled_bound s e : 0 < s -> 0 < e <= 1 -> 0 < s * e <= s.
Proof. intros. split; [apply Rmult_lt_0_compat; lra|]. rewrite <- (Rmult_1_r s) at 2. apply Rmult_le_compat_l; lra. Qed.
Lemma dist1_nonneg x y : 0 <= dist1 x y.
Proof. unfold dist1. apply Rsum_nonneg. intros a H. apply in_map_iff in H as (b & <- & _). apply Rabs_pos. Qed.
Lemma dist1_refl x : dist1 x x = 0.
Proof.
  rewrite dist1_map2. apply Rsum_zero. intros a H. induction x as [|b x IH]; cbn in H; [tauto|].
  destruct H as [<-|H]; auto. unfold Rminus. rewrite Rplus_opp_r. apply Rabs_R0.
Qed.
Lemma dist2_refl x : dist2 x x = 0.
Proof. unfold dist2. now rewrite sqdist_refl, sqrt_0. Qed.
Lemma dist2_nonneg x y : 0 <= dist2 x y.
Proof. apply sqrt_pos. Qed.
Lemma F_pos l : 0 < l -> 0 < 2 * l ^ 2.
Proof. intro. assert (0 < l ^ 2) by (apply pow_lt; auto). lra. Qed.
Lemma Rpower_neg_le1 v a : 1 <= v -> 0 <= a -> 0 < Rpower v (- a) <= 1.
Proof.
  intros Hv Ha. unfold Rpower. replace (- a * ln v) with (- (a * ln v)) by ring. apply exp_neg_le1.
  apply Rmult_le_pos; auto. rewrite <- ln_1. destruct (Req_dec v 1) as [->|N]; [lra|]. left. apply ln_increasing; lra.
Qed.

(** *** Matern *)
Definition matern_coef (p j : nat) : R := INR (fact (2 * p - j)) / (INR (fact (p - j)) * INR (fact j)) * 2 ^ j.
Lemma fact_pos n : 0 < INR (fact n).
Proof. apply INR_fact_lt_0. Qed.
Lemma matern_fact p j : (j <= p)%nat ->
  (fact (2 * p - j) * 2 ^ j * fact p <= fact (2 * p) * fact (p - j))%nat.
Proof.
  induction j; intro H.
  - cbn [Nat.pow]. rewrite !Nat.sub_0_r. nia.
  - specialize (IHj ltac:(lia)).
    replace (2 * p - j)%nat with (S (2 * p - S j)) in IHj by lia.
    replace (p - j)%nat with (S (p - S j)) in IHj by lia.
    cbn [fact Nat.pow] in *.
    set (A := fact (2 * p - S j)) in *. set (B := fact (p - S j)) in *. set (C := (2 ^ j)%nat) in *. set (D := fact p) in *.
    set (F := fact (2 * p)) in *.
    replace (S (2 * p - S j)) with (2 * p - j)%nat in * by lia. replace (S (p - S j)) with (p - j)%nat in * by lia.
    replace (A + (2 * p - S j) * A)%nat with ((2 * p - j) * A)%nat in IHj by nia.
    replace (B + (p - S j) * B)%nat with ((p - j) * B)%nat in IHj by nia.
    assert (0 < p - j)%nat by lia. assert (2 * (p - j) <= 2 * p - j)%nat by lia.
    apply Nat.mul_le_mono_pos_l with (p := (p - j)%nat); auto.
    apply Nat.le_trans with ((2 * p - j) * A * C * D)%nat; [|nia].
    replace ((p - j) * (A * (2 * C) * D))%nat with (2 * (p - j) * (A * C * D))%nat by nia.
    replace ((2 * p - j) * A * C * D)%nat with ((2 * p - j) * (A * C * D))%nat by nia.
    apply Nat.mul_le_mono_r. auto.
Qed.
Lemma exp_partial b n : 0 <= b -> Rsum (map (fun j => b ^ j / INR (fact j)) (seq 0 n)) <= exp b.
Proof.
  intro H. destruct n; [cbn; left; apply exp_pos|].
  replace (Rsum (map (fun j => b ^ j / INR (fact j)) (seq 0 (S n)))) with (sum_f_R0 (fun j => / INR (fact j) * b ^ j) n).
  - unfold exp. destruct (exist_exp b) as [l Hl]. cbn. apply sum_incr with (An := fun j => / INR (fact j) * b ^ j).
    + exact Hl.
    + intro j. apply Rmult_le_pos; [left; apply Rinv_0_lt_compat, fact_pos|apply pow_le; auto].
  - induction n.
    + cbn. lra.
    + rewrite seq_S, map_app, Rsum_app, <- IHn. cbn [map Rsum sum_f_R0]. rewrite Nat.add_0_l. unfold Rdiv. ring.
Qed.
Lemma Rsum_rev_seq (f : nat -> R) n : Rsum (map f (seq 0 n)) = Rsum (map (fun i => f (n - 1 - i)%nat) (seq 0 n)).
Proof.
  apply Rsum_perm. rewrite <- map_map with (f := fun i => (n - 1 - i)%nat) (g := f). apply Permutation.Permutation_map.
  replace (map (fun i => (n - 1 - i)%nat) (seq 0 n)) with (rev (seq 0 n)); [apply Permutation.Permutation_rev|].
  apply list_ext with (d := 0%nat); rewrite rev_length, seq_length; [now rewrite map_length, seq_length|].
  intros i Hi. rewrite nth_map_seq by auto. rewrite rev_nth by (now rewrite seq_length). rewrite seq_length, seq_nth; lia.
Qed.
Lemma matern_sum p b : 0 <= b ->
  0 < INR (fact p) / INR (fact (2 * p)) *
    Rsum (map (fun i => INR (fact (p + i)) / (INR (fact i) * INR (fact (p - i))) * (2 * b) ^ (p - i)) (seq 0 (p + 1))) <= exp b.
Proof.
  intro H. rewrite Rsum_rev_seq.
  rewrite <- Rsum_map_scal. split.
  - replace (p + 1)%nat with (S p) by lia. cbn [seq map Rsum].
    apply Rplus_lt_le_0_compat.
    + replace (S p - 1 - 0)%nat with p by lia. rewrite Nat.sub_diag. cbn [pow fact].
      assert (A := fact_pos p). assert (B := fact_pos (2 * p)). assert (C := fact_pos (p + p)).
      apply Rmult_lt_0_compat; [apply Rdiv_lt_0_compat; auto|].
      rewrite Rmult_1_r. apply Rdiv_lt_0_compat; auto. apply Rmult_lt_0_compat; auto. cbn. lra.
    + apply Rsum_nonneg. intros a Ha. apply in_map_iff in Ha as (i & <- & _).
      assert (0 <= 2 * b) by lra.
      apply Rmult_le_pos; [left; apply Rdiv_lt_0_compat; apply fact_pos|].
      apply Rmult_le_pos; [left; apply Rdiv_lt_0_compat; [apply fact_pos|apply Rmult_lt_0_compat; apply fact_pos]|apply pow_le; auto].
  - eapply Rle_trans; [|apply (exp_partial b (p + 1)); auto].
    apply Rsum_le. intros j Hj. apply in_seq in Hj.
    replace (p - (p + 1 - 1 - j))%nat with j by lia. replace (p + 1 - 1 - j)%nat with (p - j)%nat by lia.
    replace (p + (p - j))%nat with (2 * p - j)%nat by lia.
    rewrite Rpow_mult_distr. assert (M := matern_fact p j ltac:(lia)).
    apply le_INR in M. rewrite !mult_INR, pow_INR in M. cbn [INR] in M.
    assert (A := fact_pos p). assert (B := fact_pos (2 * p)). assert (C := fact_pos (p - j)). assert (D := fact_pos j).
    assert (P : 0 <= b ^ j) by (apply pow_le; auto).
    set (a := INR (fact (2 * p - j))) in *. set (u := INR (fact p)) in *. set (v := INR (fact (2 * p))) in *.
    set (w := INR (fact (p - j))) in *. set (z := INR (fact j)) in *.
    replace (u / v * (a / (w * z) * (2 ^ j * b ^ j))) with ((a * 2 ^ j * u) / (v * w) * (b ^ j / z)) by (field; lra).
    rewrite <- (Rmult_1_l (b ^ j / z)) at 2. apply Rmult_le_compat_r; [apply Rdiv_le_0_compat; auto|].
    apply Rle_div_l; [apply Rmult_lt_0_compat; auto|]. rewrite Rmult_1_l. replace (1 + 1) with 2 in M by ring. exact M.
Qed.
