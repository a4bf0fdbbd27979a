(** * Matern kernels are mixtures of squared exponential kernels *)
From Coq Require Import List ZArith Reals Lia Lra.
From Coquelicot Require Import Coquelicot.
From Verif Require Import Num Jax RSum MetricSpec MetricProofs MetricProofs2 KernelProofs6 PsdProofs PsdProofs2.
Import ListNotations.
Open Scope R_scope.

(** ** The error function *)
Definition gauss (y : R) : R := exp (- y ^ 2).
Definition erf0 (z : R) : R := RInt gauss 0 z.
Lemma gauss_cont z : continuous gauss z.
Proof. apply (@ex_derive_continuous R_AbsRing R_NormedModule gauss z). unfold gauss. auto_derive. auto. Qed.
Lemma erf0_d z : is_derive erf0 z (gauss z).
Proof.
  apply (is_derive_RInt gauss erf0 0 z).
  - apply filter_forall. intro b. apply (@RInt_correct R_CompleteNormedModule). apply (@ex_RInt_continuous R_CompleteNormedModule).
    intros. apply gauss_cont.
  - apply gauss_cont.
Qed.
Lemma erf0_0 : erf0 0 = 0.
Proof. unfold erf0. rewrite RInt_point. reflexivity. Qed.
Lemma erf0_incr a b : a <= b -> erf0 a <= erf0 b.
Proof. intro H. apply (increasing_from erf0 gauss); auto; intros; [apply erf0_d|left; apply exp_pos]. Qed.
Lemma const_of_zero_derive (f : R -> R) z : (forall t, is_derive f t 0) -> f z = f 0.
Proof.
  intro H. apply Rle_antisym.
  - destruct (Rle_dec 0 z).
    + assert (A := increasing_from (fun t => - f t) (fun _ => 0) 0 z). cut (- f 0 <= - f z); [lra|]. apply A; auto; try (intros; lra).
      intros t _. replace 0 with (- 0) by ring. apply is_derive_Reals, derivable_pt_lim_opp, is_derive_Reals, H.
    + apply (increasing_from f (fun _ => 0)); auto; intros; lra.
  - destruct (Rle_dec 0 z).
    + apply (increasing_from f (fun _ => 0)); auto; intros; lra.
    + assert (A := increasing_from (fun t => - f t) (fun _ => 0) z 0). cut (- f z <= - f 0); [lra|]. apply A; auto; try (intros; lra).
      intros t _. replace 0 with (- 0) by ring. apply is_derive_Reals, derivable_pt_lim_opp, is_derive_Reals, H.
Qed.
Lemma erf0_odd z : erf0 (- z) = - erf0 z.
Proof.
  assert (E : erf0 z + erf0 (- z) = erf0 0 + erf0 (- 0)).
  { apply (const_of_zero_derive (fun t => erf0 t + erf0 (- t)) z). intro t.
    replace 0 with (gauss t + gauss (- t) * (- 1)).
    - apply is_derive_Reals. apply derivable_pt_lim_plus; [apply is_derive_Reals, erf0_d|].
      apply (derivable_pt_lim_comp Ropp erf0); [|apply is_derive_Reals, erf0_d].
      apply is_derive_Reals. auto_derive; auto.
    - unfold gauss. replace ((- t) ^ 2) with (t ^ 2) by ring. ring. }
  rewrite Ropp_0, erf0_0 in E. lra.
Qed.
Lemma erf0_bound z : 0 <= z -> erf0 z <= PI / 2.
Proof.
  intro H. assert (A : atan 0 - erf0 0 <= atan z - erf0 z).
  { apply (increasing_from (fun t => atan t - erf0 t) (fun t => / (1 + t ^ 2) - gauss t)); auto.
    - intros t _. apply is_derive_Reals. apply derivable_pt_lim_minus; [apply derivable_pt_lim_atan|apply is_derive_Reals, erf0_d].
    - intros t Ht. unfold gauss. rewrite exp_Ropp. assert (1 + t ^ 2 <= exp (t ^ 2)) by (left; apply exp_ineq1; apply Rgt_not_eq, pow_lt; lra).
      assert (0 <= t ^ 2) by apply pow2_ge_0.
      assert (/ exp (t ^ 2) <= / (1 + t ^ 2)) by (apply Rinv_le_contravar; lra). lra. }
  rewrite atan_0, erf0_0 in A. assert (B := atan_bound z). lra.
Qed.
Definition erf_inf : R := Lim_seq (fun n => erf0 (INR n)).
Lemma erf_inf_lim : is_lim_seq (fun n => erf0 (INR n)) erf_inf.
Proof.
  apply Lim_seq_correct'. apply (ex_finite_lim_seq_incr _ (PI / 2)).
  - intro n. apply erf0_incr. rewrite S_INR. lra.
  - intro n. apply erf0_bound, pos_INR.
Qed.
Lemma erf_inf_ge z : erf0 z <= erf_inf.
Proof.
  destruct (nfloor_ex (Rmax 0 z) (Rmax_l 0 z)) as [n [_ Hn]].
  apply (is_lim_seq_le_loc (fun _ => erf0 z) (fun n => erf0 (INR n)) (erf0 z) erf_inf).
  - exists (S n). intros m Hm. apply erf0_incr. apply le_INR in Hm. rewrite S_INR in Hm. assert (M := Rmax_r 0 z). lra.
  - apply is_lim_seq_const.
  - apply erf_inf_lim.
Qed.
Lemma erf_inf_pos : 0 < erf_inf.
Proof.
  apply Rlt_le_trans with (erf0 1); [|apply erf_inf_ge]. rewrite <- erf0_0.
  destruct (MVT_cor2 erf0 gauss 0 1 ltac:(lra)) as (c & E & Hc); [intros; apply is_derive_Reals, erf0_d|].
  assert (0 < gauss c) by apply exp_pos. lra.
Qed.
(** sequences diverging to infinity *)
Lemma erf_lim (u : nat -> R) : is_lim_seq u p_infty -> is_lim_seq (fun n => erf0 (u n)) erf_inf.
Proof.
  intro H. apply is_lim_seq_spec. intro eps. destruct eps as [eps He]. cbn -[erf0].
  assert (L := erf_inf_lim). apply is_lim_seq_spec in L. destruct (L (mkposreal eps He)) as [N HN]. cbn -[erf0] in HN.
  apply is_lim_seq_spec in H. destruct (H (INR N)) as [M HM]. exists M. intros m Hm.
  specialize (HN N (le_n _)). specialize (HM m Hm). assert (A := erf0_incr (INR N) (u m) ltac:(lra)).
  assert (B := erf_inf_ge (u m)). apply Rabs_def2 in HN. apply Rabs_def1; lra.
Qed.

(** ** Antiderivatives of v^(2p) exp(- v^2 - c^2/v^2) *)
Definition mixw (c v : R) : R := exp (- v ^ 2 - c ^ 2 / v ^ 2).
Definition A0 (c v : R) : R := / 2 * (exp (2 * c) * erf0 (v + c / v) + exp (- (2 * c)) * erf0 (v - c / v)).
Definition B0 (c v : R) : R := c * (/ 2 * (exp (- (2 * c)) * erf0 (v - c / v) - exp (2 * c) * erf0 (v + c / v))).
Fixpoint Ap (p : nat) (c v : R) : R :=
  match p with
  | 0%nat => A0 c v
  | S q => match q with
           | 0%nat => / 2 * A0 c v + B0 c v - / 2 * (v * mixw c v)
           | S r => (INR r + 3 / 2) * Ap q c v + c ^ 2 * Ap r c v - / 2 * (v ^ (2 * r + 3) * mixw c v)
           end
  end.
Lemma erf_comp_d (f : R -> R) (v d : R) : is_derive f v d -> is_derive (fun v => erf0 (f v)) v (gauss (f v) * d).
Proof.
  intro H. apply is_derive_Reals. apply (derivable_pt_lim_comp f erf0); apply is_derive_Reals; auto. apply erf0_d.
Qed.
Lemma mixw_plus c v : v <> 0 -> exp (2 * c) * gauss (v + c / v) = mixw c v.
Proof. intro H. unfold gauss, mixw. rewrite <- exp_plus. f_equal. field. auto. Qed.
Lemma mixw_minus c v : v <> 0 -> exp (- (2 * c)) * gauss (v - c / v) = mixw c v.
Proof. intro H. unfold gauss, mixw. rewrite <- exp_plus. f_equal. field. auto. Qed.
Lemma plus_d c v : v <> 0 -> is_derive (fun v => v + c / v) v (1 - c / v ^ 2).
Proof. intro H. auto_derive; auto. field. auto. Qed.
Lemma minus_d c v : v <> 0 -> is_derive (fun v => v - c / v) v (1 + c / v ^ 2).
Proof. intro H. auto_derive; auto. field. auto. Qed.
Lemma deriv_eq f v (a b : R) : is_derive f v a -> a = b -> is_derive f v b. Proof. now intros H <-. Qed.
Lemma d_scal (f : R -> R) c v (d : R) : is_derive f v d -> is_derive (fun v => c * f v) v (c * d).
Proof. intro. apply is_derive_Reals, derivable_pt_lim_scal, is_derive_Reals; auto. Qed.
Lemma d_plus (f g : R -> R) v (d e : R) : is_derive f v d -> is_derive g v e -> is_derive (fun v => f v + g v) v (d + e).
Proof. intros. apply is_derive_Reals, derivable_pt_lim_plus; apply is_derive_Reals; auto. Qed.
Lemma d_minus (f g : R -> R) v (d e : R) : is_derive f v d -> is_derive g v e -> is_derive (fun v => f v - g v) v (d - e).
Proof. intros. apply is_derive_Reals, derivable_pt_lim_minus; apply is_derive_Reals; auto. Qed.
Lemma A0_d c v : v <> 0 -> is_derive (A0 c) v (mixw c v).
Proof.
  intro H. unfold A0. eapply deriv_eq.
  - apply (d_scal (fun v => exp (2 * c) * erf0 (v + c / v) + exp (- (2 * c)) * erf0 (v - c / v))), d_plus;
      apply d_scal, erf_comp_d; [now apply plus_d|now apply minus_d].
  - rewrite <- !Rmult_assoc, mixw_plus, mixw_minus by auto. field. auto.
Qed.
Lemma B0_d c v : v <> 0 -> is_derive (B0 c) v (c ^ 2 / v ^ 2 * mixw c v).
Proof.
  intro H. unfold B0. eapply deriv_eq.
  - apply (d_scal (fun v => / 2 * (exp (- (2 * c)) * erf0 (v - c / v) - exp (2 * c) * erf0 (v + c / v)))).
    apply (d_scal (fun v => exp (- (2 * c)) * erf0 (v - c / v) - exp (2 * c) * erf0 (v + c / v))), d_minus;
      apply d_scal, erf_comp_d; [now apply minus_d|now apply plus_d].
  - rewrite <- !(Rmult_assoc (exp _)), mixw_plus, mixw_minus by auto. field. auto.
Qed.
Lemma mixw_d c v : v <> 0 -> is_derive (mixw c) v ((- 2 * v + 2 * c ^ 2 / v ^ 3) * mixw c v).
Proof.
  intro H. unfold mixw. auto_derive; [repeat split; auto; now apply Rmult_integral_contrapositive_currified; [|rewrite Rmult_1_r]|].
  unfold Rminus, Rdiv. cbn [pow]. set (E := exp _). field. auto.
Qed.
Lemma vmix_d n c v : v <> 0 -> is_derive (fun v => v ^ n * mixw c v) v (INR n * v ^ (n - 1) * mixw c v + v ^ n * ((- 2 * v + 2 * c ^ 2 / v ^ 3) * mixw c v)).
Proof.
  intro H. apply is_derive_Reals. apply (derivable_pt_lim_mult (fun v => v ^ n) (mixw c)).
  - replace (n - 1)%nat with (pred n) by lia. apply derivable_pt_lim_pow.
  - apply is_derive_Reals. now apply mixw_d.
Qed.
Lemma Ap_d p : forall c v, v <> 0 -> is_derive (Ap p c) v (v ^ (2 * p) * mixw c v) /\ is_derive (Ap (S p) c) v (v ^ (2 * S p) * mixw c v).
Proof.
  induction p; intros c v H.
  - split.
    + cbn [Ap Nat.mul pow]. rewrite Rmult_1_l. now apply A0_d.
    + cbn [Ap]. eapply deriv_eq.
      * apply d_minus; [apply d_plus; [apply (d_scal (A0 c)), A0_d; auto|apply B0_d; auto]|].
        apply (d_scal (fun v => v * mixw c v)).
        apply is_derive_ext with (fun v => v ^ 1 * mixw c v); [intro t; rewrite pow_1; reflexivity|]. now apply vmix_d.
      * change (2 * 1)%nat with 2%nat. cbn [INR Nat.sub pow]. field. auto.
  - split; [now apply IHp|].
    eapply deriv_eq.
    + apply is_derive_ext with (fun v => (INR p + 3 / 2) * Ap (S p) c v + c ^ 2 * Ap p c v - / 2 * (v ^ (2 * p + 3) * mixw c v)); [reflexivity|].
      destruct (IHp c v H) as [D1 D2].
      exact (d_minus _ _ v _ _ (d_plus _ _ v _ _ (d_scal (Ap (S p) c) (INR p + 3 / 2) v _ D2) (d_scal (Ap p c) (c ^ 2) v _ D1))
        (d_scal (fun v => v ^ (2 * p + 3) * mixw c v) (/ 2) v _ (vmix_d (2 * p + 3) c v H))).
    + replace (2 * p + 3 - 1)%nat with (2 * p + 2)%nat by lia.
      replace (2 * S (S p))%nat with (2 * p + 4)%nat by lia. replace (2 * S p)%nat with (2 * p + 2)%nat by lia.
      rewrite plus_INR, mult_INR, !pow_add. cbn [INR pow]. field. auto.
Qed.

(** ** Limits *)
Fixpoint Dp (p : nat) (c : R) : R :=
  match p with
  | 0%nat => 1
  | S q => match q with
           | 0%nat => / 2 + c
           | S r => (INR r + 3 / 2) * Dp q c + c ^ 2 * Dp r c
           end
  end.
Definition hi (n : nat) : R := INR (S n).
Lemma hi_pos n : 0 < hi n. Proof. apply lt_0_INR. lia. Qed.
Lemma hi_lim : is_lim_seq hi p_infty.
Proof. apply (is_lim_seq_incr_1 INR). apply is_lim_seq_INR. Qed.
Lemma inv_hi_lim c : is_lim_seq (fun n => c / hi n) 0.
Proof. apply (is_lim_seq_incr_1 (fun n => c / INR n)). apply lim_inv_INR. Qed.
Lemma mix_hi m c : is_lim_seq (fun n => hi n ^ m * mixw c (hi n)) 0.
Proof.
  apply is_lim_seq_le_le with (fun _ => 0) (fun n => INR (fact (S m)) / hi n).
  - intro n. assert (H := hi_pos n). set (v := hi n) in *. split.
    + apply Rmult_le_pos; [apply pow_le; lra|left; apply exp_pos].
    + assert (V1 : 1 <= v). { unfold v, hi. rewrite S_INR. assert (0 <= INR n) by apply pos_INR. lra. }
      assert (M1 : mixw c v <= exp (- v)).
      { unfold mixw. assert (- v ^ 2 - c ^ 2 / v ^ 2 <= - v).
        { assert (0 <= c ^ 2 / v ^ 2). { apply Rmult_le_pos; [apply pow2_ge_0|left; apply Rinv_0_lt_compat, pow_lt; auto]. } nra. }
        destruct (Rle_lt_or_eq_dec _ _ H0) as [L| ->]; [left; now apply exp_increasing|lra]. }
      assert (M2 : v ^ S m / INR (fact (S m)) <= exp v).
      { eapply Rle_trans; [|apply (exp_partial v (S (S m))); lra].
        rewrite seq_S, map_app, Rsum_app. cbn [map Rsum Nat.add]. change (n0 ROps) with 0. rewrite Rplus_0_r.
        assert (0 <= Rsum (map (fun j => v ^ j / INR (fact j)) (seq 0 (S m)))); [|lra].
        apply Rsum_nonneg. intros a Ha. apply in_map_iff in Ha as (j & <- & _).
        apply Rmult_le_pos; [apply pow_le; lra|left; apply Rinv_0_lt_compat, INR_fact_lt_0]. }
      assert (F := INR_fact_lt_0 (S m)).
      apply Rmult_le_reg_r with v; auto. replace (INR (fact (S m)) / v * v) with (INR (fact (S m))) by (field; lra).
      replace (v ^ m * mixw c v * v) with (v ^ S m * mixw c v) by (cbn; ring).
      assert (PP : 0 < v ^ S m) by (now apply pow_lt).
      apply Rle_trans with (v ^ S m * exp (- v)); [apply Rmult_le_compat_l; lra|].
      rewrite exp_Ropp. assert (X := exp_pos v). apply Rmult_le_reg_r with (exp v / INR (fact (S m))); [now apply Rdiv_lt_0_compat|].
      replace (v ^ S m * / exp v * (exp v / INR (fact (S m)))) with (v ^ S m / INR (fact (S m))) by (field; lra).
      replace (INR (fact (S m)) * (exp v / INR (fact (S m)))) with (exp v) by (field; lra). exact M2.
  - apply is_lim_seq_const.
  - apply inv_hi_lim.
Qed.
Lemma mix_lo m c : is_lim_seq (fun n => (/ hi n) ^ S m * mixw c (/ hi n)) 0.
Proof.
  apply is_lim_seq_le_le with (fun _ => 0) (fun n => 1 / hi n).
  - intro n. assert (H := hi_pos n). assert (I := Rinv_0_lt_compat _ H). split.
    + apply Rmult_le_pos; [apply pow_le; lra|left; apply exp_pos].
    + assert (V1 : 1 <= hi n). { unfold hi. rewrite S_INR. assert (0 <= INR n) by apply pos_INR. lra. }
      assert (I1 : / hi n <= 1). { apply Rle_trans with (/ 1); [apply Rinv_le_contravar; lra|lra]. }
      set (v := / hi n) in *.
      assert (M1 : mixw c v <= 1).
      { unfold mixw. replace (- v ^ 2 - c ^ 2 / v ^ 2) with (- (v ^ 2 + c ^ 2 / v ^ 2)) by ring. apply exp_neg_le1.
        apply Rplus_le_le_0_compat; [apply pow2_ge_0|]. apply Rmult_le_pos; [apply pow2_ge_0|left; apply Rinv_0_lt_compat, pow_lt; auto]. }
      assert (M2 : v ^ m <= 1). { rewrite <- (pow1 m). apply pow_incr. lra. }
      assert (0 <= v ^ m) by (apply pow_le; lra). assert (0 < mixw c v) by apply exp_pos.
      unfold Rdiv. fold v. rewrite Rmult_1_l. cbn [pow]. rewrite Rmult_assoc. apply Rle_trans with (v * (1 * 1)); [apply Rmult_le_compat_l; [lra|]|lra].
      apply Rmult_le_compat; lra.
  - apply is_lim_seq_const.
  - apply inv_hi_lim.
Qed.
Lemma lim_lin2 (u v : nat -> R) x y (a b : R) : is_lim_seq u a -> is_lim_seq v b -> is_lim_seq (fun n => x * u n + y * v n) (x * a + y * b).
Proof.
  intros Hu Hv. apply is_lim_seq_plus'; [exact (is_lim_seq_scal_l u x a Hu)|exact (is_lim_seq_scal_l v y b Hv)].
Qed.
(** limits of the error functions along the two sequences *)
Lemma lim_pair c : 0 <= c ->
  is_lim_seq (fun n => erf0 (hi n + c / hi n) - erf0 (/ hi n + c / / hi n)) (Finite (if Req_EM_T c 0 then erf_inf else 0)) /\
  is_lim_seq (fun n => erf0 (hi n - c / hi n) - erf0 (/ hi n - c / / hi n)) (Finite (if Req_EM_T c 0 then erf_inf else 2 * erf_inf)).
Proof.
  intro H.
  assert (HiP : is_lim_seq (fun n => hi n + c / hi n) p_infty).
  { apply (is_lim_seq_plus hi (fun n => c / hi n) p_infty 0 p_infty); [apply hi_lim|apply inv_hi_lim|reflexivity]. }
  assert (HiM : is_lim_seq (fun n => hi n - c / hi n) p_infty).
  { apply (is_lim_seq_minus hi (fun n => c / hi n) p_infty 0 p_infty); [apply hi_lim|apply inv_hi_lim|reflexivity]. }
  assert (I : is_lim_seq (fun n => / hi n) 0) by (apply is_lim_seq_ext with (2 := inv_hi_lim 1); intro; unfold Rdiv; ring).
  destruct (Req_EM_T c 0) as [->|N].
  - assert (Z : is_lim_seq (fun n => erf0 (/ hi n)) 0).
    { rewrite <- erf0_0. apply (is_lim_seq_continuous erf0 (fun n => / hi n) 0); auto.
      apply derivable_continuous_pt. exists (gauss 0). apply is_derive_Reals, erf0_d. }
    split; replace (Finite erf_inf) with (Finite (erf_inf - 0)) by (f_equal; ring); apply is_lim_seq_minus'; try (now apply erf_lim);
      (apply is_lim_seq_ext with (2 := Z); intro n; f_equal; unfold Rdiv; ring).
  - assert (C : 0 < c) by lra.
    assert (Big : is_lim_seq (fun n => c / / hi n) p_infty).
    { apply is_lim_seq_ext with (fun n => c * hi n). { intro n. assert (P := hi_pos n). field. lra. }
      replace p_infty with (Rbar_mult c p_infty); [apply (is_lim_seq_scal_l hi c p_infty), hi_lim|].
      cbn. destruct (Rle_dec 0 c) as [G|G]; [|lra]. destruct (Rle_lt_or_eq_dec 0 c G); auto. lra. }
    split.
    + replace (Finite 0) with (Finite (erf_inf - erf_inf)) by (f_equal; ring). apply is_lim_seq_minus'; apply erf_lim; auto.
      apply (is_lim_seq_plus (fun n => / hi n) (fun n => c / / hi n) 0 p_infty p_infty); auto. reflexivity.
    + replace (Finite (2 * erf_inf)) with (Finite (erf_inf - (- erf_inf))) by (f_equal; ring).
      apply is_lim_seq_minus'; [now apply erf_lim|].
      apply is_lim_seq_ext with (fun n => - erf0 (c / / hi n - / hi n)).
      * intro n. rewrite <- erf0_odd. f_equal. ring.
      * apply (is_lim_seq_opp (fun n => erf0 (c / / hi n - / hi n)) erf_inf). apply erf_lim.
        apply (is_lim_seq_minus (fun n => c / / hi n) (fun n => / hi n) p_infty 0 p_infty); auto. reflexivity.
Qed.
Lemma A0_lim c : 0 <= c -> is_lim_seq (fun n => A0 c (hi n) - A0 c (/ hi n)) (erf_inf * exp (- (2 * c))).
Proof.
  intro H. destruct (lim_pair c H) as [L1 L2].
  apply is_lim_seq_ext with (fun n => / 2 * exp (2 * c) * (erf0 (hi n + c / hi n) - erf0 (/ hi n + c / / hi n))
    + / 2 * exp (- (2 * c)) * (erf0 (hi n - c / hi n) - erf0 (/ hi n - c / / hi n))).
  { intro n. unfold A0. ring. }
  assert (L := lim_lin2 _ _ (/ 2 * exp (2 * c)) (/ 2 * exp (- (2 * c))) _ _ L1 L2).
  match type of L with is_lim_seq _ (Finite ?a) => replace (erf_inf * exp (- (2 * c))) with a; auto end.
  destruct (Req_EM_T c 0) as [->|N]; [rewrite Rmult_0_r, Ropp_0, exp_0|]; field.
Qed.
Lemma B0_lim c : 0 <= c -> is_lim_seq (fun n => B0 c (hi n) - B0 c (/ hi n)) (erf_inf * exp (- (2 * c)) * c).
Proof.
  intro H. destruct (lim_pair c H) as [L1 L2].
  apply is_lim_seq_ext with (fun n => - (c * / 2 * exp (2 * c)) * (erf0 (hi n + c / hi n) - erf0 (/ hi n + c / / hi n))
    + c * / 2 * exp (- (2 * c)) * (erf0 (hi n - c / hi n) - erf0 (/ hi n - c / / hi n))).
  { intro n. unfold B0. ring. }
  assert (L := lim_lin2 _ _ (- (c * / 2 * exp (2 * c))) (c * / 2 * exp (- (2 * c))) _ _ L1 L2).
  match type of L with is_lim_seq _ (Finite ?a) => replace (erf_inf * exp (- (2 * c)) * c) with a; auto end.
  destruct (Req_EM_T c 0) as [->|N]; [rewrite Rmult_0_r, Ropp_0, exp_0|]; field.
Qed.
Lemma Ap_lim p : forall c, 0 <= c ->
  is_lim_seq (fun n => Ap p c (hi n) - Ap p c (/ hi n)) (erf_inf * exp (- (2 * c)) * Dp p c) /\
  is_lim_seq (fun n => Ap (S p) c (hi n) - Ap (S p) c (/ hi n)) (erf_inf * exp (- (2 * c)) * Dp (S p) c).
Proof.
  assert (W : forall m c, is_lim_seq (fun n => / 2 * (hi n ^ S m * mixw c (hi n)) - / 2 * ((/ hi n) ^ S m * mixw c (/ hi n))) 0).
  { intros m c. assert (L := lim_lin2 _ _ (/ 2) (- / 2) _ _ (mix_hi (S m) c) (mix_lo m c)).
    replace (/ 2 * 0 + - / 2 * 0) with 0 in L by ring. apply is_lim_seq_ext with (2 := L). intro n. ring. }
  induction p; intros c H.
  - split.
    + cbn [Ap Dp]. rewrite Rmult_1_r. now apply A0_lim.
    + assert (L := is_lim_seq_minus' _ _ _ _ (lim_lin2 _ _ (/ 2) 1 _ _ (A0_lim c H) (B0_lim c H)) (W 0%nat c)).
      apply is_lim_seq_ext with (u := fun n => / 2 * (A0 c (hi n) - A0 c (/ hi n)) + 1 * (B0 c (hi n) - B0 c (/ hi n))
         - (/ 2 * (hi n ^ 1 * mixw c (hi n)) - / 2 * ((/ hi n) ^ 1 * mixw c (/ hi n)))).
      { intro n. cbn [Ap]. rewrite !pow_1. ring. }
      match type of L with is_lim_seq _ (Finite ?a) => replace (erf_inf * exp (- (2 * c)) * Dp 1 c) with a; [exact L|] end. cbn [Dp]. ring.
  - destruct (IHp c H) as [L1 L2]. split; [exact L2|].
    assert (L := is_lim_seq_minus' _ _ _ _ (lim_lin2 _ _ (INR p + 3 / 2) (c ^ 2) _ _ L2 L1) (W (2 * p + 2)%nat c)).
    replace (S (2 * p + 2))%nat with (2 * p + 3)%nat in L by lia.
    match type of L with is_lim_seq _ (Finite ?a) => replace (erf_inf * exp (- (2 * c)) * Dp (S (S p)) c) with a end.
    + apply is_lim_seq_ext with (2 := L). intro n.
      change (Ap (S (S p)) c) with (fun v => (INR p + 3 / 2) * Ap (S p) c v + c ^ 2 * Ap p c v - / 2 * (v ^ (2 * p + 3) * mixw c v)).
      cbv beta. ring.
    + change (Dp (S (S p)) c) with ((INR p + 3 / 2) * Dp (S p) c + c ^ 2 * Dp p c). ring.
Qed.
