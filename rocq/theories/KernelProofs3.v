(** * Gradients and mixed derivatives of kernel expressions *)
From Coq Require Import List ZArith Reals Lia Lra.
From Coquelicot Require Import Coquelicot.
From Verif Require Import Num Jax RSum JaxFacts KernelModel KernelSpec KernelProofs KernelProofs2.
Import ListNotations.
Open Scope R_scope.

Definition poisson_den (r t : R) : R := 1 - 2 * r * cos t + r ^ 2.
Fixpoint GX (k : kern R) (x y : list R) (i : nat) : R :=
  let del := nth i x 0 - nth i y 0 in
  match k with
  | KLinear s c => s * nth i y 0
  | KPoly s c d => nth i y 0 * (s * (INR (Z.to_nat d) * 1 * (Rdot x y + c) ^ (Z.to_nat d - 1)))
  | KExp _ _ | KSE _ _ | KPCIMQ _ _ | KRQ _ _ _ | KPer _ _ _ => 2 * del * phi1 k (sqdist x y)
  | KLap l s => - (sign del / (2 * l ^ 2) * kfun k x y)
  | KPoisson r s => - (2 * s * r * sin del / poisson_den r del ^ 2)
  | KAdd a b => GX a x y i + GX b x y i
  | KProd a b => GX a x y i * kfun b x y + GX b x y i * kfun a x y
  | KPow a n => INR (Z.to_nat n) * GX a x y i * kfun a x y ^ (Z.to_nat n - 1)
  | _ => 0
  end.
Fixpoint GY (k : kern R) (x y : list R) (i : nat) : R :=
  let del := nth i x 0 - nth i y 0 in
  match k with
  | KLinear s c => s * nth i x 0
  | KPoly s c d => nth i x 0 * (s * (INR (Z.to_nat d) * 1 * (Rdot x y + c) ^ (Z.to_nat d - 1)))
  | KExp _ _ | KSE _ _ | KPCIMQ _ _ | KRQ _ _ _ | KPer _ _ _ => - (2 * del) * phi1 k (sqdist x y)
  | KLap l s => sign del / (2 * l ^ 2) * kfun k x y
  | KPoisson r s => 2 * s * r * sin del / poisson_den r del ^ 2
  | KAdd a b => GY a x y i + GY b x y i
  | KProd a b => GY a x y i * kfun b x y + GY b x y i * kfun a x y
  | KPow a n => INR (Z.to_nat n) * GY a x y i * kfun a x y ^ (Z.to_nat n - 1)
  | _ => 0
  end.
Fixpoint MX (k : kern R) (x y : list R) (i : nat) : R :=
  let del := nth i x 0 - nth i y 0 in
  match k with
  | KLinear s c => s
  | KPoly s c d => let n := Z.to_nat d in
      s * (INR n * 1 * (Rdot x y + c) ^ (n - 1)) +
      nth i x 0 * nth i y 0 * (s * (INR n * 1 * (INR (n - 1) * 1 * (Rdot x y + c) ^ (n - 1 - 1))))
  | KExp _ _ | KSE _ _ | KPCIMQ _ _ | KRQ _ _ _ | KPer _ _ _ =>
      - 2 * phi1 k (sqdist x y) - 4 * del ^ 2 * phi2 k (sqdist x y)
  | KLap l s => - (kfun k x y / (2 * l ^ 2) ^ 2)
  | KPoisson r s => 2 * s * r * cos del / poisson_den r del ^ 2 - 8 * s * r ^ 2 * sin del ^ 2 / poisson_den r del ^ 3
  | KAdd a b => MX a x y i + MX b x y i
  | KProd a b => GX a x y i * GY b x y i + GY a x y i * GX b x y i + kfun a x y * MX b x y i + kfun b x y * MX a x y i
  | KPow a n => let m := Z.to_nat n in
      INR m * (kfun a x y ^ (m - 1) * MX a x y i + INR (m - 1) * kfun a x y ^ (m - 1 - 1) * (GX a x y i * GY a x y i))
  | _ => 0
  end.

Lemma poisson_den_pos r t : 0 < r < 1 -> 0 < poisson_den r t.
Proof.
  intro H. unfold poisson_den. assert (C := COS_bound t).
  assert (0 < (1 - r) ^ 2) by (apply pow_lt; lra). cbn in *. nra.
Qed.
Lemma sign_pos t : 0 < t -> sign t = 1.
Proof. intro H. apply sign_eq_1; auto. Qed.
Lemma sign_neg t : t < 0 -> sign t = -1.
Proof. intro H. apply sign_eq_m1; auto. Qed.
Lemma sign_sq t : t <> 0 -> sign t * sign t = 1.
Proof. intro H. destruct (Rlt_dec 0 t); [rewrite sign_pos|rewrite sign_neg]; lra. Qed.

Lemma sign_loc t : t <> 0 -> locally t (fun u => sign u = sign t).
Proof.
  intro H. destruct (Rlt_dec 0 t).
  - apply (locally_interval _ t 0 p_infty); cbn; auto. intros u Hu _. rewrite !sign_pos; auto.
  - apply (locally_interval _ t m_infty 0); cbn; auto; try lra. intros u _ Hu. rewrite !sign_neg; auto; lra.
Qed.
Lemma locally_shift (P : R -> Prop) a c : locally (a - c) P -> locally a (fun t => P (t - c)).
Proof.
  intros [e H]. exists e. intros t Ht. apply H.
  unfold ball in *; cbn in *; unfold AbsRing_ball, abs, minus, plus, opp in *; cbn in *.
  replace (t - c + - (a - c)) with (t + - a) by ring. auto.
Qed.
(** at a point and in a neighbourhood of it *)
Lemma locally_at (a : R) P : locally a P -> P a.
Proof. apply locally_singleton. Qed.

Lemma neq_open x y i : length x = length y -> (i < length x)%nat -> x <> y ->
  locally (nth i x 0) (fun t => set_coord i x t <> y).
Proof.
  intros L I S.
  assert (P := sqdist_pos x y L S).
  assert (C : continuous (fun t => sqdist (set_coord i x t) y) (nth i x 0)).
  { apply (@ex_derive_continuous R_AbsRing R_NormedModule (fun t => sqdist (set_coord i x t) y)). eexists. apply rad_sx; auto. }
  assert (Q : locally (sqdist (set_coord i x (nth i x 0)) y) (fun v => 0 < v)).
  { rewrite set_same. apply (locally_interval _ _ 0 p_infty); cbn; auto. }
  specialize (C _ Q). eapply filter_imp; [|exact C]. intros t Ht E. cbv beta in Ht. rewrite E, sqdist_refl in Ht. lra.
Qed.
Lemma smooth_open k x y i : length x = length y -> (i < length x)%nat -> smooth_at k x y ->
  locally (nth i x 0) (fun t => smooth_at k (set_coord i x t) y).
Proof.
  intros L I. induction k; cbn [smooth_at]; intro S; try (exists (mkposreal 1 Rlt_0_1); tauto).
  - (* exponential *)
    apply neq_open; auto.
  - (* Laplacian *)
    assert (D : nth i x 0 - nth i y 0 <> 0) by (specialize (S i I); lra).
    apply sign_loc in D as D'. apply locally_shift in D'. eapply filter_imp; [|exact D'].
    intros t Ht j Hj. rewrite set_len in Hj. destruct (Nat.eq_dec i j) as [<-|Hn].
    + rewrite nth_set by auto. intro E. rewrite E in Ht. unfold Rminus in Ht at 1. rewrite Rplus_opp_r, sign_0 in Ht.
      assert (Z := sign_sq _ D). rewrite <- Ht in Z. lra.
    + rewrite nth_set_neq by auto. auto.
  - (* periodic *)
    apply neq_open; auto.
  - exists (mkposreal 1 Rlt_0_1). intros. now rewrite set_len.
  - destruct S. apply filter_and; auto.
  - destruct S. apply filter_and; auto.
  - auto.
Qed.

Lemma dist2_one a b : dist2 [a] [b] = Rabs (a - b).
Proof. unfold dist2, sqdist, Rdot, vsub. cbn. rewrite Rplus_0_r. apply sqrt_Rsqr_abs. Qed.
Lemma cos_abs t : cos (Rabs t) = cos t.
Proof. unfold Rabs. destruct (Rcase_abs t); auto using cos_neg. Qed.
Lemma one_dim (x y : list R) : length x = 1%nat -> length x = length y ->
  exists a b, x = [a] /\ y = [b].
Proof.
  destruct x as [|a [|? x]]; cbn; try lia. destruct y as [|b [|? y]]; cbn; try lia. eauto.
Qed.
Lemma poisson_one r s a b : kfun (KPoisson r s) [a] [b] = s / poisson_den r (a - b).
Proof. cbn. unfold poisson_den. now rewrite dist2_one, cos_abs. Qed.

Definition has_derivatives (k : kern R) (x y : list R) (i : nat) : Prop :=
  is_derive (fun t => kfun k (set_coord i x t) y) (nth i x 0) (GX k x y i) /\
  is_derive (fun u => kfun k x (set_coord i y u)) (nth i y 0) (GY k x y i) /\
  is_derive (fun t => GY k (set_coord i x t) y i) (nth i x 0) (MX k x y i).

Lemma radial_dom k x y : length x = length y -> radial k -> smooth_at k x y -> phi_dom k (sqdist x y).
Proof.
  intros L Rk S. destruct k; try contradiction; cbn in *; auto using sqdist_nonneg, sqdist_pos.
Qed.
Lemma radial_derivatives k x y i : length x = length y -> (i < length x)%nat -> radial k -> closed_form k ->
  smooth_at k x y -> has_derivatives k x y i.
Proof.
  intros L I Rk C S. assert (D := radial_dom k x y L Rk S).
  assert (D1 := phi_d1 k _ Rk C D). assert (D2 := phi_d2 k _ Rk C D).
  assert (E1 : GX k x y i = 2 * (nth i x 0 - nth i y 0) * phi1 k (sqdist x y)) by (destruct k; try contradiction; reflexivity).
  assert (E2 : forall x y, GY k x y i = - (2 * (nth i x 0 - nth i y 0)) * phi1 k (sqdist x y))
    by (intros; destruct k; try contradiction; reflexivity).
  assert (E3 : MX k x y i = - 2 * phi1 k (sqdist x y) - 4 * (nth i x 0 - nth i y 0) ^ 2 * phi2 k (sqdist x y))
    by (destruct k; try contradiction; reflexivity).
  split; [|split].
  - rewrite E1. eapply is_derive_ext; [intro; symmetry; apply kfun_phi; auto|]. apply rad_x; auto.
  - rewrite E2. eapply is_derive_ext; [intro; symmetry; apply kfun_phi; auto|]. apply rad_y; auto.
  - rewrite E3. eapply is_derive_ext; [intro; symmetry; apply E2|]. apply rad_m; auto.
Qed.

Lemma lap_derivatives l s x y i : 0 < l -> length x = length y -> (i < length x)%nat ->
  smooth_at (KLap l s) x y -> has_derivatives (KLap l s) x y i.
Proof.
  intros Hl L I S. cbn in S. assert (D := S i I). assert (D' : nth i x 0 - nth i y 0 <> 0) by lra.
  assert (X : is_derive (fun t => kfun (KLap l s) (set_coord i x t) y) (nth i x 0) (GX (KLap l s) x y i)).
  { cbn [kfun GX].
    apply is_derive_ext with (fun t => s * exp (- ((dist1 x y - Rabs (nth i x 0 - nth i y 0) + Rabs (t - nth i y 0)) / (2 * l ^ 2)))).
    { intro t. now rewrite dist1_set. }
    auto_derive; auto.
    match goal with |- context[exp ?a] => replace a with (- (dist1 x y / (2 * l ^ 2))) by (unfold Rminus; field; lra) end.
    unfold Rminus. field. lra. }
  split; [exact X|split].
  - cbn [kfun GY].
    apply is_derive_ext with (fun t => s * exp (- ((dist1 x y - Rabs (nth i x 0 - nth i y 0) + Rabs (nth i x 0 - t)) / (2 * l ^ 2)))).
    { intro t. now rewrite dist1_set_y. }
    auto_derive; auto.
    match goal with |- context[exp ?a] => replace a with (- (dist1 x y / (2 * l ^ 2))) by (unfold Rminus; field; lra) end.
    unfold Rminus. field. lra.
  - cbn [GY MX].
    apply is_derive_ext_loc with (fun t => sign (nth i x 0 - nth i y 0) / (2 * l ^ 2) * kfun (KLap l s) (set_coord i x t) y).
    { assert (Z := locally_shift _ _ _ (sign_loc _ D')). eapply filter_imp; [|exact Z].
      cbv beta. intros t Ht. rewrite nth_set by auto. now rewrite Ht. }
    eapply is_derive_eq; [apply is_derive_scal_R; exact X|]. cbn [GX].
    transitivity (- (sign (nth i x 0 - nth i y 0) * sign (nth i x 0 - nth i y 0)) * (kfun (KLap l s) x y / (2 * l ^ 2) ^ 2)).
    { field. lra. } rewrite sign_sq by auto. ring.
Qed.

Lemma poisson_derivatives r s x y i : 0 < r < 1 -> length x = length y -> (i < length x)%nat ->
  length x = 1%nat -> has_derivatives (KPoisson r s) x y i.
Proof.
  intros Hr L I L1. destruct (one_dim x y L1 L) as (a & b & -> & ->). cbn in I. assert (i = 0)%nat by lia. subst i.
  assert (P := poisson_den_pos r (a - b) Hr).
  split; [|split]; cbn [GX GY MX nth].
  - apply is_derive_ext with (fun t => s / poisson_den r (t - b)). { intro t. symmetry. apply poisson_one. }
    unfold poisson_den in *. auto_derive.
    + unfold Rminus in *. cbn [pow] in *. repeat split; auto; apply Rgt_not_eq; repeat apply Rmult_lt_0_compat; lra.
    + unfold Rminus in *. cbn [pow] in *. field. lra.
  - apply is_derive_ext with (fun t => s / poisson_den r (a - t)). { intro t. symmetry. apply poisson_one. }
    unfold poisson_den in *. auto_derive.
    + unfold Rminus in *. cbn [pow] in *. repeat split; auto; apply Rgt_not_eq; repeat apply Rmult_lt_0_compat; lra.
    + unfold Rminus in *. cbn [pow] in *. field. lra.
  - apply is_derive_ext with (fun t => 2 * s * r * sin (t - b) / poisson_den r (t - b) ^ 2). { reflexivity. }
    unfold poisson_den in *. auto_derive.
    + unfold Rminus in *. cbn [pow] in *. repeat split; auto; apply Rgt_not_eq; repeat apply Rmult_lt_0_compat; lra.
    + unfold Rminus in *. cbn [pow] in *. field. lra.
Qed.

Lemma kernel_derivatives k x y i : length x = length y -> (i < length x)%nat -> closed_form k ->
  smooth_at k x y -> has_derivatives k x y i.
Proof.
  intros L I C. induction C; intro S; try (apply radial_derivatives; [exact L|exact I|exact Logic.I|constructor; assumption|exact S]).
  - split; [|split]; cbn [GX GY MX kfun].
    + eapply is_derive_eq; [apply (dot_x (fun v => s * v + c) (fun _ => s)); auto; auto_derive; auto; ring|]. ring.
    + eapply is_derive_eq; [apply (dot_y (fun v => s * v + c) (fun _ => s)); auto; auto_derive; auto; ring|]. ring.
    + apply is_derive_ext with (fun t => s * t). { intro t. now rewrite nth_set. } auto_derive; auto; ring.
  - assert (A : forall v, is_derive (fun v => s * (v + c) ^ Z.to_nat d) v (s * (INR (Z.to_nat d) * 1 * (v + c) ^ (Z.to_nat d - 1)))).
    { intro v. apply (is_derive_scal_R (fun v => (v + c) ^ Z.to_nat d)), (is_derive_pow_R (fun v => v + c)). auto_derive; auto; ring. }
    split; [|split]; cbn [GX GY MX kfun].
    + apply (dot_x (fun v => s * (v + c) ^ Z.to_nat d) (fun v => s * (INR (Z.to_nat d) * 1 * (v + c) ^ (Z.to_nat d - 1)))); auto.
    + apply (dot_y (fun v => s * (v + c) ^ Z.to_nat d) (fun v => s * (INR (Z.to_nat d) * 1 * (v + c) ^ (Z.to_nat d - 1)))); auto.
    + apply (dot_m (fun v => s * (INR (Z.to_nat d) * 1 * (v + c) ^ (Z.to_nat d - 1)))
        (fun v => s * (INR (Z.to_nat d) * 1 * (INR (Z.to_nat d - 1) * 1 * (v + c) ^ (Z.to_nat d - 1 - 1))))); auto.
      apply (is_derive_scal_R (fun v => INR (Z.to_nat d) * 1 * (v + c) ^ (Z.to_nat d - 1))).
      apply (is_derive_scal_R (fun v => (v + c) ^ (Z.to_nat d - 1))), (is_derive_pow_R (fun v => v + c)). auto_derive; auto; ring.
  - cbn in H. apply lap_derivatives; tauto.
  - cbn in H. apply poisson_derivatives; tauto.
  - destruct S as [S1 S2]. destruct (IHC1 S1) as (A1 & A2 & A3). destruct (IHC2 S2) as (B1 & B2 & B3).
    split; [|split]; cbn [GX GY MX kfun]; apply is_derive_plus_R; auto.
  - destruct S as [S1 S2]. destruct (IHC S1) as (A1 & A2 & A3).
    split; [|split]; cbn [GX GY MX kfun]; apply is_derive_plus_R; auto; apply is_derive_Reals, derivable_pt_lim_const.
  - destruct S as [S1 S2]. destruct (IHC1 S1) as (A1 & A2 & A3). destruct (IHC2 S2) as (B1 & B2 & B3).
    split; [|split]; cbn [GX GY MX kfun].
    + eapply is_derive_eq; [apply (is_derive_mult_R (fun t => kfun a (set_coord i x t) y)); eauto|].
      cbv beta. rewrite set_same. ring.
    + eapply is_derive_eq; [apply (is_derive_mult_R (fun t => kfun a x (set_coord i y t))); eauto|].
      cbv beta. rewrite set_same. ring.
    + eapply is_derive_eq; [apply is_derive_plus_R; apply is_derive_mult_R; eauto|].
      cbv beta. rewrite set_same. ring.
  - destruct S as [S1 S2]. destruct (IHC S1) as (A1 & A2 & A3).
    split; [|split]; cbn [GX GY MX kfun].
    + eapply is_derive_eq; [apply (is_derive_mult_R (fun t => kfun a (set_coord i x t) y) (fun _ => c)); [eauto|apply is_derive_Reals, derivable_pt_lim_const]|].
      cbv beta. rewrite set_same. ring.
    + eapply is_derive_eq; [apply (is_derive_mult_R (fun t => kfun a x (set_coord i y t)) (fun _ => c)); [eauto|apply is_derive_Reals, derivable_pt_lim_const]|].
      cbv beta. rewrite set_same. ring.
    + apply is_derive_ext with (fun t => GY a (set_coord i x t) y i * c). { intro t. change (@eq R_NormedModule) with (@eq R). ring. }
      eapply is_derive_eq; [apply (is_derive_mult_R (fun t => GY a (set_coord i x t) y i) (fun _ => c)); [eauto|apply is_derive_Reals, derivable_pt_lim_const]|].
      cbv beta. ring.
  - destruct (IHC S) as (A1 & A2 & A3).
    split; [|split]; cbn [GX GY MX kfun].
    + eapply is_derive_eq; [apply (is_derive_pow_R (fun t => kfun a (set_coord i x t) y)); eauto|].
      cbv beta. rewrite set_same. ring.
    + eapply is_derive_eq; [apply (is_derive_pow_R (fun t => kfun a x (set_coord i y t))); eauto|].
      cbv beta. rewrite set_same. ring.
    + eapply is_derive_eq.
      * apply is_derive_mult_R; [apply is_derive_scal_R; exact A3|apply is_derive_pow_R; exact A1].
      * cbv beta. rewrite set_same. ring.
Qed.
