(** * Proofs for C74: motions that leave Gramians unchanged *)
From Coq Require Import List ZArith Reals Lra Lia FunctionalExtensionality.
From Verif Require Import Num Jax JaxFacts RSum KernelModel KernelSpec KernelProofs KernelProofs7 KernelProofs8 InvSpec InvKernelSpec.
Import ListNotations.
Open Scope R_scope.

Lemma computed_fin jgrad keq k : (forall a b, keq a b = true -> a = b) -> well_formed k ->
  computed jgrad keq k = finite_kernel (kfun k).
Proof.
  intros HK HW. apply functional_extensionality. intros x. apply functional_extensionality. intros y.
  unfold computed, finite_kernel. now rewrite kernel_value.
Qed.
Lemma gramian_ext {P Q V} (k1 : P -> P -> V) (k2 : Q -> Q -> V) (phi : P -> Q) xs :
  (forall a b, In a xs -> In b xs -> k2 (phi a) (phi b) = k1 a b) -> same_gramian k1 xs k2 (map phi xs).
Proof.
  intros H. unfold same_gramian. rewrite map_map. apply map_ext_in. intros a Ha. rewrite map_map.
  apply map_ext_in. intros b Hb. symmetry. now apply H.
Qed.
Lemma vsub_translate t x y : length x = length t -> length y = length t ->
  vsub (translate t x) (translate t y) = vsub x y.
Proof.
  revert x y. induction t as [|u t IH]; destruct x, y; cbn; intros; try discriminate; auto.
  unfold vsub in *. cbn. f_equal; [lra|]. apply IH; lia.
Qed.
Lemma kfun_vsub k x y x' y' : stationary k -> vsub x' y' = vsub x y -> kfun k x' y' = kfun k x y.
Proof.
  intros HS E.
  assert (E1 : sqdist x' y' = sqdist x y) by (unfold sqdist; now rewrite E).
  assert (E2 : dist2 x' y' = dist2 x y) by (unfold dist2; now rewrite E1).
  assert (E3 : dist1 x' y' = dist1 x y) by (unfold dist1; now rewrite E).
  induction k; cbn in HS |- *; try contradiction; unfold matern_fun; rewrite ?E1, ?E2, ?E3; auto.
  - destruct HS. now rewrite IHk1, IHk2.
  - destruct HS. now rewrite IHk1, IHk2.
  - now rewrite IHk.
Qed.
Lemma kfun_dist k x y x' y' : isotropic k -> sqdist x' y' = sqdist x y -> kfun k x' y' = kfun k x y.
Proof.
  intros HS E1.
  assert (E2 : dist2 x' y' = dist2 x y) by (unfold dist2; now rewrite E1).
  induction k; cbn in HS |- *; try contradiction; unfold matern_fun; rewrite ?E1, ?E2; auto.
  - destruct HS. now rewrite IHk1, IHk2.
  - destruct HS. now rewrite IHk1, IHk2.
  - now rewrite IHk.
Qed.
Lemma vsub_dilate c x y : vsub (dilate c x) (dilate c y) = map (Rmult c) (vsub x y).
Proof.
  revert y. induction x; destruct y; cbn; auto. unfold vsub, dilate in *. cbn. f_equal; [lra|]. apply IHx.
Qed.
Lemma sqdist_dilate c x y : sqdist (dilate c x) (dilate c y) = c ^ 2 * sqdist x y.
Proof.
  unfold sqdist. rewrite vsub_dilate. generalize (vsub x y). intros v. unfold Rdot.
  induction v; cbn in *; [lra|]. rewrite IHv. lra.
Qed.
Lemma dist2_dilate c x y : 0 < c -> dist2 (dilate c x) (dilate c y) = c * dist2 x y.
Proof.
  intros Hc. unfold dist2. rewrite sqdist_dilate, sqrt_mult by (try apply pow2_ge_0; apply sqdist_nonneg).
  rewrite sqrt_pow2 by lra. reflexivity.
Qed.
Lemma dist1_dilate c x y : 0 < c -> dist1 (dilate c x) (dilate c y) = c * dist1 x y.
Proof.
  intros Hc. unfold dist1. rewrite vsub_dilate, map_map. generalize (vsub x y). intros v.
  induction v; cbn; [lra|]. rewrite IHv, Rabs_mult, (Rabs_pos_eq c) by lra. lra.
Qed.
Lemma kfun_unit c k x y : 0 < c -> well_formed k -> has_units k ->
  kfun (change_unit c k) (dilate c x) (dilate c y) = kfun k x y.
Proof.
  intros Hc. pose proof (sqrt_lt_R0 c Hc) as Hs. assert (HSQ : sqrt c ^ 2 = c) by (apply pow2_sqrt; lra).
  induction k; cbn [change_unit kfun has_units well_formed documented_params]; intros HW HU; try contradiction; auto;
    rewrite ?sqdist_dilate, ?dist1_dilate, ?dist2_dilate by assumption.
  - do 3 f_equal. rewrite Rpow_mult_distr, HSQ. field. lra.
  - do 3 f_equal. rewrite Rpow_mult_distr, HSQ. field. lra.
  - do 3 f_equal. field. lra.
  - do 3 f_equal. field. lra.
  - destruct (Req_dec rw 0) as [->|Hrw].
    + unfold Rpower. now replace (- 0) with 0 by lra; rewrite !Rmult_0_l.
    + do 2 f_equal. f_equal. field. lra.
  - unfold matern_fun. rewrite dist2_dilate by assumption.
    replace (sqrt (2 * INR (Z.to_nat degree) + 1) * (c * dist2 x y) / (c * len))
      with (sqrt (2 * INR (Z.to_nat degree) + 1) * dist2 x y / len) by (field; lra).
    reflexivity.
  - do 5 f_equal. f_equal. field. lra.
  - destruct HW as (_ & W1 & W2), HU. now rewrite IHk1, IHk2.
  - destruct HW as (_ & W1 & W2), HU. now rewrite IHk1, IHk2.
  - destruct HW. now rewrite IHk.
Qed.
Lemma wf_unit c k : 0 < c -> well_formed k -> well_formed (change_unit c k).
Proof.
  intros Hc. pose proof (sqrt_lt_R0 c Hc) as Hs.
  induction k; cbn [change_unit well_formed documented_params]; intros HW; auto;
    repeat match goal with H : _ /\ _ |- _ => destruct H end; repeat split; auto;
    try (apply Rmult_lt_0_compat; assumption).
  apply Rmult_integral_contrapositive_currified; lra.
Qed.
