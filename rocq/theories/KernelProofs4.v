(** * Evaluating the kernel model on finite values *)
From Coq Require Import List ZArith Reals Lia Lra.
From Coquelicot Require Import Coquelicot.
From Verif Require Import Num Jax RSum JaxFacts MetricProofs MetricProofs2 UtilModel KernelModel KernelSpec
  KernelProofs KernelProofs2 KernelProofs3.
Import ListNotations.
Open Scope R_scope.

Lemma fadd_fin a b : fadd EROps (Fin a) (Fin b) = Fin (a + b). Proof. reflexivity. Qed.
Lemma fsub_fin a b : fsub EROps (Fin a) (Fin b) = Fin (a - b). Proof. reflexivity. Qed.
Lemma fmul_fin a b : fmul EROps (Fin a) (Fin b) = Fin (a * b). Proof. reflexivity. Qed.
Lemma fofZ_fin z : fofZ EROps z = Fin (IZR z). Proof. reflexivity. Qed.
Lemma f0_fin : f0 EROps = Fin 0. Proof. reflexivity. Qed.
Lemma f1_fin : f1 EROps = Fin 1. Proof. reflexivity. Qed.
Lemma fneg_fin a : fneg EROps (Fin a) = Fin (- a).
Proof. unfold fneg. rewrite f0_fin, fsub_fin. f_equal. ring. Qed.
Lemma fexp_fin a : fexp ERT (Fin a) = Fin (exp a). Proof. reflexivity. Qed.
Lemma fsin_fin a : fsin ERT (Fin a) = Fin (sin a). Proof. reflexivity. Qed.
Lemma fcos_fin a : fcos ERT (Fin a) = Fin (cos a). Proof. reflexivity. Qed.
Lemma fpi_fin : fpi ERT = Fin PI. Proof. reflexivity. Qed.
Lemma nsign_pos x : 0 < x -> nsign ROps x = Some true.
Proof. intro H. rewrite nsign_R. destruct (Rlt_dec 0 x); [auto|lra]. Qed.
Lemma fpow_fin a b : 0 < a -> fpow ERT (Fin a) (Fin b) = Fin (Rpower a b).
Proof.
  intro H. cbn [fpow ERT ER_pow]. rewrite (nsign_pos a H). rewrite nsign_R.
  destruct (Rlt_dec 0 b); auto. destruct (Rlt_dec b 0); auto.
  assert (b = 0) by lra. subst. now rewrite Rpower_O.
Qed.
Lemma pown_fin a n : pown EROps (Fin a) n = Fin (a ^ n).
Proof. induction n; cbn [pown pow]; auto. now rewrite IHn. Qed.
Lemma fpowi_fin a n : (0 <= n)%Z -> fpowi EROps (Fin a) n = Fin (a ^ Z.to_nat n).
Proof. intro H. unfold fpowi. destruct (Z.ltb_spec n 0); [lia|]. apply pown_fin. Qed.
Lemma sq_fin a : sq EROps (Fin a) = Fin (a ^ 2). Proof. apply (fpowi_fin a 2). lia. Qed.
Lemma fabs_fin a : fabs EROps (Fin a) = Fin (Rabs a).
Proof.
  unfold fabs. rewrite fneg_fin, f0_fin. cbn [fltb EROps extOps eltb].
  destruct (nltb ROps 0 a) eqn:E.
  - apply Rltb_true in E. f_equal. rewrite Rabs_right; lra.
  - apply Rltb_false in E. f_equal. rewrite Rabs_left1 by assumption. lra.
Qed.
Lemma fsign_fin a : fsign EROps (Fin a) = Fin (sign a).
Proof.
  unfold fsign. rewrite f0_fin, f1_fin, fneg_fin. cbn [fisnan fltb EROps extOps eltb eisnan].
  destruct (Rtotal_order a 0) as [H|[->|H]].
  - replace (nltb ROps 0 a) with false by (symmetry; apply Rltb_false; lra).
    replace (nltb ROps a 0) with true by (symmetry; apply Rltb_true; lra). rewrite sign_neg; auto.
  - replace (nltb ROps 0 0) with false by (symmetry; apply Rltb_false; lra). now rewrite sign_0.
  - replace (nltb ROps 0 a) with true by (symmetry; apply Rltb_true; lra). now rewrite sign_pos.
Qed.
Lemma difference_fin x y : difference EROps (map Fin x) (map Fin y) = map Fin (vsub x y).
Proof. unfold difference, vsub. rewrite map2_map, map_map2. reflexivity. Qed.
Lemma squared_distance_fin x y : squared_distance EROps (map Fin x) (map Fin y) = Fin (sqdist x y).
Proof. unfold squared_distance. now rewrite difference_fin, fdot_fin. Qed.
Lemma norm2_fin x y : norm2 EROps (map Fin (vsub x y)) = Fin (dist2 x y).
Proof. unfold norm2. rewrite fdot_fin. apply fsqrt_fin, sqdist_nonneg. Qed.
Lemma norm1_fin x y : norm1 EROps (map Fin (vsub x y)) = Fin (dist1 x y).
Proof.
  unfold norm1. rewrite map_map. rewrite map_ext with (g := fun a => Fin (Rabs a)) by apply fabs_fin.
  rewrite <- map_map with (g := Fin). apply fsum_fin.
Qed.
Lemma map_fin (F : ER -> ER) (g : R -> R) l : (forall a, F (Fin a) = Fin (g a)) ->
  map F (map Fin l) = map Fin (map g l).
Proof. intro H. rewrite !map_map. apply map_ext. auto. Qed.
Lemma vsub_len x y : length x = length y -> length (vsub x y) = length x.
Proof. intro L. unfold vsub. rewrite map2_length. lia. Qed.
Lemma vsub_seq x y : length x = length y -> vsub x y = map (fun i => nth i x 0 - nth i y 0) (seq 0 (length x)).
Proof.
  intro L. rewrite (list_seq (vsub x y) 0), vsub_len by auto. apply map_ext_in. intros i Hi.
  apply in_seq in Hi. unfold vsub. apply nth_map2 with (da := 0) (db := 0); lia.
Qed.
Lemma map_vsub_seq (g : R -> R) x y : length x = length y ->
  map g (vsub x y) = map (fun i => g (nth i x 0 - nth i y 0)) (seq 0 (length x)).
Proof. intro L. rewrite vsub_seq, map_map by auto. auto. Qed.
Lemma map_coord_seq (g : R -> R) x : map g x = map (fun i => g (nth i x 0)) (seq 0 (length x)).
Proof. rewrite (list_seq x 0) at 1. now rewrite map_map. Qed.
Lemma sqdist_seq x y : length x = length y ->
  sqdist x y = Rsum (map (fun i => (nth i x 0 - nth i y 0) ^ 2) (seq 0 (length x))).
Proof.
  intro L. unfold sqdist. rewrite vsub_seq by auto. unfold Rdot. rewrite map2_map_same. f_equal.
  apply map_ext. intros. ring.
Qed.
Lemma Rdot_map_l (g : R -> R) x : Rdot (map g x) x = Rsum (map (fun a => g a * a) x).
Proof. unfold Rdot. f_equal. rewrite <- (map_id x) at 2. now rewrite map2_map_same. Qed.

#[export] Hint Rewrite fadd_fin fsub_fin fmul_fin fofZ_fin f0_fin f1_fin fneg_fin fexp_fin fsin_fin fcos_fin fpi_fin
  sq_fin fabs_fin fsign_fin difference_fin squared_distance_fin norm2_fin norm1_fin fdot_fin fsum_fin : fin.
Ltac fin := repeat (autorewrite with fin; try rewrite fdiv_fin by (try assumption; lra)).
Ltac vec H := f_equal; rewrite H; f_equal.

Definition evals (m : meth ER) (k : kern R) (x y : list R) : Prop :=
  m_val m (map Fin x) (map Fin y) = Sc (Fin (kfun k x y)) /\
  m_gx m (map Fin x) (map Fin y) = Vec (map Fin (map (GX k x y) (seq 0 (length x)))) /\
  m_gy m (map Fin x) (map Fin y) = Vec (map Fin (map (GY k x y) (seq 0 (length x)))).
Definition divs (m : meth ER) (k : kern R) (x y : list R) : Prop :=
  m_div m (map Fin x) (map Fin y) = Sc (Fin (Rsum (map (MX k x y) (seq 0 (length x))))).

Lemma INR_Zof n : IZR (Z.of_nat n) = INR n.
Proof. symmetry. apply INR_IZR_INZ. Qed.
Lemma sum_const c n : Rsum (map (fun _ => c) (seq 0 n)) = INR n * c.
Proof. rewrite Rsum_map_const, seq_length. auto. Qed.

Lemma ev_linear s c x y : length x = length y -> evals (linear_meth EROps (Fin s) (Fin c)) (KLinear s c) x y
  /\ divs (linear_meth EROps (Fin s) (Fin c)) (KLinear s c) x y.
Proof.
  intro L. unfold evals, divs, linear_meth; cbn [m_val m_gx m_gy m_div]. unfold vscale.
  repeat split.
  - now fin.
  - f_equal. rewrite (map_fin _ (fun a => s * a)) by (intro; now fin). f_equal. rewrite map_coord_seq, <- L. reflexivity.
  - f_equal. rewrite (map_fin _ (fun a => s * a)) by (intro; now fin). f_equal. rewrite map_coord_seq. reflexivity.
  - fin. rewrite map_length. cbn [MX]. rewrite sum_const, INR_Zof. do 2 f_equal. ring.
Qed.

Lemma Zpos_nat d : (2 <= d)%Z -> IZR d = INR (Z.to_nat d) /\ IZR (d - 1) = INR (Z.to_nat d - 1) /\
  Z.to_nat (d - 1) = (Z.to_nat d - 1)%nat /\ Z.to_nat (d - 2) = (Z.to_nat d - 1 - 1)%nat.
Proof.
  intro H. rewrite !INR_IZR_INZ, Nat2Z.inj_sub, Z2Nat.id by lia. cbn. repeat split; lia.
Qed.
Lemma ev_poly s c d x y : (2 <= d)%Z -> length x = length y ->
  evals (poly_meth EROps (Fin s) (Fin c) d) (KPoly s c d) x y
  /\ divs (poly_meth EROps (Fin s) (Fin c) d) (KPoly s c d) x y.
Proof.
  intros D L. destruct (Zpos_nat d D) as (E1 & E2 & E3 & E4).
  unfold evals, divs, poly_meth; cbn [m_val m_gx m_gy m_div].
  repeat split.
  - fin. rewrite fpowi_fin by lia. now fin.
  - f_equal. fin. rewrite (map_fin _ (fun a => s * IZR d * a * (Rdot x y + c) ^ (Z.to_nat d - 1)))
      by (intro; rewrite fpowi_fin, E3 by lia; now fin).
    f_equal. rewrite map_coord_seq, <- L. apply map_ext. intro i. cbn [GX]. rewrite E1. ring.
  - f_equal. fin. rewrite (map_fin _ (fun a => s * IZR d * a * (Rdot x y + c) ^ (Z.to_nat d - 1)))
      by (intro; rewrite fpowi_fin, E3 by lia; now fin).
    f_equal. rewrite map_coord_seq. apply map_ext. intro i. cbn [GY]. rewrite E1. ring.
  - fin. rewrite !fpowi_fin, E3, E4 by lia. fin. rewrite map_length, INR_Zof, E1, E2. do 2 f_equal.
    cbn [MX]. rewrite Rsum_map_add, sum_const.
    rewrite (Rsum_map_scal_r _ (fun i => nth i x 0 * nth i y 0)).
    rewrite <- (Rdot_seq (length x)) by auto. ring.
Qed.

(** the divergence of a radial kernel *)
Lemma radial_div k x y : length x = length y -> radial k ->
  Rsum (map (MX k x y) (seq 0 (length x))) =
  - 2 * INR (length x) * phi1 k (sqdist x y) - 4 * sqdist x y * phi2 k (sqdist x y).
Proof.
  intros L Rk.
  rewrite Rsum_map_ext with (g := fun i => - 2 * phi1 k (sqdist x y) - 4 * phi2 k (sqdist x y) * (nth i x 0 - nth i y 0) ^ 2).
  - rewrite Rsum_map_sub, sum_const, Rsum_map_scal, <- sqdist_seq by auto. ring.
  - intros. destruct k; try contradiction; cbn [MX]; ring.
Qed.
Lemma radial_gx k x y i : radial k -> GX k x y i = 2 * (nth i x 0 - nth i y 0) * phi1 k (sqdist x y).
Proof. intro H. destruct k; try contradiction; reflexivity. Qed.
Lemma radial_gy k x y i : radial k -> GY k x y i = - (2 * (nth i x 0 - nth i y 0)) * phi1 k (sqdist x y).
Proof. intro H. destruct k; try contradiction; reflexivity. Qed.
(** both gradients from the y-gradient *)
Lemma radial_evals m k x y (g : R -> R) : length x = length y -> radial k ->
  m_val m (map Fin x) (map Fin y) = Sc (Fin (kfun k x y)) ->
  m_gx m (map Fin x) (map Fin y) = Vec (map (fneg EROps) (map Fin (map g (vsub x y)))) ->
  m_gy m (map Fin x) (map Fin y) = Vec (map Fin (map g (vsub x y))) ->
  (forall a, g a = - (2 * a) * phi1 k (sqdist x y)) ->
  evals m k x y.
Proof.
  intros L Rk H1 H2 H3 G. split; [auto|split].
  - rewrite H2. f_equal. rewrite (map_fin _ Ropp) by apply fneg_fin. f_equal.
    rewrite map_map, map_vsub_seq by auto. apply map_ext. intro i. rewrite radial_gx, G by auto. ring.
  - rewrite H3. f_equal. f_equal. rewrite map_vsub_seq by auto. apply map_ext. intro i. rewrite radial_gy, G by auto. ring.
Qed.

Lemma dist_pos x y : length x = length y -> x <> y -> 0 < dist2 x y.
Proof. intros. apply sqrt_lt_R0, sqdist_pos; auto. Qed.
Lemma dist_sq x y : dist2 x y ^ 2 = sqdist x y.
Proof. unfold dist2. rewrite pow2_sqrt; auto using sqdist_nonneg. Qed.
Lemma sqdist_dist x y : sqdist x y = dist2 x y ^ 2.
Proof. now rewrite dist_sq. Qed.
Lemma sqdist_vsub x y : Rsum (map (fun a => a * a) (vsub x y)) = sqdist x y.
Proof. unfold sqdist. rewrite <- (map_id (vsub x y)) at 2 3. unfold Rdot. now rewrite map2_map_same. Qed.

Lemma ev_exp l s x y : 0 < l -> length x = length y -> x <> y ->
  evals (exp_meth EROps ERT (Fin l) (Fin s)) (KExp l s) x y
  /\ divs (exp_meth EROps ERT (Fin l) (Fin s)) (KExp l s) x y.
Proof.
  intros Hl L N. assert (P := dist_pos x y L N).
  assert (Hl2 : 0 < l ^ 2) by (apply pow_lt; auto).
  assert (HF : 2 * l ^ 2 <> 0) by lra. assert (HFd : 2 * l ^ 2 * dist2 x y <> 0) by nra.
  set (g := fun a => s * a * exp (- dist2 x y / (2 * l ^ 2)) / (2 * l ^ 2 * dist2 x y)).
  assert (GYe : exp_gy EROps ERT (Fin l) (Fin s) (map Fin x) (map Fin y) = map Fin (map g (vsub x y))).
  { unfold exp_gy. fin. apply map_fin. intro a. now fin. }
  assert (EE : - dist2 x y / (2 * l ^ 2) = - (dist2 x y / (2 * l ^ 2))) by (field; lra).
  split.
  - apply radial_evals with (g := g); cbn [exp_meth m_val m_gx m_gy]; auto.
    + exact Logic.I.
    + fin. cbn [kfun]. rewrite EE. auto.
    + now rewrite GYe.
    + now rewrite GYe.
    + intro a. unfold g. cbn [phi1]. fold (dist2 x y). rewrite EE. field. lra.
  - unfold divs. rewrite radial_div; auto; [|exact Logic.I]. cbn [exp_meth m_div]. fin.
    assert (P2 : dist2 x y ^ 2 <> 0) by (apply Rgt_not_eq, pow_lt; auto).
    rewrite (map_fin _ (fun a => - exp (- dist2 x y / (2 * l ^ 2)) * a / dist2 x y ^ 2 * (1 / dist2 x y + 1 / (2 * l ^ 2))))
      by (intro; now fin).
    fin. rewrite map_length, INR_Zof. do 2 f_equal.
    rewrite Rdot_map_l.
    rewrite Rsum_map_ext with (g := fun a => (- exp (- dist2 x y / (2 * l ^ 2)) / dist2 x y ^ 2 * (1 / dist2 x y + 1 / (2 * l ^ 2))) * (a * a))
      by (intros; field; lra).
    rewrite Rsum_map_scal, sqdist_vsub. cbn [phi1 phi2]. fold (dist2 x y). rewrite EE, sqdist_dist. field. lra.
Qed.

Lemma ev_se l s x y : 0 < l -> length x = length y ->
  evals (se_meth EROps ERT (Fin l) (Fin s)) (KSE l s) x y
  /\ divs (se_meth EROps ERT (Fin l) (Fin s)) (KSE l s) x y.
Proof.
  intros Hl L. assert (Hl2 : 0 < l ^ 2) by (apply pow_lt; auto).
  assert (EE : - sqdist x y / (2 * l ^ 2) = - (sqdist x y / (2 * l ^ 2))) by (field; lra).
  assert (Ev : se_val EROps ERT (Fin l) (Fin s) (map Fin x) (map Fin y) = Fin (kfun (KSE l s) x y)).
  { unfold se_val. fin. cbn [kfun]. now rewrite EE. }
  set (g := fun a => a / l ^ 2 * kfun (KSE l s) x y).
  assert (GYe : se_gy EROps ERT (Fin l) (Fin s) (map Fin x) (map Fin y) = map Fin (map g (vsub x y))).
  { unfold se_gy. rewrite Ev. fin. apply map_fin. intro a. now fin. }
  split.
  - apply radial_evals with (g := g); cbn [se_meth m_val m_gx m_gy]; auto.
    + exact Logic.I. + now rewrite Ev. + now rewrite GYe. + now rewrite GYe.
    + intro a. unfold g. cbn [phi1 kfun]. field. lra.
  - unfold divs. rewrite radial_div; auto; [|exact Logic.I]. cbn [se_meth m_div]. rewrite Ev. fin.
    rewrite map_length, INR_Zof. do 2 f_equal. cbn [phi1 phi2 kfun]. field. lra.
Qed.

Lemma ev_pcimq l s x y : 0 < l -> 0 < s -> length x = length y ->
  evals (pcimq_meth EROps (Fin l) (Fin s)) (KPCIMQ l s) x y
  /\ divs (pcimq_meth EROps (Fin l) (Fin s)) (KPCIMQ l s) x y.
Proof.
  intros Hl Hs L. assert (Hl2 : 0 < l ^ 2) by (apply pow_lt; auto).
  assert (B := body_pos (sqdist x y) (2 * l ^ 2) (sqdist_nonneg x y) ltac:(lra)).
  assert (W : 0 < sqrt (1 + sqdist x y / (2 * l ^ 2))) by (apply sqrt_lt_R0; auto).
  assert (Ev : pcimq_val EROps (Fin l) (Fin s) (map Fin x) (map Fin y) = Fin (kfun (KPCIMQ l s) x y)).
  { unfold pcimq_val. fin. rewrite fsqrt_fin by lra. now fin. }
  set (g := fun a => s * a / (2 * l ^ 2) * (kfun (KPCIMQ l s) x y / s) ^ 3).
  assert (GYe : pcimq_gy EROps (Fin l) (Fin s) (map Fin x) (map Fin y) = map Fin (map g (vsub x y))).
  { unfold pcimq_gy. rewrite Ev. fin. apply map_fin. intro a. rewrite fpowi_fin by lia. now fin. }
  assert (EK : kfun (KPCIMQ l s) x y / s = / sqrt (1 + sqdist x y / (2 * l ^ 2))) by (cbn [kfun]; field; lra).
  split.
  - apply radial_evals with (g := g); cbn [pcimq_meth m_val m_gx m_gy]; auto.
    + exact Logic.I. + now rewrite Ev. + now rewrite GYe. + now rewrite GYe.
    + intro a. unfold g. rewrite EK. cbn [phi1]. field. lra.
  - unfold divs. rewrite radial_div; auto; [|exact Logic.I]. cbn [pcimq_meth m_div]. rewrite Ev. fin.
    rewrite !fpowi_fin by lia. fin. rewrite map_length, INR_Zof, EK. do 2 f_equal.
    change (Z.to_nat 3) with 3%nat. change (Z.to_nat 5) with 5%nat. cbn [phi1 phi2]. field. lra.
Qed.

Lemma ev_rq l s a x y : 0 < l -> 0 < a -> length x = length y ->
  evals (rq_meth EROps ERT (Fin l) (Fin s) (Fin a)) (KRQ l s a) x y
  /\ divs (rq_meth EROps ERT (Fin l) (Fin s) (Fin a)) (KRQ l s a) x y.
Proof.
  intros Hl Ha L. assert (Hl2 : 0 < l ^ 2) by (apply pow_lt; auto).
  assert (Hal : 0 < a * l ^ 2) by (apply Rmult_lt_0_compat; auto).
  assert (H2 : 0 < 2 * a * l ^ 2) by lra. assert (H2' : 2 * a * l ^ 2 <> 0) by lra.
  assert (H3 : 2 * (a * l ^ 2) <> 0) by lra. assert (H4 : a * l ^ 2 <> 0) by lra.
  assert (B := body_pos (sqdist x y) (2 * a * l ^ 2) (sqdist_nonneg x y) H2).
  set (g := fun v => s * v / l ^ 2 * Rpower (1 + sqdist x y / (2 * a * l ^ 2)) (- a - 1)).
  assert (GYe : rq_gy EROps ERT (Fin l) (Fin s) (Fin a) (map Fin x) (map Fin y) = map Fin (map g (vsub x y))).
  { unfold rq_gy. fin. apply map_fin. intro v. rewrite fpow_fin by auto. now fin. }
  split.
  - apply radial_evals with (g := g); cbn [rq_meth m_val m_gx m_gy]; auto.
    + exact Logic.I. + unfold rq_val. fin. rewrite fpow_fin by auto. now fin. + now rewrite GYe. + now rewrite GYe.
    + intro v. unfold g. cbn [phi1]. field. lra.
  - unfold divs. rewrite radial_div; auto; [|exact Logic.I]. cbn [rq_meth m_div]. fin.
    assert (EB : 1 + sqdist x y / (2 * (a * l ^ 2)) = 1 + sqdist x y / (2 * a * l ^ 2)) by (field; lra).
    rewrite EB. rewrite !fpow_fin by auto. fin.
    rewrite map_length, INR_Zof. do 2 f_equal. cbn [phi1 phi2].
    replace (- (a + 1)) with (- a - 1) by ring. replace (- (a + 1 + 1)) with (- a - 1 - 1) by ring. field. lra.
Qed.

Lemma ev_per l s p x y : 0 < l -> p <> 0 -> length x = length y -> x <> y ->
  evals (per_meth EROps ERT (Fin l) (Fin s) (Fin p)) (KPer l s p) x y
  /\ (s = 1 -> divs (per_meth EROps ERT (Fin l) (Fin s) (Fin p)) (KPer l s p) x y).
Proof.
  intros Hl Hp L N. assert (P := dist_pos x y L N).
  assert (Hl2 : 0 < l ^ 2) by (apply pow_lt; auto).
  assert (Hd : dist2 x y * p * l ^ 2 <> 0). { repeat apply Rmult_integral_contrapositive_currified; lra. }
  set (E := exp (- 2 * sin (PI * dist2 x y / p) ^ 2 / l ^ 2)).
  set (g := fun a => 4 * a * s * PI / (dist2 x y * p * l ^ 2) * sin (PI * dist2 x y / p) * cos (PI * dist2 x y / p) * E).
  assert (EE : exp (- (2 / l ^ 2) * sin (PI * dist2 x y / p) ^ 2) = E) by (unfold E; f_equal; field; lra).
  assert (GYe : per_gy EROps ERT (Fin l) (Fin s) (Fin p) (map Fin x) (map Fin y) = map Fin (map g (vsub x y))).
  { unfold per_gy. fin. apply map_fin. intro a. fin. now rewrite EE. }
  split.
  - apply radial_evals with (g := g); cbn [per_meth m_val m_gx m_gy]; auto.
    + exact Logic.I. + now fin. + now rewrite GYe. + now rewrite GYe.
    + intro a. unfold g. cbn [phi1]. fold (dist2 x y). unfold per_g. fold E. field. lra.
  - intros ->. unfold divs. rewrite radial_div; auto; [|exact Logic.I]. cbn [per_meth m_div]. fin.
    replace (PI / p * dist2 x y) with (PI * dist2 x y / p) by (field; auto). rewrite EE.
    set (B := PI * dist2 x y / p) in *.
    set (h := fun a => (- (a / dist2 x y) * (1 / dist2 x y) ^ 2 * sin B * cos B * E
       - a / dist2 x y * (PI / p) * (1 / dist2 x y) * sin B ^ 2 * E
       + a / dist2 x y * (PI / p) * (1 / dist2 x y) * cos B ^ 2 * E
       - 4 * (PI / p) * 1 / l ^ 2 * a * (1 / dist2 x y) ^ 2 * sin B ^ 2 * cos B ^ 2 * E)).
    rewrite (map_fin _ h) by (intro; now fin).
    fin. rewrite map_length, INR_Zof. do 2 f_equal.
    rewrite Rdot_map_l.
    rewrite Rsum_map_ext with (g := fun a => h 1 * (a * a)) by (intros; unfold h; field; lra).
    rewrite Rsum_map_scal, sqdist_vsub. cbn [phi1 phi2]. fold (dist2 x y). unfold per_g, per_h. fold B. fold E.
    rewrite sqdist_dist. unfold h. field. lra.
Qed.

Lemma ev_lap l s x y : 0 < l -> length x = length y ->
  evals (lap_meth EROps ERT (Fin l) (Fin s)) (KLap l s) x y
  /\ divs (lap_meth EROps ERT (Fin l) (Fin s)) (KLap l s) x y.
Proof.
  intros Hl L. assert (Hl2 : 0 < l ^ 2) by (apply pow_lt; auto).
  assert (Ev : lap_val EROps ERT (Fin l) (Fin s) (map Fin x) (map Fin y) = Fin (kfun (KLap l s) x y)).
  { unfold lap_val. fin. cbn [kfun]. do 3 f_equal. field. lra. }
  assert (GYe : lap_gy EROps ERT (Fin l) (Fin s) (map Fin x) (map Fin y) = map Fin (map (GY (KLap l s) x y) (seq 0 (length x)))).
  { unfold lap_gy. rewrite Ev. fin.
    rewrite (map_fin _ (fun a => sign a / (2 * l ^ 2) * kfun (KLap l s) x y)) by (intro; now fin).
    f_equal. rewrite map_vsub_seq by auto. reflexivity. }
  unfold evals, divs; cbn [lap_meth m_val m_gx m_gy m_div]. rewrite GYe, Ev. repeat split.
  - f_equal. rewrite (map_fin _ Ropp) by apply fneg_fin. f_equal. rewrite map_map. reflexivity.
  - rewrite fpowi_fin by lia. change (Z.to_nat 4) with 4%nat.
    assert (4 * l ^ 4 <> 0) by (apply Rgt_not_eq; assert (0 < l ^ 4) by (apply pow_lt; auto); lra).
    fin. rewrite map_length, INR_Zof. cbn [MX]. rewrite sum_const. do 2 f_equal. field. lra.
Qed.

Lemma ev_poisson r s x y : 0 < r < 1 -> length x = length y -> length x = 1%nat ->
  evals (poisson_meth EROps ERT (Fin r) (Fin s)) (KPoisson r s) x y
  /\ divs (poisson_meth EROps ERT (Fin r) (Fin s)) (KPoisson r s) x y.
Proof.
  intros Hr L L1. destruct (one_dim x y L1 L) as (a & b & -> & ->).
  assert (P := poisson_den_pos r (a - b) Hr). assert (P2 : poisson_den r (a - b) ^ 2 <> 0) by (apply Rgt_not_eq, pow_lt; auto).
  assert (P3 : poisson_den r (a - b) ^ 3 <> 0) by (apply Rgt_not_eq, pow_lt; auto).
  unfold evals, divs; cbn [poisson_meth m_val m_gx m_gy m_div]. unfold poisson_gy.
  assert (C : cos (dist2 [a] [b]) = cos (a - b)) by now rewrite dist2_one, cos_abs.
  assert (S2 : sin (dist2 [a] [b]) ^ 2 = sin (a - b) ^ 2).
  { rewrite dist2_one. unfold Rabs. destruct (Rcase_abs (a - b)); auto. rewrite sin_neg. ring. }
  rewrite poisson_one. fold (@vsub [a] [b]).
  repeat split.
  - fin. rewrite C. fold (poisson_den r (a - b)). now fin.
  - f_equal. fin. cbn [vsub map2 map seq length GX nth]. fin. fold (poisson_den r (a - b)). now fin.
  - f_equal. fin. cbn [vsub map2 map seq length GY nth]. fin. fold (poisson_den r (a - b)). now fin.
  - fin. rewrite C, S2. fold (poisson_den r (a - b)). rewrite fpowi_fin by lia. change (Z.to_nat 3) with 3%nat. fin.
    cbn [seq map length Rsum MX nth]. do 2 f_equal. ring.
Qed.
