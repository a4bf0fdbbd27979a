(** * Mixed divergences as documented, the periodic error term, bounds, boundary cases *)
From Coq Require Import List ZArith Reals Lia Lra Bool.
From Coquelicot Require Import Coquelicot.
From Verif Require Import Num Jax RSum JaxFacts MetricProofs MetricProofs2 UtilModel KernelModel KernelSpec
  KernelProofs KernelProofs2 KernelProofs3 KernelProofs4 KernelProofs5 KernelProofs6 KernelProofs7.
Import ListNotations.
Open Scope R_scope.

Lemma cf_well_formed k : closed_form k -> well_formed k.
Proof. induction 1; cbn [well_formed documented_params] in *; tauto. Qed.
Lemma wf_sym k x y : well_formed k -> kfun k x y = kfun k y x.
Proof.
  induction k; cbn [well_formed documented_params kfun]; intro W; auto;
    rewrite 1?(Rdot_comm x y), ?(sqdist_sym x y), ?(dist2_sym x y), ?(dist1_sym x y); auto.
  - unfold matern_fun. now rewrite (dist2_sym x y).
  - now rewrite IHk1, IHk2 by tauto.
  - now rewrite IHk1, IHk2 by tauto.
  - now rewrite IHk by tauto.
  - tauto.
Qed.

Lemma grad_x_spec k x y : closed_form k -> length x = length y -> smooth_at k x y ->
  is_gradient (fun x' => kfun k x' y) x (map (GX k x y) (seq 0 (length x))).
Proof.
  intros C L S. split; [now rewrite map_length, seq_length|]. intros i Hi.
  rewrite nth_map_seq by auto. apply (kernel_derivatives k x y i); auto.
Qed.
Lemma grad_y_spec k x y : closed_form k -> length x = length y -> smooth_at k x y ->
  is_gradient (fun y' => kfun k x y') y (map (GY k x y) (seq 0 (length x))).
Proof.
  intros C L S. split; [now rewrite map_length, seq_length|]. intros i Hi.
  rewrite nth_map_seq by lia. apply (kernel_derivatives k x y i); auto. lia.
Qed.
Lemma mixed_spec k x y : closed_form k -> length x = length y -> smooth_at k x y ->
  is_mixed_divergence (kfun k) x y (Rsum (map (MX k x y) (seq 0 (length x)))).
Proof.
  intros C L S. exists (map (MX k x y) (seq 0 (length x))).
  split; [now rewrite map_length, seq_length|]. split; auto. intros i Hi.
  rewrite nth_map_seq by auto. destruct (kernel_derivatives k x y i L Hi C S) as (D1 & D2 & D3).
  assert (O := smooth_open k x y i L Hi S).
  assert (A : locally (nth i x 0) (fun t => is_derive (fun u => kfun k (set_coord i x t) (set_coord i y u)) (nth i y 0) (GY k (set_coord i x t) y i))).
  { eapply filter_imp; [|exact O]. cbv beta. intros t Ht.
    apply (kernel_derivatives k (set_coord i x t) y i); auto; rewrite set_len; auto. }
  split.
  - eapply filter_imp; [|exact A]. intros t Ht. eexists; exact Ht.
  - eapply is_derive_ext_loc; [|exact D3]. eapply filter_imp; [|exact A].
    cbv beta. intros t Ht. symmetry. now apply is_derive_unique.
Qed.

(** ** The extra factor in the periodic divergence *)
Lemma per_div_error l s p x y : 0 < l -> p <> 0 -> length x = length y -> x <> y ->
  m_div (per_meth EROps ERT (Fin l) (Fin s) (Fin p)) (map Fin x) (map Fin y) =
  Sc (Fin (Rsum (map (MX (KPer l s p) x y) (seq 0 (length x))) +
    (1 - s) * (16 * (PI / p) ^ 2 / l ^ 4 * sin (PI * dist2 x y / p) ^ 2 * cos (PI * dist2 x y / p) ^ 2 * kfun (KPer l s p) x y))).
Proof.
  intros Hl Hp L N. assert (P := dist_pos x y L N).
  assert (Hl2 : 0 < l ^ 2) by (apply pow_lt; auto).
  assert (Hd : dist2 x y * p * l ^ 2 <> 0). { repeat apply Rmult_integral_contrapositive_currified; lra. }
  cbn [kfun].
  set (E := exp (- 2 * sin (PI * dist2 x y / p) ^ 2 / l ^ 2)).
  assert (EE : exp (- (2 / l ^ 2) * sin (PI * dist2 x y / p) ^ 2) = E) by (unfold E; f_equal; field; lra).
  rewrite radial_div; auto; [|exact Logic.I]. cbn [per_meth m_div]. fin.
  replace (PI / p * dist2 x y) with (PI * dist2 x y / p) by (field; auto). rewrite EE.
  set (B := PI * dist2 x y / p) in *.
  set (h := fun a => (- (a / dist2 x y) * (1 / dist2 x y) ^ 2 * sin B * cos B * E
     - a / dist2 x y * (PI / p) * (1 / dist2 x y) * sin B ^ 2 * E
     + a / dist2 x y * (PI / p) * (1 / dist2 x y) * cos B ^ 2 * E
     - 4 * (PI / p) * s / l ^ 2 * a * (1 / dist2 x y) ^ 2 * sin B ^ 2 * cos B ^ 2 * E)).
  rewrite (map_fin _ h) by (intro; now fin).
  fin. rewrite map_length, INR_Zof. do 2 f_equal.
  rewrite Rdot_map_l.
  rewrite Rsum_map_ext with (g := fun a => h 1 * (a * a)) by (intros; unfold h; field; lra).
  rewrite Rsum_map_scal, sqdist_vsub. cbn [phi1 phi2]. fold (dist2 x y). unfold per_g, per_h. fold B. fold E.
  rewrite sqdist_dist. unfold h. field. lra.
Qed.

(** ** Bounds *)
Definition stationary_bound (k : kern R) : option R :=
  match k with
  | KExp _ s | KLap _ s | KSE _ s | KPCIMQ _ s | KRQ _ s _ | KPer _ s _ => Some s
  | KMatern _ s _ => Some (s ^ 2)
  | _ => None
  end.
Lemma exp_div_bound t F : 0 <= t -> 0 < F -> 0 < exp (- (t / F)) <= 1.
Proof. intros. apply exp_neg_le1. apply Rmult_le_pos; auto. left. now apply Rinv_0_lt_compat. Qed.
Lemma one_le_body t F : 0 <= t -> 0 < F -> 1 <= 1 + t / F.
Proof. intros. assert (0 <= t / F); [|lra]. apply Rmult_le_pos; auto. left. now apply Rinv_0_lt_compat. Qed.
Lemma bounds k b x y : well_formed k -> stationary_bound k = Some b -> 0 < kfun k x y <= b.
Proof.
  destruct k; cbn [stationary_bound well_formed documented_params kfun]; intros W E; inversion E; subst; clear E; destruct W as [W1 W2].
  - apply scaled_bound; [lra|]. apply exp_div_bound; [apply dist2_nonneg|apply F_pos; lra].
  - apply scaled_bound; [lra|]. apply exp_div_bound; [apply dist1_nonneg|apply F_pos; lra].
  - apply scaled_bound; [lra|]. apply exp_div_bound; [apply sqdist_nonneg|apply F_pos; lra].
  - assert (P := F_pos len ltac:(lra)). assert (Q := sqdist_nonneg x y).
    assert (1 <= 1 + sqdist x y / (2 * len ^ 2)) by now apply one_le_body.
    assert (1 <= sqrt (1 + sqdist x y / (2 * len ^ 2))). { rewrite <- sqrt_1 at 1. now apply sqrt_le_1_alt. }
    apply scaled_bound; [lra|]. split; [apply Rinv_0_lt_compat; lra|]. apply Rle_trans with (/ 1); [apply Rinv_le_contravar; lra|lra].
  - destruct W1 as (A & B & C). apply scaled_bound; auto. apply Rpower_neg_le1; auto.
    assert (Q := sqdist_nonneg x y). destruct (Req_dec rw 0) as [->|N].
    + replace (2 * 0 * len ^ 2) with 0 by ring. unfold Rdiv. rewrite Rinv_0. lra.
    + assert (0 < len ^ 2) by (apply pow_lt; auto).
      assert (0 < 2 * rw * len ^ 2) by (repeat apply Rmult_lt_0_compat; lra).
      now apply one_le_body.
  - destruct W1 as (A & B & C). unfold matern_fun. set (u := sqrt _ * _ / _).
    assert (U : 0 <= u). { unfold u. apply Rmult_le_pos; [apply Rmult_le_pos; [apply sqrt_pos|apply dist2_nonneg]|]. left. now apply Rinv_0_lt_compat. }
    destruct (matern_sum (Z.to_nat degree) u U) as [M1 M2]. 
    set (Sm := INR _ / INR _ * Rsum _) in M1, M2.
    match goal with |- 0 < ?t <= _ => replace t with (scale ^ 2 * (exp (- u) * Sm)) by (unfold Sm; ring) end.
    apply scaled_bound; [apply (pow_lt scale 2); auto|].
    assert (X := exp_pos (- u)). split; [apply Rmult_lt_0_compat; lra|].
    apply Rle_trans with (exp (- u) * exp u); [apply Rmult_le_compat_l; lra|]. rewrite <- exp_plus.
    replace (- u + u) with 0 by ring. rewrite exp_0. lra.
  - destruct W1 as (A & B). apply scaled_bound; auto.
    replace (-2 * sin (PI * dist2 x y / period) ^ 2 / len ^ 2) with (- (2 * sin (PI * dist2 x y / period) ^ 2 / len ^ 2)) by (field; lra).
    apply exp_div_bound; [|apply pow_lt; auto]. assert (0 <= sin (PI * dist2 x y / period) ^ 2) by apply pow2_ge_0. lra.
Qed.
Lemma matern_sum0 p : INR (fact p) / INR (fact (2 * p)) *
    Rsum (map (fun i => INR (fact (p + i)) / (INR (fact i) * INR (fact (p - i))) * (2 * 0) ^ (p - i)) (seq 0 (p + 1))) = 1.
Proof.
  rewrite seq_app, map_app, Rsum_app. rewrite Rsum_zero.
  - cbn [seq map Rsum]. replace (0 + p)%nat with p by lia. rewrite Nat.sub_diag.
    replace (p + p)%nat with (2 * p)%nat by lia. change (n0 ROps) with 0. cbn [pow]. change (INR (fact 0)) with 1.
    assert (A := fact_pos p). assert (B := fact_pos (2 * p)). field. lra.
  - intros a Ha. apply in_map_iff in Ha as (i & <- & Hi). apply in_seq in Hi. rewrite Rmult_0_r.
    rewrite pow_i by lia. ring.
Qed.
Lemma at_self k b x : well_formed k -> stationary_bound k = Some b -> kfun k x x = b.
Proof.
  assert (Z0 : forall F, 0 / F = 0) by (intro; unfold Rdiv; ring).
  destruct k; cbn [stationary_bound well_formed documented_params kfun]; intros W E; inversion E; subst; clear E;
    rewrite ?dist2_refl, ?dist1_refl, ?sqdist_refl, ?Z0, ?Ropp_0, ?Rplus_0_r, ?sqrt_1, ?exp_0; try (field; fail).
  - unfold Rpower. rewrite ln_1, Rmult_0_r, exp_0. ring.
  - unfold matern_fun. rewrite dist2_refl, Rmult_0_r, Z0, Ropp_0, exp_0, !Rmult_assoc, matern_sum0. ring.
  - rewrite Rmult_0_r, Z0, sin_0. replace (-2 * 0 ^ 2 / len ^ 2) with 0; [rewrite exp_0; ring|]. unfold Rdiv. ring.
Qed.
Lemma poisson_bounds r s x y : 0 < r < 1 -> 0 < s ->
  s / (1 + r) ^ 2 <= kfun (KPoisson r s) x y <= s / (1 - r) ^ 2 /\ kfun (KPoisson r s) x x = s / (1 - r) ^ 2.
Proof.
  intros Hr Hs. cbn [kfun]. assert (B := COS_bound (dist2 x y)). assert (D := poisson_den_pos r (dist2 x y) Hr). unfold poisson_den in D.
  assert (0 < (1 - r) ^ 2) by (apply pow_lt; lra). assert (0 < (1 + r) ^ 2) by (apply pow_lt; lra).
  split; [split|].
  - apply Rmult_le_compat_l; [lra|]. apply Rinv_le_contravar; auto. cbn. nra.
  - apply Rmult_le_compat_l; [lra|]. apply Rinv_le_contravar; auto. cbn. nra.
  - rewrite dist2_refl, cos_0. f_equal. ring.
Qed.

(** ** The periodic kernel at coincident points *)
Lemma periodic_gradient_zero : is_gradient (fun x' => kfun (KPer 1 1 1) x' [0]) [0] [0].
Proof.
  split; auto. intros [|i] Hi; [|cbn in Hi; lia]. cbn [set_coord upd nth].
  apply is_derive_ext with (fun t => 1 * exp (- 2 * sin (PI * t / 1) ^ 2 / 1 ^ 2)).
  - intro t. cbn [kfun]. unfold set_coord. cbn [upd]. rewrite dist2_one, Rminus_0_r.
    do 4 f_equal. unfold Rabs. destruct (Rcase_abs t) as [N|N]; auto.
    replace (PI * - t / 1) with (- (PI * t / 1)) by field. rewrite sin_neg. cbn. ring.
  - auto_derive; auto. unfold Rdiv. rewrite Rmult_0_r, Rmult_0_l, sin_0. ring.
Qed.
