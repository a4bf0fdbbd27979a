(** * Positive semi-definite Gramians: properties C11, C50 *)
From Coq Require Import List ZArith Reals Lia Lra.
From Verif Require Import Num Jax RSum MetricSpec MetricProofs MeanModel KernelModel KernelSpec KernelProofs KernelProofs3 KernelProofs7 KernelProofs8
  PsdSpec PsdProofs PsdProofs4 PsdProofs5 PropKernel.
Import ListNotations.
Open Scope R_scope.

(** ** C11: the kernel algebra *)
Theorem C11_algebra :
  forall jgrad keq d (a b : kern ER) c n,
  (forall k k', keq k k' = true -> k = k') ->
  psd_gramian jgrad keq d a -> psd_gramian jgrad keq d b -> 0 <= c -> (1 <= n)%Z ->
  psd_gramian jgrad keq d (KAdd a b) /\
  psd_gramian jgrad keq d (KProd a b) /\
  psd_gramian jgrad keq d (KPow a n) /\
  psd_gramian jgrad keq d (KAdd a (KConst (Fin c))) /\
  psd_gramian jgrad keq d (KProd a (KConst (Fin c))).
Proof.
  intros jgrad keq d a b c n K A B Hc Hn. apply real_gramian in A, B.
  repeat split; apply gramian_real; auto using real_add, real_prod, real_const.
  apply real_pow; auto. lia.
Qed.
Print Assumptions C11_algebra.
Theorem C11_base_kernels :
  forall jgrad keq d s c n l,
  (forall k k', keq k k' = true -> k = k') ->
  0 < s -> 0 <= c -> (2 <= n)%Z -> 0 < l ->
  psd_gramian jgrad keq d (KLinear (Fin s) (Fin c)) /\
  psd_gramian jgrad keq d (KPoly (Fin s) (Fin c) n) /\
  psd_gramian jgrad keq d (KSE (Fin l) (Fin s)).
Proof.
  intros jgrad keq d s c n l K Hs Hc Hn Hl. repeat split; apply gramian_real.
  - apply (real_shipped jgrad keq K d (KLinear s c)); cbn; tauto.
  - apply (real_shipped jgrad keq K d (KPoly s c n)); cbn; tauto.
  - apply (real_shipped jgrad keq K d (KSE l s)); cbn; tauto.
Qed.
Print Assumptions C11_base_kernels.
(** hypotheses: a comparison that is sound and not constantly false, and two kernels *)
Example C11_applies :
  let j := fun _ x => x in
  psd_gramian j ex_keq 2 (KLinear (Fin 2) (Fin 1)) /\ psd_gramian j ex_keq 2 (KSE (Fin 1) (Fin 3)) /\
  ex_keq (KLinear (Fin 2) (Fin 1)) (KLinear (Fin 2) (Fin 1)) = true /\
  psd_gramian j ex_keq 2 (KProd (KLinear (Fin 2) (Fin 1)) (KLinear (Fin 2) (Fin 1))).
Proof.
  intro j. destruct (C11_base_kernels j ex_keq 2 2 1 2 1 ex_keq_sound ltac:(lra) ltac:(lra) ltac:(lia) ltac:(lra)) as (L & _ & _).
  destruct (C11_base_kernels j ex_keq 2 3 1 2 1 ex_keq_sound ltac:(lra) ltac:(lra) ltac:(lia) ltac:(lra)) as (_ & _ & S).
  repeat split; auto.
  - cbn. unfold Reqb. destruct (Req_EM_T 2 2); [|lra]. destruct (Req_EM_T 1 1); [reflexivity|lra].
  - apply (C11_algebra j ex_keq 2 _ _ 1 1 ex_keq_sound L L); lra || lia.
Qed.

(** ** C50: every shipped kernel *)
(** Missing from the property: periodic and Poisson kernels on data of dimension two or
    more, refuted below. *)
Theorem C50_shipped_kernels_partial :
  forall jgrad keq d (k : kern R),
  (forall k k', keq k k' = true -> k = k') ->
  well_formed k -> one_dim_ok d k -> psd_gramian jgrad keq d (lift k).
Proof. intros jgrad keq d k K W O. apply gramian_real. now apply real_shipped. Qed.
Print Assumptions C50_shipped_kernels_partial.
Example C50_shipped_applies :
  let k := KPow (KAdd (KProd (KMatern 1 2 3) (KLap 2 1)) (KProd (KRQ 1 2 0) (KAdd (KExp 1 1) (KConst 3)))) 2 in
  (well_formed k /\ one_dim_ok 5 k) /\
  (well_formed (KAdd (KPer 1 2 (-3)) (KProd (KPoisson (/ 2) 1) (KPCIMQ 1 1))) /\ one_dim_ok 1 (KAdd (KPer 1 2 (-3)) (KProd (KPoisson (/ 2) 1) (KPCIMQ 1 1)))).
Proof. cbn. repeat split; lra || lia. Qed.

(** In two dimensions no periodic and no Poisson kernel is positive semi-definite. *)
Lemma sin_sqrt2 : 0 < sin (PI * sqrt 2) ^ 2.
Proof.
  assert (P := PI_RGT_0). assert (Q : 1 < sqrt 2) by (rewrite <- sqrt_1; apply sqrt_lt_1; lra).
  assert (Q2 : sqrt 2 < 2). { assert (S := sqrt_sqrt 2 ltac:(lra)). nra. }
  assert (sin (PI * sqrt 2) < 0) by (apply sin_lt_0; nra). nra.
Qed.
Lemma energy_refutes jgrad keq (K : forall k k', keq k k' = true -> k = k') (k : kern R) (g : R -> R) a : well_formed k ->
  (forall x y, kfun k x y = g (dist2 x y)) -> 0 < a -> g a = g 0 -> g (a * sqrt 2) < g 0 -> ~ psd_gramian jgrad keq 2 (lift k).
Proof.
  intros W E Ha G0 G1 H.
  destruct (gramian_entries jgrad keq 2 (lift k) (square a) H) as (_ & _ & _ & Q).
  { intros x Hx. cbn in Hx. decompose [or] Hx; subst; auto; contradiction. }
  specialize (Q [1; -1; 1; -1] eq_refl).
  assert (EQ : pairwise (fun x y => untn (m_val (methods EROps ERT jgrad keq (lift k)) (map Fin x) (map Fin y))) (square a) (square a)
    = pairwise (fun x y => g (dist2 x y)) (square a) (square a)).
  { unfold pairwise. apply map_ext. intro x. apply map_ext. intro y. rewrite kernel_value by auto. apply E. }
  rewrite EQ, (square_energy g a Ha), G0 in Q. lra.
Qed.
Theorem C50_two_dimensions_refuted :
  forall jgrad keq,
  (forall k k', keq k k' = true -> k = k') ->
  (forall l s p, 0 < l -> 0 < s -> p <> 0 -> ~ psd_gramian jgrad keq 2 (KPer (Fin l) (Fin s) (Fin p))) /\
  (forall r s, 0 < r < 1 -> 0 < s -> ~ psd_gramian jgrad keq 2 (KPoisson (Fin r) (Fin s))).
Proof.
  intros jgrad keq K. assert (PI0 := PI_RGT_0). assert (S2 := sin_sqrt2). split.
  - intros l s p Hl Hs Hp. assert (L2 : 0 < l ^ 2) by (now apply pow_lt).
    assert (EV : forall t, sin (PI * (Rabs p * t) / p) ^ 2 = sin (PI * t) ^ 2).
    { intro t. unfold Rabs. destruct (Rcase_abs p).
      - replace (PI * (- p * t) / p) with (- (PI * t)) by (field; auto). rewrite sin_neg. ring.
      - replace (PI * (p * t) / p) with (PI * t) by (field; auto). reflexivity. }
    apply (energy_refutes jgrad keq K (KPer l s p) (fun t => s * exp (- 2 * sin (PI * t / p) ^ 2 / l ^ 2)) (Rabs p)).
    + cbn. tauto.
    + reflexivity.
    + now apply Rabs_pos_lt.
    + assert (E1 := EV 1). rewrite !Rmult_1_r, sin_PI in E1. rewrite E1.
      replace (PI * 0 / p) with 0 by (field; auto). rewrite sin_0. reflexivity.
    + rewrite EV. replace (PI * 0 / p) with 0 by (field; auto). rewrite sin_0. apply Rmult_lt_compat_l; auto. apply exp_increasing.
      replace (- 2 * 0 ^ 2 / l ^ 2) with 0 by (field; lra).
      assert (0 < sin (PI * sqrt 2) ^ 2 / l ^ 2) by (now apply Rdiv_lt_0_compat). unfold Rdiv in *. lra.
  - intros r s Hr Hs.
    apply (energy_refutes jgrad keq K (KPoisson r s) (fun t => s / poisson_den r t) (2 * PI)).
    + cbn. tauto.
    + reflexivity.
    + lra.
    + unfold poisson_den. now rewrite cos_2PI, cos_0.
    + apply Rmult_lt_compat_l; auto. assert (A := poisson_den_pos r (2 * PI * sqrt 2) Hr). assert (B := poisson_den_pos r 0 Hr).
      apply Rinv_lt_contravar; [nra|]. unfold poisson_den. rewrite cos_0.
      replace (2 * PI * sqrt 2) with (2 * (PI * sqrt 2)) by ring. rewrite cos_2a_sin. nra.
Qed.
Print Assumptions C50_two_dimensions_refuted.
