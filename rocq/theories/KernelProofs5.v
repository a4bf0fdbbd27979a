(** * Composed kernels and Stein kernels evaluate to the documented functions *)
From Coq Require Import List ZArith Reals Lia Lra Bool.
From Coquelicot Require Import Coquelicot.
From Verif Require Import Num Jax RSum JaxFacts MetricProofs MetricProofs2 UtilModel KernelModel KernelSpec
  KernelProofs KernelProofs2 KernelProofs3 KernelProofs4.
Import ListNotations.
Open Scope R_scope.

(** a scalar, or a vector all of whose entries are that scalar *)
Definition flat (d : nat) (t : ten ER) (v : R) : Prop := t = Sc (Fin v) \/ t = Vec (repeat (Fin v) d).

Definition vof (d : nat) (g : nat -> R) : ten ER := Vec (map Fin (map g (seq 0 d))).

Lemma tadd_ss a b : tadd EROps (Sc (Fin a)) (Sc (Fin b)) = Sc (Fin (a + b)). Proof. reflexivity. Qed.
Lemma tmul_ss a b : tmul EROps (Sc (Fin a)) (Sc (Fin b)) = Sc (Fin (a * b)). Proof. reflexivity. Qed.
Lemma vof_len d (g : nat -> R) : length (map Fin (map g (seq 0 d))) = d.
Proof. now rewrite !map_length, seq_length. Qed.
Lemma tadd_vv d g h : tadd EROps (vof d g) (vof d h) = vof d (fun i => g i + h i).
Proof.
  unfold vof, tadd, tmap2. rewrite !vof_len, Nat.eqb_refl. f_equal.
  rewrite !map_map. rewrite map2_map_same. reflexivity.
Qed.
Lemma tadd_vs0 d g : tadd EROps (vof d g) (Sc (f0 EROps)) = vof d g.
Proof.
  unfold vof, tadd, tmap2. f_equal. rewrite (map_fin _ (fun a => a + 0)) by reflexivity.
  f_equal. rewrite map_map. apply map_ext. intros. ring.
Qed.
Lemma tmul_sv d c g : tmul EROps (Sc (Fin c)) (vof d g) = vof d (fun i => c * g i).
Proof.
  unfold vof, tmul, tmap2. f_equal. rewrite (map_fin _ (fun a => c * a)) by reflexivity. f_equal. now rewrite map_map.
Qed.
Lemma tmul_vs d c g : tmul EROps (vof d g) (Sc (Fin c)) = vof d (fun i => g i * c).
Proof.
  unfold vof, tmul, tmap2. f_equal. rewrite (map_fin _ (fun a => a * c)) by reflexivity. f_equal. now rewrite map_map.
Qed.
Lemma vof_ext d g h : (forall i, (i < d)%nat -> g i = h i) -> vof d g = vof d h.
Proof. intro H. unfold vof. do 2 f_equal. apply map_ext_in. intros i Hi. apply in_seq in Hi. apply H. lia. Qed.
Lemma tdot_vv d g h : tdot EROps (vof d g) (vof d h) = Sc (Fin (Rsum (map (fun i => g i * h i) (seq 0 d)))).
Proof.
  unfold vof, tdot. rewrite !vof_len, Nat.eqb_refl. rewrite fdot_fin. do 2 f_equal. unfold Rdot. now rewrite map2_map_same.
Qed.
Lemma tmatmul_vv d g h : tmatmul EROps (vof d g) (vof d h) = Sc (Fin (Rsum (map (fun i => g i * h i) (seq 0 d)))).
Proof. apply tdot_vv. Qed.
Lemma tpow_s a n : (0 <= n)%Z -> tmap (fun c => fpowi EROps c n) (Sc (Fin a)) = Sc (Fin (a ^ Z.to_nat n)).
Proof. intro H. cbn. now rewrite fpowi_fin. Qed.
Lemma fpowi_m1 a : a <> 0 -> fpowi EROps (Fin a) (1 - 2) = Fin (1 / a).
Proof.
  intro H. unfold fpowi. replace (1 - 2 <? 0)%Z with true by reflexivity. replace (Z.to_nat (- (1 - 2))) with 1%nat by reflexivity.
  rewrite pown_fin, pow_1. now apply fdiv_fin.
Qed.
Lemma tsq_s a : tmap (sq EROps) (Sc (Fin a)) = Sc (Fin (a ^ 2)).
Proof. cbn [tmap]. now rewrite sq_fin. Qed.

Lemma flat_s d v : flat d (Sc (Fin v)) v. Proof. now left. Qed.
Lemma map_rep {A B} (f : A -> B) a n : map f (repeat a n) = repeat (f a) n.
Proof. induction n; cbn; auto. now f_equal. Qed.
Lemma map2_rep {A B C} (f : A -> B -> C) a b n : map2 f (repeat a n) (repeat b n) = repeat (f a b) n.
Proof. induction n; cbn; auto. now f_equal. Qed.
Lemma map_const {A B} (c : B) (l : list A) : map (fun _ => c) l = repeat c (length l).
Proof. induction l; cbn; auto. now f_equal. Qed.
Lemma flat_map2 d (F : ER -> ER -> ER) (g : R -> R -> R) t u a b : (forall a b, F (Fin a) (Fin b) = Fin (g a b)) ->
  flat d t a -> flat d u b -> flat d (tmap2 F t u) (g a b).
Proof.
  intros H [->| ->] [->| ->]; unfold flat, tmap2.
  - left. now rewrite H.
  - right. now rewrite map_rep, H.
  - right. now rewrite map_rep, H.
  - right. now rewrite !repeat_length, Nat.eqb_refl, map2_rep, H.
Qed.
Lemma flat_add d t u a b : flat d t a -> flat d u b -> flat d (tadd EROps t u) (a + b).
Proof. apply flat_map2. reflexivity. Qed.
Lemma flat_mul d t u a b : flat d t a -> flat d u b -> flat d (tmul EROps t u) (a * b).
Proof. apply flat_map2. reflexivity. Qed.
Lemma flat_eq d t a b : flat d t a -> a = b -> flat d t b.
Proof. now intros H <-. Qed.
(** [v.dot(0)] for the scalar gradient of a constant *)
Lemma flat_dot0_r d g : flat d (tdot EROps (vof d g) (Sc (f0 EROps))) 0.
Proof.
  right. cbn [tdot vof tmul tmap2]. f_equal. rewrite (map_fin _ (fun a => a * 0)) by reflexivity.
  rewrite <- map_rep. f_equal. rewrite map_map.
  rewrite map_ext with (g := fun _ => 0) by (intros; ring).
  now rewrite map_const, seq_length.
Qed.
Lemma flat_dot0_l d g : flat d (tdot EROps (Sc (f0 EROps)) (vof d g)) 0.
Proof.
  right. cbn [tdot vof tmul tmap2]. f_equal. rewrite (map_fin _ (fun a => 0 * a)) by reflexivity.
  rewrite <- map_rep. f_equal. rewrite map_map.
  rewrite map_ext with (g := fun _ => 0) by (intros; ring).
  now rewrite map_const, seq_length.
Qed.

(** ** Injectivity of [lift], for kernels without score functions *)
Fixpoint no_stein (k : kern R) : Prop :=
  match k with
  | KAdd a b | KProd a b => no_stein a /\ no_stein b
  | KPow a _ => no_stein a
  | KStein _ _ => False
  | _ => True
  end.
Lemma lift_inj a b : no_stein a -> lift a = lift b -> a = b.
Proof.
  revert b. induction a; intros b N E; destruct b; cbn in *; try discriminate; try contradiction;
    injection E; intros; subst; f_equal; auto; tauto || (destruct N; auto).
Qed.
Lemma cf_no_stein k : closed_form k -> no_stein k.
Proof. induction 1; cbn; auto. Qed.

Section Compose.
  Variable jgrad : (list ER -> ER) -> list ER -> list ER.
  Variable keq : kern ER -> kern ER -> bool.
  Hypothesis keq_sound : forall a b, keq a b = true -> a = b.
  Notation meths := (methods EROps ERT jgrad keq).

  Section At.
    Variables (x y : list R).
    Hypothesis L : length x = length y.
    Let d := length x.
    Let X := map Fin x : list ER.
    Let Y := map Fin y : list ER.
    Definition ev (k : kern R) : Prop :=
      m_val (meths (lift k)) X Y = Sc (Fin (kfun k x y)) /\
      m_gx (meths (lift k)) X Y = vof d (GX k x y) /\
      m_gy (meths (lift k)) X Y = vof d (GY k x y).

    Lemma ev_leaf m k : meths (lift k) = m -> evals m k x y -> ev k.
    Proof. intros <- H. exact H. Qed.
    Lemma kernel_evals k : closed_form k -> smooth_at k x y -> ev k.
    Proof.
      intro C. induction C; intro S; cbn [smooth_at documented_params] in *.
      - now apply (ev_linear s c x y).
      - now apply (ev_poly s c d0 x y).
      - now apply (ev_exp l s x y).
      - now apply (ev_lap l s x y).
      - now apply (ev_se l s x y).
      - now apply (ev_pcimq l s x y).
      - apply (ev_rq l s a x y); lra || auto.
      - now apply (ev_per l s p x y).
      - now apply (ev_poisson r s x y).
      - destruct S as [S1 S2]. destruct (IHC1 S1) as (A1 & A2 & A3). destruct (IHC2 S2) as (B1 & B2 & B3).
        unfold ev; cbn [lift methods add_meth m_val m_gx m_gy]. rewrite A1, A2, A3, B1, B2, B3.
        rewrite !tadd_vv, tadd_ss. auto.
      - destruct S as [S1 _]. destruct (IHC S1) as (A1 & A2 & A3).
        unfold ev; cbn [lift methods add_meth const_meth m_val m_gx m_gy]. rewrite A1, A2, A3.
        rewrite !tadd_vs0, tadd_ss. repeat split; apply vof_ext; intros; cbn [GX GY]; ring.
      - destruct S as [S1 S2]. destruct (IHC1 S1) as (A1 & A2 & A3). destruct (IHC2 S2) as (B1 & B2 & B3).
        unfold ev; cbn [lift methods prod_meth m_val m_gx m_gy]. rewrite A1, A2, A3.
        destruct (keq (lift a) (lift b)) eqn:E.
        + apply keq_sound, lift_inj in E; auto using cf_no_stein. subst b. rewrite tsq_s, fofZ_fin, !tmul_sv, !tmul_vs.
          repeat split; [do 2 f_equal; cbn [kfun]; ring|..]; apply vof_ext; intros; cbn [GX GY]; ring.
        + rewrite B1, B2, B3. rewrite !tmul_vs, !tadd_vv, tmul_ss. auto.
      - destruct S as [S1 _]. destruct (IHC S1) as (A1 & A2 & A3).
        unfold ev; cbn [lift methods prod_meth m_val m_gx m_gy]. rewrite A1, A2, A3.
        destruct (keq (lift a) (KConst (Fin c))) eqn:E.
        + apply keq_sound in E. exfalso. change (KConst (Fin c)) with (lift (KConst c)) in E.
          apply lift_inj in E; auto using cf_no_stein. subst a. inversion C.
        + cbn [const_meth m_val m_gx m_gy]. rewrite f0_fin, !tmul_vs, !tmul_ss.
          replace (Sc (Fin (0 * kfun a x y))) with (Sc (f0 EROps)) by (rewrite f0_fin; do 2 f_equal; ring).
          rewrite !tadd_vs0. repeat split; apply vof_ext; intros; cbn [GX GY kfun]; ring.
      - destruct (IHC S) as (A1 & A2 & A3).
        unfold ev; cbn [lift methods pow_meth m_val m_gx m_gy]. rewrite A1, A2, A3.
        rewrite !tpow_s, fofZ_fin, !tmul_sv, !tmul_vs by lia.
        assert (E1 : IZR n = INR (Z.to_nat n)) by (rewrite INR_IZR_INZ, Z2Nat.id by lia; auto).
        assert (E2 : Z.to_nat (n - 1) = (Z.to_nat n - 1)%nat) by lia.
        repeat split; apply vof_ext; intros; cbn [GX GY]; rewrite E1, E2; auto.
    Qed.

    Lemma pow_div_eq a m : flat d (m_div (meths (lift a)) X Y) (Rsum (map (MX a x y) (seq 0 d))) -> ev a ->
      (1 <= m)%Z -> (m = 1%Z -> kfun a x y <> 0) ->
      flat d (m_div (meths (lift (KPow a m))) X Y) (Rsum (map (MX (KPow a m) x y) (seq 0 d)))
      /\ (m_div (meths (lift a)) X Y = Sc (Fin (Rsum (map (MX a x y) (seq 0 d)))) ->
          exists v, m_div (meths (lift (KPow a m))) X Y = Sc (Fin v)).
    Proof.
      intros F (A1 & A2 & A3) Hm H1. cbn [lift methods pow_meth m_div]. rewrite A1, A2, A3.
      rewrite (tpow_s _ (m - 1)) by lia. rewrite tdot_vv, !fofZ_fin.
      assert (P2 : exists q, tmul EROps (Sc (Fin (IZR (m - 1)))) (tmap (fun c => fpowi EROps c (m - 2)) (Sc (Fin (kfun a x y))))
                = Sc (Fin q) /\ q = INR (Z.to_nat m - 1) * kfun a x y ^ (Z.to_nat m - 1 - 1)).
      { destruct (Z.eq_dec m 1) as [->|N].
        - cbn [tmap]. rewrite fpowi_m1 by auto. rewrite tmul_ss. eexists. split; eauto.
          replace (Z.to_nat 1 - 1)%nat with 0%nat by reflexivity. replace (1 - 1)%Z with 0%Z by reflexivity. cbn [INR]. ring.
        - rewrite tpow_s, tmul_ss by lia. eexists. split; eauto.
          replace (Z.to_nat (m - 2)) with (Z.to_nat m - 1 - 1)%nat by lia. f_equal.
          rewrite INR_IZR_INZ. f_equal. lia. }
      destruct P2 as (q & -> & Hq). rewrite tmul_ss.
      assert (Em : IZR m = INR (Z.to_nat m)) by (rewrite INR_IZR_INZ, Z2Nat.id by lia; auto).
      assert (Et : Z.to_nat (m - 1) = (Z.to_nat m - 1)%nat) by lia.
      split.
      - eapply flat_eq.
        + apply flat_mul; [apply flat_s|]. apply flat_add; [apply flat_mul; [apply flat_s|exact F]|apply flat_s].
        + cbn [MX]. rewrite Rsum_map_scal, Rsum_map_add, !Rsum_map_scal. rewrite Hq, Em, Et. ring.
      - intros ->. rewrite tmul_ss, tadd_ss, tmul_ss. eauto.
    Qed.

    Lemma kernel_div k : closed_form k -> smooth_at k x y -> div_ok k x y ->
      flat d (m_div (meths (lift k)) X Y) (Rsum (map (MX k x y) (seq 0 d))).
    Proof.
      intro C. induction C; intros S D; cbn [smooth_at documented_params div_ok] in *.
      - left. now apply (ev_linear s c x y).
      - left. now apply (ev_poly s c d0 x y).
      - left. now apply (ev_exp l s x y).
      - left. now apply (ev_lap l s x y).
      - left. now apply (ev_se l s x y).
      - left. now apply (ev_pcimq l s x y).
      - left. apply (ev_rq l s a x y); lra || auto.
      - left. apply (ev_per l s p x y); tauto.
      - left. now apply (ev_poisson r s x y).
      - destruct S as [S1 S2]. destruct D as [D1 D2].
        cbn [lift methods add_meth m_div MX]. rewrite Rsum_map_add. apply flat_add; auto.
      - destruct S as [S1 _]. destruct D as [D1 D2].
        cbn [lift methods add_meth m_div MX const_meth]. rewrite Rsum_map_add, Rsum_map_const0. apply flat_add; auto. now left.
      - destruct S as [S1 S2]. destruct D as [D1 D2].
        destruct (kernel_evals a C1 S1) as (A1 & A2 & A3). destruct (kernel_evals b C2 S2) as (B1 & B2 & B3).
        specialize (IHC1 S1 D1). specialize (IHC2 S2 D2).
        cbn [lift methods prod_meth m_div].
        destruct (keq (lift a) (lift b)) eqn:E.
        + apply keq_sound, lift_inj in E; auto using cf_no_stein. subst b. rewrite A1, A2, A3, fofZ_fin, tdot_vv.
          eapply flat_eq.
          * apply flat_mul; [apply flat_s|]. apply flat_add; [apply flat_s|]. apply flat_mul; [apply flat_s|exact IHC1].
          * cbn [MX]. rewrite !Rsum_map_add, !Rsum_map_scal.
            rewrite (Rsum_map_ext (fun i => GY a x y i * GX a x y i) (fun i => GX a x y i * GY a x y i)) by (intros; ring). ring.
        + rewrite A1, A2, A3, B1, B2, B3, !tdot_vv.
          eapply flat_eq.
          * repeat apply flat_add; try apply flat_s; apply flat_mul; try apply flat_s; eassumption.
          * cbn [MX]. rewrite !Rsum_map_add, !Rsum_map_scal. ring.
      - destruct S as [S1 _]. destruct D as [D1 _]. specialize (IHC S1 D1).
        destruct (kernel_evals a C S1) as (A1 & A2 & A3).
        cbn [lift methods prod_meth m_div].
        destruct (keq (lift a) (KConst (Fin c))) eqn:E.
        + apply keq_sound in E. exfalso. change (KConst (Fin c)) with (lift (KConst c)) in E.
          apply lift_inj in E; auto using cf_no_stein. subst a. inversion C.
        + rewrite A1, A2, A3. cbn [const_meth m_val m_gx m_gy m_div].
          eapply flat_eq.
          * repeat apply flat_add; [apply flat_dot0_r|apply flat_dot0_r|apply flat_mul; [apply flat_s|apply flat_s]|].
            apply flat_mul; [apply flat_s|exact IHC].
          * cbn [MX GX GY kfun]. rewrite !Rsum_map_add, !Rsum_map_scal, Rsum_map_const0.
            rewrite (Rsum_map_ext (fun i => GX a x y i * 0) (fun _ => 0)) by (intros; ring).
            rewrite (Rsum_map_ext (fun i => GY a x y i * 0) (fun _ => 0)) by (intros; ring).
            rewrite Rsum_map_const0. change (n0 ROps) with 0. ring.
      - destruct D as [D1 D2]. apply pow_div_eq; auto. now apply kernel_evals.
    Qed.

    (** with no product by a plain number the divergence is a scalar *)
    Lemma kernel_div_scalar k : closed_form k -> smooth_at k x y -> div_ok k x y -> no_const_product k ->
      exists v, m_div (meths (lift k)) X Y = Sc (Fin v).
    Proof.
      intro C. induction C; intros S D N; cbn [smooth_at documented_params div_ok no_const_product] in *.
      - eexists. now apply (ev_linear s c x y).
      - eexists. now apply (ev_poly s c d0 x y).
      - eexists. now apply (ev_exp l s x y).
      - eexists. now apply (ev_lap l s x y).
      - eexists. now apply (ev_se l s x y).
      - eexists. now apply (ev_pcimq l s x y).
      - eexists. apply (ev_rq l s a x y); lra || auto.
      - eexists. apply (ev_per l s p x y); tauto.
      - eexists. now apply (ev_poisson r s x y).
      - destruct S, D, N. destruct IHC1 as [v Hv]; auto. destruct IHC2 as [w Hw]; auto.
        cbn [lift methods add_meth m_div]. rewrite Hv, Hw, tadd_ss. eauto.
      - destruct S, D, N. destruct IHC as [v Hv]; auto.
        cbn [lift methods add_meth m_div const_meth]. rewrite Hv, f0_fin, tadd_ss. eauto.
      - destruct S as [S1 S2], D as [D1 D2], N as (N1 & N2 & N3).
        destruct (kernel_evals a C1 S1) as (A1 & A2 & A3). destruct (kernel_evals b C2 S2) as (B1 & B2 & B3).
        destruct IHC1 as [v Hv]; auto. destruct IHC2 as [w Hw]; auto.
        cbn [lift methods prod_meth m_div]. rewrite A1, A2, A3, B1, B2, B3, Hv, Hw, fofZ_fin, !tdot_vv, !tmul_ss, !tadd_ss, !tmul_ss.
        destruct (keq _ _); eauto.
      - destruct N as (_ & _ & N). now destruct (N c).
      - destruct D as [D1 D2]. destruct (IHC S D1 N) as [v Hv].
        destruct (pow_div_eq a n) as [_ P]; auto; [now apply kernel_div|now apply kernel_evals|].
        apply P. destruct (kernel_div a C S D1) as [F|F]; auto.
        rewrite Hv in F. discriminate.
    Qed.
  End At.
End Compose.
