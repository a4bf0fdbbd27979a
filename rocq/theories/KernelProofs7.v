(** * Kernel values without smoothness, Stein kernels, shapes *)
From Coq Require Import List ZArith Reals Lia Lra Bool.
From Coquelicot Require Import Coquelicot.
From Verif Require Import Num Jax RSum JaxFacts MetricProofs MetricProofs2 UtilModel KernelModel KernelSpec
  KernelProofs KernelProofs2 KernelProofs3 KernelProofs4 KernelProofs5 KernelProofs6.
Import ListNotations.
Open Scope R_scope.

Lemma ffact_fin n : ffact EROps n = Fin (INR (fact n)).
Proof. unfold ffact. now rewrite fofZ_fin, INR_Zof. Qed.
Lemma matern_eval l s p x y : 0 < l -> (0 <= p)%Z ->
  matern_val EROps ERT (Fin l) (Fin s) p (map Fin x) (map Fin y) = Fin (matern_fun l s (Z.to_nat p) x y).
Proof.
  intros Hl Hp. unfold matern_val. set (n := Z.to_nat p).
  assert (E : IZR (2 * p + 1) = 2 * INR n + 1).
  { unfold n. rewrite INR_IZR_INZ, Z2Nat.id by auto. rewrite plus_IZR, mult_IZR. ring. }
  fin. rewrite fsqrt_fin; [|rewrite E; assert (0 <= INR n) by apply pos_INR; lra].
  rewrite E. fin. unfold matern_fun. set (b := sqrt (2 * INR n + 1) * dist2 x y / l).
  assert (H2p := fact_pos (2 * n)). rewrite !ffact_fin. fin.
  assert (T : forall i, matern_term EROps n (Fin b) i =
    Fin (INR (fact (n + i)) / (INR (fact i) * INR (fact (n - i))) * (2 * b) ^ (n - i))).
  { intro i. unfold matern_term. rewrite !ffact_fin. fin. rewrite pown_fin.
    assert (A := fact_pos i). assert (B := fact_pos (n - i)).
    assert (INR (fact i) * INR (fact (n - i)) <> 0) by (apply Rgt_not_eq, Rmult_lt_0_compat; auto). now fin. }
  rewrite map_ext with (g := fun i => Fin (INR (fact (n + i)) / (INR (fact i) * INR (fact (n - i))) * (2 * b) ^ (n - i))) by exact T.
  rewrite <- map_map with (g := Fin), fsum_fin.
  destruct (Z.ltb_spec 0 p) as [G|G].
  - fin. f_equal. field. lra.
  - assert (p = 0)%Z by lia. subst p. fin. f_equal. unfold n. cbn. field.
Qed.

Section Value.
  Variable jgrad : (list ER -> ER) -> list ER -> list ER.
  Variable keq : kern ER -> kern ER -> bool.
  Hypothesis keq_sound : forall a b, keq a b = true -> a = b.
  Notation meths := (methods EROps ERT jgrad keq).

  Lemma wf_no_stein k : well_formed k -> no_stein k.
  Proof. induction k; cbn; tauto. Qed.
  Lemma kernel_value k x y : well_formed k ->
    m_val (meths (lift k)) (map Fin x) (map Fin y) = Sc (Fin (kfun k x y)).
  Proof.
    induction k; intro W; cbn [well_formed documented_params] in W; cbn [lift methods];
      try (destruct W as [W1 W2]).
    - reflexivity.
    - cbn [linear_meth m_val]. now fin.
    - cbn [poly_meth m_val]. fin. rewrite fpowi_fin by lia. now fin.
    - cbn [exp_meth m_val]. assert (P := F_pos len ltac:(lra)). fin. cbn [kfun]. do 4 f_equal. field. lra.
    - cbn [lap_meth m_val]. unfold lap_val. assert (P := F_pos len ltac:(lra)). fin. cbn [kfun]. do 4 f_equal. field. lra.
    - cbn [se_meth m_val]. unfold se_val. assert (P := F_pos len ltac:(lra)). fin. cbn [kfun]. do 4 f_equal. field. lra.
    - cbn [pcimq_meth m_val]. unfold pcimq_val. assert (P := F_pos len ltac:(lra)).
      assert (B := body_pos (sqdist x y) (2 * len ^ 2) (sqdist_nonneg x y) P).
      assert (0 < sqrt (1 + sqdist x y / (2 * len ^ 2))) by (apply sqrt_lt_R0; auto).
      fin. rewrite fsqrt_fin by lra. now fin.
    - cbn [rq_meth m_val]. unfold rq_val. assert (P := F_pos len ltac:(lra)). destruct W1 as (H1 & H2 & H3).
      destruct (Req_dec rw 0) as [->|N].
      + rewrite !fofZ_fin, !fmul_fin, fneg_fin, Ropp_0. cbn [fpow ERT ER_pow].
        replace (nsign ROps 0) with (@None bool) by (rewrite nsign_R; destruct (Rlt_dec 0 0); [lra|auto]).
        cbn [kfun]. rewrite fmul_fin. unfold Rpower. rewrite Ropp_0, Rmult_0_l, exp_0. auto.
      + assert (P2 : 0 < 2 * rw * len ^ 2). { repeat apply Rmult_lt_0_compat; lra. }
        assert (B := body_pos (sqdist x y) (2 * rw * len ^ 2) (sqdist_nonneg x y) P2).
        assert (2 * rw * len ^ 2 <> 0) by lra. fin. rewrite fpow_fin by auto. now fin.
    - cbn [auto_meth m_val]. rewrite matern_eval by tauto. reflexivity.
    - cbn [per_meth m_val]. assert (0 < len ^ 2) by (apply pow_lt; lra). now fin.
    - cbn [poisson_meth m_val]. assert (P := poisson_den_pos index (dist2 x y) ltac:(lra)).
      fin. fold (poisson_den index (dist2 x y)). now fin.
    - cbn [add_meth m_val]. rewrite IHk1, IHk2 by tauto. reflexivity.
    - cbn [prod_meth m_val]. rewrite IHk1, IHk2 by tauto. destruct (keq (lift k1) (lift k2)) eqn:E.
      + apply keq_sound, lift_inj in E; [|apply wf_no_stein; tauto]. subst k2. rewrite tsq_s. cbn [kfun]. do 2 f_equal. ring.
      + reflexivity.
    - cbn [pow_meth m_val]. rewrite IHk by tauto. rewrite tpow_s by lia. reflexivity.
    - destruct W2.
  Qed.

  (** ** Stein kernels *)
  Section Stein.
    Variables (k : kern R) (score : list R -> list R) (x y : list R).
    Hypothesis C : closed_form k.
    Hypothesis L : length x = length y.
    Hypothesis S : smooth_at k x y.
    Hypothesis D : div_ok k x y.
    Hypothesis Lx : length (score x) = length x.
    Hypothesis Ly : length (score y) = length x.
    Let d := length x.
    Definition stein_real : R :=
      Rsum (map (MX k x y) (seq 0 d)) + Rsum (map (fun i => GX k x y i * nth i (score y) 0) (seq 0 d))
      + Rsum (map (fun i => GY k x y i * nth i (score x) 0) (seq 0 d)) + kfun k x y * Rdot (score x) (score y).
    Lemma unfin_map z : map unfin (map Fin z) = z.
    Proof. rewrite map_map. cbn. apply map_id. Qed.
    Lemma score_vof z : length z = d -> Vec (map Fin z) = vof d (fun i => nth i z 0).
    Proof. intro H. unfold vof. do 2 f_equal. rewrite <- H. apply list_seq. Qed.
    Lemma stein_flat : flat d (m_val (meths (lift (KStein k score))) (map Fin x) (map Fin y)) stein_real.
    Proof.
      destruct (kernel_evals jgrad keq keq_sound x y L k C S) as (A1 & A2 & A3).
      assert (F := kernel_div jgrad keq keq_sound x y L k C S D).
      cbn [lift methods auto_meth m_val]. unfold stein_val. rewrite !unfin_map, A1, A2, A3.
      rewrite (score_vof (score x)), (score_vof (score y)) by auto. fold d.
      rewrite tmul_sv, !tmatmul_vv. eapply flat_eq.
      - repeat apply flat_add; try apply flat_s. exact F.
      - unfold stein_real. rewrite (Rdot_seq d) by auto. rewrite <- Rsum_map_scal. f_equal.
        apply Rsum_map_ext. intros. ring.
    Qed.
    Lemma stein_scalar : no_const_product k ->
      m_val (meths (lift (KStein k score))) (map Fin x) (map Fin y) = Sc (Fin stein_real).
    Proof.
      intro N. destruct (kernel_evals jgrad keq keq_sound x y L k C S) as (A1 & A2 & A3).
      destruct (kernel_div_scalar jgrad keq keq_sound x y L k C S D N) as [v F].
      destruct stein_flat as [H|H]; auto. exfalso. revert H.
      cbn [lift methods auto_meth m_val]. unfold stein_val. rewrite !unfin_map, A1, A2, A3, F.
      rewrite (score_vof (score x)), (score_vof (score y)) by auto.
      rewrite tmul_sv, !tmatmul_vv, !tadd_ss. discriminate.
    Qed.
    Lemma stein_documented : stein_real = stein_fun (kfun k) score x y.
    Proof.
      unfold stein_real, stein_fun. fold d. rewrite <- !Rsum_map_add. rewrite (Rmult_comm (kfun k x y)). f_equal.
      apply Rsum_map_ext. intros i Hi. apply in_seq in Hi.
      destruct (kernel_derivatives k x y i L ltac:(fold d; lia) C S) as (D1 & D2 & D3).
      replace (partial_x (kfun k) i x y) with (GX k x y i) by (symmetry; apply is_derive_unique; exact D1).
      replace (partial_y (kfun k) i x y) with (GY k x y i) by (symmetry; apply is_derive_unique; exact D2).
      replace (partial_x (partial_y (kfun k) i) i x y) with (MX k x y i); [ring|].
      symmetry. apply is_derive_unique. eapply is_derive_ext_loc; [|exact D3].
      assert (O := smooth_open k x y i L ltac:(fold d; lia) S). eapply filter_imp; [|exact O].
      cbv beta. intros t Ht. symmetry. apply is_derive_unique.
      apply (kernel_derivatives k (set_coord i x t) y i); auto; rewrite set_len; auto. fold d; lia.
    Qed.
  End Stein.
  Lemma stein_real_sym k score x y : closed_form k -> length x = length y ->
    stein_real k score x y = stein_real k score y x.
  Proof.
    intros C L. unfold stein_real. rewrite (Rdot_comm (score x)), (kfun_sym k C x y), <- L.
    rewrite (Rsum_map_ext (MX k x y) (MX k y x)) by (intros; apply MX_sym; auto).
    rewrite (Rsum_map_ext (fun i => GX k x y i * nth i (score y) 0) (fun i => GY k y x i * nth i (score y) 0))
      by (intros; f_equal; apply GX_GY; auto).
    rewrite (Rsum_map_ext (fun i => GY k x y i * nth i (score x) 0) (fun i => GX k y x i * nth i (score x) 0))
      by (intros; f_equal; symmetry; apply GX_GY; auto). ring.
  Qed.
End Value.

(** ** Shapes, over any number type *)
Section Shapes.
  Context {V : Type} (O : FOps V) (T : TOps V).
  Variable jgrad : (list V -> V) -> list V -> list V.
  Variable keq : kern V -> kern V -> bool.
  Hypothesis keq_sound : forall a b, keq a b = true -> a = b.
  Hypothesis jgrad_len : forall f x, length (jgrad f x) = length x.
  Notation meths := (methods O T jgrad keq).
  Definition is_sc (t : ten V) : Prop := exists v, t = Sc v.
  Definition is_vec (d : nat) (t : ten V) : Prop := exists l, t = Vec l /\ length l = d.
  Section At.
    Variables (x y : list V).
    Hypothesis L : length x = length y.
    Let d := length x.
    Definition shaped (m : meth V) : Prop :=
      is_sc (m_val m x y) /\ is_vec d (m_gx m x y) /\ is_vec d (m_gy m x y) /\ is_sc (m_div m x y).
    Lemma sc_intro v : is_sc (Sc v). Proof. now exists v. Qed.
    Lemma vec_intro l : length l = d -> is_vec d (Vec l). Proof. now exists l. Qed.
    Lemma map2_sc F t u : is_sc t -> is_sc u -> is_sc (tmap2 F t u).
    Proof. intros [a ->] [b ->]. apply sc_intro. Qed.
    Lemma map2_vv F t u : is_vec d t -> is_vec d u -> is_vec d (tmap2 F t u).
    Proof.
      intros (a & -> & A) (b & -> & B). cbn. rewrite A, B, Nat.eqb_refl. apply vec_intro. rewrite map2_length. lia.
    Qed.
    Lemma map2_sv F t u : is_sc t -> is_vec d u -> is_vec d (tmap2 F t u).
    Proof. intros [a ->] (b & -> & B). cbn. apply vec_intro. now rewrite map_length. Qed.
    Lemma map2_vs F t u : is_vec d t -> is_sc u -> is_vec d (tmap2 F t u).
    Proof. intros (b & -> & B) [a ->]. cbn. apply vec_intro. now rewrite map_length. Qed.
    Lemma dot_sc t u : is_vec d t -> is_vec d u -> is_sc (tdot O t u).
    Proof. intros (a & -> & A) (b & -> & B). cbn. rewrite A, B, Nat.eqb_refl. apply sc_intro. Qed.
    Lemma matmul_sc t u : is_vec d t -> is_vec d u -> is_sc (tmatmul O t u).
    Proof. intros (a & -> & A) (b & -> & B). cbn. rewrite A, B, Nat.eqb_refl. apply sc_intro. Qed.
    Lemma map_sc F t : is_sc t -> is_sc (tmap F t).
    Proof. intros [a ->]. apply sc_intro. Qed.
    Lemma diff_len : length (difference O x y) = d.
    Proof. unfold difference. rewrite map2_length. fold d in L |- *. lia. Qed.
    Lemma auto_shaped val : is_sc (val x y) -> shaped (auto_meth O jgrad val).
    Proof.
      intros [v E]. unfold shaped; cbn [auto_meth m_val m_gx m_gy m_div]. unfold auto_gx, auto_div, auto_gy. rewrite E.
      repeat split; try apply sc_intro; apply vec_intro; rewrite jgrad_len; auto.
    Qed.
    Lemma kernel_shaped k : user_kernel k -> no_const_product k -> scores_ok k -> shaped (meths k).
    Proof.
      intro U. induction U; intros N Q.
      - destruct k; try contradiction; cbn [methods]; try (apply auto_shaped, sc_intro);
          unfold shaped, linear_meth, poly_meth, exp_meth, lap_meth, se_meth, pcimq_meth, rq_meth, per_meth, poisson_meth;
          cbn [m_val m_gx m_gy m_div];
          unfold vscale, exp_gy, lap_gy, se_gy, pcimq_gy, rq_gy, per_gy, poisson_gy;
          (split; [apply sc_intro|split; [|split; [|apply sc_intro]]]); apply vec_intro; rewrite ?map_length, ?diff_len; auto.
      - cbn in N, Q. destruct N, Q. destruct IHU1 as (A1 & A2 & A3 & A4), IHU2 as (B1 & B2 & B3 & B4); auto.
        unfold shaped; cbn [methods add_meth m_val m_gx m_gy m_div]. unfold tadd. auto using map2_sc, map2_vv.
      - cbn in N, Q. destruct N, Q. destruct IHU as (A1 & A2 & A3 & A4); auto.
        unfold shaped; cbn [methods add_meth const_meth m_val m_gx m_gy m_div]. unfold tadd. auto using map2_sc, map2_vs, sc_intro.
      - cbn in N, Q. destruct N as (N1 & N2 & _), Q. destruct IHU1 as (A1 & A2 & A3 & A4), IHU2 as (B1 & B2 & B3 & B4); auto.
        unfold shaped; cbn [methods prod_meth m_val m_gx m_gy m_div]. unfold tadd, tmul.
        destruct (keq a b); repeat split; auto 6 using map2_sc, map2_vv, map2_vs, map2_sv, dot_sc, map_sc, sc_intro.
      - cbn in N. destruct N as (_ & _ & N). now destruct (N c).
      - cbn in N, Q. destruct IHU as (A1 & A2 & A3 & A4); auto.
        unfold shaped; cbn [methods pow_meth m_val m_gx m_gy m_div]. unfold tadd, tmul.
        repeat split; auto 7 using map2_sc, map2_vv, map2_vs, map2_sv, dot_sc, map_sc, sc_intro.
      - cbn in N, Q. destruct Q as [Q1 Q2]. destruct IHU as (A1 & A2 & A3 & A4); auto. cbn [methods].
        apply auto_shaped. unfold stein_val, tadd, tmul.
        assert (is_vec d (Vec (sc x))) by (apply vec_intro; apply Q2).
        assert (is_vec d (Vec (sc y))) by (apply vec_intro; rewrite Q2; auto).
        apply map2_sc; [|apply matmul_sc; [apply map2_sv|]]; auto.
        apply map2_sc; [|apply matmul_sc]; auto. apply map2_sc; [|apply matmul_sc]; auto.
    Qed.
  End At.
End Shapes.
