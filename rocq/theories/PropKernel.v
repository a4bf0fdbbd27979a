(** * Kernels: properties C07, C08, C09, C10, C45, C49 *)
From Coq Require Import List ZArith Reals QArith Lia Lra Bool.
From Coquelicot Require Import Coquelicot.
From Verif Require Import Num Jax RSum JaxFacts MetricProofs MetricProofs2 MeanModel UtilModel KernelModel KernelSpec
  KernelProofs KernelProofs2 KernelProofs3 KernelProofs4 KernelProofs5 KernelProofs6 KernelProofs7 KernelProofs8.
Import ListNotations.
Open Scope R_scope.

(** a sound, non-trivial comparison of kernels, used by the examples *)
Definition Reqb (a b : R) : bool := if Req_EM_T a b then true else false.
Lemma Reqb_eq a b : Reqb a b = true -> a = b.
Proof. unfold Reqb. destruct (Req_EM_T a b); auto. discriminate. Qed.
Definition ex_keq (a b : kern ER) : bool :=
  match a, b with
  | KLinear (Fin s) (Fin c), KLinear (Fin s') (Fin c') => Reqb s s' && Reqb c c'
  | KSE (Fin s) (Fin c), KSE (Fin s') (Fin c') => Reqb s s' && Reqb c c'
  | _, _ => false
  end.
Lemma ex_keq_sound a b : ex_keq a b = true -> a = b.
Proof.
  destruct a; cbn; try discriminate; repeat match goal with x : ER |- _ => destruct x end; try discriminate;
    destruct b; try discriminate; repeat match goal with x : ER |- _ => destruct x end; try discriminate;
    intro H; apply andb_true_iff in H as [H1 H2]; apply Reqb_eq in H1, H2; congruence.
Qed.

(** ** C49: constructors *)
Lemma le0_fin a : le0 EROps (Fin a) = true <-> a <= 0.
Proof.
  unfold le0, fleb. cbn [fisnan fltb EROps extOps eisnan negb andb f0]. cbn [eltb].
  rewrite negb_true_iff. apply Rltb_false.
Qed.
Lemma lt0_fin a : lt0 EROps (Fin a) = true <-> a < 0.
Proof. unfold lt0. cbn [fltb EROps extOps f0 eltb]. apply Rltb_true. Qed.
Lemma ge1_fin a : fleb EROps (f1 EROps) (Fin a) = true <-> 1 <= a.
Proof.
  unfold fleb. cbn [fisnan fltb EROps extOps eisnan negb andb f1]. cbn [eltb].
  rewrite negb_true_iff. apply Rltb_false.
Qed.
Lemma orb_false_iff2 a b : a || b = false <-> a = false /\ b = false. Proof. apply orb_false_iff. Qed.
Lemma le0_false a : le0 EROps (Fin a) = false <-> 0 < a.
Proof. rewrite <- not_true_iff_false, le0_fin. lra. Qed.
Lemma lt0_false a : lt0 EROps (Fin a) = false <-> 0 <= a.
Proof. rewrite <- not_true_iff_false, lt0_fin. lra. Qed.
Lemma ge1_false a : fleb EROps (f1 EROps) (Fin a) = false <-> a < 1.
Proof. rewrite <- not_true_iff_false, ge1_fin. lra. Qed.
(** a constructor accepts exactly the documented hyper-parameters *)
Theorem C49_constructor_ranges :
  forall k : kern R,
    (documented_params k -> check_init EROps (lift k) = Ok (lift k)) /\
    (~ documented_params k -> check_init EROps (lift k) = Err ValueError).
Proof.
  assert (D : forall (b : bool) (P : Prop) (k : kern ER), (b = false <-> P) ->
    (P -> (if b then Err ValueError else Ok k) = Ok k) /\ (~ P -> (if b then Err ValueError else Ok k) = Err ValueError)).
  { intros [|] P k H; split; intro; auto. - discriminate (proj2 H H0). - elim H0. now apply H. }
  intro k. unfold check_init. apply D.
  destruct k; cbn [lift documented_params]; rewrite ?orb_false_iff, ?le0_false, ?lt0_false, ?ge1_false, ?Z.ltb_ge; tauto.
Qed.
Print Assumptions C49_constructor_ranges.
Example C49_constructor_applies : documented_params (KRQ 1 2 0) /\ ~ documented_params (KPoly 1 1 1) /\ ~ documented_params (KPoisson 1 1).
Proof. cbn. repeat split; try lra; intros; try lia; lra. Qed.

(** ** C07: matrix methods and shapes *)
(** the points an argument stands for: a number is one point with one coordinate, a vector is
    one point, a matrix has one point in each row *)
Inductive stands_for {V} : input -> list (list V) -> Prop :=
  | one_number v : stands_for (IScalar v) [[v]]
  | one_point p : stands_for (IPoint p) [p]
  | many_points ps : stands_for (IPoints ps) ps.
Theorem C07_matrix_entries :
  forall V (O : FOps V) (T : TOps V) jgrad keq (k : kern V) (x y : input) xs ys,
  stands_for x xs -> stands_for y ys ->
  let entry (m : list (list (ten V))) i j := nth j (nth i m []) TErr in
  let shape_ok (m : list (list (ten V))) := length m = length xs /\ forall row, In row m -> length row = length ys in
  (shape_ok (k_compute O T jgrad keq k x y) /\ shape_ok (k_grad_x O T jgrad keq k x y) /\
   shape_ok (k_grad_y O T jgrad keq k x y) /\ shape_ok (k_divergence O T jgrad keq k x y)) /\
  forall i j, (i < length xs)%nat -> (j < length ys)%nat ->
    let m := methods O T jgrad keq k in
    entry (k_compute O T jgrad keq k x y) i j = m_val m (nth i xs []) (nth j ys []) /\
    entry (k_grad_x O T jgrad keq k x y) i j = m_gx m (nth i xs []) (nth j ys []) /\
    entry (k_grad_y O T jgrad keq k x y) i j = m_gy m (nth i xs []) (nth j ys []) /\
    entry (k_divergence O T jgrad keq k x y) i j = m_div m (nth i xs []) (nth j ys []).
Proof.
  intros V O T jgrad keq k x y xs ys Hx Hy entry shape_ok.
  assert (Ex : atleast_2d x = xs) by (destruct Hx; reflexivity). assert (Ey : atleast_2d y = ys) by (destruct Hy; reflexivity).
  unfold k_compute, k_grad_x, k_grad_y, k_divergence in *. rewrite Ex, Ey. clear Ex Ey Hx Hy.
  assert (S : forall f, shape_ok (pairwise f xs ys)).
  { intro f. split; [apply map_length|]. intros row H. apply in_map_iff in H as (a & <- & _). apply map_length. }
  assert (E : forall f i j, (i < length xs)%nat -> (j < length ys)%nat ->
    entry (pairwise f xs ys) i j = f (nth i xs []) (nth j ys [])).
  { intros f i j Hi Hj. unfold entry, pairwise.
    rewrite nth_indep with (d' := map (fun b => f [] b) ys) by (now rewrite map_length).
    rewrite map_nth with (f := fun a => map (fun b => f a b) ys).
    rewrite nth_indep with (d' := f (nth i xs []) []) by (now rewrite map_length).
    now rewrite map_nth with (f := fun b => f (nth i xs []) b). }
  repeat split; try apply S; intros; try (now apply S with (f := m_val _)); try (now apply E); try (eapply S; eassumption).
Qed.
Print Assumptions C07_matrix_entries.
Definition EQT : TOps EQ := mkTOps EQ (fun a => a) (fun a => a) (fun a => a) (Fin 3%Q) (fun a b => a).
Example C07_matrix_applies :
  k_compute EQOps EQT (fun _ x => x) (fun _ _ => false) (KLinear (Fin 2%Q) (Fin 1%Q))
    (IPoints [[Fin 1%Q; Fin 2%Q]; [Fin 0%Q; Fin 1%Q]]) (IPoint [Fin 3%Q; Fin 1%Q]) = [[Sc (Fin 11%Q)]; [Sc (Fin 3%Q)]].
Proof. vm_compute. reflexivity. Qed.

(** Missing from the property: products with a plain number, see the refutation below. *)
Theorem C07_entry_shapes_partial :
  forall V (O : FOps V) (T : TOps V) jgrad keq,
  (forall f x, length (jgrad f x) = length x) ->
  forall (k : kern V), user_kernel k -> no_const_product k -> scores_ok k ->
  forall x y, length x = length y ->
    let m := methods O T jgrad keq k in
    (exists v, m_val m x y = Sc v) /\
    (exists g, m_gx m x y = Vec g /\ length g = length x) /\
    (exists g, m_gy m x y = Vec g /\ length g = length x) /\
    (exists v, m_div m x y = Sc v).
Proof. intros V O T jgrad keq J k U N Q x y L. exact (kernel_shaped O T jgrad keq J x y L k U N Q). Qed.
Print Assumptions C07_entry_shapes_partial.
Example C07_entry_shapes_applies :
  let k := KPow (KAdd (KProd (KSE (Fin 1%Q) (Fin 2%Q)) (KMatern (Fin 1%Q) (Fin 2%Q) 2)) (KConst (Fin 1%Q))) 2 in
  user_kernel k /\ no_const_product k /\ scores_ok k.
Proof.
  split; [|split; [cbn; repeat split; discriminate|cbn; tauto]].
  apply uk_pow, uk_add_const, uk_prod; apply uk_leaf; exact Logic.I.
Qed.

(** the divergence of [2 * LinearKernel()] has one entry per dimension instead of being a scalar *)
Theorem C07_constant_product_refuted :
  exists (k : kern EQ) x y k2,
    check_init EQOps k = Ok k /\ k_mul EQOps k (ONumber (Fin 2%Q)) = Ok k2 /\ user_kernel k2 /\
    m_div (methods EQOps EQT (fun _ x => x) (fun _ _ => false) k2) x y = Vec [Fin 4%Q; Fin 4%Q].
Proof.
  exists (KLinear (Fin 1%Q) (Fin 0%Q)), [Fin 1%Q; Fin 2%Q], [Fin 3%Q; Fin 4%Q]. eexists.
  split; [reflexivity|]. split; [reflexivity|]. split; [apply uk_prod_const, uk_leaf; exact Logic.I|]. vm_compute. reflexivity.
Qed.
Print Assumptions C07_constant_product_refuted.

(** [+], [*] and [**] build exactly these expressions and reject everything else *)
Theorem C07_operators :
  forall V (O : FOps V) (k k' : kern V) c n,
    k_add O k (OKernel k') = Ok (KAdd k k') /\ k_mul O k (OKernel k') = Ok (KProd k k') /\
    (fltb O c (f0 O) = false -> k_add O k (ONumber c) = Ok (KAdd k (KConst c)) /\ k_mul O k (ONumber c) = Ok (KProd k (KConst c))) /\
    (fltb O c (f0 O) = true -> k_add O k (ONumber c) = Err ValueError /\ k_mul O k (ONumber c) = Err ValueError) /\
    k_add O k OtherOperand = Err ValueError /\ k_mul O k OtherOperand = Err ValueError /\
    ((1 <= n)%Z -> k_pow O k (Some n) = Ok (KPow k n)) /\ ((n < 1)%Z -> k_pow O k (Some n) = Err ValueError) /\
    k_pow O k None = Err ValueError.
Proof.
  intros. unfold k_add, k_mul, k_pow, check_init, lt0.
  destruct (fltb O c (f0 O)); cbn; repeat split; intros; try discriminate; auto; destruct (Z.ltb_spec n 1); auto; lia.
Qed.
Print Assumptions C07_operators.
Example C07_operators_applies : fltb EQOps (Fin (1#2)%Q) (f0 EQOps) = false /\ fltb EQOps (Fin (-1)%Q) (f0 EQOps) = true.
Proof. split; reflexivity. Qed.

(** ** C08: gradients *)
(** [keq] is [==] on kernels: equal only if the same class with the same parameters.
    Missing from the property: points where a kernel is differentiable but [smooth_at]
    fails, see the refutations. *)
Theorem C08_gradients_partial :
  forall jgrad keq (k : kern R) (x y : list R),
  (forall a b, keq a b = true -> a = b) ->
  closed_form k -> length x = length y -> smooth_at k x y ->
  let m := methods EROps ERT jgrad keq (lift k) in
  (forall x' y', m_val m (map Fin x') (map Fin y') = Sc (Fin (kfun k x' y'))) /\
  (exists g, m_gx m (map Fin x) (map Fin y) = Vec (map Fin g) /\ is_gradient (fun x' => kfun k x' y) x g) /\
  (exists g, m_gy m (map Fin x) (map Fin y) = Vec (map Fin g) /\ is_gradient (fun y' => kfun k x y') y g).
Proof.
  intros jgrad keq k x y HK C L S m. split; [|split].
  - intros. apply kernel_value; auto. now apply cf_well_formed.
  - eexists. split; [|apply grad_x_spec; auto]. apply (kernel_evals jgrad keq HK x y L k C S).
  - eexists. split; [|apply grad_y_spec; auto]. apply (kernel_evals jgrad keq HK x y L k C S).
Qed.
Print Assumptions C08_gradients_partial.
Definition ex_kernel : kern R :=
  KAdd (KProd (KPoly 1 1 2) (KLap 1 2)) (KPow (KAdd (KProd (KRQ 1 1 2) (KSE 1 1)) (KConst 1)) 3).
Lemma ex_kernel_cf : closed_form ex_kernel.
Proof.
  unfold ex_kernel. apply cf_add; [apply cf_prod|apply cf_pow; [apply cf_add_const; [apply cf_prod|]|]];
    try (constructor; cbn; try lra); try lia; try lra.
  cbn. repeat split; lra || lia.
Qed.
Example C08_gradients_applies :
  (forall a b, ex_keq a b = true -> a = b) /\ closed_form ex_kernel /\ length [1; 2] = length [0; 1] /\ smooth_at ex_kernel [1; 2] [0; 1].
Proof.
  split; [apply ex_keq_sound|]. split; [apply ex_kernel_cf|]. split; auto. cbn [ex_kernel smooth_at]. repeat split; auto.
  intros [|[|i]] Hi; cbn in *; try lra. lia.
Qed.

(** the periodic kernel is differentiable at x = y with gradient 0, the code returns NaN *)
Theorem C08_periodic_refuted :
  exists (k : kern R) (x : list R),
    closed_form k /\ is_gradient (fun x' => kfun k x' x) x [0] /\
    forall jgrad keq, m_gx (methods EROps ERT jgrad keq (lift k)) (map Fin x) (map Fin x) = Vec [NaN].
Proof.
  exists (KPer 1 1 1), [0]. split; [constructor; cbn; lra|]. split; [apply periodic_gradient_zero|].
  intros jgrad keq. cbn [lift methods per_meth m_gx]. unfold per_gy. rewrite difference_fin, norm2_fin.
  change (sqrt (Rdot (vsub [0] [0]) (vsub [0] [0]))) with (dist2 [0] [0]).
  rewrite dist2_refl. rewrite fofZ_fin. cbn [vsub map2 map].
  rewrite !sq_fin.
  change (fpi ERT) with (Fin PI). rewrite !fmul_fin.
  replace (0 * 1 * 1 ^ 2) with 0 by ring. replace (4 * (0 - 0) * 1 * PI) with 0 by ring. rewrite fdiv_zero_zero. reflexivity.
Qed.
Print Assumptions C08_periodic_refuted.

(** with relative weighting 0, which the constructor accepts, the kernel is constant but
    the gradient is NaN at x = y *)
Theorem C08_rational_quadratic_refuted :
  exists (k : kern R) (x : list R),
    check_init EROps (lift k) = Ok (lift k) /\ is_gradient (fun x' => kfun k x' x) x [0] /\
    forall jgrad keq, m_gx (methods EROps ERT jgrad keq (lift k)) (map Fin x) (map Fin x) = Vec [NaN].
Proof.
  exists (KRQ 1 1 0), [0]. split; [|split].
  - apply C49_constructor_ranges. cbn. lra.
  - split; auto. intros [|i] Hi; [|cbn in Hi; lia].
    apply is_derive_ext with (fun _ => 1).
    + intro t. cbn [kfun]. unfold Rpower. rewrite Ropp_0, Rmult_0_l, exp_0. now rewrite Rmult_1_r.
    + apply is_derive_Reals, derivable_pt_lim_const.
  - intros jgrad keq. cbn [lift methods rq_meth m_gx]. unfold rq_gy. rewrite difference_fin, squared_distance_fin.
    rewrite sqdist_refl, !fofZ_fin. cbn [vsub map2 map].
    rewrite !sq_fin.
    rewrite !fmul_fin. replace (2 * 0 * 1 ^ 2) with 0 by ring. rewrite fdiv_zero_zero.
    rewrite fdiv_fin by lra. rewrite fneg_fin, Ropp_0.
    change (f1 EROps) with (Fin 1). rewrite fsub_fin.
    cbn [fpow ERT ER_pow]. rewrite nsign_R. destruct (Rlt_dec 0 (0 - 1)); [lra|]. destruct (Rlt_dec (0 - 1) 0); [|lra].
    reflexivity.
Qed.
Print Assumptions C08_rational_quadratic_refuted.

(** ** C09: mixed divergences *)
(** [D] or an array all of whose entries are [D], see C07.  Missing from the property:
    periodic kernels with output scale other than 1 and first powers at zeros of the
    base kernel, see below. *)
Theorem C09_divergence_partial :
  forall jgrad keq (k : kern R) (x y : list R),
  (forall a b, keq a b = true -> a = b) ->
  closed_form k -> length x = length y -> smooth_at k x y -> div_ok k x y ->
  let out := m_div (methods EROps ERT jgrad keq (lift k)) (map Fin x) (map Fin y) in
  exists D, is_mixed_divergence (kfun k) x y D /\
    (out = Sc (Fin D) \/ out = Vec (repeat (Fin D) (length x))) /\
    (no_const_product k -> out = Sc (Fin D)).
Proof.
  intros jgrad keq k x y HK C L S D out. eexists. split; [apply mixed_spec; auto|].
  assert (F := kernel_div jgrad keq HK x y L k C S D). split; [exact F|].
  intro N. destruct (kernel_div_scalar jgrad keq HK x y L k C S D N) as [v Hv].
  destruct F as [F|F]; auto. unfold out. rewrite Hv in F. discriminate.
Qed.
Print Assumptions C09_divergence_partial.
Example C09_divergence_applies :
  closed_form ex_kernel /\ smooth_at ex_kernel [1; 2] [0; 1] /\ div_ok ex_kernel [1; 2] [0; 1] /\ no_const_product ex_kernel.
Proof.
  split; [apply ex_kernel_cf|]. split; [apply C08_gradients_applies|]. split; cbn; repeat split; auto; try lia; try lra; discriminate.
Qed.
(** the divergence is unique *)
Theorem C09_divergence_unique :
  forall f x y D D', is_mixed_divergence f x y D -> is_mixed_divergence f x y D' -> D = D'.
Proof.
  intros f x y D D' (ds & L & -> & H) (ds' & L' & -> & H'). f_equal. apply list_ext with (d := 0); [lia|].
  intros i Hi. rewrite L in Hi. destruct (H i Hi) as [_ A]. destruct (H' i Hi) as [_ A'].
  apply is_derive_unique in A. apply is_derive_unique in A'. congruence.
Qed.
Print Assumptions C09_divergence_unique.

(** exactly how far the periodic kernel's divergence is off: the derivative of the
    exponential carries the output scale twice *)
Theorem C09_periodic_error :
  forall jgrad keq l s p x y, 0 < l -> 0 < s -> p <> 0 -> length x = length y -> x <> y ->
  exists D, is_mixed_divergence (kfun (KPer l s p)) x y D /\
    m_div (methods EROps ERT jgrad keq (lift (KPer l s p))) (map Fin x) (map Fin y) =
    Sc (Fin (D + (1 - s) * (16 * (PI / p) ^ 2 / l ^ 4 * sin (PI * dist2 x y / p) ^ 2 * cos (PI * dist2 x y / p) ^ 2 *
                            kfun (KPer l s p) x y))).
Proof.
  intros jgrad keq l s p x y Hl Hs Hp L N. eexists. split; [|now apply per_div_error].
  apply mixed_spec; auto. constructor; cbn; auto.
Qed.
Print Assumptions C09_periodic_error.
Theorem C09_periodic_refuted :
  exists (k : kern R) (x y : list R) (D D' : R),
    closed_form k /\ is_mixed_divergence (kfun k) x y D /\ D' <> D /\
    forall jgrad keq, m_div (methods EROps ERT jgrad keq (lift k)) (map Fin x) (map Fin y) = Sc (Fin D').
Proof.
  exists (KPer 1 2 1), [1 / 8], [0].
  assert (L : length [1 / 8] = length [0]) by auto.
  assert (N : [1 / 8] <> [0]) by (intro H; inversion H; lra).
  destruct (C09_periodic_error (fun _ x => x) (fun _ _ => false) 1 2 1 [1 / 8] [0] ltac:(lra) ltac:(lra) ltac:(lra) L N) as (D & HD & HE).
  eexists D, _. split; [constructor; cbn; lra|]. split; [exact HD|]. split; [|intros; exact HE].
  intro E. assert (Hd : dist2 [1 / 8] [0] = 1 / 8). { rewrite dist2_one, Rminus_0_r. apply Rabs_right. lra. }
  rewrite Hd in E. assert (P := PI_RGT_0).
  assert (S1 : 0 < sin (PI * (1 / 8) / 1)) by (apply sin_gt_0; lra).
  assert (S2 : 0 < cos (PI * (1 / 8) / 1)) by (apply cos_gt_0; lra).
  assert (K : 0 < kfun (KPer 1 2 1) [1 / 8] [0]). { cbn [kfun]. apply Rmult_lt_0_compat; [lra|apply exp_pos]. }
  assert (0 < 16 * (PI / 1) ^ 2 / 1 ^ 4 * sin (PI * (1 / 8) / 1) ^ 2 * cos (PI * (1 / 8) / 1) ^ 2 * kfun (KPer 1 2 1) [1 / 8] [0]).
  { assert (P1 : 0 < (PI / 1) ^ 2) by (apply pow_lt; lra). apply (pow_lt _ 2) in S1, S2.
    revert P1 S1 S2 K. generalize ((PI / 1) ^ 2) (sin (PI * (1 / 8) / 1) ^ 2) (cos (PI * (1 / 8) / 1) ^ 2) (kfun (KPer 1 2 1) [1 / 8] [0]).
    intros a b c d A B C D0. replace (16 * a / 1 ^ 4) with (16 * a) by field.
    repeat apply Rmult_lt_0_compat; lra. }
  lra.
Qed.
Print Assumptions C09_periodic_refuted.
(** [LinearKernel(1, 0) ** 1] at orthogonal points: the true divergence is 2, the code gives NaN *)
Theorem C09_first_power_refuted :
  exists (k : kern R) (x y : list R),
    closed_form k /\ is_mixed_divergence (kfun k) x y 2 /\
    forall jgrad keq, m_div (methods EROps ERT jgrad keq (lift k)) (map Fin x) (map Fin y) = Sc NaN.
Proof.
  exists (KPow (KLinear 1 0) 1), [1; 0], [0; 1].
  assert (C : closed_form (KPow (KLinear 1 0) 1)) by (repeat constructor; cbn; lra || lia). split; [exact C|]. split.
  - assert (M := mixed_spec _ [1; 0] [0; 1] C eq_refl Logic.I).
    match type of M with is_mixed_divergence _ _ _ ?d => replace d with 2 in M; auto end.
    change (Z.to_nat 1) with 1%nat. cbn [MX length seq map Rsum]. change (Z.to_nat 1) with 1%nat.
    change (n0 ROps) with 0. cbn [Nat.sub pow INR]. ring.
  - intros jgrad keq.
    destruct (ev_linear 1 0 [1; 0] [0; 1] eq_refl) as [(A1 & A2 & A3) A4].
    unfold divs in A4. cbn [lift methods pow_meth m_div]. rewrite A1, A2, A3, A4.
    cbn [kfun]. replace (1 * Rdot [1; 0] [0; 1] + 0) with 0 by (cbn; lra).
    assert (N1 : nsign ROps 0 = None) by (rewrite nsign_R; destruct (Rlt_dec 0 0); [lra|]; destruct (Rlt_dec 0 0); [lra|auto]).
    assert (P : fpowi EROps (Fin 0) (1 - 2) = PInf).
    { change (fpowi EROps (Fin 0) (1 - 2)) with (fdiv EROps (f1 EROps) (pown EROps (Fin 0) 1)). rewrite pown_fin.
      replace (0 ^ 1) with 0 by ring. rewrite f1_fin. cbn [fdiv EROps extOps ediv]. rewrite N1, nsign_R.
      destruct (Rlt_dec 0 1); [auto|lra]. }
    rewrite !fofZ_fin. cbn [tmap]. rewrite P. unfold tmul at 4. cbn [tmap2].
    replace (fmul EROps (Fin (IZR (1 - 1))) PInf) with (@NaN R); [|cbn [fmul EROps extOps emul]; unfold inf_times; cbn [Z.sub Z.add Z.opp Z.pos_sub]; now rewrite N1].
    fold (vof (length [1; 0]) (GX (KLinear 1 0) [1; 0] [0; 1])). fold (vof (length [1; 0]) (GY (KLinear 1 0) [1; 0] [0; 1])). rewrite tdot_vv. unfold tmul, tadd. cbn [tmap2]. f_equal.
Qed.
Print Assumptions C09_first_power_refuted.

(** ** C10: symmetry and bounds *)
(** for any hyper-parameters, also non-finite ones, and any expression without Stein kernels *)
Theorem C10_symmetry :
  forall jgrad keq (k : kern ER) (x y : list R), stein_free k ->
    m_val (methods EROps ERT jgrad keq k) (map Fin x) (map Fin y) =
    m_val (methods EROps ERT jgrad keq k) (map Fin y) (map Fin x).
Proof. exact compute_sym. Qed.
Print Assumptions C10_symmetry.
Example C10_symmetry_applies :
  stein_free (KPow (KProd (KMatern (Fin 1) PInf 2) (KAdd (KPer (Fin 1) (Fin 2) (Fin 3)) (KConst (Fin 2)))) 2).
Proof. cbn. tauto. Qed.
(** the documented value, for every expression over documented hyper-parameters *)
Theorem C10_documented_value :
  forall jgrad keq (k : kern R) (x y : list R),
  (forall a b, keq a b = true -> a = b) -> well_formed k ->
  m_val (methods EROps ERT jgrad keq (lift k)) (map Fin x) (map Fin y) = Sc (Fin (kfun k x y)) /\ kfun k x y = kfun k y x.
Proof. intros. split; [now apply kernel_value|now apply wf_sym]. Qed.
Print Assumptions C10_documented_value.
Example C10_documented_applies : well_formed (KPow (KProd (KMatern 1 2 3) (KAdd (KRQ 1 2 0) (KConst 1))) 2).
Proof. cbn. repeat split; lra || lia. Qed.
(** the locally periodic kernel, by its documented formula *)
Theorem C10_locally_periodic :
  forall jgrad keq pl ps p sl ss, (forall a b, keq a b = true -> a = b) ->
  let made := locally_periodic EROps (Fin pl) (Fin ps) (Fin p) (Fin sl) (Fin ss) in
  (0 < pl /\ 0 < ps /\ 0 < sl /\ 0 < ss -> p <> 0 -> exists k, made = Ok k /\ forall x y,
     m_val (methods EROps ERT jgrad keq k) (map Fin x) (map Fin y) =
     Sc (Fin (ps * exp (- 2 * sin (PI * dist2 x y / p) ^ 2 / pl ^ 2) * (ss * exp (- (sqdist x y / (2 * sl ^ 2))))))) /\
  (~ (0 < pl /\ 0 < ps /\ 0 < sl /\ 0 < ss) -> made = Err ValueError).
Proof.
  intros jgrad keq pl ps p sl ss HK made. unfold made, locally_periodic.
  destruct (C49_constructor_ranges (KPer pl ps p)) as [A1 A2]. destruct (C49_constructor_ranges (KSE sl ss)) as [B1 B2].
  cbn [lift documented_params] in *. split.
  - intros H Hp. rewrite A1, B1 by tauto. cbn [bind]. eexists. split; [reflexivity|]. intros x y.
    apply (kernel_value jgrad keq HK (KProd (KPer pl ps p) (KSE sl ss)) x y). cbn. tauto.
  - intros H. destruct (Rlt_dec 0 pl); [|rewrite A2 by tauto; reflexivity]. destruct (Rlt_dec 0 ps); [|rewrite A2 by tauto; reflexivity].
    rewrite A1 by tauto. cbn [bind]. rewrite B2 by tauto. reflexivity.
Qed.
Print Assumptions C10_locally_periodic.
Example C10_locally_periodic_applies : (0 < 1 / 2 /\ 0 < 3 /\ 0 < 2 /\ 0 < 1) /\ 4 <> 0 /\ ~ (0 < 1 /\ 0 < 0 /\ 0 < 1 /\ 0 < 1).
Proof. lra. Qed.
(** [scale_of k] is the output scale of a stationary kernel, squared for Matern *)
Definition scale_of (k : kern R) : option R :=
  match k with
  | KExp _ s | KLap _ s | KSE _ s | KPCIMQ _ s | KRQ _ s _ | KPer _ s _ => Some s
  | KMatern _ s _ => Some (s * s)
  | _ => None
  end.
Theorem C10_bounds :
  forall jgrad keq (k : kern R) s,
  (forall a b, keq a b = true -> a = b) -> well_formed k -> scale_of k = Some s ->
  let compute x y := m_val (methods EROps ERT jgrad keq (lift k)) (map Fin x) (map Fin y) in
  (forall x, compute x x = Sc (Fin s)) /\
  (forall x y, exists v, compute x y = Sc (Fin v) /\ 0 < v <= s).
Proof.
  intros jgrad keq k s HK W E compute. assert (B : stationary_bound k = Some s).
  { destruct k; cbn in *; auto. rewrite <- E. f_equal. ring. }
  split.
  - intro x. unfold compute. rewrite kernel_value by auto. now rewrite (at_self k s).
  - intros x y. exists (kfun k x y). split; [now apply kernel_value|now apply bounds].
Qed.
Print Assumptions C10_bounds.
Example C10_bounds_applies : well_formed (KMatern 1 3 2) /\ scale_of (KMatern 1 3 2) = Some 9.
Proof. split; [cbn; repeat split; lra || lia|]. cbn. f_equal. lra. Qed.
Theorem C10_poisson_bounds :
  forall jgrad keq r s, (forall a b, keq a b = true -> a = b) -> 0 < r < 1 -> 0 < s ->
  let compute x y := m_val (methods EROps ERT jgrad keq (lift (KPoisson r s))) (map Fin x) (map Fin y) in
  (forall x, compute x x = Sc (Fin (s / (1 - r) ^ 2))) /\
  (forall x y, exists v, compute x y = Sc (Fin v) /\ s / (1 + r) ^ 2 <= v <= s / (1 - r) ^ 2).
Proof.
  intros jgrad keq r s HK Hr Hs compute. assert (W : well_formed (KPoisson r s)) by (cbn; tauto).
  split.
  - intro x. unfold compute. rewrite kernel_value by auto. do 2 f_equal. now apply poisson_bounds.
  - intros x y. exists (kfun (KPoisson r s) x y). split; [now apply kernel_value|now apply poisson_bounds].
Qed.
Print Assumptions C10_poisson_bounds.
Example C10_poisson_applies : 0 < / 2 < 1 /\ 0 < 3. Proof. lra. Qed.

(** ** C45: Stein kernels *)
(** any base kernel that is symmetric with finite, consistent derivatives at the two points *)
Theorem C45_stein_symmetric :
  forall jgrad keq (k : kern ER) score (x y sx sy gx gy : list R) (v w : R),
  let m := methods EROps ERT jgrad keq k in
  let st := methods EROps ERT jgrad keq (KStein k score) in
  let X := map Fin x in let Y := map Fin y in
  m_val m X Y = Sc (Fin v) -> m_val m Y X = m_val m X Y ->
  m_gx m X Y = Vec (map Fin gx) -> m_gy m Y X = m_gx m X Y ->
  m_gy m X Y = Vec (map Fin gy) -> m_gx m Y X = m_gy m X Y ->
  m_div m X Y = Sc (Fin w) -> m_div m Y X = m_div m X Y ->
  score X = map Fin sx -> score Y = map Fin sy ->
  length gx = length sy -> length gy = length sx -> length sx = length sy ->
  m_val st X Y = Sc (Fin (w + Rdot gx sy + Rdot gy sx + v * Rdot sx sy)) /\
  m_val st Y X = m_val st X Y.
Proof.
  intros jgrad keq k score x y sx sy gx gy v w m st X Y V1 V2 G1 G2 G3 G4 D1 D2 S1 S2 L1 L2 L3.
  assert (Dot : forall a b, length a = length b -> tmatmul EROps (Vec (map Fin a)) (Vec (map Fin b)) = Sc (Fin (Rdot a b))).
  { intros a b L. cbn [tmatmul]. rewrite !map_length, L, Nat.eqb_refl. now rewrite fdot_fin. }
  assert (Sca : forall c a, tmul EROps (Sc (Fin c)) (Vec (map Fin a)) = Vec (map Fin (map (Rmult c) a))).
  { intros c a. unfold tmul. cbn [tmap2]. f_equal. now rewrite !map_map. }
  assert (DS : forall c a b, Rdot (map (Rmult c) a) b = c * Rdot a b).
  { intros c a. induction a as [|z a IH]; intros [|z' b]; cbn; try ring. unfold Rdot in IH. cbn in IH. rewrite IH. ring. }
  subst st. cbn [methods auto_meth m_val]. fold m. unfold stein_val.
  rewrite V2, G2, G4, D2, V1, G1, G3, D1, S1, S2.
  rewrite !Sca, !Dot by (rewrite ?map_length; congruence). rewrite !DS, !tadd_ss. split; [reflexivity|].
  do 2 f_equal. rewrite (Rdot_comm sy sx). ring.
Qed.
Print Assumptions C45_stein_symmetric.
(** for the kernels with closed-form derivatives the value is the documented expression in
    true derivatives, hence symmetric *)
Theorem C45_stein_documented :
  forall jgrad keq (k : kern R) score (x y : list R),
  (forall a b, keq a b = true -> a = b) ->
  closed_form k -> no_const_product k -> length x = length y -> smooth_at k x y -> div_ok k x y ->
  length (score x) = length x -> length (score y) = length y ->
  let compute x y := m_val (methods EROps ERT jgrad keq (lift (KStein k score))) (map Fin x) (map Fin y) in
  compute x y = Sc (Fin (stein_fun (kfun k) score x y)) /\ compute y x = compute x y.
Proof.
  intros jgrad keq k score x y HK C N L S D Lx Ly compute. unfold compute.
  rewrite (stein_scalar jgrad keq HK k score x y) by (auto; congruence).
  rewrite (stein_scalar jgrad keq HK k score y x) by (auto using smooth_sym, div_ok_sym; congruence).
  rewrite (stein_documented k score x y) by (auto; congruence). split; auto.
  rewrite <- (stein_documented k score x y) by (auto; congruence). do 2 f_equal. symmetry. now apply stein_real_sym.
Qed.
Print Assumptions C45_stein_documented.
Example C45_stein_applies :
  closed_form ex_kernel /\ no_const_product ex_kernel /\ smooth_at ex_kernel [1; 2] [0; 1] /\ div_ok ex_kernel [1; 2] [0; 1] /\
  length (map Ropp [1; 2]) = length [1; 2].
Proof. pose proof C09_divergence_applies. tauto. Qed.
(** a zero score reduces the Stein kernel to the divergence of its base *)
Theorem C45_zero_score :
  forall jgrad keq (k : kern ER) (x y gx gy : list R) (v w : R),
  let m := methods EROps ERT jgrad keq k in
  let X := map Fin x in let Y := map Fin y in
  length x = length y -> length gx = length x -> length gy = length x ->
  m_val m X Y = Sc (Fin v) -> m_gx m X Y = Vec (map Fin gx) -> m_gy m X Y = Vec (map Fin gy) -> m_div m X Y = Sc (Fin w) ->
  m_val (methods EROps ERT jgrad keq (KStein k (map (fun _ => Fin 0)))) X Y = m_div m X Y.
Proof.
  intros jgrad keq k x y gx gy v w m X Y L Lx Ly V G1 G2 D.
  assert (Z : forall z : list R, map (fun _ : ER => Fin 0) (map Fin z) = map Fin (map (fun _ => 0) z)).
  { intro z. now rewrite !map_map. }
  assert (Dot : forall a b, length a = length b -> tmatmul EROps (Vec (map Fin a)) (Vec (map Fin b)) = Sc (Fin (Rdot a b))).
  { intros a b E. cbn [tmatmul]. rewrite !map_length, E, Nat.eqb_refl. now rewrite fdot_fin. }
  assert (Sca : forall c a, tmul EROps (Sc (Fin c)) (Vec (map Fin a)) = Vec (map Fin (map (Rmult c) a))).
  { intros c a. unfold tmul. cbn [tmap2]. f_equal. now rewrite !map_map. }
  assert (D0 : forall a (z : list R), Rdot a (map (fun _ => 0) z) = 0).
  { intros a. induction a as [|u a IH]; intros [|u' z]; cbn; auto. unfold Rdot in IH. cbn in IH. rewrite IH. ring. }
  cbn [methods auto_meth m_val]. fold m. unfold stein_val. unfold X, Y in *. rewrite V, G1, G2, D, !Z, Sca.
  rewrite !Dot by (rewrite ?map_length; congruence). rewrite !D0, !tadd_ss, !Rplus_0_r. reflexivity.
Qed.
Print Assumptions C45_zero_score.
Example C45_zero_score_applies :
  let m := methods EROps ERT (fun _ x => x) ex_keq (lift (KLinear 1 2)) in
  exists gx gy v w, length gx = 2%nat /\ length gy = 2%nat /\
  m_val m (map Fin [1; 2]) (map Fin [3; 4]) = Sc (Fin v) /\ m_gx m (map Fin [1; 2]) (map Fin [3; 4]) = Vec (map Fin gx) /\
  m_gy m (map Fin [1; 2]) (map Fin [3; 4]) = Vec (map Fin gy) /\ m_div m (map Fin [1; 2]) (map Fin [3; 4]) = Sc (Fin w).
Proof.
  destruct (ev_linear 1 2 [1; 2] [3; 4] eq_refl) as [(A1 & A2 & A3) A4]. unfold divs in A4.
  do 4 eexists. split; [|split; [|split; [exact A1|split; [exact A2|split; [exact A3|exact A4]]]]]; reflexivity.
Qed.
