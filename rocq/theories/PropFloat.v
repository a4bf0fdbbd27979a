(** * Properties of the kernels in floating point arithmetic: C69

    The statements hold for every binary format [prec], [emax], in particular for binary32
    and binary64, with rounding to nearest even, and for every value of the entries. *)
From Coq Require Import List ZArith Bool Reals Lia Lra.
From Coq Require Import Floats.SpecFloat.
From Flocq Require Import Core.Core Plus_error IEEE754.BinarySingleNaN.
From Verif Require Import Num SumSpec SumProofs Jax Float MeanModel UtilModel KernelModel KernelProofs6 FloatProofs FloatProofs2.
Import ListNotations.

(** ** C69: exactly symmetric *)
(** [compute(x, y)] and [compute(y, x)] are the same floating point number, whatever the
    points, the hyper-parameters and the functions computing exp, sin, cos and powers. *)
Theorem C69_exact_symmetry :
  forall prec emax (Hp : Prec_gt_0 prec) (Hm : Prec_lt_emax prec emax) (Sm : SumOrder prec emax) T jgrad keq (k : kern (binary_float prec emax)) x y,
    stein_free k ->
    m_val (methods (FOpsIEEE prec emax) T jgrad keq k) x y = m_val (methods (FOpsIEEE prec emax) T jgrad keq k) y x.
Proof. intros. now apply kernel_swap. Qed.
Print Assumptions C69_exact_symmetry.
Example C69_symmetry_applies (c : F32) : stein_free (KPow (KProd (KLap c c) (KAdd (KMatern c c 2) (KPer c c c))) 3).
Proof. cbn. tauto. Qed.

(** ** C69: bounded by the output scale, which is attained on the diagonal *)
(** what is assumed of the functions computing exp and powers: exp(0) = 1, 1^e = 1, and
    exp of a non-positive number and powers [b^e] with 1 <= b and e <= 0 lie between 0 and 1
    ([np] and [ge1] include the infinities) *)
Record elementary {prec emax} {Hp : Prec_gt_0 prec} {Hm : Prec_lt_emax prec emax} (T : TOps (binary_float prec emax)) : Prop := mkElementary {
  el_exp0 : forall s, fexp T (B754_zero s) = Bone;
  el_exp : forall v, np prec emax v -> upto prec emax 1 (fexp T v);
  el_pow1 : forall e, is_finite e = true -> fpow T Bone e = Bone;
  el_pow : forall b e, ge1 prec emax b -> is_finite e = true -> np prec emax e -> upto prec emax 1 (fpow T b e)
}.
(** output scale, and the number by which the (squared) distance is divided, as computed *)
Definition scale_and_divisor {V} (O : FOps V) (k : kern V) : option (V * V) :=
  let twice_sq len := fmul O (fofZ O 2) (sq O len) in
  match k with
  | KExp l s | KLap l s | KSE l s | KPCIMQ l s => Some (s, twice_sq l)
  | KRQ l s a => Some (s, fmul O (fmul O (fofZ O 2) a) (sq O l))
  | _ => None
  end.

Theorem C69_bounds :
  forall prec emax (Hp : Prec_gt_0 prec) (Hm : Prec_lt_emax prec emax) (Sm : SumOrder prec emax) T jgrad keq (k : kern (binary_float prec emax)) s d,
    elementary T -> scale_and_divisor (FOpsIEEE prec emax) k = Some (s, d) ->
    (* positive output scale; the divisor neither underflows to zero nor overflows *)
    is_finite s = true -> (0 < B2R s)%R -> is_finite d = true -> (0 < B2R d)%R ->
    (forall l s a, k = KRQ l s a -> is_finite a = true /\ 0 <= B2R a)%R ->
    let compute := m_val (methods (FOpsIEEE prec emax) T jgrad keq k) in
    (forall x, all_finite prec emax x -> compute x x = Sc s) /\
    (forall x y, all_finite prec emax x -> all_finite prec emax y ->
       exists v, compute x y = Sc v /\ is_finite v = true /\ (0 <= B2R v <= B2R s)%R).
Proof.
  intros prec emax Hp Hm Sm T jgrad keq k s d E SD Fs Ps Fd Pd Ha compute. destruct E as [E0 E1 E2 E3].
  assert (S : pos prec emax s) by now apply pos_spec. assert (D : pos prec emax d) by now apply pos_spec.
  assert (Z0 : forall s', exists s'', Bminus mode_NE (B754_zero false) (B754_zero s' : binary_float prec emax) = B754_zero s'').
  { intros []; eexists; reflexivity. }
  assert (ZD : forall s', exists s'', Bdiv mode_NE (B754_zero s') d = B754_zero s'').
  { intro s'. destruct d; cbn in *; try tauto. eexists. reflexivity. }
  (* scale * exp(-t / d) *)
  assert (X : forall t, nn prec emax t -> exists v, Bmult mode_NE s (fexp T (Bdiv mode_NE (Bminus mode_NE (B754_zero false) t) d)) = v /\
             is_finite v = true /\ (0 <= B2R v <= B2R s)%R).
  { intros t Ht. eexists. split; [reflexivity|]. apply upto_mult; auto. apply E1. apply np_div; auto. now apply np_opp. }
  assert (X0 : Bmult mode_NE s (fexp T (Bdiv mode_NE (Bminus mode_NE (B754_zero false) (B754_zero false)) d)) = s).
  { destruct (Z0 false) as [s1 ->]. destruct (ZD s1) as [s2 ->]. rewrite E0. now apply mult_one. }
  destruct k; cbn [scale_and_divisor] in SD; try discriminate; injection SD as <- <-; unfold compute;
    cbn [methods m_val exp_meth lap_meth se_meth pcimq_meth rq_meth]; unfold lap_val, se_val, pcimq_val, rq_val.
  - (* exponential *) split; intros.
    + rewrite norm2_self by auto. f_equal. exact X0.
    + destruct (X _ (nn_norm2 prec emax x y H H0)) as (v & V & B). exists v. rewrite <- V. split; auto. now rewrite V.
  - (* Laplacian *) split; intros.
    + rewrite norm1_self by auto. f_equal. exact X0.
    + destruct (X _ (nn_norm1 prec emax x y H H0)) as (v & V & B). exists v. rewrite <- V. split; auto. now rewrite V.
  - (* squared exponential *) split; intros.
    + rewrite sqd_self by auto. f_equal. exact X0.
    + destruct (X _ (nn_sqd prec emax x y H H0)) as (v & V & B). exists v. rewrite <- V. split; auto. now rewrite V.
  - (* PCIMQ *) split; intros.
    + rewrite sqd_self by auto. f_equal. cbn [fdiv FOpsIEEE fsqrt fadd f1]. destruct (ZD false) as [s1 Z].
      cbn [fdiv FOpsIEEE fsqrt fadd f1] in Z. etransitivity; [|apply div_one; exact S]. f_equal.
      transitivity (Bsqrt mode_NE (Bplus mode_NE Bone (B754_zero s1 : binary_float prec emax))); [|rewrite one_plus_zero; apply sqrt_one].
      f_equal. f_equal. exact Z.
    + eexists. split; [reflexivity|]. apply (upto_div prec emax); auto. apply ge1_sqrt. apply ge1_plus. apply nn_div; auto. now apply nn_sqd.
  - (* rational quadratic *) destruct (Ha len scale rw eq_refl) as [Fa Pa].
    assert (NA : is_finite (Bminus mode_NE (B754_zero false) rw) = true /\ np prec emax (Bminus mode_NE (B754_zero false) rw)).
    { split; [destruct rw as [[]|[]| |[] m e H]; cbn in *; auto; discriminate|]. apply np_opp. now apply nn_finite. }
    destruct NA as [NA1 NA2]. split; intros.
    + rewrite sqd_self by auto. f_equal. destruct (ZD false) as [s1 Z].
      etransitivity; [|apply mult_one; exact S]. cbn [fmul FOpsIEEE fadd f1]. f_equal.
      etransitivity; [|apply (E2 (Bminus mode_NE (B754_zero false) rw)); exact NA1]. unfold fneg. cbn [fsub FOpsIEEE f0]. f_equal.
      transitivity (Bplus mode_NE Bone (B754_zero s1 : binary_float prec emax)); [f_equal; exact Z|apply one_plus_zero].
    + eexists. split; [reflexivity|]. apply (upto_mult prec emax); auto. apply E3; auto. apply ge1_plus. apply nn_div; auto. now apply nn_sqd.
Qed.
Print Assumptions C69_bounds.
(** functions meeting the assumptions, different from 0 and 1: 1/(1-v) for exp, 1/b for powers *)
Definition ex_tops : TOps F32 :=
  mkTOps F32 (fun v => Bdiv mode_NE Bone (Bminus mode_NE Bone v)) (fun v => v) (fun v => v) Bone (fun b _ => Bdiv mode_NE Bone b).
Lemma one_pos : pos 24 128 Bone.
Proof. reflexivity. Qed.
Lemma ex_elementary : elementary ex_tops.
Proof.
  assert (M : forall v : F32, Bminus mode_NE Bone v = Bplus mode_NE Bone (Bopp v)).
  { intros v. destruct v as [[]|[]| |[] m e H]; reflexivity. }
  constructor; cbn [ex_tops fexp fpow].
  - intros []; apply B2SF_inj; vm_compute; reflexivity.
  - intros v V. rewrite M. rewrite <- (Bone_correct 24 128 _ _). apply upto_div; [exact one_pos|].
    apply ge1_plus. now apply np_nn_opp.
  - intros e _. apply B2SF_inj. vm_compute. reflexivity.
  - intros b e B _ _. rewrite <- (Bone_correct 24 128 _ _). apply upto_div; [exact one_pos|exact B].
Qed.
Example C69_bounds_applies : exists s d, scale_and_divisor F32Ops (KSE (f32 1 (-1)) (f32 3 0)) = Some (s, d) /\
  is_finite s = true /\ (0 < B2R s)%R /\ is_finite d = true /\ (0 < B2R d)%R /\ all_finite 24 128 [f32 1 (-3); f32 (-7) 100].
Proof.
  eexists. eexists. split; [reflexivity|]. split; [reflexivity|]. split; [apply pos_spec; reflexivity|].
  split; [reflexivity|]. split; [apply pos_spec; reflexivity|]. repeat constructor.
Qed.

(** a length scale whose square underflows is accepted, and the kernel is NaN on the diagonal *)
Theorem C69_small_length_scale_refuted :
  let len := f32 1 (-80) in let one := f32 1 0 in
  forall T jgrad keq, (forall v, fexp T B754_nan = v -> v = B754_nan) ->
    check_init F32Ops (KSE len one) = Ok (KSE len one) /\
    forall x, all_finite 24 128 x -> m_val (methods F32Ops T jgrad keq (KSE len one)) x x = Sc B754_nan.
Proof.
  intros len one T jgrad keq N. split; [reflexivity|]. intros x X. cbn [methods m_val se_meth]. unfold se_val, F32Ops.
  rewrite sqd_self by auto. f_equal.
  replace (fdiv (FOpsIEEE 24 128) (fneg (FOpsIEEE 24 128) (B754_zero false))
      (fmul (FOpsIEEE 24 128) (fofZ (FOpsIEEE 24 128) 2) (sq (FOpsIEEE 24 128) len))) with (B754_nan : F32) by (vm_compute; reflexivity).
  rewrite (N _ eq_refl). reflexivity.
Qed.
Print Assumptions C69_small_length_scale_refuted.

(** every Matern kernel of degree 18 or more is NaN on the diagonal in binary32: the
    factorial of twice the degree overflows, and zero times infinity is NaN *)
Fixpoint zfact (n : nat) : Z := match n with 0 => 1 | S n => Z.of_nat (S n) * zfact n end.
Lemma zfact_ok n : Z.of_nat (fact n) = zfact n.
Proof. induction n; [reflexivity|]. change (fact (S n)) with (S n * fact n)%nat. rewrite Nat2Z.inj_mul, IHn. reflexivity. Qed.
Lemma zfact_mono n m : (n <= m)%nat -> (zfact n <= zfact m)%Z.
Proof.
  induction 1; [lia|]. etransitivity; [exact IHle|]. cbn [zfact].
  assert (0 < zfact m)%Z by (rewrite <- zfact_ok; pose proof (lt_O_fact m); lia). nia.
Qed.
Lemma ofZ_big z : (2 ^ 128 <= z)%Z -> fofZ F32Ops z = B754_infinity false.
Proof.
  intro H. pose proof (binary_normalize_correct 24 128 _ _ mode_NE z 0 false) as C. cbn zeta in C.
  unfold F2R in C. cbn [Fnum Fexp bpow] in C. rewrite Rmult_1_r in C.
  rewrite Rlt_bool_false in C.
  - apply overflow_inf in C. unfold F32Ops. cbn [fofZ FOpsIEEE]. rewrite C. f_equal. apply Rlt_bool_false. apply IZR_le. lia.
  - assert (B : (bpow radix2 128 <= IZR z)%R). { change (bpow radix2 128) with (IZR (2 ^ 128)). now apply IZR_le. }
    assert (L : (bpow radix2 128 <= round radix2 (SpecFloat.fexp 24 128) (round_mode mode_NE) (IZR z))%R).
    { apply round_ge_generic; auto with typeclass_instances; [apply fexp_correct; exact prec24|].
      apply generic_format_bpow. cbn. lia. }
    rewrite Rabs_pos_eq; auto. eapply Rle_trans; [|exact L]. apply bpow_ge_0.
Qed.
Definition not_finite (v : F32) : Prop := is_finite v = false.
Section Matern.
  Context (Sm : SumOrder 24 128).
  Notation OS := (@FOpsIEEE 24 128 _ _ Sm).
Lemma sum_last l (v : F32) : not_finite v -> not_finite (fsum OS (l ++ [v])).
Proof.
  intros H. apply (summed_absorb (Bplus mode_NE) (B754_zero false) not_finite (l ++ [v])); [|apply Exists_exists; exists v; split; [apply in_or_app; right; now left|exact H]|apply sum_fun_ok].
  intros a b. unfold not_finite. destruct a as [[]|[]| |[] ? ? ?], b as [[]|[]| |[] ? ? ?]; cbn; intros [E|E]; congruence.
Qed.
Theorem C69_matern_degree_refuted :
  forall T jgrad keq degree len scale x,
    (18 <= degree)%Z -> is_finite len = true -> (0 < B2R len)%R -> is_finite scale = true -> (0 < B2R scale)%R -> all_finite 24 128 x ->
    check_init OS (KMatern len scale degree) = Ok (KMatern len scale degree) /\
    m_val (methods OS T jgrad keq (KMatern len scale degree)) x x = Sc B754_nan.
Proof.
  intros T jgrad keq degree len scale x HD FL PL FS PS X.
  assert (L : pos 24 128 len) by now apply pos_spec. assert (S : pos 24 128 scale) by now apply pos_spec.
  split.
  { unfold check_init. replace (degree <? 0)%Z with false by (symmetry; apply Z.ltb_ge; lia).
    destruct len as [[]|[]| |[] ? ? ?], scale as [[]|[]| |[] ? ? ?]; cbn in L, S; try contradiction; try discriminate. reflexivity. }
  cbn [methods m_val auto_meth]. f_equal. unfold matern_val. set (p := Z.to_nat degree).
  assert (Hp : (18 <= p)%nat) by (unfold p; lia).
  replace (0 <? degree)%Z with true by (symmetry; apply Z.ltb_lt; lia).
  replace (norm2 OS (difference OS x x)) with (B754_zero false : F32) by (symmetry; now apply norm2_self).
  set (body := fdiv OS (fmul OS (fsqrt OS (fofZ OS (2 * degree + 1))) (B754_zero false)) len).
  assert (BIG : ffact OS (2 * p) = B754_infinity false).
  { unfold ffact. rewrite zfact_ok. apply ofZ_big. etransitivity; [|apply (zfact_mono 36); lia]. vm_compute. discriminate. }
  set (num := fmul OS (fmul OS (sq OS scale) (fexp T (fneg OS body))) (ffact OS p)) in *.
  rewrite BIG.
  assert (Q : fdiv OS num (B754_infinity false) = B754_nan \/ exists s, fdiv OS num (B754_infinity false) = B754_zero s).
  { destruct num as [[]|[]| |[] ? ? ?]; cbn; eauto. }
  assert (SUM : not_finite (fsum OS (map (matern_term OS p body) (seq 0 (p + 1))))).
  { rewrite Nat.add_1_r, seq_S, map_app. cbn [map Nat.add]. apply sum_last. unfold matern_term.
    rewrite Nat.sub_diag. cbn [pown]. replace (p + p)%nat with (2 * p)%nat by lia. rewrite BIG.
    assert (F1 : fofZ OS 1 = Bone) by (apply B2SF_inj; vm_compute; reflexivity).
    change (ffact OS 0) with (fofZ OS 1). rewrite F1.
    set (q := ffact OS p). assert (QN : not_finite (fdiv OS (B754_infinity false) (fmul OS q Bone))).
    { destruct (fmul OS q Bone) as [[]|[]| |[] ? ? ?]; reflexivity. }
    destruct (fdiv OS (B754_infinity false) (fmul OS q Bone)) as [[]|[]| |[] ? ? ?]; unfold not_finite in QN; cbn in QN; try discriminate; reflexivity. }
  destruct (fsum OS (map (matern_term OS p body) (seq 0 (p + 1)))) as [[]|[]| |[] ? ? ?]; unfold not_finite in SUM; cbn in SUM; try discriminate;
    destruct Q as [->|[[] ->]]; reflexivity.
Qed.
End Matern.
Print Assumptions C69_matern_degree_refuted.
Example C69_matern_applies : (18 <= 20)%Z /\ is_finite (f32 1 0) = true /\ (0 < B2R (f32 1 0))%R /\ all_finite 24 128 [f32 3 5].
Proof. split; [lia|]. split; [reflexivity|]. split; [apply pos_spec; reflexivity|]. repeat constructor. Qed.
