(** * Signs and bounds of IEEE results *)
From Coq Require Import List ZArith Bool Reals Lia Lra.
From Coq Require Import Floats.SpecFloat.
From Flocq Require Import Core.Core Plus_error IEEE754.BinarySingleNaN.
From Verif Require Import Num SumSpec SumProofs Float MeanModel UtilModel KernelModel.
Import ListNotations.

Section FloatBounds.
  Context (prec emax : Z) {Hprec : Prec_gt_0 prec} {Hmax : Prec_lt_emax prec emax} {Sm : SumOrder prec emax}.
  Notation flt := (binary_float prec emax).
  Notation O := (FOpsIEEE prec emax).
  Notation rnd := (round radix2 (SpecFloat.fexp prec emax) (round_mode mode_NE)).
  Notation big := (bpow radix2 emax).

  (** not NaN and not negative; not NaN and not positive; finite and positive; at least
      one, possibly infinite *)
  Definition nn (v : flt) : Prop :=
    match v with B754_zero _ => True | B754_nan => False | B754_infinity s | B754_finite s _ _ _ => s = false end.
  Definition np (v : flt) : Prop :=
    match v with B754_zero _ => True | B754_nan => False | B754_infinity s | B754_finite s _ _ _ => s = true end.
  Definition pos (v : flt) : Prop := match v with B754_finite s _ _ _ => s = false | _ => False end.
  Definition ge1 (v : flt) : Prop := v = B754_infinity false \/ (is_finite v = true /\ 1 <= B2R v)%R.
  (** a finite value between 0 and [r] *)
  Definition upto (r : R) (v : flt) : Prop := is_finite v = true /\ (0 <= B2R v <= r)%R.

  Lemma neg_lt0 m e : (F2R (beta := radix2) {| Fnum := Z.neg m; Fexp := e |} < 0)%R.
  Proof. apply F2R_lt_0. reflexivity. Qed.
  Lemma pos_spec v : pos v <-> is_finite v = true /\ (0 < B2R v)%R.
  Proof.
    destruct v as [s|s| |s m e H]; cbn; split; try tauto; try (intros [? ?]; try discriminate; lra).
    - intros ->. split; auto. apply F2R_gt_0. reflexivity.
    - intros [_ L]. destruct s; auto. pose proof (neg_lt0 m e). cbn in L. lra.
  Qed.
  Lemma nn_finite v : is_finite v = true -> nn v <-> (0 <= B2R v)%R.
  Proof.
    destruct v as [s|s| |s m e H]; cbn; try discriminate; intros _; split; auto; try lra.
    - intros ->. apply F2R_ge_0. cbn. lia.
    - intros L. destruct s; auto. pose proof (neg_lt0 m e). cbn in L. lra.
  Qed.
  Lemma np_finite v : is_finite v = true -> np v <-> (B2R v <= 0)%R.
  Proof.
    destruct v as [s|s| |s m e H]; cbn; try discriminate; intros _; split; auto; try lra.
    - intros ->. left. apply neg_lt0.
    - intros L. destruct s; auto. assert (0 < F2R (beta := radix2) {| Fnum := Z.pos m; Fexp := e |})%R by (apply F2R_gt_0; reflexivity). cbn in L. lra.
  Qed.
  Lemma rnd_0 : rnd 0 = 0%R.
  Proof. apply round_0; auto with typeclass_instances. Qed.
  Lemma rnd_mono a b : (a <= b -> rnd a <= rnd b)%R.
  Proof. intro. apply round_le; auto with typeclass_instances. apply fexp_correct. exact Hprec. Qed.
  Lemma rnd_ge0 r : (0 <= r -> 0 <= rnd r)%R.
  Proof. intro H. rewrite <- rnd_0. now apply rnd_mono. Qed.
  Lemma rnd_id (v : flt) : rnd (B2R v) = B2R v.
  Proof. apply round_generic; auto with typeclass_instances. apply generic_format_B2R. Qed.
  Lemma rnd_1 : rnd 1 = 1%R.
  Proof. rewrite <- (Bone_correct prec emax _ _). apply rnd_id. Qed.
  Lemma big_pos : (0 < big)%R.
  Proof. apply bpow_gt_0. Qed.
  Lemma B2R_big (v : flt) : (Rabs (B2R v) < big)%R.
  Proof. apply abs_B2R_lt_emax. Qed.
  Lemma overflow_inf s (v : flt) : B2SF v = binary_overflow prec emax mode_NE s -> v = B754_infinity s.
  Proof. intro H. apply B2SF_inj. rewrite H. reflexivity. Qed.

  (** ** results of the operations *)
  Lemma plus_cases (a b : flt) : is_finite a = true -> is_finite b = true ->
    (B2R (Bplus mode_NE a b) = rnd (B2R a + B2R b) /\ is_finite (Bplus mode_NE a b) = true) \/
    (Bplus mode_NE a b = B754_infinity (Bsign a) /\ Bsign a = Bsign b /\ big <= Rabs (rnd (B2R a + B2R b)))%R.
  Proof.
    intros A B. pose proof (Bplus_correct prec emax _ _ mode_NE a b A B) as C. destruct (Rlt_bool_spec (Rabs (rnd (B2R a + B2R b))) big).
    - left. tauto.
    - right. destruct C as [C S]. split; [now apply overflow_inf|auto].
  Qed.
  Lemma mult_cases (a b : flt) : is_finite a = true -> is_finite b = true ->
    (B2R (Bmult mode_NE a b) = rnd (B2R a * B2R b) /\ is_finite (Bmult mode_NE a b) = true) \/
    (Bmult mode_NE a b = B754_infinity (xorb (Bsign a) (Bsign b)) /\ big <= Rabs (rnd (B2R a * B2R b)))%R.
  Proof.
    intros A B. pose proof (Bmult_correct prec emax _ _ mode_NE a b) as C. destruct (Rlt_bool_spec (Rabs (rnd (B2R a * B2R b))) big).
    - left. rewrite A, B in C. tauto.
    - right. split; [now apply overflow_inf|auto].
  Qed.
  Lemma div_cases (a b : flt) : is_finite a = true -> (B2R b <> 0)%R ->
    (B2R (Bdiv mode_NE a b) = rnd (B2R a / B2R b) /\ is_finite (Bdiv mode_NE a b) = true) \/
    (Bdiv mode_NE a b = B754_infinity (xorb (Bsign a) (Bsign b)) /\ big <= Rabs (rnd (B2R a / B2R b)))%R.
  Proof.
    intros A B. pose proof (Bdiv_correct prec emax _ _ mode_NE a b B) as C. destruct (Rlt_bool_spec (Rabs (rnd (B2R a / B2R b))) big).
    - left. rewrite A in C. tauto.
    - right. split; [now apply overflow_inf|auto].
  Qed.
  Lemma nn_sign v : is_finite v = true -> nn v -> Bsign v = true -> B2R v = 0%R.
  Proof. destruct v; cbn; congruence. Qed.
  Lemma nn_plus a b : nn a -> nn b -> nn (Bplus mode_NE a b).
  Proof.
    intros A B. destruct (is_finite a) eqn:FA, (is_finite b) eqn:FB.
    - destruct (plus_cases a b FA FB) as [[R F]|(-> & S & L)].
      + apply nn_finite; auto. rewrite R. apply rnd_ge0. apply nn_finite in A, B; auto. lra.
      + cbn. destruct (Bsign a) eqn:SA; auto. exfalso.
        rewrite (nn_sign a), (nn_sign b) in L; auto. rewrite Rplus_0_r, rnd_0, Rabs_R0 in L. pose proof big_pos. lra.
    - destruct a, b; cbn in *; subst; try discriminate; auto; contradiction.
    - destruct a, b; cbn in *; subst; try discriminate; auto; contradiction.
    - destruct a, b; cbn in *; subst; try discriminate; auto; contradiction.
  Qed.
  Lemma nn_square a : is_nan a = false -> nn (Bmult mode_NE a a).
  Proof.
    intro N. destruct (is_finite a) eqn:FA.
    - destruct (mult_cases a a FA FA) as [[R F]|[-> _]].
      + apply nn_finite; auto. rewrite R. apply rnd_ge0. apply Rle_0_sqr.
      + cbn. apply xorb_nilpotent.
    - destruct a; cbn in *; try discriminate. apply xorb_nilpotent.
  Qed.
  Lemma nn_div a b : nn a -> pos b -> nn (Bdiv mode_NE a b).
  Proof.
    intros A B. pose proof B as B'. apply pos_spec in B' as [FB PB]. destruct (is_finite a) eqn:FA.
    - destruct (div_cases a b FA) as [[R F]|[-> L]]; [lra| |].
      + apply nn_finite; auto. rewrite R. apply rnd_ge0. apply nn_finite in A; auto.
        apply Rmult_le_pos; auto. left. now apply Rinv_0_lt_compat.
      + cbn. destruct (Bsign a) eqn:SA.
        * exfalso. rewrite (nn_sign a) in L; auto. unfold Rdiv in L. rewrite Rmult_0_l, rnd_0, Rabs_R0 in L. pose proof big_pos. lra.
        * destruct b; cbn in *; try contradiction. now subst.
    - destruct a, b; cbn in *; subst; try discriminate; auto; contradiction.
  Qed.
  Lemma np_opp a : nn a -> np (Bminus mode_NE (B754_zero false) a).
  Proof. destruct a as [[]|[]| |[] m e H]; cbn; auto; discriminate. Qed.
  Lemma np_nn_opp a : np a <-> nn (Bopp a).
  Proof. destruct a as [[]|[]| |[] m e H]; cbn; split; auto; discriminate. Qed.
  Lemma np_div a b : np a -> pos b -> np (Bdiv mode_NE a b).
  Proof.
    intros A B. pose proof B as B'. apply pos_spec in B' as [FB PB]. destruct (is_finite a) eqn:FA.
    - pose proof A as A'. apply np_finite in A'; auto. destruct (div_cases a b FA) as [[R F]|[-> L]]; [lra| |].
      + apply np_finite; auto. rewrite R. rewrite <- rnd_0. apply rnd_mono.
        assert (0 < / B2R b)%R by now apply Rinv_0_lt_compat. unfold Rdiv. nra.
      + cbn. destruct (Bsign a) eqn:SA.
        * destruct b; cbn in *; try contradiction. now subst.
        * exfalso. assert (Z : B2R a = 0%R) by (destruct a; cbn in *; congruence).
          rewrite Z in L. unfold Rdiv in L. rewrite Rmult_0_l, rnd_0, Rabs_R0 in L. pose proof big_pos. lra.
    - destruct a, b; cbn in *; subst; try discriminate; auto; contradiction.
  Qed.
  Lemma nn_sqrt a : nn a -> nn (Bsqrt mode_NE a).
  Proof.
    intro A. destruct a as [s|[]| |[] m e H]; cbn in A; try discriminate; try contradiction; try exact I; try reflexivity.
    destruct (Bsqrt_correct prec emax _ _ mode_NE (B754_finite false m e H)) as (R & F & _).
    apply nn_finite; auto. rewrite R. apply rnd_ge0. apply sqrt_pos.
  Qed.
  Lemma minus_not_nan a b : is_finite a = true -> is_finite b = true -> is_nan (Bminus mode_NE a b) = false.
  Proof.
    intros A B. pose proof (Bminus_correct prec emax _ _ mode_NE a b A B) as C. destruct (Rlt_bool _ _).
    - destruct C as (_ & F & _). destruct (Bminus mode_NE a b); auto; discriminate.
    - destruct C as [C _]. apply overflow_inf in C. now rewrite C.
  Qed.
  Lemma minus_self a : is_finite a = true -> Bminus mode_NE a a = B754_zero false \/ Bminus mode_NE a a = B754_zero true.
  Proof.
    intro A. pose proof (Bminus_correct prec emax _ _ mode_NE a a A A) as C.
    rewrite Rminus_diag_eq, rnd_0, Rabs_R0, Rlt_bool_true in C by (auto using big_pos). destruct C as (R & F & _).
    destruct (Bminus mode_NE a a) as [[]|[]| |[] m e H]; auto; try discriminate; exfalso.
    - pose proof (neg_lt0 m e). cbn in R. lra.
    - cbn in R. assert (0 < F2R (beta := radix2) {| Fnum := Z.pos m; Fexp := e |})%R by (apply F2R_gt_0; reflexivity). lra.
  Qed.
  Lemma nn_sum l : Forall nn l -> nn (fsum O l).
  Proof. intros F. eapply summed_closed; [| |exact F|apply sum_fun_ok]; [exact I|apply nn_plus]. Qed.

  (** multiplication by a number between zero and one, and division by one that is at least one *)
  Lemma upto_mult s e : pos s -> upto 1 e -> upto (B2R s) (Bmult mode_NE s e).
  Proof.
    intros S [F E]. apply pos_spec in S as [FS PS].
    assert (B : (0 <= rnd (B2R s * B2R e) <= B2R s)%R).
    { split; [apply rnd_ge0; nra|]. rewrite <- (rnd_id s) at 2. apply rnd_mono. nra. }
    destruct (mult_cases s e FS F) as [[R FF]|[_ L]].
    - split; auto. now rewrite R.
    - exfalso. rewrite Rabs_pos_eq in L by lra. pose proof (B2R_big s). rewrite Rabs_pos_eq in H by lra. lra.
  Qed.
  Lemma mult_one s : pos s -> Bmult mode_NE s Bone = s.
  Proof.
    intro S. pose proof S as S'. apply pos_spec in S' as [FS PS].
    pose proof (Bmult_correct prec emax _ _ mode_NE s Bone) as C. rewrite Bone_correct, Rmult_1_r, rnd_id, Rlt_bool_true in C by apply B2R_big.
    destruct C as (R & F & G). rewrite FS, (is_finite_Bone prec emax _ _) in F. apply B2R_Bsign_inj; auto.
    rewrite G by (destruct (Bmult mode_NE s Bone); auto; discriminate). rewrite (Bsign_Bone prec emax _ _). apply xorb_false_r.
  Qed.
  Lemma upto_div s q : pos s -> ge1 q -> upto (B2R s) (Bdiv mode_NE s q).
  Proof.
    intros S Q. pose proof S as S'. apply pos_spec in S' as [FS PS]. destruct Q as [->|[F L]].
    - destruct s; try contradiction. cbn in *. split; auto. cbn. lra.
    - assert (B : (0 <= rnd (B2R s / B2R q) <= B2R s)%R).
      { assert (0 < / B2R q <= 1)%R. { split; [apply Rinv_0_lt_compat; lra|]. rewrite <- Rinv_1. apply Rinv_le_contravar; lra. }
        split; [apply rnd_ge0; unfold Rdiv; nra|]. rewrite <- (rnd_id s) at 2. apply rnd_mono. unfold Rdiv. nra. }
      destruct (div_cases s q FS) as [[R FF]|[_ LL]]; [lra| |].
      + split; auto. now rewrite R.
      + exfalso. rewrite Rabs_pos_eq in LL by lra. pose proof (B2R_big s). rewrite Rabs_pos_eq in H by lra. lra.
  Qed.
  Lemma div_one s : pos s -> Bdiv mode_NE s Bone = s.
  Proof.
    intro S. pose proof S as S'. apply pos_spec in S' as [FS PS].
    pose proof (Bdiv_correct prec emax _ _ mode_NE s Bone) as C. rewrite Bone_correct in C. specialize (C R1_neq_R0).
    replace (B2R s / 1)%R with (B2R s) in C by field. rewrite rnd_id, Rlt_bool_true in C by apply B2R_big.
    destruct C as (R & F & G). rewrite FS in F. apply B2R_Bsign_inj; auto.
    rewrite G by (destruct (Bdiv mode_NE s Bone); auto; discriminate). rewrite (Bsign_Bone prec emax _ _). apply xorb_false_r.
  Qed.
  Lemma ge1_plus t : nn t -> ge1 (Bplus mode_NE Bone t).
  Proof.
    intro T. destruct (is_finite t) eqn:FT.
    - pose proof T as T'. apply nn_finite in T'; auto.
      destruct (plus_cases Bone t (is_finite_Bone prec emax _ _) FT) as [[R F]|(E & _)].
      + right. split; auto. rewrite R, Bone_correct. rewrite <- rnd_1 at 1. apply rnd_mono. lra.
      + left. rewrite E. now rewrite (Bsign_Bone prec emax _ _).
    - left. destruct t as [s|[]| |[] m e H]; cbn in *; try discriminate; try contradiction.
      pose proof (is_finite_strict_Bone prec emax _ _) as F. destruct (Bone : flt); try discriminate F. reflexivity.
  Qed.
  Lemma one_plus_zero s : Bplus mode_NE Bone (B754_zero s) = (Bone : flt).
  Proof. pose proof (is_finite_strict_Bone prec emax _ _) as F. destruct (Bone : flt); try discriminate F. reflexivity. Qed.
  Lemma ge1_sqrt q : ge1 q -> ge1 (Bsqrt mode_NE q).
  Proof.
    intros [->|[F L]]; [left; reflexivity|]. right.
    destruct (Bsqrt_correct prec emax _ _ mode_NE q) as (R & FF & _). split.
    - rewrite FF. destruct q as [s|s| |[] m e H]; auto; try discriminate. pose proof (neg_lt0 m e). cbn in L. lra.
    - rewrite R. rewrite <- rnd_1 at 1. apply rnd_mono. rewrite <- sqrt_1. now apply sqrt_le_1_alt.
  Qed.
  Lemma sqrt_one : Bsqrt mode_NE (Bone : flt) = Bone.
  Proof.
    destruct (Bsqrt_correct prec emax _ _ mode_NE (Bone : flt)) as (R & FF & G).
    rewrite Bone_correct, sqrt_1, rnd_1 in R.
    assert (F : is_finite (Bsqrt mode_NE (Bone : flt)) = true).
    { rewrite FF. pose proof (is_finite_strict_Bone prec emax _ _) as F. pose proof (Bsign_Bone prec emax _ _) as S.
      destruct (Bone : flt); try discriminate F. cbn in S. now subst. }
    apply B2R_Bsign_inj; auto.
    - apply is_finite_Bone.
    - rewrite R. symmetry. apply Bone_correct.
    - apply G. destruct (Bsqrt mode_NE (Bone : flt)); auto; discriminate.
  Qed.

  (** ** distances *)
  Definition all_finite (x : list flt) : Prop := Forall (fun v => is_finite v = true) x.
  Lemma diff_not_nan x y : all_finite x -> all_finite y -> Forall (fun v => is_nan v = false) (difference O x y).
  Proof.
    intros X Y. revert y Y. induction X as [|a x A X IH]; intros [|b y] Y; simpl; constructor; inversion Y; subst.
    - now apply minus_not_nan.
    - now apply IH.
  Qed.
  Lemma nn_dot_self l : Forall (fun v => is_nan v = false) l -> nn (fdot O l l).
  Proof.
    intro F. unfold fdot. apply nn_sum. induction F; simpl; constructor; auto. now apply nn_square.
  Qed.
  Lemma nn_sqd x y : all_finite x -> all_finite y -> nn (squared_distance O x y).
  Proof. intros. apply nn_dot_self. now apply diff_not_nan. Qed.
  Lemma nn_norm2 x y : all_finite x -> all_finite y -> nn (norm2 O (difference O x y)).
  Proof. intros. apply nn_sqrt. now apply nn_sqd. Qed.
  Lemma nn_abs a : is_nan a = false -> nn (fabs O a).
  Proof. destruct a as [[]|[]| |[] m e H]; cbn; auto; discriminate. Qed.
  Lemma nn_norm1 x y : all_finite x -> all_finite y -> nn (norm1 O (difference O x y)).
  Proof.
    intros X Y. unfold norm1. apply nn_sum. pose proof (diff_not_nan x y X Y) as F.
    induction F; simpl; constructor; auto. now apply nn_abs.
  Qed.
  (** distance of a point to itself *)
  Lemma zeros_sum l : Forall (fun v => v = B754_zero false) l -> fsum O l = B754_zero false.
  Proof. intro F. eapply (summed_closed _ _ (fun v => v = B754_zero false)); [| |exact F|apply sum_fun_ok]; [reflexivity|now intros a b -> ->]. Qed.
  Lemma diff_self x : all_finite x -> Forall (fun v => v = B754_zero false \/ v = B754_zero true) (difference O x x).
  Proof. intro X. induction X; simpl; constructor; auto. now apply minus_self. Qed.
  Lemma sqd_self x : all_finite x -> squared_distance O x x = B754_zero false.
  Proof.
    intro X. unfold squared_distance, fdot. apply zeros_sum. pose proof (diff_self x X) as F.
    induction F as [|v l [->| ->] F IH]; simpl; constructor; auto.
  Qed.
  Lemma norm2_self x : all_finite x -> norm2 O (difference O x x) = B754_zero false.
  Proof. intro X. unfold norm2. change (fdot O (difference O x x) (difference O x x)) with (squared_distance O x x). now rewrite sqd_self. Qed.
  Lemma norm1_self x : all_finite x -> norm1 O (difference O x x) = B754_zero false.
  Proof.
    intro X. unfold norm1. apply zeros_sum. pose proof (diff_self x X) as F.
    induction F as [|v l [->| ->] F IH]; simpl; constructor; auto.
  Qed.
  Lemma zero_div q : pos q -> exists s, Bdiv mode_NE (B754_zero false) q = B754_zero s.
  Proof. destruct q; cbn; try tauto. intros ->. eexists. reflexivity. Qed.
End FloatBounds.
