(** * Rounding error analysis: computed sums and products against exact ones *)
From Coq Require Import List ZArith Bool Reals Permutation Lia Lra.
From Coq Require Import Floats.SpecFloat.
From Flocq Require Import Core.Core Relative Plus_error IEEE754.BinarySingleNaN.
From Verif Require Import Num Jax RSum JaxFacts DataModel SumSpec SumProofs Float FloatProofs2 FloatGreedy.
Import ListNotations.
Open Scope R_scope.

Section Err.
  Context (prec emax : Z) {Hprec : Prec_gt_0 prec} {Hmax : Prec_lt_emax prec emax} {Sm : SumOrder prec emax}.
  Notation flt := (binary_float prec emax).
  Notation O := (FOpsIEEE prec emax).
  Notation rnd := (round radix2 (SpecFloat.fexp prec emax) (round_mode mode_NE)).
  Notation big := (bpow radix2 emax).

  (** unit roundoff, and the size below which products lose relative accuracy *)
  Definition uu : R := bpow radix2 (- prec).
  Definition tau : R := bpow radix2 (2 - emax).
  Lemma uu_pos : 0 < uu.
  Proof. apply bpow_gt_0. Qed.
  Lemma tau_pos : 0 < tau.
  Proof. apply bpow_gt_0. Qed.
  Lemma uu_le : uu <= / 2.
  Proof. unfold uu. change (/ 2) with (bpow radix2 (-1)). apply bpow_le. assert (0 < prec)%Z by assumption. lia. Qed.
  Lemma u_ro_uu : u_ro radix2 prec = uu.
  Proof. unfold u_ro, uu. rewrite bpow_plus. change (bpow radix2 1) with 2. field. Qed.

  Lemma rnd_err x : Rabs (rnd x - x) <= uu * Rabs x + uu * tau.
  Proof.
    assert (P : (0 < prec)%Z) by assumption.
    destruct (error_N_FLT radix2 (3 - emax - prec) prec P (fun x => negb (Z.even x)) x) as (eps & eta & H1 & H2 & _ & E).
    change (round radix2 (FLT_exp (3 - emax - prec) prec) (Znearest (fun x => negb (Z.even x))) x) with (rnd x) in E. rewrite E.
    fold (u_ro radix2 prec) in H1. rewrite u_ro_uu in H1.
    assert (H3 : Rabs eta <= uu * tau).
    { replace (uu * tau) with (/ 2 * bpow radix2 (3 - emax - prec)); auto. unfold uu, tau. rewrite <- bpow_plus.
      change (/ 2) with (bpow radix2 (-1)). rewrite <- bpow_plus. f_equal. lia. }
    replace (x * (1 + eps) + eta - x) with (eps * x + eta) by ring.
    eapply Rle_trans; [apply Rabs_triang|]. rewrite Rabs_mult. pose proof (Rabs_pos x).
    apply Rplus_le_compat; auto. now apply Rmult_le_compat_r.
  Qed.
  Lemma rnd_add (a b : flt) : Rabs (rnd (B2R a + B2R b) - (B2R a + B2R b)) <= uu * Rabs (B2R a + B2R b).
  Proof.
    destruct (FLT_plus_error_N_ex radix2 (3 - emax - prec) prec (fun x => negb (Z.even x)) (B2R a) (B2R b)
       (generic_format_B2R prec emax a) (generic_format_B2R prec emax b)) as (eps & H1 & E).
    change (round radix2 (FLT_exp (3 - emax - prec) prec) (Znearest (fun x => negb (Z.even x))) (B2R a + B2R b)) with (rnd (B2R a + B2R b)) in E.
    rewrite E. pose proof (u_rod1pu_ro_le_u_ro radix2 prec) as H2. rewrite u_ro_uu in *.
    replace ((B2R a + B2R b) * (1 + eps) - (B2R a + B2R b)) with (eps * (B2R a + B2R b)) by ring. rewrite Rabs_mult.
    apply Rmult_le_compat_r; [apply Rabs_pos|lra].
  Qed.
  (** and conversely the exact sum in terms of the rounded one *)
  Lemma rnd_add_inv (a b : flt) : 0 <= B2R a -> 0 <= B2R b ->
    B2R a + B2R b <= (1 + uu) * rnd (B2R a + B2R b) /\ rnd (B2R a + B2R b) <= (1 + uu) * (B2R a + B2R b).
  Proof.
    intros A B.
    destruct (FLT_plus_error_N_round_ex radix2 (3 - emax - prec) prec (fun x => negb (Z.even x)) (B2R a) (B2R b)
       (generic_format_B2R prec emax a) (generic_format_B2R prec emax b)) as (eps & H1 & E).
    change (round radix2 (FLT_exp (3 - emax - prec) prec) (Znearest (fun x => negb (Z.even x))) (B2R a + B2R b)) with (rnd (B2R a + B2R b)) in E.
    rewrite u_ro_uu in H1. apply Rabs_le_inv in H1.
    assert (W : 0 <= rnd (B2R a + B2R b)) by (apply rnd_ge0; auto; lra).
    split.
    - rewrite E at 1. nra.
    - pose proof (rnd_add a b) as R. apply Rabs_le_inv in R. rewrite (Rabs_pos_eq (B2R a + B2R b)) in R by lra. lra.
  Qed.

  Definition gg (n : nat) : R := (1 + uu) ^ n.
  Lemma gg_ge1 n : 1 <= gg n.
  Proof. unfold gg. apply pow_R1_Rle. pose proof uu_pos. lra. Qed.
  Lemma gg_S n : gg (S n) = (1 + uu) * gg n.
  Proof. reflexivity. Qed.
  Lemma gg_add n m : gg (n + m) = gg n * gg m.
  Proof. apply pow_add. Qed.
  Lemma gg_mono n m : (n <= m)%nat -> gg n <= gg m.
  Proof. intros H. apply Rle_pow; auto. pose proof uu_pos. lra. Qed.
  Lemma gg_bound n : INR n * uu <= / 2 -> gg n <= 1 + 2 * (INR n * uu).
  Proof.
    intros H. pose proof uu_pos as U. pose proof uu_le as U2.
    assert (B : forall n, (1 - uu) ^ n >= 1 - INR n * uu).
    { induction n0 as [|n0 IH]; [simpl; lra|]. rewrite S_INR. cbn [pow]. pose proof (pos_INR n0).
      assert ((1 - uu) * (1 - INR n0 * uu) >= 1 - (INR n0 + 1) * uu) by nra. nra. }
    assert (M : gg n * (1 - uu) ^ n <= 1).
    { unfold gg. rewrite <- Rpow_mult_distr. replace ((1 + uu) * (1 - uu)) with (1 - uu * uu) by ring.
      apply Rle_trans with (1 ^ n); [apply pow_incr; split; nra|rewrite pow1; lra]. }
    specialize (B n). pose proof (gg_ge1 n). pose proof (pos_INR n).
    assert (Q : 0 <= INR n * uu) by nra. set (q := INR n * uu) in *.
    assert (gg n * (1 - q) <= 1) by (eapply Rle_trans; [|exact M]; apply Rmult_le_compat_l; lra).
    apply Rmult_le_reg_r with (1 - q); [lra|]. assert (0 <= q * (1 - 2 * q)) by (apply Rmult_le_pos; lra). lra.
  Qed.

  (** [v] is finite and approximates [x], of magnitude at most [S], up to [N] roundings *)
  Definition apx (N : nat) (v : flt) (x S : R) : Prop :=
    is_finite v = true /\ Rabs x <= S /\ Rabs (B2R v - x) <= (gg N - 1) * S.
  Lemma apx_mono N N' v x S S' : apx N v x S -> (N <= N')%nat -> S <= S' -> apx N' v x S'.
  Proof.
    intros (F & A & B) HN HS. split; auto. pose proof (Rabs_pos x). split; [lra|].
    pose proof (gg_mono N N' HN). pose proof (gg_ge1 N). nra.
  Qed.
  Lemma apx_exact v S : is_finite v = true -> Rabs (B2R v) <= S -> apx 0 v (B2R v) S.
  Proof. intros F A. split; auto. split; auto. unfold gg. cbn. rewrite Rminus_eq_0, Rabs_R0. lra. Qed.
  Lemma apx_mag N v x S : apx N v x S -> Rabs (B2R v) <= gg N * S.
  Proof. intros (F & A & B). replace (B2R v) with (B2R v - x + x) by ring. eapply Rle_trans; [apply Rabs_triang|]. lra. Qed.
  (** one more rounding *)
  Lemma apx_round N r x S t y : Rabs x <= S -> Rabs (r - x) <= (gg N - 1) * S -> 0 <= t ->
    Rabs (y - r) <= uu * Rabs r + uu * t -> Rabs (y - x) <= (gg (Datatypes.S N) - 1) * (S + t) /\ Rabs y <= gg (Datatypes.S N) * (S + t).
  Proof.
    intros A B T C. pose proof uu_pos as U. pose proof (gg_ge1 N) as G. rewrite gg_S. pose proof (Rabs_pos x).
    assert (D : Rabs r <= gg N * S). { replace r with (r - x + x) by ring. eapply Rle_trans; [apply Rabs_triang|]. lra. }
    assert (E : Rabs (y - x) <= ((1 + uu) * gg N - 1) * (S + t)).
    { replace (y - x) with ((y - r) + (r - x)) by ring. eapply Rle_trans; [apply Rabs_triang|].
      assert (uu * Rabs r <= uu * (gg N * S)) by (apply Rmult_le_compat_l; lra).
      assert (uu * t <= ((1 + uu) * gg N - 1) * t) by (apply Rmult_le_compat_r; nra). lra. }
    split; auto. replace y with (y - x + x) by ring. eapply Rle_trans; [apply Rabs_triang|]. lra.
  Qed.
  Lemma apx_add N a b x y S T : apx N a x S -> apx N b y T -> gg (Datatypes.S N) * (S + T) < big -> apx (Datatypes.S N) (Bplus mode_NE a b) (x + y) (S + T).
  Proof.
    intros (FA & A1 & A2) (FB & B1 & B2) L.
    destruct (apx_round N (B2R a + B2R b) (x + y) (S + T) 0 (rnd (B2R a + B2R b))) as [R1 R2].
    - eapply Rle_trans; [apply Rabs_triang|]. lra.
    - replace (B2R a + B2R b - (x + y)) with ((B2R a - x) + (B2R b - y)) by ring. eapply Rle_trans; [apply Rabs_triang|]. lra.
    - lra.
    - pose proof (rnd_add a b). lra.
    - rewrite Rplus_0_r in *. destruct (plus_cases prec emax a b FA FB) as [[R F]|(_ & _ & C)]; [|lra].
      split; auto. rewrite R. split; [|lra]. eapply Rle_trans; [apply Rabs_triang|]. lra.
  Qed.
  Lemma apx_opp N a x S : apx N a x S -> apx N (Bopp a) (- x) S.
  Proof.
    intros (F & A & B). split; [now rewrite is_finite_Bopp|]. rewrite B2R_Bopp, Rabs_Ropp. split; auto.
    replace (- B2R a - - x) with (- (B2R a - x)) by ring. now rewrite Rabs_Ropp.
  Qed.
  Lemma apx_sub N a b x y S T : apx N a x S -> apx N b y T -> gg (Datatypes.S N) * (S + T) < big -> apx (Datatypes.S N) (Bminus mode_NE a b) (x - y) (S + T).
  Proof.
    intros A B L. pose proof (apx_add N a (Bopp b) x (- y) S T A (apx_opp _ _ _ _ B) L) as C.
    destruct A as (FA & _), B as (FB & _).
    destruct C as (FC & C1 & C2).
    assert (E : B2R (Bminus mode_NE a b) = B2R (Bplus mode_NE a (Bopp b)) /\ is_finite (Bminus mode_NE a b) = true).
    { assert (FB' : is_finite (Bopp b) = true) by now rewrite is_finite_Bopp.
      pose proof (Bplus_correct prec emax _ _ mode_NE a (Bopp b) FA FB') as P1.
      pose proof (Bminus_correct prec emax _ _ mode_NE a b FA FB) as P2. rewrite B2R_Bopp in P1.
      replace (B2R a + - B2R b) with (B2R a - B2R b) in P1 by ring.
      destruct (Rlt_bool_spec (Rabs (rnd (B2R a - B2R b))) big).
      - destruct P1 as (P1 & _), P2 as (P2 & P3 & _). split; auto. now rewrite P1, P2.
      - destruct P1 as (P1 & _). apply overflow_inf in P1. rewrite P1 in FC. discriminate. }
    destruct E as [E1 E2]. split; auto. rewrite E1. auto.
  Qed.
  Lemma apx_mult N M a b x y S T : apx N a x S -> apx M b y T -> gg (Datatypes.S (N + M)) * (S * T + tau) < big ->
    apx (Datatypes.S (N + M)) (Bmult mode_NE a b) (x * y) (S * T + tau).
  Proof.
    intros A B L. pose proof (apx_mag _ _ _ _ A) as MA. pose proof (apx_mag _ _ _ _ B) as MB.
    destruct A as (FA & A1 & A2), B as (FB & B1 & B2). pose proof tau_pos as TP.
    pose proof (Rabs_pos x). pose proof (Rabs_pos y). pose proof (gg_ge1 N). pose proof (gg_ge1 M).
    destruct (apx_round (N + M) (B2R a * B2R b) (x * y) (S * T) tau (rnd (B2R a * B2R b))) as [R1 R2].
    - rewrite Rabs_mult. apply Rmult_le_compat; lra.
    - replace (B2R a * B2R b - x * y) with (B2R a * (B2R b - y) + (B2R a - x) * y) by ring.
      eapply Rle_trans; [apply Rabs_triang|]. rewrite !Rabs_mult, gg_add.
      assert (Rabs (B2R a) * Rabs (B2R b - y) <= (gg N * S) * ((gg M - 1) * T)).
      { apply Rmult_le_compat; auto using Rabs_pos. }
      assert (Rabs (B2R a - x) * Rabs y <= ((gg N - 1) * S) * T).
      { apply Rmult_le_compat; auto using Rabs_pos. }
      lra.
    - lra.
    - apply rnd_err.
    - destruct (mult_cases prec emax a b FA FB) as [[R F]|(_ & C)]; [|lra].
      split; auto. rewrite R. split; [|lra]. rewrite Rabs_mult.
      assert (Rabs x * Rabs y <= S * T) by (apply Rmult_le_compat; lra). lra.
  Qed.

  (** sums *)
  Lemma apx_fold {A} (f : A -> flt) (x S : A -> R) N l : (forall a, In a l -> apx N (f a) (x a) (S a)) ->
    forall acc x0 S0 M, (N <= M)%nat -> apx M acc x0 S0 -> gg (M + length l) * (S0 + Rsum (map S l)) < big ->
    apx (M + length l) (fold_left (Bplus mode_NE) (map f l) acc) (x0 + Rsum (map x l)) (S0 + Rsum (map S l)).
  Proof.
    induction l as [|a l IH]; intros H acc x0 S0 M HM HA L; cbn [map fold_left length Rsum] in *.
    - rewrite Nat.add_0_r, !Rplus_0_r. exact HA.
    - assert (Ha : apx M (f a) (x a) (S a)) by (apply apx_mono with N (S a); [apply H; now left|exact HM|lra]).
      assert (P : 0 <= Rsum (map S l)).
      { apply Rsum_nonneg. intros r Hr. apply in_map_iff in Hr as [b [<- Hb]]. destruct (H b (or_intror Hb)) as (_ & B & _). pose proof (Rabs_pos (x b)). lra. }
      assert (P0 : 0 <= S0) by (destruct HA as (_ & B & _); pose proof (Rabs_pos x0); lra).
      assert (P1 : 0 <= S a) by (destruct Ha as (_ & B & _); pose proof (Rabs_pos (x a)); lra).
      replace (M + Datatypes.S (length l))%nat with (Datatypes.S M + length l)%nat in * by lia.
      rewrite <- !Rplus_assoc in *.
      apply IH; auto; [intros; apply H; now right|].
      apply apx_add; auto. eapply Rle_lt_trans; [|exact L].
      apply Rmult_le_compat; try lra. { pose proof (gg_ge1 (Datatypes.S M)). lra. } apply gg_mono. lia.
  Qed.

  (** adding a zero is exact *)
  Lemma plus_zero (a b : flt) : is_finite a = true -> is_finite b = true ->
    (B2R a = 0 -> is_finite (Bplus mode_NE a b) = true /\ B2R (Bplus mode_NE a b) = B2R b) /\
    (B2R b = 0 -> is_finite (Bplus mode_NE a b) = true /\ B2R (Bplus mode_NE a b) = B2R a).
  Proof.
    intros FA FB. split; intros Z; (destruct (plus_cases prec emax a b FA FB) as [[R F]|(_ & _ & C)];
      [split; [exact F|]; rewrite R, Z, ?Rplus_0_l, ?Rplus_0_r; apply rnd_id|]);
      rewrite Z, ?Rplus_0_l, ?Rplus_0_r in C; rewrite rnd_id in C.
    - pose proof (abs_B2R_lt_emax prec emax b). lra.
    - pose proof (abs_B2R_lt_emax prec emax a). lra.
  Qed.
  Lemma Rsum_perm_map {A} (f : A -> R) l l' : Permutation l l' -> Rsum (map f l) = Rsum (map f l').
  Proof. induction 1; cbn [map Rsum]; lra. Qed.
  (** sums, in any order *)
  Lemma apx_sum {A} (f : A -> flt) (x S : A -> R) N l : (forall a, In a l -> apx N (f a) (x a) (S a)) ->
    gg (N + length l) * Rsum (map S l) < big ->
    apx (N + length l) (fsum O (map f l)) (Rsum (map x l)) (Rsum (map S l)).
  Proof.
    pose proof (sum_fun_ok (map f l)) as H. revert H. change (sum_fun (map f l)) with (fsum O (map f l)). generalize (fsum O (map f l)) as v. intros v H. revert l v H.
    apply (summed_map_ind _ _ f (fun l v => (forall a, In a l -> apx N (f a) (x a) (S a)) ->
      gg (N + length l) * Rsum (map S l) < big -> apx (N + length l) v (Rsum (map x l)) (Rsum (map S l)))).
    - intros _ _. split; [reflexivity|]. cbn. rewrite Rminus_0_r, Rabs_R0. lra.
    - intros a H _. cbn [map Rsum length]. rewrite !Rplus_0_r. eapply apx_mono; [apply H; now left|lia|lra].
    - intros l1 l2 a b H1 H2 H L. rewrite app_length, !map_app, !Rsum_app in *.
      assert (P : forall l, (forall a, In a l -> apx N (f a) (x a) (S a)) -> 0 <= Rsum (map S l)).
      { intros l Hl. apply Rsum_nonneg. intros r Hr. apply in_map_iff in Hr as [c [<- Hc]]. destruct (Hl c Hc) as (_ & B & _). pose proof (Rabs_pos (x c)). lra. }
      assert (I1 : forall a, In a l1 -> apx N (f a) (x a) (S a)) by (intros c Hc; apply H; apply in_or_app; auto).
      assert (I2 : forall a, In a l2 -> apx N (f a) (x a) (S a)) by (intros c Hc; apply H; apply in_or_app; auto).
      pose proof (P l1 I1) as P1. pose proof (P l2 I2) as P2. pose proof (gg_ge1 (N + (length l1 + length l2))) as GE.
      assert (A1 : apx (N + length l1) a (Rsum (map x l1)) (Rsum (map S l1))).
      { apply H1; auto. eapply Rle_lt_trans; [|exact L]. apply Rmult_le_compat; try lra. { pose proof (gg_ge1 (N + length l1)). lra. } apply gg_mono. lia. }
      assert (A2 : apx (N + length l2) b (Rsum (map x l2)) (Rsum (map S l2))).
      { apply H2; auto. eapply Rle_lt_trans; [|exact L]. apply Rmult_le_compat; try lra. { pose proof (gg_ge1 (N + length l2)). lra. } apply gg_mono. lia. }
      destruct l1 as [|c1 l1].
      { cbn [map Rsum length plus] in *. rewrite !Rplus_0_l. destruct A1 as (F1 & _ & B1), A2 as (F2 & A2 & B2).
        rewrite Rmult_0_r, Rminus_0_r in B1. assert (Z : B2R a = 0) by (pose proof (Rabs_pos (B2R a)); destruct (Req_dec (B2R a) 0) as [E|E]; auto; apply Rabs_pos_lt in E; lra).
        destruct (proj1 (plus_zero a b F1 F2) Z) as [F E]. split; auto. rewrite E. auto. }
      destruct l2 as [|c2 l2].
      { cbn [map Rsum length] in *. rewrite Nat.add_0_r in *. rewrite !Rplus_0_r in *. destruct A2 as (F2 & _ & B2), A1 as (F1 & A1 & B1).
        rewrite Rmult_0_r, Rminus_0_r in B2. assert (Z : B2R b = 0) by (pose proof (Rabs_pos (B2R b)); destruct (Req_dec (B2R b) 0) as [E|E]; auto; apply Rabs_pos_lt in E; lra).
        destruct (proj2 (plus_zero a b F1 F2) Z) as [F E]. split; auto. rewrite E. auto. }
      set (m1 := c1 :: l1) in *. set (m2 := c2 :: l2) in *. assert (1 <= length m1 /\ 1 <= length m2)%nat as [L1 L2] by (cbn; lia). clearbody m1 m2.
      set (M := (N + Nat.max (length m1) (length m2))%nat).
      apply apx_mono with (N := Datatypes.S M) (S := Rsum (map S m1) + Rsum (map S m2)); [|unfold M; lia|lra].
      apply apx_add; [eapply apx_mono; [exact A1|unfold M; lia|lra]|eapply apx_mono; [exact A2|unfold M; lia|lra]|].
      eapply Rle_lt_trans; [|exact L]. apply Rmult_le_compat_r; [lra|]. apply gg_mono. unfold M. lia.
    - intros l l' v HP H HA L. rewrite <- (Permutation_length HP), <- (Rsum_perm_map x _ _ HP), <- (Rsum_perm_map S _ _ HP) in *. apply H; auto.
      intros a Ha. apply HA. eapply Permutation_in; eauto.
  Qed.

  (** ** Normalised weights *)
  Notation wok := (wok prec emax).
  Lemma sum_nonneg l : Forall wok l -> gg (length l) * Rsum (map B2R l) < big ->
    let s := fsum O l in
    wok s /\ Rsum (map B2R l) <= gg (length l) * B2R s /\ B2R s <= gg (length l) * Rsum (map B2R l).
  Proof.
    cbv zeta. pose proof (sum_fun_ok l) as H. change (sum_fun l) with (fsum O l) in H. rewrite <- (map_id l) in H at 1. revert H. generalize (fsum O l) as s. intros s H. revert l s H.
    apply (summed_map_ind _ _ (fun v : flt => v) (fun l s => Forall wok l -> gg (length l) * Rsum (map B2R l) < big ->
      wok s /\ Rsum (map B2R l) <= gg (length l) * B2R s /\ B2R s <= gg (length l) * Rsum (map B2R l))).
    - intros _ _. split; [split; [reflexivity|cbn; lra]|]. cbn. lra.
    - intros a F _. inversion F as [|? ? [FV PV] _]; subst. split; [split; auto|]. cbn [map Rsum length]. pose proof (gg_ge1 1). rewrite Rplus_0_r. nra.
    - intros l1 l2 a b H1 H2 F L. apply Forall_app in F as [F1 F2]. rewrite app_length, !map_app, !Rsum_app in *.
      assert (P : forall l, Forall wok l -> 0 <= Rsum (map B2R l)).
      { intros l Fl. apply Rsum_nonneg. intros r Hr. apply in_map_iff in Hr as [c [<- Hc]]. rewrite Forall_forall in Fl. now apply Fl. }
      pose proof (P l1 F1) as P1. pose proof (P l2 F2) as P2. pose proof (gg_ge1 (length l1 + length l2)) as GE.
      destruct (H1 F1) as ([FA PA] & A1 & A2).
      { eapply Rle_lt_trans; [|exact L]. apply Rmult_le_compat; try lra. { pose proof (gg_ge1 (length l1)). lra. } apply gg_mono. lia. }
      destruct (H2 F2) as ([FB PB] & B1 & B2).
      { eapply Rle_lt_trans; [|exact L]. apply Rmult_le_compat; try lra. { pose proof (gg_ge1 (length l2)). lra. } apply gg_mono. lia. }
      destruct l1 as [|c1 l1].
      { cbn [map Rsum length plus] in *. rewrite !Rplus_0_l. assert (Z : B2R a = 0) by lra.
        destruct (proj1 (plus_zero a b FA FB) Z) as [FS E]. rewrite E. split; [split; auto; now rewrite E|auto]. }
      destruct l2 as [|c2 l2].
      { cbn [map Rsum length] in *. rewrite Nat.add_0_r in *. rewrite !Rplus_0_r in *. assert (Z : B2R b = 0) by lra.
        destruct (proj2 (plus_zero a b FA FB) Z) as [FS E]. rewrite E. split; [split; auto; now rewrite E|auto]. }
      set (m1 := c1 :: l1) in *. set (m2 := c2 :: l2) in *. assert (1 <= length m1 /\ 1 <= length m2)%nat as [L1 L2] by (cbn; lia). clearbody m1 m2.
      set (M := Nat.max (length m1) (length m2)).
      assert (G1 : gg (length m1) <= gg M) by (apply gg_mono; unfold M; lia).
      assert (G2 : gg (length m2) <= gg M) by (apply gg_mono; unfold M; lia).
      assert (G3 : (1 + uu) * gg M <= gg (length m1 + length m2)) by (rewrite <- gg_S; apply gg_mono; unfold M; lia).
      pose proof (gg_ge1 M) as GM. pose proof uu_pos as U.
      destruct (rnd_add_inv a b PA PB) as [R1 R2].
      assert (W : 0 <= rnd (B2R a + B2R b)) by (apply rnd_ge0; auto; lra).
      assert (UP : B2R a + B2R b <= gg M * (Rsum (map B2R m1) + Rsum (map B2R m2))) by nra.
      assert (UP2 : rnd (B2R a + B2R b) <= gg (length m1 + length m2) * (Rsum (map B2R m1) + Rsum (map B2R m2))).
      { apply Rle_trans with ((1 + uu) * (gg M * (Rsum (map B2R m1) + Rsum (map B2R m2)))); [|rewrite <- Rmult_assoc; apply Rmult_le_compat_r; lra].
        eapply Rle_trans; [exact R2|]. apply Rmult_le_compat_l; lra. }
      destruct (plus_cases prec emax a b FA FB) as [[R FS]|(_ & _ & C)]; [|rewrite Rabs_pos_eq in C by auto; lra].
      split; [split; [exact FS|now rewrite R]|]. rewrite R. split; [|exact UP2].
      assert (LO : Rsum (map B2R m1) + Rsum (map B2R m2) <= gg M * (B2R a + B2R b)) by nra.
      eapply Rle_trans; [exact LO|]. apply Rle_trans with (gg M * ((1 + uu) * rnd (B2R a + B2R b))); [apply Rmult_le_compat_l; lra|].
      replace (gg M * ((1 + uu) * rnd (B2R a + B2R b))) with ((1 + uu) * gg M * rnd (B2R a + B2R b)) by ring. apply Rmult_le_compat_r; auto.
    - intros l l' v HP H F L. rewrite <- (Permutation_length HP), <- (Rsum_perm_map B2R _ _ HP) in *. apply H; auto.
      eapply Permutation_Forall; [apply Permutation_sym; exact HP|exact F].
  Qed.

  (** the float and the exact normalised weight *)
  Definition nw (w : list flt) (v : flt) : flt := fnan_to_num O (fdiv O v (fsum O w)).
  Lemma nw_apx w v : Forall wok w -> 0 < Rsum (map B2R w) -> gg (length w) * Rsum (map B2R w) < big ->
    gg (length w + 1) * (1 + tau) < big -> In v w ->
    apx (length w + 1) (nw w v) (B2R v / Rsum (map B2R w)) (B2R v / Rsum (map B2R w) + tau).
  Proof.
    intros Fw WP L L1 Hv. pose proof tau_pos as TP.
    destruct (sum_nonneg w Fw L) as (S1 & S2 & S3).
    cbv zeta in *. unfold nw. set (s := fsum O w) in *. clearbody s. set (W := Rsum (map B2R w)) in *.
    pose proof (gg_ge1 (length w)) as G. destruct S1 as [FS PS].
    assert (SP : 0 < B2R s) by nra.
    pose proof (proj1 (Forall_forall _ _) Fw v Hv) as [FV PV].
    assert (VW : B2R v <= W).
    { unfold W. clear - Fw Hv. induction w as [|a w IH]; [destruct Hv|]. cbn [map Rsum]. inversion Fw as [|? ? [_ PA] Fw']; subst.
      assert (0 <= Rsum (map B2R w)).
      { apply Rsum_nonneg. intros r Hr. apply in_map_iff in Hr as [b [<- Hb]]. rewrite Forall_forall in Fw'. now apply Fw'. }
      destruct Hv as [->|Hv]; [lra|]. specialize (IH Fw' Hv). lra. }
    assert (Q0 : 0 <= B2R v / W) by (apply Rmult_le_pos; auto; left; now apply Rinv_0_lt_compat).
    assert (Q1 : B2R v / W <= 1) by (apply Rmult_le_reg_r with W; auto; unfold Rdiv; rewrite Rmult_assoc, Rinv_l; lra).
    destruct (apx_round (length w) (B2R v / B2R s) (B2R v / W) (B2R v / W) tau (rnd (B2R v / B2R s))) as [R1 R2].
    - rewrite Rabs_pos_eq; lra.
    - replace (B2R v / B2R s - B2R v / W) with ((B2R v / W) * (W / B2R s - 1)) by (field; lra).
      rewrite Rabs_mult, (Rabs_pos_eq (B2R v / W)), Rmult_comm by auto. apply Rmult_le_compat_r; auto.
      assert (T : W / B2R s <= gg (length w)). { apply Rmult_le_reg_r with (B2R s); auto. unfold Rdiv. rewrite Rmult_assoc, Rinv_l; lra. }
      assert (T2 : / gg (length w) <= W / B2R s).
      { apply Rmult_le_reg_r with (B2R s); auto. unfold Rdiv. rewrite (Rmult_assoc W), Rinv_l by lra.
        apply Rmult_le_reg_l with (gg (length w)); [lra|]. rewrite <- Rmult_assoc, Rinv_r by lra. lra. }
      assert (T3 : 2 - gg (length w) <= / gg (length w)).
      { apply Rmult_le_reg_l with (gg (length w)); [lra|]. rewrite Rinv_r by lra. nra. }
      apply Rabs_le. lra.
    - lra.
    - apply rnd_err.
    - replace (length w + 1)%nat with (Datatypes.S (length w)) in * by lia.
      destruct (div_cases prec emax v s FV ltac:(lra)) as [[R F]|(_ & C)].
      + assert (E1 : fnan_to_num O (fdiv O v s) = Bdiv mode_NE v s) by (cbn; destruct (Bdiv mode_NE v s); try discriminate; reflexivity).
        rewrite E1. split; auto. rewrite R. split; auto. rewrite Rabs_pos_eq; lra.
      + exfalso. pose proof (gg_ge1 (Datatypes.S (length w))). nra.
  Qed.
End Err.
