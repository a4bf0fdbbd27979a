(** * Rounding errors of the built-in kernels: quotients, square roots and the functions of
    the scaled distance *)
From Coq Require Import List ZArith Bool Reals Lia Lra.
From Coq Require Import Floats.SpecFloat.
From Flocq Require Import Core.Core Relative IEEE754.BinarySingleNaN.
From Verif Require Import Num Jax RSum SumSpec SumProofs Float MeanModel UtilModel KernelModel KernelSpec FloatProofs2 FloatGreedy FloatErr FloatRate3 FloatKern.
Import ListNotations.
Open Scope R_scope.

(** ** real analysis *)
Lemma sqrt_sub_add a b : 0 <= a -> 0 <= b -> sqrt (a + b) <= sqrt a + sqrt b.
Proof.
  intros A B. apply Rsqr_incr_0_var; [|pose proof (sqrt_pos a); pose proof (sqrt_pos b); lra].
  rewrite Rsqr_sqrt by lra. unfold Rsqr. pose proof (sqrt_sqrt a A). pose proof (sqrt_sqrt b B). pose proof (sqrt_pos a). pose proof (sqrt_pos b). nra.
Qed.
Lemma exp_lower t : 0 <= t -> exp (- t) <= / (1 + t).
Proof.
  intros H. rewrite exp_Ropp. apply Rinv_le_contravar; [lra|]. destruct (Req_dec t 0) as [->|N]; [rewrite exp_0; lra|]. left. apply exp_ineq1. lra.
Qed.
(** [t exp(-c t) <= 1 / c / (something)]: all that is needed is [t exp(-t/2) <= 2] *)
Lemma t_exp t c : 0 <= t -> 0 < c -> t * exp (- (c * t)) <= / c.
Proof.
  intros H C. pose proof (exp_lower (c * t) ltac:(nra)) as E. pose proof (exp_pos (- (c * t))).
  apply Rmult_le_reg_l with c; auto. rewrite Rinv_r by lra. apply Rle_trans with (c * t * / (1 + c * t)); [|].
  - rewrite <- Rmult_assoc. apply Rmult_le_compat_l; nra.
  - apply Rmult_le_reg_r with (1 + c * t); [nra|]. rewrite Rmult_assoc, Rinv_l by nra. nra.
Qed.
Lemma exp_diff a b : Rabs (exp (- a) - exp (- b)) <= Rabs (a - b) * exp (- Rmin a b).
Proof.
  assert (W : forall a b, a <= b -> exp (- a) - exp (- b) <= (b - a) * exp (- a)).
  { clear. intros a b H. replace (- b) with (- a + - (b - a)) by ring. rewrite exp_plus. pose proof (exp_pos (- a)).
    assert (1 - (b - a) <= exp (- (b - a))). { destruct (Req_dec (b - a) 0) as [E|N]; [rewrite E, Ropp_0, exp_0; lra|]. left. pose proof (exp_ineq1 (- (b - a)) ltac:(lra)). lra. }
    nra. }
  assert (I : forall a b, a <= b -> exp (- b) <= exp (- a)).
  { intros c d [L| ->]; [left; apply exp_increasing; lra|lra]. }
  destruct (Rle_dec a b) as [H|H].
  - rewrite Rmin_left by auto. rewrite Rabs_pos_eq by (specialize (I a b H); lra). rewrite Rabs_minus_sym, Rabs_pos_eq by lra. now apply W.
  - assert (H' : b <= a) by lra. rewrite Rmin_right by auto. rewrite Rabs_minus_sym, Rabs_pos_eq by (specialize (I b a H'); lra). rewrite Rabs_pos_eq by lra. now apply W.
Qed.
(** the exponential absorbs a relative error of its argument *)
Lemma exp_rel d t s e : 0 <= d <= / 8 -> 0 <= t -> 0 <= e <= / 2 -> Rabs (s - t) <= d * (t + e) ->
  Rabs (exp (- s) - exp (- t)) <= 2 * d.
Proof.
  intros D T E H. eapply Rle_trans; [apply exp_diff|].
  assert (M : (1 - d) * t - d * e <= Rmin s t). { apply Rabs_le_inv in H. apply Rmin_glb; nra. }
  assert (I : exp (- Rmin s t) <= exp (d * e) * exp (- ((1 - d) * t))).
  { rewrite <- exp_plus. destruct M as [M|M]; [left; apply exp_increasing; lra|right; f_equal; lra]. }
  assert (B : exp (d * e) <= 16 / 15).
  { replace (d * e) with (- - (d * e)) by ring. rewrite exp_Ropp. replace (16 / 15) with (/ (1 - / 16)) by field. apply Rinv_le_contravar; [lra|].
    assert (DE : d * e <= / 8 * / 2) by (apply Rmult_le_compat; lra). apply Rle_trans with (1 + - (d * e)); [lra|]. destruct (Req_dec (d * e) 0) as [Z|Z]; [rewrite Z, Ropp_0, exp_0; lra|left; apply exp_ineq1; intro; apply Z; lra]. }
  pose proof (exp_pos (- ((1 - d) * t))) as P1. pose proof (exp_pos (d * e)) as P2. pose proof (exp_pos (- Rmin s t)) as P3.
  assert (Q1 : t * exp (- ((1 - d) * t)) <= / (1 - d)) by (apply t_exp; lra).
  assert (Q2 : exp (- ((1 - d) * t)) <= 1). { apply Rle_trans with (exp 0); [|rewrite exp_0; lra]. destruct (Req_dec t 0) as [->|N]; [rewrite Rmult_0_r, Ropp_0; lra|left; apply exp_increasing; assert (0 < (1 - d) * t) by (apply Rmult_lt_0_compat; lra); lra]. }
  assert (Q3 : / (1 - d) <= 8 / 7). { replace (8 / 7) with (/ (7 / 8)) by field. apply Rinv_le_contravar; lra. }
  apply Rle_trans with (d * (t + e) * (16 / 15 * exp (- ((1 - d) * t)))).
  { apply Rmult_le_compat; try apply Rabs_pos; try lra. eapply Rle_trans; [exact I|]. apply Rmult_le_compat_r; lra. }
  replace (d * (t + e) * (16 / 15 * exp (- ((1 - d) * t)))) with (d * (16 / 15 * (t * exp (- ((1 - d) * t)) + e * exp (- ((1 - d) * t))))) by ring.
  rewrite (Rmult_comm 2). apply Rmult_le_compat_l; [lra|]. nra.
Qed.
Lemma sqrt_close x : 0 <= x -> Rabs (sqrt x - 1) <= Rabs (x - 1).
Proof.
  intros H. pose proof (sqrt_pos x) as P. pose proof (sqrt_sqrt x H) as Q. replace (x - 1) with ((sqrt x - 1) * (sqrt x + 1)) by nra.
  rewrite Rabs_mult, (Rabs_pos_eq (sqrt x + 1)) by lra. pose proof (Rabs_pos (sqrt x - 1)). nra.
Qed.

Section Kern2.
  Context (prec emax : Z) {Hprec : Prec_gt_0 prec} {Hmax : Prec_lt_emax prec emax} {Sm : SumOrder prec emax}.
  Notation flt := (binary_float prec emax).
  Notation O := (FOpsIEEE prec emax).
  Notation rnd := (round radix2 (SpecFloat.fexp prec emax) (round_mode mode_NE)).
  Notation big := (bpow radix2 emax).
  Notation uu := (uu prec).
  Notation tau := (tau emax).
  Notation gg := (gg prec).
  Notation apx := (apx prec emax).

  (** relative accuracy above the underflow threshold *)
  Lemma rnd_rel x : tau <= Rabs x -> Rabs (rnd x - x) <= uu * Rabs x.
  Proof.
    intros H. assert (P : (0 < prec)%Z) by assumption.
    pose proof (relative_error_N_FLT radix2 (3 - emax - prec) prec P (fun x => negb (Z.even x)) x) as E.
    replace (3 - emax - prec + prec - 1)%Z with (2 - emax)%Z in E by lia. specialize (E H).
    rewrite bpow_plus in E. change (bpow radix2 1) with 2 in E. unfold FloatErr.uu.
    replace (/ 2 * (bpow radix2 (- prec) * 2)) with (bpow radix2 (- prec)) in E by field. exact E.
  Qed.
  (** [v] is [x > 0] up to [K] factors [1 + uu] *)
  Definition rel (K : nat) (v : flt) (x : R) : Prop := is_finite v = true /\ x <= gg K * B2R v /\ B2R v <= gg K * x.
  Lemma rel_pos K v x : 0 < x -> rel K v x -> 0 < B2R v.
  Proof. intros X (_ & A & _). pose proof (gg_ge1 prec K). nra. Qed.
  Lemma rel_round K r x : 0 < x -> x <= gg K * r -> r <= gg K * x -> tau <= r ->
    x <= gg (K + 2) * rnd r /\ rnd r <= gg (K + 2) * x.
  Proof.
    intros X A B T. pose proof (tau_pos emax) as TP. pose proof (rnd_rel r) as E. rewrite (Rabs_pos_eq r) in E by lra. specialize (E T). apply Rabs_le_inv in E.
    pose proof (uu_pos prec) as U. pose proof (uu_le prec) as U2. pose proof (gg_ge1 prec K) as G.
    assert (G2 : gg 2 = 1 + 2 * uu + uu * uu) by (unfold FloatErr.gg; ring). rewrite gg_add, G2.
    assert (L : r <= (1 + 2 * uu + uu * uu) * rnd r).
    { apply Rle_trans with ((1 + 2 * uu + uu * uu) * ((1 - uu) * r)); [|apply Rmult_le_compat_l; nra].
      replace ((1 + 2 * uu + uu * uu) * ((1 - uu) * r)) with (r + uu * (1 - uu - uu * uu) * r) by ring. assert (0 <= uu * (1 - uu - uu * uu)) by (apply Rmult_le_pos; nra). nra. }
    split.
    - eapply Rle_trans; [exact A|]. rewrite Rmult_assoc. apply Rmult_le_compat_l; lra.
    - apply Rle_trans with ((1 + uu) * r); [lra|]. apply Rle_trans with ((1 + uu) * (gg K * x)); [apply Rmult_le_compat_l; lra|].
      rewrite <- Rmult_assoc. apply Rmult_le_compat_r; nra.
  Qed.
  Lemma rel_mult K L a b x y : 0 < x -> 0 < y -> rel K a x -> rel L b y ->
    gg (K + L) * tau <= x * y -> gg (K + L + 2) * (x * y) < big -> rel (K + L + 2) (Bmult mode_NE a b) (x * y).
  Proof.
    intros X Y A B T L1. pose proof (rel_pos _ _ _ X A) as PA. pose proof (rel_pos _ _ _ Y B) as PB.
    destruct A as (FA & A1 & A2), B as (FB & B1 & B2). pose proof (gg_ge1 prec K) as GK. pose proof (gg_ge1 prec L) as GL.
    assert (M1 : x * y <= gg (K + L) * (B2R a * B2R b)).
    { rewrite gg_add. apply Rle_trans with ((gg K * B2R a) * (gg L * B2R b)); [apply Rmult_le_compat; lra|right; ring]. }
    assert (M2 : B2R a * B2R b <= gg (K + L) * (x * y)).
    { rewrite gg_add. apply Rle_trans with ((gg K * x) * (gg L * y)); [apply Rmult_le_compat; lra|right; ring]. }
    assert (TT : tau <= B2R a * B2R b).
    { apply Rmult_le_reg_l with (gg (K + L)); [pose proof (gg_ge1 prec (K + L)); lra|]. lra. }
    destruct (rel_round (K + L) (B2R a * B2R b) (x * y) ltac:(nra) M1 M2 TT) as [R1 R2].
    destruct (mult_cases prec emax a b FA FB) as [[R F]|(_ & C)].
    - split; auto. now rewrite R.
    - exfalso. rewrite Rabs_pos_eq in C by (apply rnd_ge0; auto; nra). lra.
  Qed.
  Lemma rel_exact v : is_finite v = true -> rel 0 v (B2R v).
  Proof. intros F. split; auto. unfold FloatErr.gg. cbn. lra. Qed.

  (** ** division *)
  Lemma div_apxo N K a d x S D : apx N a x S -> 0 < D -> rel K d D -> apxo prec emax (N + K + 1) (Bdiv mode_NE a d) (x / D) (S / D + tau).
  Proof.
    intros (FA & A & B) DP RD. pose proof (rel_pos _ _ _ DP RD) as PD. destruct RD as (FD & D1 & D2). pose proof (tau_pos emax) as TP.
    pose proof (gg_ge1 prec N) as GN. pose proof (gg_ge1 prec K) as GK. pose proof (Rabs_pos x) as PX.
    assert (ID : 0 < / D) by now apply Rinv_0_lt_compat. assert (IB : 0 < / B2R d) by now apply Rinv_0_lt_compat.
    assert (Q1 : / B2R d <= gg K * / D).
    { apply Rmult_le_reg_l with (B2R d); auto. rewrite Rinv_r by lra. apply Rmult_le_reg_r with D; auto.
      replace (B2R d * (gg K * / D) * D) with (gg K * B2R d) by (field; lra). lra. }
    assert (Q2 : (2 - gg K) * / D <= / B2R d).
    { apply Rmult_le_reg_l with (B2R d); auto. rewrite Rinv_r by lra. apply Rmult_le_reg_r with D; auto.
      replace (B2R d * ((2 - gg K) * / D) * D) with ((2 - gg K) * B2R d) by (field; lra). rewrite Rmult_1_l.
      destruct (Rle_lt_dec (2 - gg K) 0) as [L|L].
      - assert (0 <= (gg K - 2) * B2R d) by (apply Rmult_le_pos; lra). lra.
      - apply Rle_trans with ((2 - gg K) * (gg K * D)); [apply Rmult_le_compat_l; lra|]. rewrite <- Rmult_assoc. rewrite <- (Rmult_1_l D) at 2. apply Rmult_le_compat_r; [lra|]. nra. }
    replace (N + K + 1)%nat with (Datatypes.S (N + K)) by lia.
    destruct (apx_round prec (N + K) (B2R a / B2R d) (x / D) (S / D) tau (rnd (B2R a / B2R d))) as [R1 R2].
    - unfold Rdiv. rewrite Rabs_mult, (Rabs_pos_eq (/ D)) by lra. apply Rmult_le_compat_r; lra.
    - replace (B2R a / B2R d - x / D) with ((B2R a - x) * / B2R d + x * (/ B2R d - / D)) by (unfold Rdiv; ring).
      eapply Rle_trans; [apply Rabs_triang|]. rewrite !Rabs_mult, (Rabs_pos_eq (/ B2R d)) by lra.
      assert (E : Rabs (/ B2R d - / D) <= (gg K - 1) * / D) by (apply Rabs_le; lra).
      apply Rle_trans with ((gg N - 1) * S * (gg K * / D) + S * ((gg K - 1) * / D)).
      + apply Rplus_le_compat; apply Rmult_le_compat; auto using Rabs_pos; lra.
      + rewrite gg_add. right. unfold Rdiv. ring.
    - lra.
    - apply rnd_err; assumption.
    - assert (SP : 0 <= S / D + tau) by (assert (0 <= S / D) by (apply Rmult_le_pos; lra); lra).
      destruct (div_cases prec emax a d FA ltac:(lra)) as [[R F]|(E & C)].
      + left. split; auto. rewrite R. split; [|exact R1]. unfold Rdiv at 1. rewrite Rabs_mult, (Rabs_pos_eq (/ D)) by lra.
        assert (Rabs x * / D <= S * / D) by (apply Rmult_le_compat_r; lra). unfold Rdiv. lra.
      + right. split; [now rewrite E|]. split; auto. eapply Rle_trans; [exact C|exact R2].
  Qed.
  Lemma neg_apx N a x S : apx N a x S -> apx N (fneg O a) (- x) S.
  Proof.
    intros (F & A & B). unfold fneg. cbn [fsub FOpsIEEE f0].
    assert (E : is_finite (Bminus mode_NE (B754_zero false) a) = true /\ B2R (Bminus mode_NE (B754_zero false) a) = - B2R a).
    { destruct a as [[]|[]| |[] m e H]; try discriminate; (split; [reflexivity|]); cbn; try ring; rewrite <- F2R_Zopp; reflexivity. }
    destruct E as [E1 E2]. split; auto. rewrite E2, Rabs_Ropp. split; auto. replace (- B2R a - - x) with (- (B2R a - x)) by ring. now rewrite Rabs_Ropp.
  Qed.
  (** ** square roots *)
  Lemma sqrt_apx N a x e : (1 <= N)%nat -> 0 <= x -> 0 <= e -> nn prec emax a -> apx N a x (x + e) ->
    gg N <= 2 -> apx (Datatypes.S N) (Bsqrt mode_NE a) (sqrt x) (sqrt x + sqrt (e / uu) + tau).
  Proof.
    intros HN X E NA (F & _ & B) G2. pose proof (uu_pos prec) as U. pose proof (tau_pos emax) as TP. pose proof (gg_ge1 prec N) as G.
    assert (A0 : 0 <= B2R a) by (apply (nn_finite prec emax a F); exact NA).
    set (d := gg N - 1) in *. assert (DU : uu <= d).
    { unfold d. pose proof (gg_mono prec 1 N HN) as M. assert (G1 : gg 1 = 1 + uu) by (unfold FloatErr.gg; cbn; ring). lra. }
    assert (D0 : 0 <= d <= 1) by (unfold d; lra).
    assert (DE : sqrt (d * e) <= d * sqrt (e / uu)).
    { apply Rsqr_incr_0_var; [|apply Rmult_le_pos; [lra|apply sqrt_pos]]. unfold Rsqr.
      rewrite sqrt_sqrt by nra. replace (d * sqrt (e / uu) * (d * sqrt (e / uu))) with (d * d * (sqrt (e / uu) * sqrt (e / uu))) by ring.
      assert (EU : 0 <= e / uu) by (apply Rmult_le_pos; [lra|left; now apply Rinv_0_lt_compat]).
      rewrite sqrt_sqrt by exact EU.
      apply Rle_trans with (d * uu * (e / uu)); [right; field; lra|]. apply Rmult_le_compat_r; [exact EU|]. apply Rmult_le_compat_l; lra. }
    assert (SD : Rabs (sqrt (B2R a) - sqrt x) <= d * (sqrt x + sqrt (e / uu))).
    { apply Rle_trans with (d * sqrt x + sqrt (d * e)); [|lra]. apply Rabs_le_inv in B.
      pose proof (sqrt_pos x) as SX. pose proof (sqrt_pos (d * e)) as SE. pose proof (sqrt_sqrt x X) as QX. pose proof (sqrt_sqrt (d * e) ltac:(nra)) as QE.
      assert (P0 : 0 <= d * sqrt x + sqrt (d * e)) by nra.
      apply Rabs_le. split.
      - assert (I1 : (1 - d) * sqrt x <= sqrt (B2R a + d * e)).
        { apply Rsqr_incr_0_var; [|apply sqrt_pos]. rewrite Rsqr_sqrt by nra. unfold Rsqr.
          replace ((1 - d) * sqrt x * ((1 - d) * sqrt x)) with ((1 - d) * (1 - d) * (sqrt x * sqrt x)) by ring. rewrite QX. assert (0 <= d * (1 - d) * x) by (apply Rmult_le_pos; [apply Rmult_le_pos; lra|lra]). lra. }
        pose proof (sqrt_sub_add (B2R a) (d * e) A0 ltac:(nra)). lra.
      - assert (I2 : sqrt (B2R a) <= sqrt x + (d * sqrt x + sqrt (d * e))); [|lra].
        apply Rsqr_incr_0_var; [|lra]. rewrite Rsqr_sqrt by auto. unfold Rsqr.
        replace ((sqrt x + (d * sqrt x + sqrt (d * e))) * (sqrt x + (d * sqrt x + sqrt (d * e)))) with
          ((1 + d) * (1 + d) * (sqrt x * sqrt x) + 2 * (1 + d) * (sqrt x * sqrt (d * e)) + sqrt (d * e) * sqrt (d * e)) by ring.
        rewrite QX, QE. assert (0 <= (1 + d) * (sqrt x * sqrt (d * e))) by (apply Rmult_le_pos; [lra|now apply Rmult_le_pos]).
        assert (0 <= d * x) by (apply Rmult_le_pos; lra). assert (0 <= d * (d * x)) by (apply Rmult_le_pos; lra). lra. }
    destruct (apx_round prec N (sqrt (B2R a)) (sqrt x) (sqrt x + sqrt (e / uu)) tau (rnd (sqrt (B2R a)))) as [R1 R2].
    - rewrite Rabs_pos_eq by apply sqrt_pos. pose proof (sqrt_pos (e / uu)). lra.
    - exact SD.
    - lra.
    - apply rnd_err; assumption.
    - destruct (Bsqrt_correct prec emax _ _ mode_NE a) as (R & FF & _). split.
      + rewrite FF. destruct a as [[]|[]| |[] m e' H]; try discriminate F; cbn in NA |- *; try discriminate NA; reflexivity.
      + rewrite R. split; [|exact R1]. rewrite Rabs_pos_eq by apply sqrt_pos. pose proof (sqrt_pos (e / uu)). lra.
  Qed.
End Kern2.
