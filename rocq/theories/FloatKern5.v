(** * Rounding errors of the built-in kernels: assembly, and the documented kernels are
    positive semi-definite on float points *)
From Coq Require Import List ZArith Bool Reals Lia Lra.
From Coq Require Import Floats.SpecFloat.
From Flocq Require Import Core.Core IEEE754.BinarySingleNaN.
From Verif Require Import Num Jax RSum SumSpec SumProofs Float MeanModel MeanSpec UtilModel KernelModel KernelSpec PsdSpec MetricSpec GreedySpec PsdProofs4
  FloatProofs2 FloatGreedy FloatErr FloatRate3 FloatMMD FloatKern FloatKern2 FloatKern3 FloatKern4 FloatKernSpec.
Import ListNotations.
Open Scope R_scope.

Section Kern6.
  Context (prec emax : Z) {Hprec : Prec_gt_0 prec} {Hmax : Prec_lt_emax prec emax} {Sm : SumOrder prec emax}.
  Notation flt := (binary_float prec emax).
  Notation O := (FOpsIEEE prec emax).
  Notation big := (bpow radix2 emax).
  Notation uu := (uu prec).
  Variables (q : Z) (n : nat) (e : Z) (c : R) (T : TOps flt) (jgrad : (list flt -> flt) -> list flt -> list flt) (keq : kern flt -> kern flt -> bool).
  Hypothesis HR : kernel_room prec emax q n.
  Hypothesis HE : (2 - emax <= e /\ e + 1 <= emax)%Z.
  Hypothesis HC : 0 <= c <= bpow radix2 (prec - 1).
  Hypothesis HT : exp_accurate c T.
  Lemma c_small : 0 <= c /\ c * uu <= / 2.
  Proof using HC.
    destruct HC as [C0 C1]. split; auto. apply Rle_trans with (bpow radix2 (prec - 1) * uu); [apply Rmult_le_compat_r; auto; apply bpow_ge_0|].
    unfold FloatErr.uu. rewrite <- bpow_plus. replace (prec - 1 + - prec)%Z with (-1)%Z by lia. right. reflexivity.
  Qed.
  Lemma err_exp : (4 * INR (n + 9) + c + 3) * bpow radix2 (e - prec) <= kernel_error prec n e c.
  Proof using.
    unfold kernel_error. apply Rmult_le_compat_r; [apply bpow_ge_0|]. rewrite plus_INR. replace (INR 9) with 9 by (cbn [INR]; ring). pose proof (pos_INR n). lra.
  Qed.
  Lemma err_imq : (6 * INR (n + 9) + 21) * bpow radix2 (e - prec) <= kernel_error prec n e c.
  Proof using HC.
    unfold kernel_error. apply Rmult_le_compat_r; [apply bpow_ge_0|]. rewrite plus_INR. replace (INR 9) with 9 by (cbn [INR]; ring). pose proof (pos_INR n). lra.
  Qed.
  Lemma kernel_acc (k : kern flt) l s f x y : documented k = Some (l, s, f) -> sane_params q e l s ->
    length x = n -> length y = n -> all_finite prec emax x -> all_finite prec emax y ->
    exists v, m_val (methods O T jgrad keq k) x y = Sc v /\ is_finite v = true /\ Rabs (B2R v - f (map B2R x) (map B2R y)) <= kernel_error prec n e c.
  Proof using All.
    intros HK (FL & BL & FS & BS) LX LY X Y. pose proof c_small as CS. pose proof (DD_pos prec emax q l BL) as DP.
    destruct (H1_le prec emax q n HR) as [H1 H2].
    assert (HHle : HH prec <= bpow radix2 (2 * prec - 3)). { unfold HH. apply bpow_le. pose proof (prec_ge prec emax q n HR). lia. }
    pose proof (sqdist_nonneg prec emax x y) as S0.
    assert (DN : forall r, 0 <= r -> 0 <= r / DD prec emax l). { intros r Hr. apply Rmult_le_pos; auto. left. now apply Rinv_0_lt_compat. }
    destruct k; try discriminate HK; cbn [documented] in HK; injection HK as -> -> <-; cbn [methods m_val exp_meth lap_meth se_meth pcimq_meth kfun].
    - eexists. split; [reflexivity|]. destruct (eta1_small prec emax q n HR l x y BL LX) as [E0 ED].
      assert (D0 : 0 <= dist2 (map B2R x) (map B2R y)) by (unfold dist2; apply sqrt_pos).
      pose proof (exponent prec emax q n HR l _ _ _ (n + 4) FL BL (nn_norm2 prec emax x y X Y) D0 E0 ED ltac:(lia) (HH prec) H2
        (norm2_ok prec emax q n HR l x y BL X Y LX)) as V.
      destruct (exp_value prec emax q n HR s e FS BS HE c T CS HT _ _ (DN _ D0) V) as [F B]. split; [exact F|]. eapply Rle_trans; [exact B|apply err_exp].
    - eexists. split; [reflexivity|]. unfold lap_val.
      assert (D0 : 0 <= dist1 (map B2R x) (map B2R y)).
      { unfold dist1. apply Rsum_nonneg. intros v Hv. apply in_map_iff in Hv as [w [<- _]]. apply Rabs_pos. }
      assert (ED : 0 / DD prec emax l <= / 4) by (unfold Rdiv; rewrite Rmult_0_l; lra).
      pose proof (exponent prec emax q n HR l _ _ 0 (n + 3) FL BL (nn_norm1 prec emax x y X Y) D0 (Rle_refl 0) ED ltac:(lia) (HH prec) H2
        (norm1_ok prec emax q n HR l x y BL X Y LX)) as V.
      destruct (exp_value prec emax q n HR s e FS BS HE c T CS HT _ _ (DN _ D0) V) as [F B]. split; [exact F|]. eapply Rle_trans; [exact B|apply err_exp].
    - eexists. split; [reflexivity|]. unfold se_val. destruct (eta2_small prec emax q n HR l x y BL LX) as (E0 & ED & _).
      assert (SO : apx prec emax (n + 3) (squared_distance O x y) (sqdist (map B2R x) (map B2R y)) (sqdist (map B2R x) (map B2R y) + eta2 prec emax x y) \/
        is_finite (squared_distance O x y) = false /\ HH prec <= sqdist (map B2R x) (map B2R y) / DD prec emax l).
      { destruct (sqd_ok prec emax q n HR l x y BL X Y LX) as [A|[F B]]; [now left|right]. split; [exact F|lra]. }
      pose proof (exponent prec emax q n HR l _ _ _ (n + 3) FL BL (nn_sqd prec emax x y X Y) S0 E0 ED ltac:(lia) (HH prec) H2 SO) as V.
      destruct (exp_value prec emax q n HR s e FS BS HE c T CS HT _ _ (DN _ S0) V) as [F B]. split; [exact F|]. eapply Rle_trans; [exact B|apply err_exp].
    - eexists. split; [reflexivity|]. unfold pcimq_val. cbv zeta. destruct (eta2_small prec emax q n HR l x y BL LX) as (E0 & ED & _).
      pose proof (ratio prec emax q n HR l _ _ _ (n + 3) FL BL (nn_sqd prec emax x y X Y) S0 E0 ED ltac:(lia) _ H1
        (sqd_ok prec emax q n HR l x y BL X Y LX)) as V.
      destruct (imq_value prec emax q n HR s e FS BS HE _ _ (DN _ S0) V) as [F B]. split; [exact F|]. eapply Rle_trans; [exact B|apply err_imq].
  Qed.
  (** the documented kernels lie between 0 and the output scale *)
  Lemma documented_range (k : kern flt) l s f : documented k = Some (l, s, f) -> 0 < B2R l -> 0 < B2R s -> forall x y, 0 <= f x y <= B2R s.
  Proof.
    intros HK Pl Ps x y.
    assert (EX : forall r, 0 <= r -> 0 <= B2R s * exp (- (r / (2 * B2R l ^ 2))) <= B2R s).
    { intros r Hr. assert (0 <= r / (2 * B2R l ^ 2)). { apply Rmult_le_pos; auto. left. apply Rinv_0_lt_compat. nra. }
      assert (exp (- (r / (2 * B2R l ^ 2))) <= 1). { rewrite <- exp_0 at 1. destruct H as [P| <-]; [left; apply exp_increasing; lra|rewrite Ropp_0; lra]. }
      pose proof (exp_pos (- (r / (2 * B2R l ^ 2)))). nra. }
    assert (S0 : 0 <= sqdist x y). { unfold sqdist, Rdot. rewrite map2_diag. apply Rsum_nonneg. intros v Hv. apply in_map_iff in Hv as [w [<- _]]. apply Rle_0_sqr. }
    destruct k; try discriminate HK; cbn [documented] in HK; injection HK as -> -> <-; cbn [kfun].
    - apply EX, sqrt_pos.
    - apply EX. unfold dist1. apply Rsum_nonneg. intros v Hv. apply in_map_iff in Hv as [w [<- _]]. apply Rabs_pos.
    - now apply EX.
    - assert (0 <= sqdist x y / (2 * B2R l ^ 2)). { apply Rmult_le_pos; auto. left. apply Rinv_0_lt_compat. nra. }
      assert (S1 : 1 <= sqrt (1 + sqdist x y / (2 * B2R l ^ 2))) by (rewrite <- sqrt_1 at 1; apply sqrt_le_1_alt; lra).
      assert (SI : 0 < / sqrt (1 + sqdist x y / (2 * B2R l ^ 2)) <= 1).
      { split; [apply Rinv_0_lt_compat; lra|]. apply Rle_trans with (/ 1); [apply Rinv_le_contravar; lra|rewrite Rinv_1; lra]. }
      change (B2R l * (B2R l * 1)) with (B2R l ^ 2). set (z := sqrt (1 + _)) in *. unfold Rdiv. nra.
  Qed.
  Lemma err_room : kernel_error prec n e c <= bpow radix2 e.
  Proof using HR HC Hprec.
    unfold kernel_error. pose proof c_small as [_ CS]. pose proof (uu_small prec emax q n HR) as US. pose proof (uu_tiny prec emax q n HR) as UT. pose proof (uu_pos prec).
    unfold Zminus. rewrite bpow_plus. change (bpow radix2 (- prec)) with uu. rewrite plus_INR in US. replace (INR 10) with 10 in US by (cbn [INR]; ring).
    replace ((6 * INR n + c + 75) * (bpow radix2 e * uu)) with (bpow radix2 e * ((6 * INR n + c + 75) * uu)) by ring.
    rewrite <- (Rmult_1_r (bpow radix2 e)) at 2. apply Rmult_le_compat_l; [apply bpow_ge_0|]. nra.
  Qed.
  Lemma kernel_at_most (k : kern flt) l s f x y : documented k = Some (l, s, f) -> sane_params q e l s ->
    length x = n -> length y = n -> all_finite prec emax x -> all_finite prec emax y ->
    is_finite (number (m_val (methods O T jgrad keq k) x y)) = true /\
    Rabs (B2R (number (m_val (methods O T jgrad keq k) x y))) <= bpow radix2 (e + 1) /\
    Rabs (B2R (number (m_val (methods O T jgrad keq k) x y)) - f (map B2R x) (map B2R y)) <= kernel_error prec n e c.
  Proof using All.
    intros HK HS LX LY X Y. destruct (kernel_acc k l s f x y HK HS LX LY X Y) as (v & -> & F & B). cbn [number]. split; [exact F|]. split; [|exact B].
    destruct HS as (FL & BL & FS & BS). pose proof (bpow_gt_0 radix2 (- q)).
    pose proof (documented_range k l s f HK ltac:(lra) ltac:(lra) (map B2R x) (map B2R y)) as DR. pose proof err_room as ER.
    rewrite bpow_plus. change (bpow radix2 1) with 2. apply Rabs_le_inv in B. apply Rabs_le. lra.
  Qed.
End Kern6.

(** a list of reals as a point with [d] coordinates *)
Definition fit (d : nat) (x : list R) : list R := firstn d (x ++ repeat 0 d).
Lemma fit_len d x : length (fit d x) = d.
Proof. unfold fit. rewrite firstn_length, app_length, repeat_length. lia. Qed.
Lemma fit_id d x : length x = d -> fit d x = x.
Proof. intros <-. unfold fit. rewrite firstn_app, firstn_all, Nat.sub_diag. cbn [firstn]. apply app_nil_r. Qed.
Lemma psd_comp {P Q} (g : P -> Q) (k : Q -> Q -> R) : psd k -> psd (fun a b => k (g a) (g b)).
Proof.
  intros [S B]. split; [intros; apply S|]. intros ms. specialize (B (map (fun p => (g (fst p), snd p)) ms)). unfold bil in *. rewrite map_map in B. cbn [fst snd] in B.
  erewrite Rsum_map_ext; [exact B|]. intros p _. cbn beta. rewrite map_map. reflexivity.
Qed.
Lemma documented_psd {prec emax} (k : kern (binary_float prec emax)) l s f d : documented k = Some (l, s, f) -> 0 < B2R l -> 0 < B2R s ->
  psd (fun x y : list (binary_float prec emax) => f (fit d (map B2R x)) (fit d (map B2R y))).
Proof.
  intros HK Pl Ps.
  assert (Q : psd (fun p q : point d => f (pt p) (pt q))).
  { destruct k; try discriminate HK; cbn [documented] in HK; injection HK as -> -> <-.
    - apply (kernel_psd d (KExp (B2R l) (B2R s))); cbn; auto.
    - apply (kernel_psd d (KLap (B2R l) (B2R s))); cbn; auto.
    - apply (kernel_psd d (KSE (B2R l) (B2R s))); cbn; auto.
    - apply (kernel_psd d (KPCIMQ (B2R l) (B2R s))); cbn; auto. }
  exact (psd_comp (fun x => exist _ (fit d (map B2R x)) (fit_len d _) : point d) _ Q).
Qed.
Lemma mmd2_close {P} (p0 : P) (f g : P -> P -> R) xs w ys v eps :
  length w = length xs -> (forall a, In a w -> 0 <= a) -> 0 < Rsum w ->
  length v = length ys -> (forall a, In a v -> 0 <= a) -> 0 < Rsum v ->
  (forall a b, In a (xs ++ ys) -> In b (xs ++ ys) -> Rabs (f a b - g a b) <= eps) ->
  Rabs (mmd2 f xs w ys v - mmd2 g xs w ys v) <= 4 * eps.
Proof.
  intros L1 N1 S1 L2 N2 S2 H. unfold mmd2.
  assert (A : Rabs (wavg (fun a => wavg (fun b => f a b) xs w) xs w - wavg (fun a => wavg (fun b => g a b) xs w) xs w) <= eps).
  { apply (wavg_close p0); auto. intros a Ha. apply (wavg_close p0); auto. intros b Hb. apply H; apply in_or_app; auto. }
  assert (B : Rabs (wavg (fun a => wavg (fun b => f a b) ys v) ys v - wavg (fun a => wavg (fun b => g a b) ys v) ys v) <= eps).
  { apply (wavg_close p0); auto. intros a Ha. apply (wavg_close p0); auto. intros b Hb. apply H; apply in_or_app; auto. }
  assert (C : Rabs (wavg (fun a => wavg (fun b => f a b) ys v) xs w - wavg (fun a => wavg (fun b => g a b) ys v) xs w) <= eps).
  { apply (wavg_close p0); auto. intros a Ha. apply (wavg_close p0); auto. intros b Hb. apply H; apply in_or_app; auto. }
  apply Rabs_le_inv in A, B, C. apply Rabs_le. lra.
Qed.
Lemma sqrt_pos_part a : sqrt a = sqrt (Rmax 0 a).
Proof. destruct (Rle_dec 0 a); [now rewrite Rmax_right|]. rewrite Rmax_left, sqrt_0 by lra. apply sqrt_neg_0. lra. Qed.
Lemma sqrt_close_any a b eps : Rabs (a - b) <= 4 * eps -> Rabs (sqrt a - sqrt b) <= 2 * sqrt eps.
Proof.
  intros H. rewrite (sqrt_pos_part a), (sqrt_pos_part b). eapply Rle_trans; [apply sqrt_le_abs; apply Rmax_l|].
  assert (E : 0 <= eps) by (pose proof (Rabs_pos (a - b)); lra).
  replace (2 * sqrt eps) with (sqrt (4 * eps)).
  - apply sqrt_le_1_alt. eapply Rle_trans; [|exact H]. unfold Rmax. destruct (Rle_dec 0 a), (Rle_dec 0 b); unfold Rabs; repeat destruct Rcase_abs; lra.
  - rewrite sqrt_mult by lra. f_equal. replace 4 with (2 * 2) by ring. apply sqrt_square. lra.
Qed.
Lemma mmd2_ext {P} (f g : P -> P -> R) xs w ys v : (forall a b, In a (xs ++ ys) -> In b (xs ++ ys) -> f a b = g a b) ->
  length w = length xs -> length v = length ys -> mmd2 f xs w ys v = mmd2 g xs w ys v.
Proof.
  intros H L1 L2. unfold mmd2.
  assert (W : forall (h h' : P -> R) zs u, (forall a, In a zs -> h a = h' a) -> wavg h zs u = wavg h' zs u).
  { intros h h' zs u Hz. unfold wavg. f_equal. revert u. induction zs as [|z zs IH]; intros [|u us]; cbn; auto. rewrite Hz by (left; auto). f_equal. apply IH. intros; apply Hz; right; auto. }
  assert (IX : forall a, In a xs -> In a (xs ++ ys)) by (intros; apply in_or_app; auto). assert (IY : forall a, In a ys -> In a (xs ++ ys)) by (intros; apply in_or_app; auto).
  f_equal; [f_equal|f_equal]; apply W; intros a Ha; apply W; intros b Hb; auto.
Qed.
