(** * Property theorems: solving weights does not make a coreset worse (C72)

    The data set has feature rows [xs], weights [dw] and no supervision; [k] is a positive
    semi-definite kernel; a coreset has indices [l] into the data and weights [v];
    [reported_mmd] is [coreset.compute_metric(MMD(kernel))]. *)
From Coq Require Import List ZArith QArith Reals Lra Lia Bool Permutation.
From Verif Require Import Num Jax RSum JaxFacts DataModel MeanModel MeanSpec GreedySpec GreedyModel MetricSpec MetricModel
  MetricProofs MetricProofs2 PropMetric PropGreedy KTProofs2 RateProofs RateProofs2 RateProofs3 PropRate WeightsSpec WeightsProofs.
Import ListNotations.
Open Scope R_scope.

(** the OSQP run of [MMDWeightsOptimiser] on the coreset points [xc] ends within tolerances *)
Definition osqp_within {P} (p0 : P) (k : P -> P -> R) (osqp : @qp_solver ER) (tol del eps : R) (xs xc : list P) : Prop :=
  let n := length xc in
  let mean := map (fun c => Rsum (map (fun x => k x c) xs) / INR (length xs)) xc in
  exists x, osqp (mm (rgram p0 k eps xc)) (map Fin (map Ropp mean)) (mm [repeat 1 n]) (map Fin [1])
              (mm (neg_eye n)) (map Fin (repeat 0 n)) = map Fin x
            /\ qp_within tol del (rgram p0 k eps xc) (map Ropp mean) x.

Lemma reported_weighted {P Y} (p0 : P) (y0 : Y) k bs xs dw l v :
  psd k -> length dw = length xs -> Rsum dw <> 0 -> l <> [] -> (forall i, In i l -> (i < length xs)%nat) ->
  length v = length l -> Rsum v <> 0 ->
  reported_mmd p0 y0 k bs (mkCS (map Z.of_nat l) (map Fin v) (unsup xs dw))
  = Ok (Fin (sqrt (mmd2 k xs dw (map (fun j => nth j xs p0) l) v))).
Proof.
  intros Hk HL HS Hl HI Lv Sv. unfold reported_mmd, cs_compute_metric, points, d_getitem. cbn [c_pre c_idx c_w d_x d_w d_y option_map].
  rewrite (gather_pts p0) by exact HI.
  apply C12_mmd_value; [exact Hk| |].
  - repeat split; [|now symmetry|exact HS]. intro E. destruct l as [|a l]; [congruence|]. specialize (HI a (or_introl eq_refl)). rewrite E in HI. cbn in HI. lia.
  - repeat split; [destruct l; [congruence|discriminate]|now rewrite map_length|exact Sv].
Qed.

(** ** MMDWeightsOptimiser: the new weights are at least as good as any weights on the same
    points, up to the regularisation [eps] and the tolerances of the QP solver *)
Theorem C72_mmd_weights_not_worse :
  forall P Y (p0 : P) (y0 : Y) (k : P -> P -> R) osqp (kappa tol del eps u : R) (bs bs' : bsarg)
         (xs : list P) (l : list nat) (v : list R),
    psd k -> (forall a, In a xs -> k a a <= kappa) -> 0 < u ->
    l <> [] -> (forall i, In i l -> (i < length xs)%nat) ->
    length v = length l -> (forall a, In a v -> 0 <= a) -> 0 < Rsum v ->
    0 <= eps -> 0 <= tol < 1 ->
    osqp_within p0 k osqp tol del eps xs (map (fun j => nth j xs p0) l) ->
    let data := unsup xs (repeat u (length xs)) in
    let before := mkCS (map Z.of_nat l) (map Fin v) data in
    exists after w mmd mmd',
      cs_solve_weights EROps p0 y0 (fun d c => mmdw_solve EROps p0 y0 osqp (kE k) d c (Fin eps) bs) before = Ok after /\
      c_idx after = c_idx before /\ c_pre after = data /\
      c_w after = map Fin w /\ length w = length l /\ simplex w /\
      reported_mmd p0 y0 k bs' before = Ok (Fin mmd) /\
      reported_mmd p0 y0 k bs' after = Ok (Fin mmd') /\
      mmd' * mmd' <= mmd * mmd + eps + 2 * del + 12 * INR (length l) * tol * (kappa + eps).
Proof.
  intros P Y p0 y0 k osqp kappa tol del eps u bs bs' xs l v Hk Hd Hu Hl HI Lv Nv Sv He Ht (x & Ex & Wx) data before.
  set (xc := map (fun j => nth j xs p0) l) in *.
  assert (Hx : xs <> []). { intro E. destruct l as [|a l]; [congruence|]. specialize (HI a (or_introl eq_refl)). rewrite E in HI. cbn in HI. lia. }
  assert (Hxc : xc <> []) by (unfold xc; destruct l; [congruence|discriminate]).
  assert (Lc : length xc = length l) by (unfold xc; apply map_length).
  assert (Inc : forall a, In a xc -> In a xs).
  { intros a Ha. unfold xc in Ha. apply in_map_iff in Ha as [j [<- Hj]]. apply nth_In. now apply HI. }
  assert (Hkap : 0 <= kappa).
  { destruct xs as [|a t]; [congruence|]. specialize (Hd a (or_introl eq_refl)). pose proof (proj2 Hk [(a, 1)]) as A. unfold bil in A. cbn in A. lra. }
  assert (EM : map (fun c => Rsum (map (fun x => k x c) xs) / INR (length xs)) xc = map (fun c => lin (uniform xs) (fun x => k x c)) xc).
  { apply map_ext. intros c. symmetry. apply lin_uniform. }
  cbn zeta in Ex, Wx. rewrite EM in Ex, Wx.
  destruct (mmdw_near p0 y0 k osqp xs (map Fin (repeat u (length xs))) xc (map Fin v) eps bs tol del kappa x Hk He Hx Hxc Ht Hkap Hd
             (fun a Ha => Hd a (Inc a Ha)) Ex Wx) as (w & E & Lw & Sw & Best).
  exists (mkCS (map Z.of_nat l) (map Fin w) data), w, (sqrt (mmd2 k xs (repeat u (length xs)) xc v)), (sqrt (mmd2 k xs (repeat u (length xs)) xc w)).
  assert (Su : Rsum (repeat u (length xs)) <> 0).
  { rewrite Rsum_repeat. assert (0 < INR (length xs)) by (apply lt_0_INR; destruct xs; [congruence|cbn; lia]). apply Rgt_not_eq. apply Rmult_lt_0_compat; assumption. }
  split. { unfold cs_solve_weights, before, points, d_getitem, data. cbn [c_pre c_idx c_w d_x d_w d_y option_map]. rewrite (gather_pts p0) by exact HI.
           cbn [d_x d_w d_y]. change (pts p0 xs l) with xc. rewrite E. reflexivity. }
  split; [reflexivity|]. split; [reflexivity|]. split; [reflexivity|]. split; [now rewrite Lw|]. split; [exact Sw|].
  split; [apply reported_weighted; auto; [apply repeat_length|lra]|].
  split; [apply reported_weighted; auto; [apply repeat_length|now rewrite Lw|rewrite (proj2 Sw); lra]|].
  rewrite !sqrt_sqrt by (apply mmd2_nonneg; exact Hk).
  rewrite (mmd2_normalise k xs (repeat u (length xs)) xc v Sv). pose proof (scaled_simplex v Nv Sv) as Sv'.
  rewrite !mmd2_ridge by (try apply Hk; try apply Sw; try apply Sv'; auto; lra).
  specialize (Best (map (Rmult (/ Rsum v)) v) ltac:(rewrite map_length; congruence) Sv').
  rewrite (ridge_split k eps _ _ w), (ridge_split k eps _ _ (map (Rmult (/ Rsum v)) v)) in Best.
  destruct (simplex_squares w Sw) as [A1 _]. destruct (simplex_squares _ Sv') as [_ A2]. rewrite <- Lc.
  assert (0 <= eps * Rsum (map (fun a => a * a) w)) by (apply Rmult_le_pos; assumption).
  assert (eps * Rsum (map (fun a => a * a) (map (Rmult (/ Rsum v)) v)) <= eps * 1) by (apply Rmult_le_compat_l; assumption). lra.
Qed.
Print Assumptions C72_mmd_weights_not_worse.
(** data {0, 1, 2}, coreset {1, 2} weighted (1, 1), the kernel 1 + a b: OSQP answers
    (1.01, -0.01), which misses the best objective (that of (1, 0)) by less than 0.02 *)
Lemma qp_objective_two a b c d e f x y :
  qp_objective [[a; b]; [c; d]] [e; f] [x; y] = / 2 * (x * (a * x + b * y) + y * (c * x + d * y)) + (e * x + f * y).
Proof. unfold qp_objective, Rmv, Rdot. simpl. ring. Qed.
Definition affine (a b : R) : R := 1 + a * b.
Lemma affine_psd : psd affine.
Proof.
  split; [intros; unfold affine; lra|]. intros ms.
  assert (E : bil affine ms ms = lin ms (fun p => 1) * lin ms (fun p => 1) + lin ms (fun p => p) * lin ms (fun p => p)).
  { rewrite bil_lin. unfold affine.
    rewrite (lin_ext ms _ (fun p => lin ms (fun q => 1) * 1 + lin ms (fun q => q) * p)).
    - rewrite lin_add. rewrite (lin_mul ms _ (fun p => 1)), (lin_mul ms _ (fun p => p)). reflexivity.
    - intros p. rewrite (lin_add ms (fun q => 1) (fun q => p * q)), (lin_mul ms p (fun q => q)). lra. }
  rewrite E. apply Rplus_le_le_0_compat; apply Rle_0_sqr.
Qed.
Example C72_applies :
  psd affine /\ (forall a, In a [0; 1; 2] -> affine a a <= 5) /\
  osqp_within 0 affine (fun _ _ _ _ _ _ => map Fin [101 / 100; - (1 / 100)]) (1 / 100) (2 / 100) 0 [0; 1; 2]
    (map (fun j => nth j [0; 1; 2] 0) [1%nat; 2%nat]).
Proof.
  split; [exact affine_psd|]. split; [intros a [<-|[<-|[<-|[]]]]; unfold affine; lra|].
  exists [101 / 100; - (1 / 100)]. split; [reflexivity|].
  replace (map (fun c => Rsum (map (fun x => affine x c) [0; 1; 2]) / INR (length [0; 1; 2])) (map (fun j => nth j [0; 1; 2] 0) [1%nat; 2%nat]))
    with [2; 3].
  2:{ unfold affine. simpl. f_equal; [field|f_equal; field]. }
  replace (rgram 0 affine 0 (map (fun j => nth j [0; 1; 2] 0) [1%nat; 2%nat])) with [[2; 3]; [3; 5]].
  2:{ unfold rgram, affine. simpl. repeat f_equal; ring. }
  split.
  - reflexivity.
  - simpl. apply Rabs_le. lra.
  - intros a [<-|[<-|[]]]; lra.
  - intros y Ly [H1 H2]. destruct y as [|a [|b [|]]]; try discriminate. simpl in H2. cbn [map]. rewrite !qp_objective_two.
    pose proof (H1 b (or_intror (or_introl eq_refl))). pose proof (H1 a (or_introl eq_refl)). replace a with (1 - b) by lra. nra.
Qed.

(** with an exact solver and no regularisation the reported MMD never increases *)
Theorem C72_exact_not_worse :
  forall P Y (p0 : P) (y0 : Y) (k : P -> P -> R) osqp (u : R) (bs bs' : bsarg)
         (xs : list P) (l : list nat) (v : list R),
    psd k -> 0 < u ->
    l <> [] -> (forall i, In i l -> (i < length xs)%nat) ->
    length v = length l -> (forall a, In a v -> 0 <= a) -> 0 < Rsum v ->
    osqp_within p0 k osqp 0 0 0 xs (map (fun j => nth j xs p0) l) ->
    let before := mkCS (map Z.of_nat l) (map Fin v) (unsup xs (repeat u (length xs))) in
    exists after mmd mmd',
      cs_solve_weights EROps p0 y0 (fun d c => mmdw_solve EROps p0 y0 osqp (kE k) d c (Fin 0) bs) before = Ok after /\
      reported_mmd p0 y0 k bs' before = Ok (Fin mmd) /\
      reported_mmd p0 y0 k bs' after = Ok (Fin mmd') /\
      0 <= mmd' <= mmd.
Proof.
  intros P Y p0 y0 k osqp u bs bs' xs l v Hk Hu Hl HI Lv Nv Sv HO before.
  assert (exists kappa, forall a, In a xs -> k a a <= kappa) as [kappa Hkap].
  { clear. induction xs as [|b t [q IH]]; [exists 0; intros a []|]. exists (Rmax (k b b) q). intros a [<-|Ha]; [apply Rmax_l|].
    eapply Rle_trans; [now apply IH|apply Rmax_r]. }
  destruct (C72_mmd_weights_not_worse P Y p0 y0 k osqp kappa 0 0 0 u bs bs' xs l v Hk Hkap Hu Hl HI Lv Nv Sv ltac:(lra) ltac:(lra) HO)
    as (after & w & mmd & mmd' & A & B & C & D & E & F & G & H & I).
  exists after, mmd, mmd'. split; [exact A|]. split; [exact G|]. split; [exact H|].
  assert (Pos : 0 <= mmd /\ 0 <= mmd').
  { fold before in A, G. destruct after as [ai aw ap]. cbn in B, C, D. subst ai aw ap.
    assert (Su : Rsum (repeat u (length xs)) <> 0).
    { rewrite Rsum_repeat. assert (0 < INR (length xs)) by (apply lt_0_INR; destruct l as [|a l]; [congruence|]; specialize (HI a (or_introl eq_refl)); lia).
      apply Rgt_not_eq. now apply Rmult_lt_0_compat. }
    cbn [c_idx before] in H. unfold before in G.
    rewrite reported_weighted in G by (auto; try apply repeat_length; lra).
    rewrite reported_weighted in H by (auto; try apply repeat_length; rewrite (proj2 F); lra).
    injection G as <-. injection H as <-. split; apply sqrt_pos. }
  split; [apply Pos|]. apply Rsqr_incr_0; unfold Rsqr; lra.
Qed.
Print Assumptions C72_exact_not_worse.
(** the hypothesis is met: the kernel of the previous example, with the exact answer *)
Example C72_exact_applies :
  osqp_within 0 affine (fun _ _ _ _ _ _ => map Fin [1; 0]) 0 0 0 [0; 1; 2] (map (fun j => nth j [0; 1; 2] 0) [1%nat; 2%nat]).
Proof.
  exists [1; 0]. split; [reflexivity|].
  replace (map (fun c => Rsum (map (fun x => affine x c) [0; 1; 2]) / INR (length [0; 1; 2])) (map (fun j => nth j [0; 1; 2] 0) [1%nat; 2%nat]))
    with [2; 3].
  2:{ unfold affine. simpl. f_equal; [field|f_equal; field]. }
  replace (rgram 0 affine 0 (map (fun j => nth j [0; 1; 2] 0) [1%nat; 2%nat])) with [[2; 3]; [3; 5]].
  2:{ unfold rgram, affine. simpl. repeat f_equal; ring. }
  split.
  - reflexivity.
  - simpl. apply Rabs_le. lra.
  - intros a [<-|[<-|[]]]; lra.
  - intros y Ly [H1 H2]. destruct y as [|a [|b [|]]]; try discriminate. simpl in H2. cbn [map]. rewrite !qp_objective_two.
    pose proof (H1 b (or_intror (or_introl eq_refl))). pose proof (H1 a (or_introl eq_refl)). replace a with (1 - b) by lra. nra.
Qed.

(** ** Kernel herding followed by [solve_weights] keeps the rate of C65 *)
Theorem C72_herding_then_weights :
  forall P Y (p0 : P) (y0 : Y) (k : P -> P -> R) osqp (kappa tol del eps u : R) (m : nat) (unique : bool)
         (bs bs1 bs2 : bsarg) (ord : nat -> list nat) (xs : list P),
    psd k -> (forall a, In a xs -> k a a <= kappa) -> 0 < u ->
    (1 <= m <= length xs)%nat -> (forall i, Permutation (ord i) (seq 0 m)) ->
    0 <= eps -> 0 <= tol < 1 ->
    (forall xc, length xc = m -> (forall a, In a xc -> In a xs) -> osqp_within p0 k osqp tol del eps xs xc) ->
    exists coreset row_mean after mmd,
      herding_reduce EROps p0 y0 (mkHerding m (kE k) unique bs Greedy) ord (unsup xs (repeat u (length xs))) None = Ok (coreset, row_mean) /\
      cs_solve_weights EROps p0 y0 (fun d c => mmdw_solve EROps p0 y0 osqp (kE k) d c (Fin eps) bs1) coreset = Ok after /\
      reported_mmd p0 y0 k bs2 after = Ok (Fin mmd) /\
      mmd * mmd <= 49 / 4 * (kappa / INR m) + eps + 2 * del + 12 * INR m * tol * (kappa + eps).
Proof.
  intros P Y p0 y0 k osqp kappa tol del eps u m unique bs bs1 bs2 ord xs Hk Hd Hu Hm HO He Ht HQ.
  assert (Ln : length (repeat u (length xs)) = length xs) by apply repeat_length.
  assert (0 < INR (length xs)) by (apply lt_0_INR; lia).
  assert (Su : 0 < Rsum (repeat u (length xs))) by (rewrite Rsum_repeat; now apply Rmult_lt_0_compat).
  assert (NP : npos (repeat u (length xs)) = length xs).
  { clear - Hu. unfold npos. induction (length xs) as [|n IH]; [reflexivity|]. cbn. destruct (Rlt_dec 0 u); [|contradiction]. cbn. now rewrite IH. }
  destruct (C18_herding_greedy P Y p0 y0 k m unique bs ord xs (repeat u (length xs)) Ln ltac:(lra) Hm HO ltac:(rewrite NP; lia) ltac:(intros _; rewrite NP; lia))
    as (l & g & R & Hl & HG).
  assert (Hne : l <> []) by (intros ->; cbn in Hl; lia).
  assert (HI : forall i, In i l -> (i < length xs)%nat).
  { intros i Hi. apply (In_nth _ _ 0%nat) in Hi. destruct Hi as (t & Ht' & <-). destruct (HG t Ht') as [(C1 & _) _]. lia. }
  assert (Pm : 0 < INR m) by (apply lt_0_INR; lia).
  assert (E1 : forall n, repeat (Fin 1 : ER) n = map Fin (repeat 1 n)) by (induction n as [|n IH]; cbn; [|rewrite IH]; reflexivity).
  destruct (C72_mmd_weights_not_worse P Y p0 y0 k osqp kappa tol del eps u bs1 bs2 xs l (repeat 1 m) Hk Hd Hu Hne HI)
    as (after & w & mmd & mmd' & A & B & C & D & E & F & G & H' & I).
  { now rewrite repeat_length. }
  { intros a Ha. apply repeat_spec in Ha. lra. }
  { rewrite Rsum_repeat. lra. }
  { exact He. }
  { exact Ht. }
  { apply HQ; [now rewrite map_length|]. intros a Ha. apply in_map_iff in Ha as [j [<- Hj]]. apply nth_In. now apply HI. }
  rewrite <- E1 in A, G. eexists _, _, after, mmd'. split; [exact R|]. split; [exact A|]. split; [exact H'|].
  rewrite Hl in I. eapply Rle_trans; [exact I|].
  pose proof (herding_rate p0 k Hk xs (repeat u (length xs)) kappa Ln ltac:(intros a Ha; apply repeat_spec in Ha; lra) Su Hd l unique Hne ltac:(lia)
    ltac:(intros _; now exists u) HG) as Rt.
  rewrite E1 in G. rewrite reported_weighted in G by (auto; try lra; try (now rewrite repeat_length); rewrite Rsum_repeat; lra).
  rewrite Hl in Rt. injection G as <-.
  set (s := mmd2 _ _ _ _ _) in *.
  assert (S0 : 0 <= sqrt s) by apply sqrt_pos.
  assert (Hkap : 0 <= kappa / INR m).
  { apply Rmult_le_pos; [|left; now apply Rinv_0_lt_compat]. destruct xs as [|a t]; [cbn in Hm; lia|]. specialize (Hd a (or_introl eq_refl)).
    pose proof (proj2 Hk [(a, 1)]) as Q. unfold bil in Q. cbn in Q. lra. }
  assert (sqrt s * sqrt s <= 49 / 4 * (kappa / INR m)).
  { apply Rle_trans with ((7 / 2 * sqrt (kappa / INR m)) * (7 / 2 * sqrt (kappa / INR m))); [apply Rmult_le_compat; assumption|].
    pose proof (sqrt_sqrt _ Hkap) as Q. nra. }
  lra.
Qed.
Print Assumptions C72_herding_then_weights.
(** the hypothesis on OSQP is met by data of one point at 1: the answer (1) is exact *)
Example C72_herding_applies :
  forall xc, length xc = 1%nat -> (forall a, In a xc -> In a [1]) ->
    osqp_within 0 lin1 (fun _ _ _ _ _ _ => map Fin [1]) 0 0 0 [1] xc.
Proof.
  intros [|a [|]] L H; try discriminate. destruct (H a (or_introl eq_refl)) as [<-|[]].
  exists [1]. split; [reflexivity|]. split; [reflexivity|simpl; apply Rabs_le; lra|intros a [<-|[]]; lra|].
  intros y Ly [H1 H2]. destruct y as [|b [|]]; try discriminate. simpl in H2. replace b with 1 by lra. lra.
Qed.

(** ** What solving weights depends on.  In any arithmetic, the weights a coreset had
    before, and the weights of the data, have no influence, so solving twice is solving
    once; the indices and the data set are kept. *)
Theorem C72_solving_forgets :
  forall V (O : FOps V) P Y (p0 : P) (y0 : Y) (k : P -> P -> V) osqp linsolve eps bs idx (w w' dw : list V) xs (ys : option (list Y)),
    let mmdw := cs_solve_weights O p0 y0 (fun d c => mmdw_solve O p0 y0 osqp k d c eps bs) in
    let sbq := cs_solve_weights O p0 y0 (fun d c => sbq_solve O p0 y0 linsolve k d c eps bs) in
    let c := mkCS idx w (mkData xs dw ys) in
    mmdw (mkCS idx w' (mkData xs dw ys)) = mmdw c /\ sbq (mkCS idx w' (mkData xs dw ys)) = sbq c /\
    (forall after, mmdw c = Ok after -> mmdw after = Ok after) /\
    (forall after, sbq c = Ok after -> sbq after = Ok after).
Proof.
  intros V O P Y p0 y0 k osqp linsolve eps bs idx w w' dw xs ys mmdw sbq c.
  assert (A : forall w', mmdw (mkCS idx w' (mkData xs dw ys)) = mmdw c) by reflexivity.
  assert (B : forall w', sbq (mkCS idx w' (mkData xs dw ys)) = sbq c) by reflexivity.
  split; [apply A|]. split; [apply B|].
  assert (SH : forall solve after, cs_solve_weights O p0 y0 solve c = Ok after -> exists v, after = mkCS idx v (mkData xs dw ys)).
  { intros solve after H. unfold cs_solve_weights in H. destruct (solve (c_pre c) (points O p0 y0 c)); [|discriminate]. injection H as <-. eauto. }
  split; intros after H; destruct (SH _ _ H) as [v ->]; [rewrite (A v)|rewrite (B v)]; exact H.
Qed.
Print Assumptions C72_solving_forgets.

(** ** Finding: on weighted data MMDWeightsOptimiser can make a perfect coreset imperfect.
    The data {0, 1} with weights (1, 3), the coreset both points with the same weights: MMD
    0 before; the exact solution for the unweighted data is (1/2, 1/2). *)
Definition two (a b : R) : R := (1 - a) * (1 - b) + a * b.
Lemma two_psd : psd two.
Proof.
  split; [intros; unfold two; lra|]. intros ms.
  assert (E : bil two ms ms = lin ms (fun p => 1 - p) * lin ms (fun p => 1 - p) + lin ms (fun p => p) * lin ms (fun p => p)).
  { rewrite bil_lin. unfold two.
    rewrite (lin_ext ms _ (fun p => lin ms (fun q => 1 - q) * (1 - p) + lin ms (fun q => q) * p)).
    - rewrite lin_add. rewrite (lin_mul ms _ (fun p => 1 - p)), (lin_mul ms _ (fun p => p)). reflexivity.
    - intros p. rewrite (lin_add ms (fun q => (1 - p) * (1 - q)) (fun q => p * q)), (lin_mul ms (1 - p) (fun q => 1 - q)), (lin_mul ms p (fun q => q)). lra. }
  rewrite E. apply Rplus_le_le_0_compat; apply Rle_0_sqr.
Qed.
Theorem C72_weighted_data_refuted :
  exists (k : R -> R -> R) osqp after (mmd' : R),
    psd k /\ osqp_within 0 k osqp 0 0 0 [0; 1] [0; 1] /\
    let before := mkCS [0%Z; 1%Z] (map Fin [1; 3]) (unsup [0; 1] [1; 3]) in
    cs_solve_weights EROps 0 tt (fun d c => mmdw_solve EROps 0 tt osqp (kE k) d c (Fin 0) (BOne None)) before = Ok after /\
    reported_mmd 0 tt k (BOne None) before = Ok (Fin 0) /\
    reported_mmd 0 tt k (BOne None) after = Ok (Fin mmd') /\ 0 < mmd'.
Proof.
  exists two, (fun _ _ _ _ _ _ => map Fin [1 / 2; 1 / 2]), (mkCS [0%Z; 1%Z] (map Fin [1 / 2; 1 / 2]) (unsup [0; 1] [1; 3])), (sqrt (1 / 8)).
  split; [exact two_psd|]. split.
  { exists [1 / 2; 1 / 2]. split; [reflexivity|].
    replace (map (fun c => Rsum (map (fun x => two x c) [0; 1]) / INR (length [0; 1])) [0; 1]) with [1 / 2; 1 / 2].
    2:{ unfold two. simpl. f_equal; [field|f_equal; field]. }
    replace (rgram 0 two 0 [0; 1]) with [[1; 0]; [0; 1]].
    2:{ unfold rgram, two. simpl. repeat f_equal; ring. }
    split; [reflexivity|simpl; apply Rabs_le; lra|intros a [<-|[<-|[]]]; lra|].
    intros y Ly [H1 H2]. destruct y as [|a [|b [|]]]; try discriminate. simpl in H2. cbn [map]. rewrite !qp_objective_two.
    replace a with (1 - b) by lra. pose proof (Rle_0_sqr (b - 1 / 2)) as Q. unfold Rsqr in Q. lra. }
  cbn zeta. assert (G : forall i, In i [0; 1]%nat -> (i < length [0; 1])%nat) by (intros i [<-|[<-|[]]]; cbn; lia).
  split; [|split; [|split]].
  - unfold cs_solve_weights, mmdw_solve, points, d_getitem. cbn [c_pre c_idx c_w d_x d_w d_y option_map].
    change [0%Z; 1%Z] with (map Z.of_nat [0; 1]%nat). rewrite (gather_pts 0) by exact G. cbn [d_x d_w d_y].
    rewrite prepare_value; try discriminate; [|apply two_psd]. cbn [bind].
    match goal with |- context [solve_qp _ ?o ?m ?g] => destruct (solve_qp_simplex o m g [1 / 2; 1 / 2]) as [E _] end;
      [reflexivity|exists (1 / 2); split; [left; reflexivity|lra]|].
    rewrite E. do 2 f_equal. simpl. rewrite !Rmax_right by lra. f_equal; [f_equal; field|do 2 f_equal; field].
  - change [0%Z; 1%Z] with (map Z.of_nat [0; 1]%nat). rewrite reported_weighted; auto; try (cbn; lra); try discriminate; [|apply two_psd].
    do 2 f_equal. replace (mmd2 _ _ _ _ _) with 0; [apply sqrt_0|]. unfold mmd2, wavg, wsum, two. simpl. field.
  - change [0%Z; 1%Z] with (map Z.of_nat [0; 1]%nat). rewrite reported_weighted; auto; try (cbn; lra); try discriminate; [|apply two_psd].
    do 3 f_equal. unfold mmd2, wavg, wsum, two. simpl. field.
  - apply sqrt_lt_R0. lra.
Qed.
Print Assumptions C72_weighted_data_refuted.

(** ** Finding: the weights of SBQWeightsOptimiser minimise the MMD without normalisation, but
    [MMD.compute] normalises weights, so solving them can increase the reported MMD.  Data
    (1, 0), (0, 1), (-2/5, -7/10) in the plane, linear kernel, coreset the first two points:
    the exact SBQ weights are (1/5, 1/10); the squared MMD goes from 1/4 to 49/180. *)
Definition dot2 (a b : R * R) : R := fst a * fst b + snd a * snd b.
Lemma dot2_psd : psd dot2.
Proof.
  split; [intros; unfold dot2; lra|]. intros ms.
  assert (E : bil dot2 ms ms = lin ms fst * lin ms fst + lin ms snd * lin ms snd).
  { rewrite bil_lin. unfold dot2.
    rewrite (lin_ext ms _ (fun p => lin ms fst * fst p + lin ms snd * snd p)).
    - rewrite lin_add. rewrite (lin_mul ms _ fst), (lin_mul ms _ snd). reflexivity.
    - intros p. rewrite (lin_add ms (fun q => fst p * fst q) (fun q => snd p * snd q)), (lin_mul ms (fst p) fst), (lin_mul ms (snd p) snd). lra. }
  rewrite E. apply Rplus_le_le_0_compat; apply Rle_0_sqr.
Qed.
Theorem C72_sbq_refuted :
  exists (k : R * R -> R * R -> R) linsolve (xs : list (R * R)) after (mmd mmd' : R),
    psd k /\ solves_vector linsolve (rgram (0, 0) k 0 (firstn 2 xs)) (map (fun c => Rsum (map (fun x => k x c) xs) / INR (length xs)) (firstn 2 xs)) /\
    let before := mkCS [0%Z; 1%Z] (map Fin [1; 1]) (unsup xs (repeat 1 (length xs))) in
    cs_solve_weights EROps (0, 0) tt (fun d c => sbq_solve EROps (0, 0) tt linsolve (kE k) d c (Fin 0) (BOne None)) before = Ok after /\
    reported_mmd (0, 0) tt k (BOne None) before = Ok (Fin mmd) /\
    reported_mmd (0, 0) tt k (BOne None) after = Ok (Fin mmd') /\ mmd < mmd'.
Proof.
  set (xs := [(1, 0); (0, 1); (- (2 / 5), - (7 / 10))] : list (R * R)).
  exists dot2, (fun _ _ => map Fin [1 / 5; 1 / 10]), xs,
    (mkCS [0%Z; 1%Z] (map Fin [1 / 5; 1 / 10]) (unsup xs (repeat 1 (length xs)))), (sqrt (1 / 4)), (sqrt (49 / 180)).
  split; [exact dot2_psd|]. split.
  { exists [1 / 5; 1 / 10]. split; [reflexivity|]. split; [reflexivity|].
    unfold xs, Rmv, rgram, Rdot, dot2. simpl. f_equal; [field|f_equal; field]. }
  cbn zeta. assert (G : forall i, In i [0; 1]%nat -> (i < length xs)%nat) by (intros i [<-|[<-|[]]]; cbn; lia).
  split; [|split; [|split]].
  - unfold cs_solve_weights, sbq_solve, points, d_getitem. cbn [c_pre c_idx c_w d_x d_w d_y option_map].
    change [0%Z; 1%Z] with (map Z.of_nat [0; 1]%nat). rewrite (gather_pts (0, 0)) by exact G. cbn [d_x d_w d_y].
    rewrite prepare_value; try discriminate; [|apply dot2_psd]. reflexivity.
  - change [0%Z; 1%Z] with (map Z.of_nat [0; 1]%nat). rewrite reported_weighted; auto; try (cbn; lra); try discriminate; [|apply dot2_psd].
    do 3 f_equal. unfold xs, mmd2, wavg, wsum, dot2. simpl. field.
  - change [0%Z; 1%Z] with (map Z.of_nat [0; 1]%nat). rewrite reported_weighted; auto; try (cbn; lra); try discriminate; [|apply dot2_psd].
    do 3 f_equal. unfold xs, mmd2, wavg, wsum, dot2. simpl. field.
  - apply sqrt_lt_1; lra.
Qed.
Print Assumptions C72_sbq_refuted.
