(** * Weights found by an inexact quadratic program solver *)
From Coq Require Import List ZArith Reals Lra Lia Bool.
From Verif Require Import Num Jax RSum JaxFacts DataModel MeanModel MeanSpec GreedySpec MetricSpec MetricModel
  MetricProofs MetricProofs2 WeightsSpec.
Import ListNotations.
Open Scope R_scope.

(** ** differences in the 1-norm *)
Lemma Rabs_le_inv x y : Rabs x <= y -> - y <= x <= y.
Proof. intros H. unfold Rabs in H. destruct (Rcase_abs x); lra. Qed.
Lemma Rdot_diff B (g x : list R) (f : R -> R) : 0 <= B -> (forall a, In a g -> Rabs a <= B) ->
  Rabs (Rdot g x - Rdot g (map f x)) <= B * Rsum (map (fun a => Rabs (a - f a)) x).
Proof.
  intros HB. revert x. induction g as [|b g IH]; intros x Hg.
  - destruct x; cbn; rewrite Rminus_eq_0, Rabs_R0; [lra|]. apply Rmult_le_pos; auto.
    assert (0 <= Rsum (map (fun a => Rabs (a - f a)) x)); [|pose proof (Rabs_pos (r - f r)); lra].
    apply Rsum_nonneg. intros c Hc. apply in_map_iff in Hc as [d [<- _]]. apply Rabs_pos.
  - destruct x as [|a x]; [cbn; rewrite Rminus_eq_0, Rabs_R0; lra|].
    change (Rabs (b * a + Rdot g x - (b * f a + Rdot g (map f x))) <= B * (Rabs (a - f a) + Rsum (map (fun a => Rabs (a - f a)) x))).
    specialize (IH x (fun c Hc => Hg c (or_intror Hc))). pose proof (Hg b (or_introl eq_refl)) as Hb.
    replace (b * a + Rdot g x - (b * f a + Rdot g (map f x))) with (b * (a - f a) + (Rdot g x - Rdot g (map f x))) by ring.
    eapply Rle_trans; [apply Rabs_triang|]. rewrite Rabs_mult.
    assert (Rabs b * Rabs (a - f a) <= B * Rabs (a - f a)) by (apply Rmult_le_compat_r; [apply Rabs_pos|exact Hb]). lra.
Qed.
Definition clip (x : list R) : list R := map (fun a => Rmax 0 a / Rsum (map (Rmax 0) x)) x.
Lemma clip_close tol x : 0 <= tol < 1 -> Rabs (Rsum x - 1) <= tol -> (forall a, In a x -> - tol <= a) ->
  0 < Rsum (map (Rmax 0) x) /\
  Rsum (map (fun a => Rabs (a - Rmax 0 a / Rsum (map (Rmax 0) x))) x) <= (2 * INR (length x) + 1) * tol.
Proof.
  intros Ht Hs Hn. set (s := Rsum (map (Rmax 0) x)).
  assert (D : Rsum x <= s <= Rsum x + INR (length x) * tol).
  { unfold s. clear Hs s. induction x as [|a x IH]; [cbn; lra|]. cbn [map Rsum]. change (length (a :: x)) with (S (length x)). rewrite S_INR.
    specialize (IH (fun c Hc => Hn c (or_intror Hc))). pose proof (Hn a (or_introl eq_refl)).
    assert (a <= Rmax 0 a <= a + tol) by (split; [apply Rmax_r|apply Rmax_lub; lra]). lra. }
  apply Rabs_le_inv in Hs. assert (SP : 0 < s) by lra. split; [exact SP|].
  apply Rle_trans with (Rsum (map (fun a => tol + Rmax 0 a * Rabs (1 - / s)) x)).
  - apply Rsum_le. intros a Ha. pose proof (Hn a Ha). pose proof (Rmax_l 0 a) as M.
    replace (a - Rmax 0 a / s) with ((a - Rmax 0 a) + Rmax 0 a * (1 - / s)) by (field; lra).
    eapply Rle_trans; [apply Rabs_triang|]. rewrite Rabs_mult, (Rabs_pos_eq (Rmax 0 a)) by exact M.
    apply Rplus_le_compat_r. rewrite Rabs_minus_sym. apply Rabs_le. unfold Rmax in *. destruct (Rle_dec 0 a); lra.
  - rewrite Rsum_map_add, Rsum_map_const, Rsum_map_scal_r. fold s.
    replace (s * Rabs (1 - / s)) with (Rabs (s - 1)).
    2:{ rewrite <- (Rabs_pos_eq s) at 2 by lra. rewrite <- Rabs_mult. f_equal. field. lra. }
    assert (Rabs (s - 1) <= (INR (length x) + 1) * tol) by (apply Rabs_le; pose proof (pos_INR (length x)); assert (0 <= INR (length x) * tol) by (apply Rmult_le_pos; lra); split; lra).
    lra.
Qed.

Section Weights.
  Context {P Y : Type} (p0 : P) (y0 : Y) (k : P -> P -> R).
  Notation kE := (fun a b => Fin (k a b) : ER).

  Lemma kernel_abs kappa a b : psd k -> k a a <= kappa -> k b b <= kappa -> Rabs (k a b) <= kappa.
  Proof.
    intros Hk Ha Hb. pose proof (cauchy k Hk [(a, 1)] [(b, 1)]) as C. unfold bil in C. cbn in C.
    pose proof (proj2 Hk [(a, 1)]) as A. pose proof (proj2 Hk [(b, 1)]) as B. unfold bil in A, B. cbn in A, B.
    apply Rsqr_le_abs_0 in C || idtac.
    assert (k a b * k a b <= kappa * kappa). { apply Rle_trans with (k a a * k b b); [lra|]. apply Rmult_le_compat; lra. }
    apply Rabs_le. split; nra.
  Qed.
  Lemma lin_abs (ms : list (P * R)) f B : (forall m, In m ms -> 0 <= snd m /\ Rabs (f (fst m)) <= B) ->
    Rabs (lin ms f) <= B * Rsum (map snd ms).
  Proof.
    unfold lin. induction ms as [|m ms IH]; intros H; [cbn; rewrite Rabs_R0; lra|]. cbn [map Rsum].
    eapply Rle_trans; [apply Rabs_triang|]. specialize (IH (fun c Hc => H c (or_intror Hc))). destruct (H m (or_introl eq_refl)) as [H1 H2].
    rewrite Rabs_mult, (Rabs_pos_eq (snd m)) by exact H1. assert (snd m * Rabs (f (fst m)) <= snd m * B) by (apply Rmult_le_compat_l; lra). lra.
  Qed.
  Lemma simplex_le1 v a : simplex v -> In a v -> 0 <= a <= 1.
  Proof.
    intros [H1 H2] Ha. split; [now apply H1|]. rewrite <- H2. clear H2. induction v as [|b v IH]; [destruct Ha|].
    cbn [Rsum]. assert (0 <= Rsum v) by (apply Rsum_nonneg; intros; apply H1; now right). pose proof (H1 b (or_introl eq_refl)).
    destruct Ha as [->|Ha]; [lra|]. specialize (IH (fun c Hc => H1 c (or_intror Hc)) Ha). lra.
  Qed.
  Lemma uniform_sum (xs : list P) : xs <> [] -> Rsum (map snd (uniform xs)) = 1.
  Proof.
    intros H. unfold uniform. rewrite map_map. cbn [snd]. rewrite Rsum_map_const. field. apply not_0_INR. destruct xs; [congruence|discriminate].
  Qed.

  (** the clipped and normalised answer is almost optimal *)
  Lemma mmdw_near osqp xd (wd : list ER) xc (wc : list ER) e bs tol del kappa x :
    psd k -> 0 <= e -> xd <> [] -> xc <> [] -> 0 <= tol < 1 -> 0 <= kappa ->
    (forall a, In a xd -> k a a <= kappa) -> (forall a, In a xc -> k a a <= kappa) ->
    let n := length xc in let z := map (fun c => lin (uniform xd) (fun x => k x c)) xc in
    osqp (mm (rgram p0 k e xc)) (map Fin (map Ropp z)) (mm [repeat 1 n]) (map Fin [1]) (mm (neg_eye n)) (map Fin (repeat 0 n)) = map Fin x ->
    qp_within tol del (rgram p0 k e xc) (map Ropp z) x ->
    exists w, mmdw_solve EROps p0 y0 osqp kE (mkData xd wd None) (mkData xc wc None) (Fin e) bs = Ok (map Fin w)
      /\ length w = length xc /\ simplex w
      /\ forall v, length v = length xc -> simplex v ->
           ridge_mmd2 k e (uniform xd) xc w <= ridge_mmd2 k e (uniform xd) xc v + 2 * del + 12 * INR n * tol * (kappa + e).
  Proof.
    intros Hk He Hd Hc Ht Hkap Kd Kc n z Ex [Lx Sx Nx Bx]. unfold mmdw_solve. rewrite prepare_value by (try assumption; apply Hk). cbn [bind].
    fold z. assert (Lz : length (map Ropp z) = n) by (unfold z, n; now rewrite !map_length). rewrite Lz in Lx, Bx.
    destruct (clip_close tol x Ht Sx Nx) as [SP CL].
    assert (Pos : exists a, In a x /\ 0 < a).
    { apply Rsum_pos_ex. apply Rabs_le_inv in Sx. lra. }
    destruct (solve_qp_simplex osqp (mm (rgram p0 k e xc)) (map Fin z) x) as [E SM].
    { cbn zeta. rewrite map_length, (proj1 (rgram_mat p0 k e xc)). fold n. rewrite neg_eye_fin.
      replace (map (fun v => fneg EROps v) (map Fin z)) with (map (@Fin R) (map Ropp z)).
      2:{ rewrite !map_map. apply map_ext. intros a. cbn. f_equal. lra. }
      rewrite <- Ex. simpl. now rewrite !DataMeanLemmas.map_repeat. }
    { exact Pos. }
    fold (clip x) in E, SM. exists (clip x). rewrite E. assert (LC : length (clip x) = length xc) by (unfold clip; rewrite map_length; exact Lx).
    split; [reflexivity|]. split; [exact LC|]. split; [exact SM|]. intros v Lv Sv.
    assert (N1 : 1 <= INR n). { change 1 with (INR 1). apply le_INR. unfold n. destruct xc; [congruence|cbn; lia]. }
    (* gradient step from the clipped answer to the answer *)
    pose proof (quad_complete p0 k e xc (clip x) x (proj1 Hk) LC ltac:(exact Lx)) as Q.
    pose proof (proj2 Hk (combine xc x ++ scal (-1) (combine xc (clip x)))) as Q1.
    pose proof (sq_diff (clip x) x ltac:(rewrite LC; symmetry; exact Lx)) as Q2.
    assert (Q3 : 0 <= e * (Rdot x x - 2 * Rdot (clip x) x + Rdot (clip x) (clip x))) by (apply Rmult_le_pos; lra).
    set (g := Rmv (rgram p0 k e xc) (clip x)) in *.
    assert (G1 : forall a, In a g -> Rabs a <= kappa + e).
    { intros a Ha. unfold g in Ha. rewrite rgram_mv in Ha by exact LC. apply in_map_iff in Ha as [i [<- Hi]]. apply in_seq in Hi.
      eapply Rle_trans; [apply Rabs_triang|]. apply Rplus_le_compat.
      - apply Rle_trans with (kappa * Rsum (map snd (combine xc (clip x)))).
        + apply lin_abs. intros [p b] Hp. cbn [fst snd]. split; [apply (proj1 SM); exact (in_combine_r _ _ _ _ Hp)|].
          apply kernel_abs; auto; [apply Kc; apply nth_In; lia|apply Kc; exact (in_combine_l _ _ _ _ Hp)].
        + replace (map snd (combine xc (clip x))) with (clip x); [rewrite (proj2 SM); lra|].
          clear - LC. revert LC. generalize (clip x) as l. induction xc; intros [|b l] H; try discriminate; [reflexivity|]. cbn. f_equal. apply IHxc. now injection H.
      - rewrite Rabs_mult, (Rabs_pos_eq e) by exact He. rewrite <- (Rmult_1_r e) at 2. apply Rmult_le_compat_l; auto.
        destruct (simplex_le1 (clip x) (nth i (clip x) 0) SM) as [A1 A2]; [apply nth_In; lia|]. rewrite Rabs_pos_eq; lra. }
    assert (G2 : forall a, In a z -> Rabs a <= kappa).
    { intros a Ha. unfold z in Ha. apply in_map_iff in Ha as [c [<- Hcc]].
      apply Rle_trans with (kappa * Rsum (map snd (uniform xd))); [|rewrite uniform_sum by exact Hd; lra].
      apply lin_abs. intros m Hm. unfold uniform in Hm. apply in_map_iff in Hm as [p [<- Hp]]. cbn [fst snd]. split.
      - left. apply Rinv_0_lt_compat. apply lt_0_INR. destruct xd; [congruence|cbn; lia].
      - apply kernel_abs; auto. }
    pose proof (Rdot_diff (kappa + e) g x (fun a => Rmax 0 a / Rsum (map (Rmax 0) x)) ltac:(lra) G1) as D1. fold (clip x) in D1.
    pose proof (Rdot_diff kappa z x (fun a => Rmax 0 a / Rsum (map (Rmax 0) x)) Hkap G2) as D2. fold (clip x) in D2.
    set (d1 := Rsum (map (fun a => Rabs (a - Rmax 0 a / Rsum (map (Rmax 0) x))) x)) in *.
    assert (d1 <= 3 * INR n * tol). { rewrite Lx in CL. eapply Rle_trans; [exact CL|]. assert (0 <= (INR n - 1) * tol) by (apply Rmult_le_pos; lra). lra. }
    assert (T1 : (kappa + e) * d1 <= (kappa + e) * (3 * INR n * tol)) by (apply Rmult_le_compat_l; lra).
    assert (T0 : 0 <= 3 * INR n * tol) by (repeat apply Rmult_le_pos; lra).
    assert (T2 : kappa * d1 <= (kappa + e) * (3 * INR n * tol)).
    { apply Rle_trans with (kappa * (3 * INR n * tol)); [apply Rmult_le_compat_l; lra|apply Rmult_le_compat_r; lra]. }
    apply Rabs_le_inv in D1, D2.
    assert (F : ridge_mmd2 k e (uniform xd) xc (clip x) <= ridge_mmd2 k e (uniform xd) xc x + 12 * INR n * tol * (kappa + e)).
    { rewrite !(ridge_gram p0) by assumption. fold z g. rewrite (Rdot_comm (clip x) g) in *. lra. }
    pose proof (Bx v Lv Sv) as B. rewrite (ridge_objective p0 k e (uniform xd) xc x) in F by exact Lx.
    rewrite (ridge_objective p0 k e (uniform xd) xc v) by exact Lv. fold z in F |- *. lra.
  Qed.

  (** ** the discrepancy as [MMD.compute] reports it *)
  Lemma nm_simplex (xs : list P) w : Rsum w = 1 -> nm xs w = combine xs w.
  Proof. intros H. unfold nm. rewrite H. rewrite <- (map_id (combine xs w)) at 2. apply map_ext. intros [p a]. cbn. f_equal. field. Qed.
  Lemma nm_repeat (xs : list P) u : u <> 0 -> xs <> [] -> nm xs (repeat u (length xs)) = uniform xs.
  Proof.
    intros Hu Hx. unfold nm, uniform. rewrite Rsum_repeat. set (N := INR (length xs)).
    assert (N <> 0) by (unfold N; apply not_0_INR; destruct xs; [congruence|discriminate]). clearbody N. clear Hx.
    induction xs as [|a xs IH]; [reflexivity|]. cbn. f_equal; [f_equal; field; auto|exact IH].
  Qed.
  Lemma mmd2_ridge xd u xc w : (forall a b, k a b = k b a) -> u <> 0 -> xd <> [] -> Rsum w = 1 ->
    mmd2 k xd (repeat u (length xd)) xc w = ridge_mmd2 k 0 (uniform xd) xc w.
  Proof.
    intros Hs Hu Hx Hw. unfold mmd2, ridge_mmd2. rewrite !wavg2_bil, (nm_repeat xd u), (nm_simplex xc w) by assumption. lra.
  Qed.
  Lemma ridge_split e D (xc : list P) w : ridge_mmd2 k e D xc w = ridge_mmd2 k 0 D xc w + e * Rsum (map (fun a => a * a) w).
  Proof. unfold ridge_mmd2. lra. Qed.
  Lemma simplex_squares w : simplex w -> 0 <= Rsum (map (fun a => a * a) w) <= 1.
  Proof.
    intros S. split.
    - apply Rsum_nonneg. intros a Ha. apply in_map_iff in Ha as [b [<- _]]. nra.
    - rewrite <- (proj2 S). rewrite <- (map_id w) at 2. apply Rsum_le. intros a Ha. destruct (simplex_le1 w a S Ha). nra.
  Qed.
  Lemma mmd2_normalise xd wd xc v : 0 < Rsum v -> mmd2 k xd wd xc v = mmd2 k xd wd xc (map (Rmult (/ Rsum v)) v).
  Proof.
    intros H. symmetry. apply mmd2_same; [intro; reflexivity|]. apply same_scale. apply Rinv_neq_0_compat. lra.
  Qed.
  Lemma scaled_simplex v : (forall a, In a v -> 0 <= a) -> 0 < Rsum v -> simplex (map (Rmult (/ Rsum v)) v).
  Proof.
    intros H1 H2. split.
    - intros a Ha. apply in_map_iff in Ha as [b [<- Hb]]. apply Rmult_le_pos; [left; now apply Rinv_0_lt_compat|auto].
    - etransitivity; [apply (Rsum_map_scal (/ Rsum v) (fun a => a) v)|]. rewrite map_id. field. lra.
  Qed.
End Weights.
