(** * Proofs about metrics *)
From Coq Require Import List ZArith Reals Lra Lia Bool Permutation.
From Verif Require Import Num Jax RSum JaxFacts DataModel MeanModel MeanProofs DataMeanLemmas DataProofs
  MeanSpec GreedySpec MetricSpec MetricModel GreedyProofs GreedyProofs2 GreedyProofs3.
Import ListNotations.
Open Scope R_scope.

Lemma fmax0_fin a : fmax EROps (f0 EROps) (Fin a) = Fin (Rmax 0 a).
Proof.
  unfold fmax. cbn. destruct (nltb ROps 0 a) eqn:E.
  - apply Rltb_true in E. rewrite Rmax_right; [reflexivity|lra].
  - apply Rltb_false in E. rewrite Rmax_left; [reflexivity|lra].
Qed.
Lemma fsqrt_fin a : 0 <= a -> fsqrt EROps (Fin a) = Fin (sqrt a).
Proof.
  intros H. cbn. destruct (nltb ROps a 0) eqn:E; [|reflexivity]. apply Rltb_true in E. lra.
Qed.
Lemma sqrt_max_fin a : fsqrt EROps (fmax EROps (f0 EROps) (Fin a)) = Fin (sqrt (Rmax 0 a)).
Proof. rewrite fmax0_fin. apply fsqrt_fin. apply Rmax_l. Qed.

(** ** bilinear form *)
Section Bil.
  Context {P : Type} (k : P -> P -> R).
  Notation M := (list (P * R)).
  Definition lin (ns : M) (f : P -> R) : R := Rsum (map (fun n => snd n * f (fst n)) ns).
  Definition scal (c : R) (ms : M) : M := map (fun m => (fst m, c * snd m)) ms.
  Lemma lin_app a b f : lin (a ++ b) f = lin a f + lin b f.
  Proof. unfold lin. now rewrite map_app, Rsum_app. Qed.
  Lemma lin_scal c a f : lin (scal c a) f = c * lin a f.
  Proof.
    unfold lin, scal. rewrite map_map. cbn [fst snd].
    rewrite (Rsum_map_ext _ (fun n => c * (snd n * f (fst n)))); [apply Rsum_map_scal|]. intros; lra.
  Qed.
  Lemma lin_ext a f g : (forall p, f p = g p) -> lin a f = lin a g.
  Proof. intros H. unfold lin. apply Rsum_map_ext. intros n _. now rewrite H. Qed.
  Lemma lin_add a f g : lin a (fun p => f p + g p) = lin a f + lin a g.
  Proof. unfold lin. rewrite <- Rsum_map_add. apply Rsum_map_ext. intros; lra. Qed.
  Lemma lin_mul a c f : lin a (fun p => c * f p) = c * lin a f.
  Proof. unfold lin. rewrite <- Rsum_map_scal. apply Rsum_map_ext. intros; lra. Qed.
  Lemma bil_lin a b : bil k a b = lin a (fun p => lin b (fun q => k p q)).
  Proof. reflexivity. Qed.
  Lemma bil_app_l a b c : bil k (a ++ b) c = bil k a c + bil k b c.
  Proof. rewrite !bil_lin. apply lin_app. Qed.
  Lemma bil_app_r a b c : bil k a (b ++ c) = bil k a b + bil k a c.
  Proof. rewrite !bil_lin, <- lin_add. apply lin_ext. intros. apply lin_app. Qed.
  Lemma bil_scal_l c a b : bil k (scal c a) b = c * bil k a b.
  Proof. rewrite !bil_lin. apply lin_scal. Qed.
  Lemma bil_scal_r c a b : bil k a (scal c b) = c * bil k a b.
  Proof. rewrite !bil_lin, <- lin_mul. apply lin_ext. intros. apply lin_scal. Qed.
  Lemma bil_swap a b : bil k a b = lin b (fun q => lin a (fun p => k p q)).
  Proof.
    unfold bil, lin.
    rewrite (Rsum_map_ext (fun m => snd m * Rsum (map (fun n => snd n * k (fst m) (fst n)) b))
              (fun m => Rsum (map (fun n => snd m * (snd n * k (fst m) (fst n))) b))).
    - rewrite Rsum_swap. apply Rsum_map_ext. intros n _. rewrite <- Rsum_map_scal. apply Rsum_map_ext. intros; lra.
    - intros m _. now rewrite <- Rsum_map_scal.
  Qed.
  Lemma bil_sym a b : (forall p q, k p q = k q p) -> bil k a b = bil k b a.
  Proof.
    intros H. rewrite bil_swap, bil_lin. apply lin_ext. intros q. apply lin_ext. intros p. apply H.
  Qed.
  Hypothesis Hpsd : psd k.
  Lemma cauchy a b : bil k a b * bil k a b <= bil k a a * bil k b b.
  Proof.
    destruct Hpsd as [Hs Hp]. set (A := bil k a a). set (B := bil k a b). set (C := bil k b b).
    assert (Q : forall t, 0 <= A + 2 * t * B + t * t * C).
    { intros t. pose proof (Hp (a ++ scal t b)) as H.
      rewrite bil_app_l, !bil_app_r, !bil_scal_l, !bil_scal_r in H.
      rewrite (bil_sym b a Hs) in H. fold A B C in H. lra. }
    assert (HA : 0 <= A) by apply Hp. assert (HC : 0 <= C) by apply Hp.
    destruct (Req_dec C 0) as [E|E].
    - assert (B = 0).
      { destruct (Req_dec B 0); [assumption|]. exfalso.
        pose proof (Q (- (A + 1) / (2 * B))) as H1. rewrite E in H1.
        replace (A + 2 * (- (A + 1) / (2 * B)) * B + - (A + 1) / (2 * B) * (- (A + 1) / (2 * B)) * 0)
          with (-1) in H1 by (field; lra). lra. }
      subst B. rewrite H, E. lra.
    - pose proof (Q (- B / C)) as H1.
      replace (A + 2 * (- B / C) * B + - B / C * (- B / C) * C) with (A - B * B / C) in H1 by (field; lra).
      assert (B * B / C <= A) by lra.
      assert (B * B = B * B / C * C) by (field; lra). rewrite H0.
      apply Rmult_le_compat_r; lra.
  Qed.
  Lemma minkowski a b : sqrt (bil k (a ++ b) (a ++ b)) <= sqrt (bil k a a) + sqrt (bil k b b).
  Proof.
    destruct Hpsd as [Hs Hp].
    assert (HA : 0 <= bil k a a) by apply Hp. assert (HB : 0 <= bil k b b) by apply Hp.
    rewrite <- (sqrt_Rsqr (sqrt (bil k a a) + sqrt (bil k b b))) by (apply Rplus_le_le_0_compat; apply sqrt_pos).
    apply sqrt_le_1_alt. unfold Rsqr.
    replace ((sqrt (bil k a a) + sqrt (bil k b b)) * (sqrt (bil k a a) + sqrt (bil k b b)))
      with (sqrt (bil k a a) * sqrt (bil k a a) + sqrt (bil k b b) * sqrt (bil k b b)
            + 2 * (sqrt (bil k a a) * sqrt (bil k b b))) by ring.
    rewrite !sqrt_sqrt by assumption. rewrite <- sqrt_mult by assumption.
    rewrite bil_app_l, !bil_app_r, (bil_sym b a Hs).
    assert (bil k a b <= sqrt (bil k a a * bil k b b)).
    { apply Rle_trans with (Rabs (bil k a b)); [apply Rle_abs|].
      rewrite <- sqrt_Rsqr_abs. apply sqrt_le_1_alt. apply cauchy. }
    lra.
  Qed.
End Bil.

Section Mmd.
  Context {P Y : Type} (p0 : P) (y0 : Y) (k : P -> P -> R).
  Notation kE := (fun a b => Fin (k a b) : ER).
  Definition nm (xs : list P) (w : list R) : list (P * R) := map (fun m => (fst m, snd m / Rsum w)) (combine xs w).
  Lemma wavg_lin_nm f xs w : wavg f xs w = lin (nm xs w) f.
  Proof.
    unfold wavg, wsum, lin, nm. rewrite map_map. cbn [fst snd].
    unfold Rdiv at 1. rewrite <- Rsum_map_scal_r. apply Rsum_map_ext. intros; unfold Rdiv; lra.
  Qed.
  Lemma wavg2_bil xs w ys v : wavg (fun a => wavg (fun b => k a b) ys v) xs w = bil k (nm xs w) (nm ys v).
  Proof. rewrite wavg_lin_nm, bil_lin. apply lin_ext. intros. apply wavg_lin_nm. Qed.
  Lemma mmd2_bil xs w ys v : (forall a b, k a b = k b a) ->
    mmd2 k xs w ys v = bil k (nm xs w ++ scal (-1) (nm ys v)) (nm xs w ++ scal (-1) (nm ys v)).
  Proof.
    intros Hs. unfold mmd2. rewrite !wavg2_bil, bil_app_l, !bil_app_r, !bil_scal_l, !bil_scal_r.
    rewrite (bil_sym k (nm ys v) (nm xs w) Hs). lra.
  Qed.
  Lemma mmd2_nonneg xs w ys v : psd k -> 0 <= mmd2 k xs w ys v.
  Proof. intros [Hs Hp]. rewrite mmd2_bil by assumption. apply Hp. Qed.
  Lemma mmd2_sym xs w ys v : (forall a b, k a b = k b a) -> mmd2 k xs w ys v = mmd2 k ys v xs w.
  Proof.
    intros Hs. unfold mmd2. rewrite !wavg2_bil, (bil_sym k (nm ys v) (nm xs w) Hs). lra.
  Qed.
  Lemma mmd2_same xs w xs' w' ys v ys' v' :
    same_dist xs w xs' w' -> same_dist ys v ys' v' -> mmd2 k xs w ys v = mmd2 k xs' w' ys' v'.
  Proof.
    intros H1 H2. unfold mmd2.
    rewrite (H1 (fun a => wavg (fun b => k a b) xs w)), (wavg_ext (fun a => wavg (fun b => k a b) xs w) (fun a => wavg (fun b => k a b) xs' w')) by (intros; apply H1).
    rewrite (H2 (fun a => wavg (fun b => k a b) ys v)), (wavg_ext (fun a => wavg (fun b => k a b) ys v) (fun a => wavg (fun b => k a b) ys' v')) by (intros; apply H2).
    rewrite (H1 (fun a => wavg (fun b => k a b) ys v)), (wavg_ext (fun a => wavg (fun b => k a b) ys v) (fun a => wavg (fun b => k a b) ys' v')) by (intros; apply H2).
    reflexivity.
  Qed.
  Lemma mmd2_zero xs w ys v : same_dist xs w ys v -> mmd2 k xs w ys v = 0.
  Proof.
    intros H. rewrite (mmd2_same xs w ys v ys v ys v) by (auto; intros f; reflexivity). unfold mmd2. lra.
  Qed.
  Lemma mmd_triangle xs w ys v zs u : psd k ->
    sqrt (mmd2 k xs w zs u) <= sqrt (mmd2 k xs w ys v) + sqrt (mmd2 k ys v zs u).
  Proof.
    intros Hp. assert (Hs := proj1 Hp). rewrite !mmd2_bil by assumption.
    eapply Rle_trans; [|apply minkowski; assumption]. apply Req_le. f_equal.
    rewrite !bil_app_l, !bil_app_r, !bil_scal_l, !bil_scal_r.
    rewrite (bil_sym k (nm ys v) (nm xs w) Hs), (bil_sym k (nm zs u) (nm xs w) Hs), (bil_sym k (nm zs u) (nm ys v) Hs).
    lra.
  Qed.

  Notation D xs w s := (mkData xs (map Fin w) s).
  Lemma mmd_compute_value xs w (s : option (list Y)) ys v s' bs :
    xs <> [] -> ys <> [] -> length xs = length w -> length ys = length v -> Rsum w <> 0 -> Rsum v <> 0 ->
    mmd_compute EROps p0 y0 kE (D xs w s) (D ys v s') bs = Ok (Fin (sqrt (Rmax 0 (mmd2 k xs w ys v)))).
  Proof.
    intros. unfold mmd_compute, mean_scalar.
    rewrite !(full_mean_spec p0 y0 k) by assumption. cbn [bind].
    change (fofZ EROps 2) with (Fin 2 : ER). 
    change (fsub EROps (fadd EROps (Fin ?a) (Fin ?b)) (fmul EROps (Fin 2) (Fin ?c))) with (Fin (a + b - 2 * c)).
    cbn [fadd fmul fsub EROps extOps eadd emul esub nadd nmul nsub ROps].
    change (extOps ROps) with EROps.
    rewrite sqrt_max_fin. reflexivity.
  Qed.
End Mmd.

(** ** sources of equal distributions *)
Section Same.
  Context {P : Type}.
  Lemma same_scale (xs : list P) w c : c <> 0 -> same_dist xs (map (Rmult c) w) xs w.
  Proof.
    intros Hc f. unfold wavg, wsum.
    replace (Rsum (map (Rmult c) w)) with (c * Rsum w).
    2:{ rewrite <- (map_id w) at 1. rewrite <- Rsum_map_scal. reflexivity. }
    replace (Rsum (map (fun p => snd p * f (fst p)) (combine xs (map (Rmult c) w))))
      with (c * Rsum (map (fun p => snd p * f (fst p)) (combine xs w))).
    - destruct (Req_dec (Rsum w) 0) as [E|E].
      + rewrite E, Rmult_0_r. unfold Rdiv. rewrite Rinv_0. lra.
      + field. auto.
    - rewrite <- Rsum_map_scal. clear. revert w; induction xs; intros [|b w]; simpl; auto. rewrite IHxs. lra.
  Qed.
  Lemma same_perm (xs ys : list P) w v :
    length xs = length w -> length ys = length v ->
    Permutation (combine xs w) (combine ys v) -> same_dist xs w ys v.
  Proof.
    intros H1 H2 H f. unfold wavg, wsum. f_equal.
    - apply Rsum_perm. now apply Permutation_map.
    - assert (E : forall (l : list P) (u : list R), length l = length u -> Rsum u = Rsum (map snd (combine l u))).
      { induction l; intros [|b u] HL; simpl in *; try discriminate; auto. f_equal. apply IHl. lia. }
      rewrite (E xs w H1), (E ys v H2). apply Rsum_perm. now apply Permutation_map.
  Qed.
  Lemma same_split (xs ys : list P) (w v : list R) (x : P) a b : length xs = length w ->
    same_dist (xs ++ x :: x :: ys) (w ++ a :: b :: v) (xs ++ x :: ys) (w ++ (a + b) :: v).
  Proof.
    intros HL f. unfold wavg, wsum.
    assert (E : forall ys v, combine (xs ++ ys) (w ++ v) = combine xs w ++ combine ys v).
    { clear - HL. revert w HL; induction xs; intros [|c w] HL; simpl in *; try discriminate; auto.
      intros. f_equal. apply IHxs. lia. }
    rewrite !E, !map_app, !Rsum_app. cbn [combine map Rsum fst snd].
    f_equal; [|f_equal]; lra.
  Qed.
  Lemma same_zero (xs zs : list P) w : length xs = length w -> same_dist (xs ++ zs) (w ++ repeat 0 (length zs)) xs w.
  Proof.
    intros HL f. unfold wavg. rewrite Rsum_pad. f_equal. unfold wsum.
    revert w HL; induction xs; intros [|c w] HL; simpl in *; try discriminate.
    - induction zs; simpl; auto. rewrite IHzs. lra.
    - rewrite IHxs by lia. reflexivity.
  Qed.
End Same.

(** ** JMMD *)
Section Jmmd.
  Context {P Y : Type} (p0 : P) (y0 : Y) (k : P -> P -> R) (r : Y -> Y -> R).
  Notation kE := (fun a b => Fin (k a b) : ER).
  Notation rE := (fun a b => Fin (r a b) : ER).
  (** the product kernel on joint points *)
  Definition joint (p q : P * Y) : R := k (fst p) (fst q) * r (snd p) (snd q).
  Lemma mat2_pair (x1 x2 : list P) (y1 y2 : list Y) : length x1 = length y1 -> length x2 = length y2 ->
    mat2 (fmul EROps) (pairwise kE x1 x2) (pairwise rE y1 y2)
    = pairwise (fun p q => Fin (joint p q)) (combine x1 y1) (combine x2 y2).
  Proof.
    intros H1 H2. unfold mat2, pairwise. revert y1 H1; induction x1; intros [|b y1] H1; simpl in *; try discriminate; auto.
    f_equal; [|apply IHx1; lia]. clear - H2. revert y2 H2; induction x2; intros [|c y2] H2; simpl in *; try discriminate; auto.
    f_equal. apply IHx2. lia.
  Qed.
  Lemma vecmat_pair {Q} (w : list R) (ps qs : list Q) (q0 : Q) (g : Q -> Q -> R) :
    vecmat EROps (length qs) (map Fin w) (pairwise (fun p q => Fin (g p q) : ER) ps qs)
    = map (fun q => Fin (Rdot w (map (fun p => g p q) ps))) qs.
  Proof.
    unfold vecmat.
    transitivity (map (fun q => Fin (Rdot w (map (fun p => g p q) ps)) : ER) (map (fun j => nth j qs q0) (seq 0 (length qs)))).
    2:{ now rewrite map_nth_seq. }
    rewrite map_map.
    apply map_ext_in. intros j Hj. apply in_seq in Hj.
    unfold mcol, pairwise. rewrite map_map.
    rewrite (map_ext_in _ (fun p => Fin (g p (nth j qs q0)))).
    - rewrite <- (map_map (fun p => g p (nth j qs q0)) Fin). apply fdot_fin.
    - intros p _. rewrite (nth_map_lt _ _ _ q0) by lia. reflexivity.
  Qed.
  Lemma joint_mean_fin x1 y1 w1 x2 y2 w2 : length x1 = length y1 -> length x2 = length y2 ->
    joint_mean EROps kE rE x1 y1 (map Fin w1) x2 y2 (map Fin w2)
    = Fin (Rdot (map (fun q => Rdot w1 (map (fun p => joint p q) (combine x1 y1))) (combine x2 y2)) w2).
  Proof.
    intros H1 H2. unfold joint_mean. rewrite mat2_pair by assumption.
    replace (length x2) with (length (combine x2 y2)) by (rewrite combine_length; lia).
    rewrite (vecmat_pair w1 (combine x1 y1) (combine x2 y2) (p0, y0) joint).
    rewrite <- (map_map _ Fin). apply fdot_fin.
  Qed.
  Lemma jm_wavg x1 y1 w1 x2 y2 w2 : length x1 = length y1 -> length x2 = length y2 ->
    Rsum w1 <> 0 -> Rsum w2 <> 0 ->
    Rdot (map (fun q => Rdot (norm_w w1) (map (fun p => joint p q) (combine x1 y1))) (combine x2 y2)) (norm_w w2)
    = wavg (fun a => wavg (fun b => joint a b) (combine x2 y2) w2) (combine x1 y1) w1.
  Proof.
    intros H1 H2 S1 S2. rewrite Rdot_wsum, wsum_norm by assumption.
    rewrite (wavg_ext _ (fun q => wavg (fun p => joint p q) (combine x1 y1) w1)).
    - rewrite !wavg_lin_nm.
      rewrite (lin_ext (nm (combine x2 y2) w2) _ (fun q => lin (nm (combine x1 y1) w1) (fun p => joint p q))).
      + rewrite (lin_ext (nm (combine x1 y1) w1) _ (fun p => lin (nm (combine x2 y2) w2) (fun q => joint p q))).
        * rewrite <- bil_swap. reflexivity.
        * intros. apply wavg_lin_nm.
      + intros. apply wavg_lin_nm.
    - intros q. rewrite Rdot_comm, Rdot_wsum, wsum_norm by assumption. reflexivity.
  Qed.
  Lemma jmmd_value x1 y1 w1 x2 y2 w2 :
    length x1 = length y1 -> length x2 = length y2 -> length x1 = length w1 -> length x2 = length w2 ->
    Rsum w1 <> 0 -> Rsum w2 <> 0 ->
    jmmd_compute EROps kE rE (mkData x1 (map Fin w1) (Some y1)) (mkData x2 (map Fin w2) (Some y2))
    = Ok (Fin (sqrt (Rmax 0 (mmd2 joint (combine x1 y1) w1 (combine x2 y2) w2)))).
  Proof.
    intros. unfold jmmd_compute, normalize. cbn [d_x d_w d_y]. rewrite !normalize_w_true_fin.
    rewrite !joint_mean_fin by assumption. rewrite !jm_wavg by assumption.
    change (fofZ EROps 2) with (Fin 2 : ER).
    cbn [fadd fmul fsub EROps extOps eadd emul esub nadd nmul nsub ROps].
    change (extOps ROps) with EROps. rewrite sqrt_max_fin. reflexivity.
  Qed.
End Jmmd.
