(** * C12-C16, C46: metrics and weight optimisers *)
From Coq Require Import List ZArith Reals Lra Lia Bool Permutation QArith.
From Verif Require Import Num Jax RSum JaxFacts DataModel MeanModel MeanProofs DataMeanLemmas
  MeanSpec GreedySpec MetricSpec MetricModel MetricProofs MetricProofs2 MetricProofs3.
Import ListNotations.
Open Scope R_scope.

Notation kE k := (fun a b => Fin (k a b) : ER).
(** a data set with finite weights; [s] is the optional supervision *)
Notation D xs w s := (mkData xs (map Fin w) s).
Definition good {P} (xs : list P) (w : list R) : Prop :=
  xs <> [] /\ length xs = length w /\ Rsum w <> 0.

(** a PSD kernel: the linear kernel on the line (used by the examples) *)
Definition lin1 (a b : R) : R := a * b.
Lemma lin1_psd : psd lin1.
Proof.
  split; [intros; unfold lin1; lra|]. intros ms.
  assert (E : bil lin1 ms ms = lin ms (fun p => p) * lin ms (fun p => p)).
  { rewrite bil_lin. unfold lin1.
    rewrite (lin_ext ms _ (fun p => lin ms (fun q => q) * p)) by (intros p; rewrite lin_mul; lra).
    rewrite lin_mul. reflexivity. }
  rewrite E. apply Rle_0_sqr.
Qed.

Lemma lin_uniform {P} (xs : list P) f : lin (uniform xs) f = Rsum (map f xs) / INR (length xs).
Proof.
  unfold lin, uniform. rewrite map_map. cbn [fst snd]. unfold Rdiv. rewrite <- Rsum_map_scal_r.
  apply Rsum_map_ext. intros; lra.
Qed.

(** ** C12 *)
(** The value is exactly the square root of the squared MMD: the clamp is inactive. *)
Theorem C12_mmd_value :
  forall P Y (p0 : P) (y0 : Y) (k : P -> P -> R) xs w (s : option (list Y)) ys v s' bs,
    psd k -> good xs w -> good ys v ->
    0 <= mmd2 k xs w ys v /\
    mmd_compute EROps p0 y0 (kE k) (D xs w s) (D ys v s') bs = Ok (Fin (sqrt (mmd2 k xs w ys v))).
Proof.
  intros P Y p0 y0 k xs w s ys v s' bs Hk [H1 [H2 H3]] [H4 [H5 H6]].
  assert (N := mmd2_nonneg k xs w ys v Hk). split; [assumption|].
  rewrite mmd_compute_value by assumption. now rewrite Rmax_right.
Qed.
Print Assumptions C12_mmd_value.
Theorem C12_mmd_pseudo_metric :
  forall P Y (p0 : P) (y0 : Y) (k : P -> P -> R) xs w (sx : option (list Y)) ys v sy zs u sz bs,
    psd k -> good xs w -> good ys v -> good zs u ->
    let mmd := mmd_compute EROps p0 y0 (kE k) in
    exists a b c,
      mmd (D xs w sx) (D ys v sy) bs = Ok (Fin a) /\ mmd (D ys v sy) (D xs w sx) bs = Ok (Fin a) /\
      mmd (D ys v sy) (D zs u sz) bs = Ok (Fin b) /\ mmd (D xs w sx) (D zs u sz) bs = Ok (Fin c) /\
      0 <= a /\ c <= a + b /\ (same_dist xs w ys v -> a = 0).
Proof.
  intros P Y p0 y0 k xs w sx ys v sy zs u sz bs Hk Hx Hy Hz mmd. unfold mmd.
  exists (sqrt (mmd2 k xs w ys v)), (sqrt (mmd2 k ys v zs u)), (sqrt (mmd2 k xs w zs u)).
  rewrite (mmd2_sym k ys v xs w (proj1 Hk)) || idtac.
  split; [now apply C12_mmd_value|]. split.
  { rewrite (mmd2_sym k xs w ys v (proj1 Hk)). now apply C12_mmd_value. }
  split; [now apply C12_mmd_value|]. split; [now apply C12_mmd_value|].
  split; [apply sqrt_pos|]. split; [now apply mmd_triangle|].
  intros H. rewrite mmd2_zero by assumption. apply sqrt_0.
Qed.
Print Assumptions C12_mmd_pseudo_metric.
Example C12_case : psd lin1 /\ good [1; 2] [1; 3] /\ good [2; 5; 7] [1; 1; -1] /\ good [0] [2].
Proof. split; [exact lin1_psd|]. unfold good. simpl. repeat split; try discriminate; lra. Qed.
(** the clamp hides nothing, but without positive semi-definiteness it does: the true
    squared discrepancy is negative and 0 is returned *)
Theorem C12_clamp_needs_psd_refuted :
  exists k : R -> R -> R, (forall a b, k a b = k b a) /\
    mmd2 k [1] [1] [2] [1] < 0 /\
    mmd_compute EROps 0 tt (kE k) (D [1] [1] None) (D [2] [1] None) (BOne None) = Ok (Fin 0).
Proof.
  exists (fun a b => - (a * b)). split; [intros; lra|].
  assert (E : mmd2 (fun a b => - (a * b)) [1] [1] [2] [1] = -1).
  { unfold mmd2, wavg, wsum. simpl. field. }
  split; [rewrite E; lra|]. rewrite mmd_compute_value by (try discriminate; try reflexivity; simpl; lra).
  rewrite E, Rmax_left by lra. now rewrite sqrt_0.
Qed.
Print Assumptions C12_clamp_needs_psd_refuted.

(** ** C13 *)
Theorem C13_mmd_depends_on_distributions_only :
  forall P Y (p0 : P) (y0 : Y) (k : P -> P -> R) xs w (s : option (list Y)) ys v t xs' w' s' ys' v' t' bs bs',
    good xs w -> good ys v -> good xs' w' -> good ys' v' ->
    same_dist xs w xs' w' -> same_dist ys v ys' v' ->
    mmd_compute EROps p0 y0 (kE k) (D xs w s) (D ys v t) bs
    = mmd_compute EROps p0 y0 (kE k) (D xs' w' s') (D ys' v' t') bs'.
Proof.
  intros P Y p0 y0 k xs w s ys v t xs' w' s' ys' v' t' bs bs' [A1 [A2 A3]] [B1 [B2 B3]] [C1 [C2 C3]] [D1 [D2 D3]] H1 H2.
  rewrite !mmd_compute_value by assumption. now rewrite (mmd2_same k xs w xs' w' ys v ys' v').
Qed.
Print Assumptions C13_mmd_depends_on_distributions_only.
(** the representation changes named in the property preserve the distribution *)
Theorem C13_representation_changes :
  forall P (xs : list P) (w : list R), length xs = length w ->
    (* rescaling *) (forall c, c <> 0 -> same_dist xs (map (Rmult c) w) xs w) /\
    (* permuting *) (forall ys v, length ys = length v -> Permutation (combine xs w) (combine ys v) -> same_dist xs w ys v) /\
    (* splitting or merging duplicates *)
    (forall x a b ys v, same_dist (xs ++ x :: x :: ys) (w ++ a :: b :: v) (xs ++ x :: ys) (w ++ (a + b) :: v)) /\
    (* zero-weight points *) (forall zs, same_dist (xs ++ zs) (w ++ repeat 0 (length zs)) xs w).
Proof.
  intros P xs w H. split; [intros; now apply same_scale|]. split; [intros; now apply same_perm|].
  split; [intros; now apply same_split|]. intros; now apply same_zero.
Qed.
Print Assumptions C13_representation_changes.
Example C13_case : good [1; 1; 2] [2; 4; 2] /\ good [2; 1] [1; 3] /\ same_dist [1; 1; 2] [2; 4; 2] [2; 1] [1; 3].
Proof.
  unfold good. simpl. repeat split; try discriminate; try lra. intros f. unfold wavg, wsum. simpl. field.
Qed.

(** ** C14 *)
(** JMMD is the MMD of the joint data under the product kernel. *)
Theorem C14_jmmd_is_joint_mmd :
  forall P Y (p0 : P) (y0 : Y) (k : P -> P -> R) (r : Y -> Y -> R) x1 y1 w1 x2 y2 w2,
    length x1 = length y1 -> length x2 = length y2 -> good x1 w1 -> good x2 w2 ->
    let joint := fun p q : P * Y => k (fst p) (fst q) * r (snd p) (snd q) in
    jmmd_compute EROps (kE k) (kE r) (D x1 w1 (Some y1)) (D x2 w2 (Some y2))
    = Ok (Fin (sqrt (Rmax 0 (mmd2 joint (combine x1 y1) w1 (combine x2 y2) w2)))) /\
    jmmd_compute EROps (kE k) (kE r) (D x1 w1 (Some y1)) (D x2 w2 (Some y2))
    = mmd_compute EROps (p0, y0) tt (kE joint) (D (combine x1 y1) w1 None) (D (combine x2 y2) w2 None) (BOne None).
Proof.
  intros P Y p0 y0 k r x1 y1 w1 x2 y2 w2 E1 E2 [A1 [A2 A3]] [B1 [B2 B3]] joint.
  assert (V := jmmd_value p0 y0 k r x1 y1 w1 x2 y2 w2 E1 E2 A2 B2 A3 B3).
  split; [exact V|]. rewrite V. rewrite mmd_compute_value; try assumption; try reflexivity.
  - destruct x1, y1; try discriminate; congruence.
  - destruct x2, y2; try discriminate; congruence.
  - rewrite combine_length. lia.
  - rewrite combine_length. lia.
Qed.
Print Assumptions C14_jmmd_is_joint_mmd.
Theorem C14_jmmd_discrepancy :
  forall P Y (p0 : P) (y0 : Y) (k : P -> P -> R) (r : Y -> Y -> R) x1 y1 w1 x2 y2 w2,
    (forall a b, k a b = k b a) -> (forall a b, r a b = r b a) ->
    length x1 = length y1 -> length x2 = length y2 -> good x1 w1 -> good x2 w2 ->
    exists a, 0 <= a /\
      jmmd_compute EROps (kE k) (kE r) (D x1 w1 (Some y1)) (D x2 w2 (Some y2)) = Ok (Fin a) /\
      jmmd_compute EROps (kE k) (kE r) (D x2 w2 (Some y2)) (D x1 w1 (Some y1)) = Ok (Fin a) /\
      (same_dist (combine x1 y1) w1 (combine x2 y2) w2 -> a = 0).
Proof.
  intros P Y p0 y0 k r x1 y1 w1 x2 y2 w2 Hk Hr E1 E2 H1 H2.
  eexists. split; [apply sqrt_pos|].
  split; [now apply (C14_jmmd_is_joint_mmd _ _ p0 y0)|]. split.
  - rewrite mmd2_sym; [now apply (C14_jmmd_is_joint_mmd _ _ p0 y0)|]. intros a b. now rewrite Hk, Hr.
  - intros H. rewrite mmd2_zero by assumption. rewrite Rmax_left by lra. apply sqrt_0.
Qed.
Print Assumptions C14_jmmd_discrepancy.
(** AMCMD is the root mean squared RKHS distance of the two regularised conditional
    mean embeddings over the conditioning points, provided [jnp.linalg.solve] solved the two systems
    ([rgram p0 k reg x] is the matrix k(x_i, x_j) + reg [i = j]). *)
Theorem C14_amcmd_value :
  forall P Y (p0 : P) (y0 : Y) (k : P -> P -> R) (r : Y -> Y -> R) linsolve reg
         x1 (w1 : list ER) y1 x2 (w2 : list ER) y2 (d3 : option (list P)),
    let x3 := match d3 with None => x1 | Some x => x end in
    solves_matrix linsolve (length x3) (rgram p0 k reg x1) (pairwise k x1 x3) ->
    solves_matrix linsolve (length x3) (rgram p0 k reg x2) (pairwise k x2 x3) ->
    psd r -> x3 <> [] ->
    exists S1 S2,
      (* (K_i + reg I) S_i = k(x_i, x3) *)
      cme_weights p0 k reg x1 x3 S1 /\ cme_weights p0 k reg x2 x3 S2 /\
      amcmd_compute EROps linsolve (kE k) (kE r) (Fin reg) (mkData x1 w1 (Some y1)) (mkData x2 w2 (Some y2)) d3
      = Ok (Fin (sqrt (Rsum (map (fun c =>
          let mu := combine y1 (Rcol S1 c) ++ combine y2 (map Ropp (Rcol S2 c)) in bil r mu mu)
          (seq 0 (length x3))) / INR (length x3)))).
Proof. intros. eapply amcmd_value; eassumption. Qed.
Print Assumptions C14_amcmd_value.
Theorem C14_amcmd_zero_on_identical :
  forall P Y (p0 : P) (y0 : Y) (k : P -> P -> R) (r : Y -> Y -> R) linsolve reg x (w w' : list ER) y (d3 : option (list P)),
    let x3 := match d3 with None => x | Some x' => x' end in
    solves_matrix linsolve (length x3) (rgram p0 k reg x) (pairwise k x x3) ->
    psd k -> psd r -> 0 < reg -> x3 <> [] ->
    amcmd_compute EROps linsolve (kE k) (kE r) (Fin reg) (mkData x w (Some y)) (mkData x w' (Some y)) d3 = Ok (Fin 0).
Proof. intros. eapply (amcmd_same p0 y0 k r); eassumption. Qed.
Print Assumptions C14_amcmd_zero_on_identical.
Theorem C14_amcmd_symmetric :
  forall P Y (p0 : P) (y0 : Y) (k : P -> P -> R) (r : Y -> Y -> R) linsolve reg
         x1 (w1 : list ER) y1 x2 (w2 : list ER) y2 (x3 : list P),
    solves_matrix linsolve (length x3) (rgram p0 k reg x1) (pairwise k x1 x3) ->
    solves_matrix linsolve (length x3) (rgram p0 k reg x2) (pairwise k x2 x3) ->
    psd k -> psd r -> 0 < reg -> x3 <> [] ->
    amcmd_compute EROps linsolve (kE k) (kE r) (Fin reg) (mkData x1 w1 (Some y1)) (mkData x2 w2 (Some y2)) (Some x3)
    = amcmd_compute EROps linsolve (kE k) (kE r) (Fin reg) (mkData x2 w2 (Some y2)) (mkData x1 w1 (Some y1)) (Some x3).
Proof. intros. eapply (amcmd_sym p0 y0 k r); eassumption. Qed.
Print Assumptions C14_amcmd_symmetric.
Example C14_case : exists linsolve,
  solves_matrix linsolve 1 (rgram 0 lin1 1 [2]) (pairwise lin1 [2] [3]) /\
  solves_matrix linsolve 1 (rgram 0 lin1 1 [1]) (pairwise lin1 [1] [3]) /\ psd lin1.
Proof.
  exists (fun A B => match A, B with
    | [[Fin a]], [[Fin b]] => [[Fin (b / a)]]
    | _, _ => [] end).
  split; [|split; [|exact lin1_psd]].
  - exists [[6 / 5]]. unfold rgram, pairwise, lin1, is_mat, Rmv, Rcol, Rdot. simpl. split; [do 3 f_equal; lra|].
    split; [split; [reflexivity|intros row [<-|[]]; reflexivity]|]. intros [|j] Hj; [f_equal; lra|lia].
  - exists [[3 / 2]]. unfold rgram, pairwise, lin1, is_mat, Rmv, Rcol, Rdot. simpl. split; [do 3 f_equal; lra|].
    split; [split; [reflexivity|intros row [<-|[]]; reflexivity]|]. intros [|j] Hj; [f_equal; lra|lia].
Qed.
Theorem C14_amcmd_rejects_negative_regularisation :
  forall reg : R, amcmd_init EROps (Fin reg) = if Rlt_dec reg 0 then Err ValueError else Ok (Fin reg).
Proof.
  intros. unfold amcmd_init. cbn [fltb EROps extOps eltb f0].
  destruct (Rlt_dec reg 0) as [H|H].
  - apply Rltb_true in H. cbn in *. now rewrite H.
  - assert (E : nltb ROps reg 0 = false) by (apply Rltb_false; lra). cbn in *. now rewrite E.
Qed.
Print Assumptions C14_amcmd_rejects_negative_regularisation.

(** ** C15 *)
(** [x] is whatever finite primal vector the QP solver returned for the problem it was
    handed; if some component is positive the weights are a point of the simplex,
    proportional to the positive parts. *)
Theorem C15_qp_weights_simplex :
  forall (osqp : @qp_solver ER) kmm grm (x : list R),
    (forall c a b g h, osqp kmm c a b g h = map Fin x) ->
    (exists a, In a x /\ 0 < a) ->
    exists w, solve_qp EROps osqp kmm grm = map Fin w /\ length w = length x /\
      (forall a, In a w -> 0 <= a) /\ Rsum w = 1 /\
      exists c, 0 < c /\ forall i, (i < length x)%nat -> nth i w 0 = c * Rmax 0 (nth i x 0).
Proof.
  intros osqp kmm grm x E P. 
  destruct (solve_qp_simplex osqp kmm grm x (E _ _ _ _ _) P) as [E1 [S1 S2]].
  eexists. split; [exact E1|]. split; [now rewrite map_length|]. split; [exact S1|]. split; [exact S2|].
  assert (HS : 0 < Rsum (map (Rmax 0) x)).
  { destruct P as [a [Ha Pa]]. clear - Ha Pa. induction x as [|b x IH]; [destruct Ha|]. simpl.
    assert (0 <= Rsum (map (Rmax 0) x)).
    { apply Rsum_nonneg. intros c Hc. apply in_map_iff in Hc as [d [<- _]]. apply Rmax_l. }
    pose proof (Rmax_l 0 b). destruct Ha as [->|Ha]; [rewrite Rmax_right by lra; lra|specialize (IH Ha); lra]. }
  exists (/ Rsum (map (Rmax 0) x)). split; [now apply Rinv_0_lt_compat|].
  intros i Hi. rewrite (GreedyProofs.nth_map_lt _ x i 0) by assumption. unfold Rdiv. lra.
Qed.
Print Assumptions C15_qp_weights_simplex.
Example C15_case : exists a, In a [-1; 3; 0; 1] /\ 0 < a.
Proof. exists 3. simpl. split; [auto|lra]. Qed.
(** Finding: if no component is positive, every weight is NaN. *)
Theorem C15_no_positive_component_refuted :
  forall (osqp : @qp_solver ER) kmm grm (x : list R),
    (forall c a b g h, osqp kmm c a b g h = map Fin x) ->
    (forall a, In a x -> a <= 0) ->
    solve_qp EROps osqp kmm grm = repeat NaN (length x).
Proof.
  intros osqp kmm grm x E H. unfold solve_qp. rewrite E.
  rewrite (map_map Fin (fun v => fmax EROps (f0 EROps) v)).
  rewrite (map_ext_in (fun a => fmax EROps (f0 EROps) (Fin a)) (fun _ => Fin 0)).
  - assert (Z : map (fun _ => Fin 0 : ER) x = map Fin (map (fun _ => 0) x)) by now rewrite map_map.
    cbn zeta. rewrite Z, fsum_fin, Rsum_map_const0, !map_map.
    rewrite (map_ext _ (fun _ => NaN)) by (intros; apply fdiv_zero_zero).
    clear. induction x; simpl; auto. now f_equal.
  - intros a Ha. rewrite fmax0_fin, Rmax_left; auto.
Qed.
Print Assumptions C15_no_positive_component_refuted.
(** If the QP solver returned an exact minimiser of the problem it was handed, then
    MMDWeightsOptimiser returns weights that minimise the (regularised) squared MMD to
    the uniformly weighted data over the simplex. *)
Theorem C15_mmd_weights_optimal_on_simplex :
  forall P Y (p0 : P) (y0 : Y) (k : P -> P -> R) osqp xd (wd : list ER) xc (wc : list ER) eps bs,
    (forall a b, k a b = k b a) -> xd <> [] -> xc <> [] ->
    let n := length xc in
    let mean := map (fun c => Rsum (map (fun x => k x c) xd) / INR (length xd)) xc in
    (* min 1/2 w.(K + eps I).w - mean.w  subject to  sum w = 1, -w <= 0 *)
    solves_qp osqp (rgram p0 k eps xc) (map Ropp mean) [repeat 1 n] [1] (neg_eye n) (repeat 0 n) ->
    exists w, mmdw_solve EROps p0 y0 osqp (kE k) (mkData xd wd None) (mkData xc wc None) (Fin eps) bs = Ok (map Fin w)
      /\ length w = length xc /\ simplex w
      /\ forall v, length v = length xc -> simplex v ->
           ridge_mmd2 k eps (uniform xd) xc w <= ridge_mmd2 k eps (uniform xd) xc v.
Proof.
  intros P Y p0 y0 k osqp xd wd xc wc eps bs Hs Hd Hc n mean H. apply mmdw_optimal; try assumption. cbn zeta.
  replace (map (fun c => lin (uniform xd) (fun x => k x c)) xc) with mean; [exact H|].
  apply map_ext. intros c. symmetry. apply lin_uniform.
Qed.
Print Assumptions C15_mmd_weights_optimal_on_simplex.
Example C15_optimal_case : exists osqp,
  solves_qp osqp (rgram 0 lin1 0 [2]) (map Ropp [3]) [repeat 1 1] [1] (neg_eye 1) (repeat 0 1).
Proof.
  exists (fun _ _ _ _ _ _ => [Fin 1]). exists [1]. split; [reflexivity|]. split; [reflexivity|].
  split; [apply simplex_feasible; [reflexivity|]; split; [intros a [<-|[]]; lra|simpl; lra]|].
  intros y Hy F. apply simplex_feasible in F; [|exact Hy]. destruct F as [_ F].
  destruct y as [|b [|]]; try discriminate. simpl in F. replace b with 1 by lra. lra.
Qed.

(** ** C16 *)
(** Missing from the property: non-uniform data weights, for which it is false (below). *)
Theorem C16_sbq_optimal_partial :
  forall P Y (p0 : P) (y0 : Y) (k : P -> P -> R) linsolve xd (wd : list ER) xc (wc : list ER) eps bs,
    psd k -> 0 <= eps -> xd <> [] -> xc <> [] ->
    (* [jnp.linalg.solve] returned a solution of (K + eps I) w = mean *)
    solves_vector linsolve (rgram p0 k eps xc)
      (map (fun c => Rsum (map (fun x => k x c) xd) / INR (length xd)) xc) ->
    exists w, sbq_solve EROps p0 y0 linsolve (kE k) (mkData xd wd None) (mkData xc wc None) (Fin eps) bs = Ok (map Fin w)
      /\ length w = length xc
      /\ forall v, length v = length xc ->
           ridge_mmd2 k eps (uniform xd) xc w <= ridge_mmd2 k eps (uniform xd) xc v.
Proof.
  intros P Y p0 y0 k linsolve xd wd xc wc eps bs Hk He Hd Hc H. apply sbq_optimal; try assumption.
  erewrite map_ext; [exact H|]. intros c. apply lin_uniform.
Qed.
Print Assumptions C16_sbq_optimal_partial.
Example C16_case : psd lin1 /\ exists linsolve, solves_vector linsolve (rgram 0 lin1 1 [2])
   (map (fun c => Rsum (map (fun x => lin1 x c) [1; 5]) / INR (length [1; 5])) [2]).
Proof.
  split; [exact lin1_psd|]. exists (fun _ _ => [Fin (6 / 5)]). exists [6 / 5]. split; [reflexivity|].
  split; [reflexivity|]. unfold Rmv, rgram, Rdot, lin1. simpl. f_equal. field.
Qed.
(** Finding: data weights are ignored.  Data {0 (weight 3), 1 (weight 1)}, coreset {0},
    equality kernel: the optimum for the weighted data is 3/4, the result is 1/2. *)
Theorem C16_weighted_data_refuted :
  exists (k : R -> R -> R) linsolve (w : list R) (v : list R),
    sbq_solve EROps 0 tt linsolve (kE k) (D [0; 1] [3; 1] None) (D [0] [1] None) (Fin 0) (BOne None) = Ok (map Fin w)
    /\ Rmv (pairwise k [0] [0]) w = map (fun c => Rsum (map (fun x => k x c) [0; 1]) / 2) [0]
    /\ psd k
    /\ (let data := [(0, 3 / 4); (1, 1 / 4)] in
        ridge_mmd2 k 0 data [0] v < ridge_mmd2 k 0 data [0] w).
Proof.
  exists (fun a b => (1 - a) * (1 - b) + a * b), (fun _ b => b), [1 / 2], [3 / 4].
  split.
  { unfold sbq_solve. rewrite prepare_value; try discriminate; [|intros; lra]. cbn [bind].
    do 2 f_equal. unfold lin, uniform. simpl. f_equal. field. }
  split.
  { unfold Rmv, pairwise, Rdot. simpl. f_equal. field. }
  split.
  { split; [intros; lra|]. intros ms.
    assert (E : bil (fun a b => (1 - a) * (1 - b) + a * b) ms ms
      = lin ms (fun p => 1 - p) * lin ms (fun p => 1 - p) + lin ms (fun p => p) * lin ms (fun p => p)).
    { rewrite bil_lin.
      rewrite (lin_ext ms _ (fun p => lin ms (fun q => 1 - q) * (1 - p) + lin ms (fun q => q) * p)).
      - rewrite lin_add. rewrite (lin_mul ms _ (fun p => 1 - p)), (lin_mul ms _ (fun p => p)). reflexivity.
      - intros p. rewrite (lin_add ms (fun q => (1 - p) * (1 - q)) (fun q => p * q)), (lin_mul ms (1 - p) (fun q => 1 - q)), (lin_mul ms p (fun q => q)). lra. }
    rewrite E. apply Rplus_le_le_0_compat; apply Rle_0_sqr. }
  cbn zeta. unfold ridge_mmd2, bil. simpl. lra.
Qed.
Print Assumptions C16_weighted_data_refuted.
(** supervised data is rejected by both optimisers *)
Theorem C44_weight_optimisers_supervised_refuted :
  forall V (O : FOps V) P Y (p0 : P) (y0 : Y) k linsolve osqp x w (y : list Y) coreset eps bs,
    sbq_solve O p0 y0 linsolve k (mkData x w (Some y)) coreset eps bs = Err ValueError /\
    mmdw_solve O p0 y0 osqp k (mkData x w (Some y)) coreset eps bs = Err ValueError.
Proof. intros. split; reflexivity. Qed.
Print Assumptions C44_weight_optimisers_supervised_refuted.

(** ** C46: kernelised Stein discrepancy *)
Theorem C46_ksd_value :
  forall P Y (p0 : P) (y0 : Y) (conv : list P -> P -> P -> R) logpdf laplace (lc rg : bool) bs
         x (wx : list ER) ys wy (lp lap : list R),
    good ys wy -> logpdf x wx ys = map Fin lp -> laplace x ys = map Fin lap ->
    let m := INR (length ys) in
    ksd_compute EROps p0 y0 (fun c a b => Fin (conv c a b)) logpdf laplace lc rg bs
      (mkData x wx None) (mkData ys (map Fin wy) (@None (list Y)))
    = Ok (Fin (sqrt (Rmax 0 (wavg (fun a => wavg (fun b => conv x a b) ys wy) ys wy
               + (if lc then Rsum lap / (m * m) else 0) - (if rg then Rsum lp / m / m else 0))))).
Proof. intros P Y p0 y0 conv logpdf laplace lc rg bs x wx ys wy lp lap [H1 [H2 H3]]. intros. now apply ksd_value. Qed.
Print Assumptions C46_ksd_value.
(** for a PSD Stein kernel and no corrections the clamp is inactive *)
Theorem C46_ksd_clamp_inactive :
  forall P Y (p0 : P) (y0 : Y) (conv : list P -> P -> P -> R) logpdf laplace bs x (wx : list ER) ys wy lp lap,
    psd (conv x) -> good ys wy -> logpdf x wx ys = map Fin lp -> laplace x ys = map Fin lap ->
    ksd_compute EROps p0 y0 (fun c a b => Fin (conv c a b)) logpdf laplace false false bs
      (mkData x wx None) (mkData ys (map Fin wy) (@None (list Y)))
    = Ok (Fin (sqrt (wavg (fun a => wavg (fun b => conv x a b) ys wy) ys wy))).
Proof.
  intros. rewrite (C46_ksd_value _ _ p0 y0 conv logpdf laplace false false bs x wx ys wy lp lap) by assumption.
  do 3 f_equal. rewrite wavg2_bil. pose proof (proj2 H (nm ys wy)). rewrite Rmax_right; lra.
Qed.
Print Assumptions C46_ksd_clamp_inactive.
