(** * Property theorem: how well randomly pivoted Cholesky covers the data (C68)

    [s us] is an RPCholesky solver whose random key makes [us] the random numbers used
    by the successive pivots, [draw p u] the index that [jax.random.choice] draws with
    weights [p] from the number [u]; the expectation is over [us] independent and uniform
    on the unit interval. *)
From Coq Require Import List ZArith QArith Reals Lra Lia Bool Permutation.
From Verif Require Import Num Jax RSum JaxFacts DataModel GreedyModel CholModel CholSpec MetricSpec MetricProofs MapReduceProofs3 KTProofs2
  GreedyProofs CholProofs CholProofs2 PropChol PropKT HalvingSpec HalvingProofs PropHalving PivotSpec PivotProofs PivotProofs2 PivotProofs3.
From Coquelicot Require Import Coquelicot.
Import ListNotations.
Open Scope R_scope.

Lemma bil_points {P} (k : P -> P -> R) (x : nat -> P) ms ns :
  bil (fun i j => k (x i) (x j)) ms ns = bil k (map (fun q => (x (fst q), snd q)) ms) (map (fun q => (x (fst q), snd q)) ns).
Proof.
  unfold bil. rewrite map_map. apply Rsum_map_ext. intros a _. cbn [fst snd]. f_equal. rewrite map_map. reflexivity.
Qed.
Lemma span_points {P} (k : P -> P -> R) (x : nat -> P) l i e :
  span_distance2 (fun i j => k (x i) (x j)) l i e -> span_distance2 k (map x l) (x i) e.
Proof.
  unfold span_distance2. cbv zeta. rewrite map_length.
  assert (E : forall cs, bil (fun i j => k (x i) (x j)) ((i, 1) :: combine l cs) ((i, 1) :: combine l cs)
                       = bil k ((x i, 1) :: combine (map x l) cs) ((x i, 1) :: combine (map x l) cs)).
  { intro cs. rewrite bil_points. cbn [map fst snd]. replace (map (fun q => (x (fst q), snd q)) (combine l cs)) with (combine (map x l) cs); [reflexivity|].
    revert cs. clear. induction l as [|a l IH]; intros [|c cs]; cbn; try reflexivity. now rewrite IH. }
  intros [A (cs & HL & B)]. split; [intros ds Hd; rewrite <- E; now apply A|]. exists cs. split; [exact HL|]. now rewrite <- E.
Qed.
Lemma residual_rows {I} l : forall (K : I -> I -> R), psd K -> forall p j, In p l -> residual K l p j = 0.
Proof.
  induction l as [|q l IH] using rev_ind; intros K HK p j Hp; [contradiction|]. rewrite residual_snoc.
  apply in_app_iff in Hp as [Hp|[<-|[]]].
  - apply eliminate_zero_row. intro j'. now apply IH.
  - pose proof (residual_psd l K HK) as HQ. destruct (Req_dec (residual K l q q) 0) as [Z|Z].
    + rewrite eliminate_null by assumption. now apply psd_zero.
    + apply eliminate_row; [apply HQ|exact Z].
Qed.
Lemma tail_nonneg n vs K : orthonormal n vs -> psd K -> 0 <= tq n K - cq n vs K.
Proof.
  intros HO HK. assert (M : forall l, tq n (residual K l) - cq n vs (residual K l) <= tq n K - cq n vs K).
  { intro l. induction l as [|p l IH] using rev_ind; [apply Rle_refl|]. rewrite residual_snoc.
    eapply Rle_trans; [|exact IH]. apply tail_mono; [exact HO|now apply residual_psd]. }
  specialize (M (seq 0 n)). set (Q := residual K (seq 0 n)) in *.
  assert (Z : forall i j, (i < n)%nat -> Q i j = 0) by (intros i j Hi; apply residual_rows; [exact HK|apply in_seq; lia]).
  replace (tq n Q) with 0 in M.
  2: { unfold tq. symmetry. rewrite (Rsum_map_ext _ (fun _ => 0)); [apply Rsum_map_const0|]. intros i Hi. apply in_seq in Hi. apply Z. lia. }
  replace (cq n vs Q) with 0 in M; [lra|].
  unfold cq. symmetry. rewrite (Rsum_map_ext _ (fun _ => 0)); [apply Rsum_map_const0|]. intros v _. rewrite quad_inner. unfold inner at 1.
  rewrite (Rsum_map_ext _ (fun _ => 0)); [apply Rsum_map_const0|]. intros i Hi. apply in_seq in Hi. cbv beta.
  replace (inner n v (fun j => Q i j)) with 0; [ring|]. unfold inner. symmetry.
  rewrite (Rsum_map_ext _ (fun _ => 0)); [apply Rsum_map_const0|]. intros j _. cbv beta. rewrite Z by lia. ring.
Qed.
Lemma trace_index {P} (k : P -> P -> R) p0 xs : gram_trace k xs = tq (length xs) (fun i j => k (nth i xs p0) (nth j xs p0)).
Proof.
  unfold gram_trace, tq. rewrite <- (GreedyProofs2.map_nth_seq xs p0) at 1. now rewrite map_map.
Qed.
Lemma captured_index {P} (k : P -> P -> R) p0 xs vs :
  captured k p0 xs vs = cq (length xs) vs (fun i j => k (nth i xs p0) (nth j xs p0)).
Proof.
  unfold captured, cq. apply Rsum_map_ext. intros v _. rewrite quad_inner. unfold inner at 1. apply Rsum_map_ext. intros i _. cbv beta.
  unfold inner. rewrite <- Rsum_map_scal. apply Rsum_map_ext. intros; ring.
Qed.

(** ** C68 (Chen, Epperly, Tropp and Webber 2023, Theorem 3.1).  The error of a coreset
    is the sum over the data of the squared feature-space distances to the span of the
    coreset. [vs] are [r] orthonormal directions that leave at most [B] of the trace of
    the Gram matrix uncovered. *)
Theorem C68_expected_error :
  forall P Y (p0 : P) (y0 : Y) (k : P -> P -> R) (d : Data P Y ER) (m : nat)
         (draw : list ER -> R -> nat) (s : list R -> @rpcholesky ER P)
         (vs : list (nat -> R)) (B eps : R),
    psd k -> (m <= d_len d)%nat -> draws_by_weight draw ->
    (forall us, unit_cube m us ->
       ch_size (s us) = m /\ (forall a b, ch_kernel (s us) a b = Fin (k a b)) /\ pick_ok (ch_pick (s us)) /\
       forall i p, (i < m)%nat -> ch_pick (s us) i p = draw p (nth i us 0)) ->
    vs <> [] -> orthonormal (d_len d) vs -> 0 < B -> 0 < eps ->
    gram_trace k (d_x d) - captured k p0 (d_x d) vs <= B ->
    INR (length vs) / eps + INR (length vs) * ln (gram_trace k (d_x d) / (eps * B)) <= INR m ->
    exists (err : list R -> R) (v : R),
      (forall us, unit_cube m us -> exists l diag es,
         chol_reduce EROps p0 y0 (s us) d None = Ok (mkCS (map Z.of_nat l) (repeat (Fin 1) m) d, diag) /\
         length es = d_len d /\
         (forall i, (i < d_len d)%nat ->
            span_distance2 k (map (fun j => nth j (d_x d) p0) l) (nth i (d_x d) p0) (nth i es 0)) /\
         err us = Rsum es) /\
      expect m err v /\ v <= (1 + eps) * B.
Proof.
  intros P Y p0 y0 k d m draw s vs B eps Hk Hm Hdraw HS Hv0 HO HB He HT Hmm.
  set (x := d_x d) in *. set (n := length x). set (K := fun i j => k (nth i x p0) (nth j x p0)).
  change (d_len d) with n in *.
  assert (HK : psd K).
  { split; [intros; apply Hk|]. intro ms. unfold K. rewrite (bil_points k (fun i => nth i x p0)). apply Hk. }
  rewrite (trace_index k p0), (captured_index k p0) in HT. fold n K in HT.
  rewrite (trace_index k p0) in Hmm. fold n K in Hmm.
  exists (fun us => tq n (residual K (chain n K draw us []))), (cval n K m []).
  split; [|split].
  - intros us HU. destruct (HS us HU) as (S1 & S2 & S3 & S4).
    destruct (chol_picks p0 (s us) k x S3 S2 Hk ltac:(rewrite S1; exact Hm) m ltac:(rewrite S1; lia)) as (l & L1 & L2 & L3 & _ & L5).
    rewrite S1 in L2. rewrite Nat.sub_diag, app_nil_r in L2.
    assert (TR : tq n (residual K l) = tq n (residual K (chain n K draw us []))).
    { apply (chain_spec n K HK draw us [] l); [cbn; rewrite L1; symmetry; apply HU|reflexivity|exact L3|].
      cbn [length Nat.add]. intros t Ht N1 N2. rewrite <- S4 by (destruct HU as [HU _]; lia).
      apply L5; [destruct HU as [HU _]; lia|]. intros v Hv. apply (live_trace p0 k x (firstn v l) Hk). fold n K.
      destruct (Nat.eq_dec v t) as [->|Ne]; [exact N1|]. apply N2. lia. }
    eexists l, _, (map (fun i => residual K l i i) (seq 0 n)). split; [|split; [|split]].
    + unfold chol_reduce. rewrite initial_ok by (rewrite S1; exact Hm). cbn [bind c_idx]. fold x n. rewrite S1.
      unfold cs_build, conv_data, cs_init. cbn [bind].
      fold n in L2. rewrite L2.
      assert (PL : d_len (points EROps p0 y0 (mkCS (map Z.of_nat l) (repeat (f1 EROps) (length (map Z.of_nat l))) d)) = m).
      { unfold points, d_len, d_getitem. cbn [d_x c_pre c_idx]. now rewrite gather_length, map_length. }
      rewrite PL, (proj2 (Nat.ltb_ge _ _)) by exact Hm. cbn [bind]. rewrite map_length, L1. reflexivity.
    + now rewrite map_length, seq_length.
    + intros i Hi. rewrite (nth_indep _ 0 (residual K l 0%nat 0%nat)) by (rewrite map_length, seq_length; lia).
      rewrite (map_nth (fun i => residual K l i i)), seq_nth by lia. cbn [Nat.add].
      apply (span_points k (fun j => nth j x p0)). apply (residual_span l K HK i).
    + symmetry. exact TR.
  - apply expect_chain; assumption.
  - eapply Rle_trans; [apply (cval_bound n vs HO Hv0 K HK B HB m []); exact HT|]. cbn [residual fold_left].
    pose proof (cq_nonneg n vs K HK) as HC. pose proof (tail_nonneg n vs K HO HK) as TN. pose proof (r_ge1 vs Hv0) as Hr.
    enough (Nat.iter m (step (INR (length vs)) B) (cq n vs K) <= eps * B) by lra.
    destruct HC as [HC|HC].
    + apply (descent (INR (length vs)) B eps (cq n vs K) Hr HB He ltac:(lra) m (tq n K)); [lra|lra|exact Hmm].
    + rewrite <- HC. replace (Nat.iter m (step (INR (length vs)) B) 0) with 0; [nra|].
      clear. symmetry. induction m as [|m IH]; [reflexivity|]. change (step (INR (length vs)) B (Nat.iter m (step (INR (length vs)) B) 0) = 0).
      rewrite IH. unfold step, Rdiv. ring.
Qed.
Print Assumptions C68_expected_error.

(** Drawing by inversion of the cumulative weights meets the assumption. *)
Fixpoint invert (p : list R) (t : R) : nat :=
  match p with
  | [] => 0%nat
  | a :: p => if Rlt_dec 0 a then (if Rle_dec t a then 0%nat else S (invert p (t - a))) else S (invert p (t - a))
  end.
Definition unfin (v : ER) : R := match v with Fin r => r | _ => 0 end.
Definition inv_draw (q : list ER) (u : R) : nat :=
  Nat.min (invert (map unfin q) (u * Rsum (map unfin q))) (length q - 1).
Lemma unfin_fin p : map unfin (map Fin p) = p.
Proof. rewrite map_map. apply map_id. Qed.
Lemma nonneg_sum p : (forall r, In r p -> 0 <= r) -> 0 <= Rsum p.
Proof. induction p as [|a p IH]; intro H; cbn; [lra|]. pose proof (H a (or_introl eq_refl)). specialize (IH ltac:(intros; apply H; now right)). lra. Qed.
Lemma invert_positive p : forall t, (forall r, In r p -> 0 <= r) -> 0 < Rsum p -> t <= Rsum p ->
  (invert p t < length p)%nat /\ 0 < nth (invert p t) p 0.
Proof.
  induction p as [|a p IH]; intros t H HS Ht; [cbn in HS; lra|]. cbn [invert Rsum length] in *.
  pose proof (H a (or_introl eq_refl)) as Ha. pose proof (nonneg_sum p ltac:(intros; apply H; now right)) as HP.
  destruct (Rlt_dec 0 a) as [A|A]; [destruct (Rle_dec t a) as [T|T]|].
  - split; [lia|exact A].
  - destruct (IH (t - a) ltac:(intros; apply H; now right) ltac:(lra) ltac:(lra)). split; [lia|assumption].
  - destruct (IH (t - a) ltac:(intros; apply H; now right) ltac:(lra) ltac:(lra)). split; [lia|assumption].
Qed.
Lemma invert_integral p : (forall r, In r p -> 0 <= r) -> forall f : nat -> R,
  is_RInt (fun t => f (invert p t)) 0 (Rsum p) (Rsum (map (fun j => nth j p 0 * f j) (seq 0 (length p)))).
Proof.
  induction p as [|a p IH]; intros H f.
  - cbn. exact (is_RInt_point (V := R_NormedModule) _ 0).
  - pose proof (H a (or_introl eq_refl)) as Ha. pose proof (nonneg_sum p ltac:(intros; apply H; now right)) as HP.
    cbn [length seq map Rsum nth]. rewrite <- seq_shift, map_map. cbn [nth].
    specialize (IH ltac:(intros; apply H; now right) (fun j => f (S j))).
    apply (is_RInt_Chasles (V := R_NormedModule) _ 0 a (a + Rsum p)).
    + apply (is_RInt_ext (fun _ => f 0%nat)).
      * rewrite Rmin_left, Rmax_right by lra. intros t Ht. cbn [invert]. destruct (Rlt_dec 0 a); [|lra]. destruct (Rle_dec t a); [reflexivity|lra].
      * replace (a * f 0%nat) with (scal (a - 0) (f 0%nat)) by (unfold scal; cbn; unfold mult; cbn; ring).
        apply (is_RInt_const (V := R_NormedModule) 0 a).
    + apply (is_RInt_ext (fun t => f (S (invert p (t - a))))).
      * rewrite Rmin_left, Rmax_right by lra. intros t Ht. cbn [invert]. destruct (Rlt_dec 0 a); [destruct (Rle_dec t a); [lra|reflexivity]|reflexivity].
      * assert (C := is_RInt_comp_lin (V := R_NormedModule) (fun t => f (S (invert p t))) 1 (- a) a (a + Rsum p)
          (Rsum (map (fun j => nth j p 0 * f (S j)) (seq 0 (length p))))).
        replace (1 * a + - a) with 0 in C by ring. replace (1 * (a + Rsum p) + - a) with (Rsum p) in C by ring. specialize (C IH).
        refine (is_RInt_ext _ _ _ _ _ _ C). intros t _. unfold scal. cbn. unfold mult. cbn. rewrite Rmult_1_l.
        now replace (1 * t + - a) with (t - a) by ring.
Qed.
Lemma inv_draw_fin p u : (forall r, In r p -> 0 <= r) -> 0 < Rsum p -> u <= 1 -> inv_draw (map Fin p) u = invert p (u * Rsum p).
Proof.
  intros H HS Hu. unfold inv_draw. rewrite unfin_fin, map_length. destruct (invert_positive p (u * Rsum p) H HS ltac:(nra)). lia.
Qed.
Lemma inv_draw_ok : draws_by_weight inv_draw.
Proof.
  intros p H HS f. set (S0 := Rsum p) in *.
  assert (C := is_RInt_comp_lin (V := R_NormedModule) (fun t => f (invert p t)) S0 0 0 1
    (Rsum (map (fun j => nth j p 0 * f j) (seq 0 (length p))))).
  replace (S0 * 0 + 0) with 0 in C by ring. replace (S0 * 1 + 0) with S0 in C by ring. specialize (C (invert_integral p H f)).
  pose proof (is_RInt_scal (V := R_NormedModule) _ 0 1 (/ S0) _ C) as D.
  replace (Rsum (map (fun j => nth j p 0 / S0 * f j) (seq 0 (length p))))
    with (scal (/ S0) (Rsum (map (fun j => nth j p 0 * f j) (seq 0 (length p))))).
  2: { unfold scal. cbn. unfold mult. cbn. rewrite <- Rsum_map_scal. apply Rsum_map_ext. intros; unfold Rdiv; ring. }
  refine (is_RInt_ext _ _ _ _ _ _ D). rewrite Rmin_left, Rmax_right by lra. intros u Hu.
  rewrite inv_draw_fin by (try assumption; lra). fold S0. unfold scal. cbn. unfold mult. cbn.
  replace (S0 * u + 0) with (u * S0) by ring. field. lra.
Qed.
Lemma inv_draw_pick us : (forall u, In u us -> 0 <= u <= 1) -> pick_ok (fun i p => inv_draw p (nth i us 0)).
Proof.
  intros HU i q Hq. split.
  - unfold inv_draw. assert (length q <> 0)%nat by (intro E; apply Hq; now apply length_zero_iff_nil). lia.
  - intros HF (r & Hr & Hpos).
    assert (E : q = map Fin (map unfin q)).
    { rewrite map_map. rewrite <- (map_id q) at 1. apply map_ext_in. intros v Hv. destruct (HF v Hv) as (r' & -> & _). reflexivity. }
    assert (N : forall a, In a (map unfin q) -> 0 <= a).
    { intros a Ha. apply in_map_iff in Ha as (v & <- & Hv). destruct (HF v Hv) as (r' & -> & Hr'). exact Hr'. }
    assert (SP : 0 < Rsum (map unfin q)).
    { assert (I : In r (map unfin q)) by (apply in_map_iff; exists (Fin r); split; [reflexivity|exact Hr]).
      revert N I. generalize (map unfin q). intros l N I. induction l as [|a l IH]; [contradiction|]. cbn.
      pose proof (N a (or_introl eq_refl)). pose proof (nonneg_sum l ltac:(intros; apply N; now right)).
      destruct I as [->|I]; [lra|]. specialize (IH ltac:(intros; apply N; now right) I). lra. }
    assert (U1 : nth i us 0 <= 1).
    { destruct (nth_in_or_default i us 0) as [I|Ez]; [apply HU, I|rewrite Ez; lra]. }
    remember (map unfin q) as p eqn:Ep. clear Ep. subst q. rewrite inv_draw_fin by assumption.
    set (j := invert _ _). destruct (invert_positive p (nth i us 0 * Rsum p) N SP ltac:(nra)) as [J1 J2]. fold j in J1, J2.
    exists (nth j p 0). split; [|exact J2].
    rewrite (nth_indep _ NaN (Fin 0)) by (rewrite map_length; exact J1). apply (map_nth (@Fin R)).
Qed.
(** three points on the line with the cosine kernel, one direction that leaves at most 3
    of the trace 3, two pivots, [eps = 1] *)
Example C68_applies :
  let d := mkData [0; 1; 3] [Fin 1; Fin 1; Fin 1] (@None (list unit)) in
  let s us := mkChol 2 (fun a b => Fin (cosk a b)) true (fun i p => inv_draw p (nth i us 0)) in
  let vs := [fun i : nat => if (i =? 0)%nat then 1 else 0] in
  psd cosk /\ (2 <= d_len d)%nat /\ draws_by_weight inv_draw /\
  (forall us, unit_cube 2 us ->
     ch_size (s us) = 2%nat /\ (forall a b, ch_kernel (s us) a b = Fin (cosk a b)) /\ pick_ok (ch_pick (s us)) /\
     forall i p, (i < 2)%nat -> ch_pick (s us) i p = inv_draw p (nth i us 0)) /\
  vs <> [] /\ orthonormal (d_len d) vs /\
  gram_trace cosk (d_x d) - captured cosk 0 (d_x d) vs <= 3 /\
  INR (length vs) / 1 + INR (length vs) * ln (gram_trace cosk (d_x d) / (1 * 3)) <= INR 2.
Proof.
  intros d s vs.
  assert (Z : forall r, cosk r r = 1) by (intro r; unfold cosk; replace (r - r) with 0 by lra; apply cos_0).
  split; [exact cosk_psd|]. split; [cbn; lia|]. split; [exact inv_draw_ok|]. split.
  { intros us [_ HU]. split; [reflexivity|]. split; [reflexivity|]. split; [exact (inv_draw_pick us HU)|]. reflexivity. }
  split; [discriminate|]. split; [cbn; repeat split; [ring|contradiction]|].
  split.
  - unfold gram_trace, captured, vs. cbn. rewrite !Z. lra.
  - unfold gram_trace. cbn. rewrite !Z. replace ((1 + (1 + (1 + 0))) / (1 * 3)) with 1 by field. rewrite ln_1. lra.
Qed.
