(** * Proofs about AMCMD and KSD *)
From Coq Require Import List ZArith Reals Lra Lia Bool Permutation.
From Verif Require Import Num Jax RSum JaxFacts DataModel MeanModel MeanProofs DataMeanLemmas DataProofs
  MeanSpec GreedySpec MetricSpec MetricModel GreedyProofs GreedyProofs2 GreedyProofs3 MetricProofs MetricProofs2.
Import ListNotations.
Open Scope R_scope.

(** [jnp.linalg.solve(A, B)] returned an exact solution; [B] has [c] columns *)
Definition solves_matrix (linsolve : list (list ER) -> list (list ER) -> list (list ER)) c (A B : list (list R)) : Prop :=
  exists X, linsolve (mm A) (mm B) = mm X /\ is_mat (length A) c X
            /\ forall j, (j < c)%nat -> Rmv A (Rcol X j) = Rcol B j.

Section Amcmd.
  Context {P Y : Type} (p0 : P) (y0 : Y) (k : P -> P -> R) (r : Y -> Y -> R).
  Notation kE := (fun a b => Fin (k a b) : ER).
  Notation rE := (fun a b => Fin (r a b) : ER).
  Lemma mcol_fin (S : list (list R)) j : mcol EROps (mm S) j = map Fin (Rcol S j).
  Proof.
    unfold mcol, Rcol. rewrite !map_map. apply map_ext. intros row. apply (map_nth Fin row 0).
  Qed.
  Lemma transpose_fin c (S : list (list R)) : transpose EROps c (mm S) = mm (map (Rcol S) (seq 0 c)).
  Proof. unfold transpose. rewrite map_map. apply map_ext. intros. apply mcol_fin. Qed.
  Lemma amcmd_term_fin n3 S1 (y1 : list Y) (y2 : list Y) S2 :
    amcmd_term EROps n3 (mm S1) (pairwise rE y1 y2) (length y2) (mm S2)
    = Fin (Rsum (map (fun c => bil r (combine y1 (Rcol S1 c)) (combine y2 (Rcol S2 c))) (seq 0 n3))).
  Proof.
    unfold amcmd_term. rewrite !transpose_fin. unfold matmul. rewrite !map_map.
    unfold mat2. rewrite map2_map_same. unfold msum. rewrite map_map.
    rewrite (map_ext _ (fun c => Fin (bil r (combine y1 (Rcol S1 c)) (combine y2 (Rcol S2 c))))).
    - rewrite <- (map_map _ Fin). apply fsum_fin.
    - intros c. rewrite (vecmat_pair (Rcol S1 c) y1 y2 y0 r).
      rewrite <- (map_map _ Fin).
      change (fsum EROps (map2 (fmul EROps) ?a ?b)) with (fdot EROps a b).
      rewrite fdot_fin, Rdot_lin, bil_swap. f_equal. apply lin_ext. intros q.
      rewrite Rdot_comm. apply Rdot_lin.
  Qed.
  (** the difference of the two conditional mean embeddings at conditioning point [c]:
      a signed measure on responses *)
  Definition cme_diff (y1 : list Y) (S1 : list (list R)) (y2 : list Y) (S2 : list (list R)) (c : nat) : list (Y * R) :=
    combine y1 (Rcol S1 c) ++ combine y2 (map Ropp (Rcol S2 c)).
  Lemma combine_opp (ys : list Y) v : combine ys (map Ropp v) = scal (-1) (combine ys v).
  Proof. unfold scal. revert v; induction ys; intros [|b v]; simpl; auto. f_equal; [f_equal; lra|apply IHys]. Qed.
  Lemma cme_diff_quad y1 S1 y2 S2 c : (forall a b, r a b = r b a) ->
    bil r (cme_diff y1 S1 y2 S2 c) (cme_diff y1 S1 y2 S2 c)
    = bil r (combine y1 (Rcol S1 c)) (combine y1 (Rcol S1 c)) + bil r (combine y2 (Rcol S2 c)) (combine y2 (Rcol S2 c))
      - 2 * bil r (combine y1 (Rcol S1 c)) (combine y2 (Rcol S2 c)).
  Proof.
    intros Hs. unfold cme_diff. rewrite combine_opp, bil_app_l, !bil_app_r, !bil_scal_l, !bil_scal_r.
    rewrite (bil_sym r (combine y2 _) (combine y1 _) Hs). lra.
  Qed.
  Lemma pairwise_mat (x1 x3 : list P) : exists B, pairwise kE x1 x3 = mm B /\ is_mat (length x1) (length x3) B
    /\ B = pairwise k x1 x3.
  Proof.
    exists (pairwise k x1 x3). split; [|split; [|reflexivity]].
    - unfold pairwise. rewrite map_map. apply map_ext. intros. now rewrite map_map.
    - unfold pairwise, is_mat. rewrite map_length. split; [reflexivity|].
      intros row H. apply in_map_iff in H as [x [<- _]]. now rewrite map_length.
  Qed.
  Definition x3_of (x1 : list P) (d3 : option (list P)) : list P := match d3 with None => x1 | Some x => x end.
  (** [S] solves (K + reg I) S = k(x, x3) *)
  Definition cme_weights (reg : R) (x x3 : list P) (S : list (list R)) : Prop :=
    is_mat (length x) (length x3) S /\
    forall c, (c < length x3)%nat -> Rmv (rgram p0 k reg x) (Rcol S c) = Rcol (pairwise k x x3) c.
  Lemma amcmd_raw linsolve reg x1 (w1 : list ER) y1 x2 (w2 : list ER) y2 d3 S1 S2 :
    (forall a b, r a b = r b a) -> x3_of x1 d3 <> [] ->
    linsolve (mm (rgram p0 k reg x1)) (mm (pairwise k x1 (x3_of x1 d3))) = mm S1 ->
    linsolve (mm (rgram p0 k reg x2)) (mm (pairwise k x2 (x3_of x1 d3))) = mm S2 ->
    amcmd_compute EROps linsolve kE rE (Fin reg) (mkData x1 w1 (Some y1)) (mkData x2 w2 (Some y2)) d3
    = Ok (Fin (sqrt (Rmax 0 (Rsum (map (fun c => bil r (cme_diff y1 S1 y2 S2 c) (cme_diff y1 S1 y2 S2 c))
                                       (seq 0 (length (x3_of x1 d3))))
                             / INR (length (x3_of x1 d3)))))).
  Proof.
    intros Hs H3 E1 E2. unfold amcmd_compute. cbn [d_x d_y d_w]. fold (x3_of x1 d3).
    set (x3 := x3_of x1 d3) in *.
    rewrite !(reg_gram_fin p0).
    destruct (pairwise_mat x1 x3) as [B1 [EB1 [_ ->]]]. rewrite EB1, E1.
    destruct (pairwise_mat x2 x3) as [B2 [EB2 [_ ->]]]. rewrite EB2, E2.
    rewrite !amcmd_term_fin. change (fofZ EROps 2) with (Fin 2 : ER).
    change (fofZ EROps (Z.of_nat (length x3))) with (Fin (IZR (Z.of_nat (length x3))) : ER).
    rewrite <- INR_IZR_INZ. change (f1 EROps) with (Fin 1 : ER).
    assert (INR (length x3) <> 0) by (apply not_0_INR; destruct x3; [congruence|discriminate]).
    rewrite fdiv_fin by assumption.
    cbn [fadd fmul fsub EROps extOps eadd emul esub nadd nmul nsub ROps].
    change (extOps ROps) with EROps. rewrite sqrt_max_fin. do 4 f_equal.
    rewrite (map_ext _ _ (fun c => cme_diff_quad y1 S1 y2 S2 c Hs)).
    rewrite (Rsum_map_sub (fun c => _ + _)), Rsum_map_add, Rsum_map_scal. unfold Rdiv. lra.
  Qed.
  Lemma amcmd_value linsolve reg x1 (w1 : list ER) y1 x2 (w2 : list ER) y2 d3 :
    solves_matrix linsolve (length (x3_of x1 d3)) (rgram p0 k reg x1) (pairwise k x1 (x3_of x1 d3)) ->
    solves_matrix linsolve (length (x3_of x1 d3)) (rgram p0 k reg x2) (pairwise k x2 (x3_of x1 d3)) ->
    psd r -> x3_of x1 d3 <> [] ->
    exists S1 S2, cme_weights reg x1 (x3_of x1 d3) S1 /\ cme_weights reg x2 (x3_of x1 d3) S2 /\
    amcmd_compute EROps linsolve kE rE (Fin reg) (mkData x1 w1 (Some y1)) (mkData x2 w2 (Some y2)) d3
    = Ok (Fin (sqrt (Rsum (map (fun c => bil r (cme_diff y1 S1 y2 S2 c) (cme_diff y1 S1 y2 S2 c))
                                       (seq 0 (length (x3_of x1 d3))))
                             / INR (length (x3_of x1 d3))))).
  Proof.
    intros [S1 [E1 [M1 C1]]] [S2 [E2 [M2 C2]]] Hr H3.
    rewrite (proj1 (rgram_mat p0 k reg x1)) in M1. rewrite (proj1 (rgram_mat p0 k reg x2)) in M2.
    exists S1, S2. split; [split; assumption|]. split; [split; assumption|].
    rewrite (amcmd_raw linsolve reg x1 w1 y1 x2 w2 y2 d3 S1 S2); try assumption; [|apply Hr].
    do 3 f_equal. apply Rmax_right. unfold Rdiv. apply Rmult_le_pos.
    - apply Rsum_nonneg. intros a H. apply in_map_iff in H as [c [<- _]]. apply Hr.
    - left. apply Rinv_0_lt_compat. apply lt_0_INR. destruct (x3_of x1 d3); [congruence|simpl; lia].
  Qed.
  (** the system has at most one solution, so the weights are determined *)
  Lemma Rmv_sub A u v n : (forall row, In row A -> length row = n) -> length u = n -> length v = n ->
    forall y, In y (Rmv A (map2 Rminus u v)) -> Rmv A u = Rmv A v -> y = 0.
  Proof.
    intros HA Hu Hv y Hy E. unfold Rmv in *. apply in_map_iff in Hy as [row [<- Hr]].
    assert (Er : Rdot row u = Rdot row v).
    { clear - E Hr. induction A; [destruct Hr|]. simpl in E. injection E as E1 E2. destruct Hr as [->|Hr]; auto. }
    specialize (HA row Hr).
    rewrite (Rdot_seq n) in Er |- * by (rewrite ?map2_length; lia).
    rewrite (Rdot_seq n) in Er by assumption.
    rewrite (Rsum_map_ext _ (fun i => nth i row 0 * nth i u 0 - nth i row 0 * nth i v 0)).
    - rewrite Rsum_map_sub. lra.
    - intros i Hi. apply in_seq in Hi. rewrite (nth_map2 _ _ _ _ 0 0) by lia. lra.
  Qed.
  Lemma cme_unique reg x x3 S S' : psd k -> 0 < reg ->
    cme_weights reg x x3 S -> cme_weights reg x x3 S' -> forall c, (c < length x3)%nat -> Rcol S c = Rcol S' c.
  Proof.
    intros Hk Hreg [[L1 R1] H1] [[L2 R2] H2] c Hc. specialize (H1 c Hc). specialize (H2 c Hc).
    assert (La : length (Rcol S c) = length x) by (unfold Rcol; now rewrite map_length).
    assert (Lb : length (Rcol S' c) = length x) by (unfold Rcol; now rewrite map_length).
    pose proof (rgram_nonsingular p0 k reg x Hk Hreg (map2 Rminus (Rcol S c) (Rcol S' c))) as N.
    rewrite map2_length in N. specialize (N ltac:(lia)).
    assert (Z : forall a, In a (map2 Rminus (Rcol S c) (Rcol S' c)) -> a = 0).
    { apply N. intros y Hy. apply (Rmv_sub (rgram p0 k reg x) (Rcol S c) (Rcol S' c) (length x)); try assumption.
      - apply (rgram_mat p0 k reg x).
      - congruence. }
    clear - La Lb Z. revert Z La Lb. generalize (Rcol S c), (Rcol S' c), (length x).
    induction l; intros [|b l'] n Z La Lb; simpl in *; subst n; try discriminate; auto.
    f_equal.
    - specialize (Z (a - b) (or_introl eq_refl)). lra.
    - apply (IHl l' (length l)); auto.
  Qed.
  Lemma amcmd_same linsolve reg x (w : list ER) y (w' : list ER) d3 :
    solves_matrix linsolve (length (x3_of x d3)) (rgram p0 k reg x) (pairwise k x (x3_of x d3)) ->
    psd k -> psd r -> 0 < reg -> x3_of x d3 <> [] ->
    amcmd_compute EROps linsolve kE rE (Fin reg) (mkData x w (Some y)) (mkData x w' (Some y)) d3 = Ok (Fin 0).
  Proof.
    intros HL Hk Hr Hreg H3.
    destruct (amcmd_value linsolve reg x w y x w' y d3 HL HL Hr H3) as [S1 [S2 [C1 [C2 ->]]]].
    do 2 f_equal. rewrite <- sqrt_0. f_equal. rewrite Rsum_zero; [unfold Rdiv; lra|].
    intros a Ha. apply in_map_iff in Ha as [c [<- Hc]]. apply in_seq in Hc.
    rewrite cme_diff_quad by apply Hr.
    rewrite (cme_unique reg x (x3_of x d3) S1 S2 Hk Hreg C1 C2 c) by lia. lra.
  Qed.
  Lemma amcmd_sym linsolve reg x1 (w1 : list ER) y1 x2 (w2 : list ER) y2 x3 :
    solves_matrix linsolve (length x3) (rgram p0 k reg x1) (pairwise k x1 x3) ->
    solves_matrix linsolve (length x3) (rgram p0 k reg x2) (pairwise k x2 x3) ->
    psd k -> psd r -> 0 < reg -> x3 <> [] ->
    amcmd_compute EROps linsolve kE rE (Fin reg) (mkData x1 w1 (Some y1)) (mkData x2 w2 (Some y2)) (Some x3)
    = amcmd_compute EROps linsolve kE rE (Fin reg) (mkData x2 w2 (Some y2)) (mkData x1 w1 (Some y1)) (Some x3).
  Proof.
    intros HL1 HL2 Hk Hr Hreg H3.
    destruct (amcmd_value linsolve reg x1 w1 y1 x2 w2 y2 (Some x3) HL1 HL2 Hr H3) as [S1 [S2 [C1 [C2 ->]]]].
    destruct (amcmd_value linsolve reg x2 w2 y2 x1 w1 y1 (Some x3) HL2 HL1 Hr H3) as [T2 [T1 [D2 [D1 ->]]]].
    cbn [x3_of] in *. do 4 f_equal. f_equal. apply map_ext_in. intros c Hc. apply in_seq in Hc.
    rewrite !cme_diff_quad by apply Hr.
    rewrite (cme_unique reg x1 x3 T1 S1 Hk Hreg D1 C1 c) by lia.
    rewrite (cme_unique reg x2 x3 T2 S2 Hk Hreg D2 C2 c) by lia.
    rewrite (bil_sym r (combine y2 _) (combine y1 _) (proj1 Hr)). lra.
  Qed.
End Amcmd.

(** ** KSD *)
Section Ksd.
  Context {P Y : Type} (p0 : P) (y0 : Y).
  Lemma ksd_value (conv : list P -> P -> P -> R) logpdf laplace (lc rg : bool) bs x (wx : list ER) ys wy (lp lap : list R) :
    ys <> [] -> length ys = length wy -> Rsum wy <> 0 ->
    logpdf x wx ys = map Fin lp -> laplace x ys = map Fin lap ->
    let m := INR (length ys) in
    ksd_compute EROps p0 y0 (fun c a b => Fin (conv c a b)) logpdf laplace lc rg bs
      (mkData x wx None) (mkData ys (map Fin wy) (@None (list Y)))
    = Ok (Fin (sqrt (Rmax 0 (wavg (fun a => wavg (fun b => conv x a b) ys wy) ys wy
               + (if lc then Rsum lap / (m * m) else 0) - (if rg then Rsum lp / m / m else 0))))).
  Proof.
    intros Hy HL HS El Ep m. unfold ksd_compute. cbn [unpack2 d_y d_x d_w bind].
    unfold mean_scalar. rewrite (full_mean_spec p0 y0 (conv x)) by assumption. cbn [bind].
    rewrite El, Ep, !fsum_fin. unfold d_len. cbn [d_x].
    assert (Hm : m <> 0) by (subst m; apply not_0_INR; destruct ys; [congruence|discriminate]).
    change (fofZ EROps ?z) with (Fin (IZR z) : ER).
    rewrite Z.pow_2_r, mult_IZR, <- INR_IZR_INZ. fold m.
    rewrite !fdiv_fin by (try assumption; apply Rmult_integral_contrapositive; auto).
    change (f0 EROps) with (Fin 0 : ER).
    assert (E : forall a b c, fsqrt EROps (fmax EROps (Fin 0) (fsub EROps (fadd EROps (Fin a) (Fin b)) (Fin c)))
       = Fin (sqrt (Rmax 0 (a + b - c)))) by (intros; apply (sqrt_max_fin (a + b - c))).
    destruct lc, rg; rewrite E; reflexivity.
  Qed.
End Ksd.
