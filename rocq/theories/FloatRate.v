(** * Convergence of herding when each choice is optimal up to a tolerance *)
From Coq Require Import List ZArith Reals Lra Lia Bool Permutation.
From Verif Require Import Num Jax RSum MeanSpec GreedySpec MetricSpec MetricProofs GreedyProofs GreedyProofs2 RateProofs RateProofs2 MrRateProofs2 FloatRateSpec.
Import ListNotations.
Open Scope R_scope.

Lemma near_prefix (dw : list R) score tol l s : near_greedy (candidate dw true) score tol l -> (s <= length l)%nat ->
  NoDup (firstn s l) /\ forall i, In i (firstn s l) -> (i < length dw)%nat.
Proof.
  intros HG. induction s as [|s IH]; intro Hs; [cbn; split; [constructor|contradiction]|].
  destruct (IH ltac:(lia)) as [I1 I2]. destruct (HG s ltac:(lia)) as [(C1 & C2 & C3) _].
  rewrite firstn_snoc by lia. split.
  - apply (Permutation_NoDup (l := nth s l 0%nat :: firstn s l)); [apply Permutation_cons_append|].
    constructor; [now apply C3|exact I1].
  - intros i Hi. apply in_app_or in Hi. destruct Hi as [Hi|[<-|[]]]; [auto|lia].
Qed.
Lemma near_in (dw : list R) unique score tol l c : near_greedy (candidate dw unique) score tol l -> In c l ->
  (c < length dw)%nat /\ 0 < nth c dw 0.
Proof.
  intros HG Hc. apply (In_nth _ _ 0%nat) in Hc. destruct Hc as (t & Ht & <-). destruct (HG t Ht) as [(C1 & C2 & _) _]. auto.
Qed.
Lemma near_snoc (cand : list nat -> nat -> Prop) score tol l c : near_greedy cand score tol l ->
  cand l c -> (forall j, cand l j -> score l j <= score l c + tol (length l)) -> near_greedy cand score tol (l ++ [c]).
Proof.
  intros H C M t Ht. rewrite app_length in Ht. cbn [length] in Ht. cbv zeta.
  destruct (Nat.eq_dec t (length l)) as [->|Hn].
  - rewrite firstn_app, Nat.sub_diag, firstn_all. cbn [firstn]. rewrite app_nil_r. rewrite app_nth2, Nat.sub_diag by lia. cbn [nth]. auto.
  - rewrite firstn_app. replace (t - length l)%nat with 0%nat by lia. cbn [firstn]. rewrite app_nil_r, app_nth1 by lia. apply H. lia.
Qed.

Lemma Rsum_equal dw c : 0 < c -> (forall v, In v dw -> v = 0 \/ v = c) -> Rsum dw = c * INR (npos dw).
Proof.
  intros Hc. unfold npos. induction dw as [|a dw IH]; intros H; [cbn; ring|]. cbn [Rsum filter].
  rewrite IH by (intros v Hv; apply H; now right). destruct (H a (or_introl eq_refl)) as [->| ->]; destruct (Rlt_dec 0 _); try lra.
  cbn [length]. rewrite S_INR. lra.
Qed.

Lemma sqrt_plus_le a b : 0 <= a -> 0 <= b -> sqrt (a + b) <= sqrt a + sqrt b.
Proof.
  intros A B. pose proof (sqrt_pos a). pose proof (sqrt_pos b). rewrite <- (sqrt_square (sqrt a + sqrt b)) by lra. apply sqrt_le_1_alt.
  pose proof (sqrt_sqrt a A). pose proof (sqrt_sqrt b B). nra.
Qed.

Section Near.
  Context {P : Type} (p0 : P) (k : P -> P -> R) (Hk : psd k) (xs : list P) (dw : list R) (kappa tol : R).
  Notation x := (fun j => nth j xs p0).
  Notation p := (nm xs dw).
  Notation score := (herding_score k (fun j => wavg (fun b => k (nth j xs p0) b) xs dw) x).
  Hypothesis HL : length dw = length xs.
  Hypothesis HN : forall a, In a dw -> 0 <= a.
  Hypothesis HS : 0 < Rsum dw.
  Hypothesis Hd : forall a, In a xs -> k a a <= kappa.
  Hypothesis Htol : 0 <= tol.
  Lemma near_gap_repeats l t : near_greedy (candidate dw false) score (fun _ => tol) l -> (t < length l)%nat ->
    2 * (bil k p (wv x p (firstn t l)) - bil k [(x (nth t l 0%nat), 1)] (wv x p (firstn t l))) <= 2 * ((INR t + 1) * tol).
  Proof using HL HN HS Hk.
    intros HG Ht. destruct (HG t Ht) as [_ HM]. assert (Hlt : length (firstn t l) = t) by (apply firstn_length_le; lia).
    set (l' := firstn t l) in *. set (c := nth t l 0%nat) in *.
    assert (bil k p (wv x p l') <= bil k [(x c, 1)] (wv x p l') + (INR t + 1) * tol); [|lra].
    rewrite (bil_as_lin k p). apply (lin_nm_bound p0); auto. intros j Hj Hw.
    rewrite (score_wv p0 k Hk xs dw l' j), (score_wv p0 k Hk xs dw l' c), Hlt. rewrite <- Rmult_plus_distr_l.
    apply Rmult_le_compat_l; [pose proof (pos_INR t); lra|].
    apply HM. repeat split; [lia|exact Hw|discriminate].
  Qed.
  Lemma near_gap_unique l t c0 : 0 < c0 -> (forall v, In v dw -> v = 0 \/ v = c0) -> (length l <= npos dw)%nat ->
    near_greedy (candidate dw true) score (fun _ => tol) l -> (t < length l)%nat ->
    2 * (bil k p (wv x p (firstn t l)) - bil k [(x (nth t l 0%nat), 1)] (wv x p (firstn t l))) <= kappa / 2 + 2 * ((INR t + 1) * tol).
  Proof using p0 HL HN HS Hk Hd Htol.
    intros Hc0 H01 Hll HG Ht. set (n := length xs) in *.
    assert (HE : Rsum dw = c0 * INR (npos dw)) by now apply Rsum_equal.
    assert (HND : NoDup (firstn t l) /\ forall i, In i (firstn t l) -> (i < n)%nat).
    { rewrite <- HL. apply (near_prefix dw score (fun _ => tol)); [exact HG|lia]. }
    destruct HND as [HND HI].
    assert (H1 : forall i, In i (firstn t l) -> nth i dw 0 = c0).
    { intros i Hi. assert (Hi' : In i l) by (rewrite <- (firstn_skipn t l); apply in_or_app; now left).
      destruct (near_in _ _ _ _ _ _ HG Hi') as [C1 C2]. destruct (H01 (nth i dw 0)); [now apply nth_In|lra|assumption]. }
    destruct (HG t Ht) as [_ HM].
    assert (Hlt : length (firstn t l) = t) by (apply firstn_length_le; lia).
    set (l' := firstn t l) in *. set (c := nth t l 0%nat) in *. set (w := wv x p l').
    set (F := fun j : nat => bil k [(nth j xs p0, 1)] w).
    set (G := fun j : nat => nth j dw 0 * F j).
    assert (E1 : Rsum (map G (seq 0 n)) = Rsum dw * bil k p w).
    { rewrite (bil_as_lin k p). rewrite <- wavg_lin_nm. unfold wavg. rewrite (wsum_seq p0) by exact HL. fold n. unfold G, F. field. lra. }
    assert (E2 : Rsum (map G l') = c0 * ((INR t + 1) * bil k p w - bil k w w)).
    { unfold G. rewrite (Rsum_map_ext _ (fun i => c0 * F i)) by (intros i Hi; rewrite H1 by exact Hi; ring).
      rewrite Rsum_map_scal. f_equal. unfold F. rewrite <- (bil_phi k x l' w). unfold w at 3. rewrite bil_wv, Hlt. fold w. ring. }
    pose proof (Rsum_not_chosen G l' n HND HI) as E3.
    pose proof (Rsum_not_chosen (fun j => nth j dw 0) l' n HND HI) as E4.
    rewrite (Rsum_map_ext (fun j => nth j dw 0) (fun _ => c0) l') in E4 by (intros i Hi; now apply H1).
    rewrite Rsum_map_const, Hlt in E4.
    assert (E5 : Rsum (map (fun j => nth j dw 0) (seq 0 n)) = Rsum dw).
    { rewrite <- HL. f_equal. clear. induction dw as [|a d IH]; [reflexivity|]. cbn [length seq map nth]. rewrite <- seq_shift, map_map. now rewrite IH. }
    rewrite E5, HE in E4.
    set (U := filter _ (seq 0 n)) in *. set (eta := (INR t + 1) * tol).
    assert (HB : Rsum (map G U) <= Rsum (map (fun j => nth j dw 0) U) * (F c + eta)).
    { rewrite <- Rsum_map_scal_r. apply Rsum_le. intros i Hi. destruct (in_not_chosen l' n i Hi) as [Hi1 Hi2]. unfold G.
      destruct (H01 (nth i dw 0)) as [E|E]; [apply nth_In; lia|rewrite E; lra|]. rewrite E. apply Rmult_le_compat_l; [lra|]. unfold F, w.
      rewrite (score_wv p0 k Hk xs dw l' i), (score_wv p0 k Hk xs dw l' c), Hlt. unfold eta. rewrite <- Rmult_plus_distr_l.
      apply Rmult_le_compat_l; [pose proof (pos_INR t); lra|].
      apply HM. repeat split; [lia|lra|intros _; exact Hi2]. }
    assert (EU : c0 * (INR (npos dw) - INR t) = Rsum (map (fun j => nth j dw 0) U)) by lra.
    rewrite <- EU in HB.
    assert (HU : 1 <= INR (npos dw) - INR t).
    { assert (INR (S t) <= INR (npos dw)) by (apply le_INR; lia). rewrite S_INR in H. lra. }
    change (bil k [(nth c xs p0, 1)] w) with (F c). set (u := bil k p w) in *. set (Wn := bil k w w) in *.
    rewrite HE in E1. set (NN := INR (npos dw)) in *.
    assert (GG : (NN - INR t) * (u - F c - eta) <= u - Wn).
    { apply Rmult_le_reg_l with c0; [exact Hc0|]. nra. }
    pose proof (A_le p0 k Hk xs dw kappa HL HN HS Hd) as AL.
    assert (Q : u - Wn <= kappa / 4).
    { pose proof (proj2 Hk (scal 2 w ++ scal (-1) p)) as PS.
      rewrite bil_app_l, !bil_app_r, !bil_scal_l, !bil_scal_r, (sym k Hk w p) in PS. fold u Wn in PS. lra. }
    assert (HK : 0 <= kappa). { pose proof (proj2 Hk p). lra. }
    destruct (Rle_dec (u - F c - eta) 0); [lra|]. assert (u - F c - eta <= (NN - INR t) * (u - F c - eta)) by nra. lra.
  Qed.
  Lemma near_rate l (unique : bool) : l <> [] ->
    (unique = true -> (length l <= npos dw)%nat /\ exists c0, 0 < c0 /\ forall v, In v dw -> v = 0 \/ v = c0) ->
    near_greedy (candidate dw unique) score (fun _ => tol) l ->
    sqrt (mmd2 k xs dw (map x l) (repeat 1 (length l))) <= 7 / 2 * sqrt (kappa / INR (length l)) + sqrt (2 * tol).
  Proof using p0 HL HN HS Hk Hd Htol.
    intros Hl Hu HG. rewrite mmd2_bil by apply Hk. rewrite (nm_ones p0) by exact Hl.
    pose proof (A_le p0 k Hk xs dw kappa HL HN HS Hd) as AL.
    assert (HK : 0 <= kappa). { pose proof (proj2 Hk p). lra. }
    assert (HT : 1 <= INR (length l)). { change 1 with (INR 1). apply le_INR. destruct l; [congruence|cbn; lia]. }
    set (T := INR (length l)) in *.
    eapply Rle_trans.
    - apply (herding_bound k Hk x p kappa (kappa / 2 + 2 * (T * tol)) l AL); [| |exact Hl].
      + intros c Hc. destruct (near_in _ _ _ _ _ _ HG Hc) as [C1 _]. apply Hd, nth_In. lia.
      + intros t Ht. assert (Tt : (INR t + 1) * tol <= T * tol).
        { apply Rmult_le_compat_r; [exact Htol|]. rewrite <- S_INR. apply le_INR. lia. }
        destruct unique.
        * destruct (Hu eq_refl) as (Hp & c0 & Hc0 & H01). pose proof (near_gap_unique l t c0 Hc0 H01 Hp HG Ht). lra.
        * pose proof (near_gap_repeats l t HG Ht). lra.
    - fold T. rewrite sqrt_div_alt by lra.
      replace (7 / 2 * (sqrt kappa / sqrt T) + sqrt (2 * tol)) with ((7 / 2 * sqrt T * sqrt kappa + T * sqrt (2 * tol)) / T).
      2:{ rewrite <- (sqrt_sqrt T) at 2 3 by lra. field. apply Rgt_not_eq, sqrt_lt_R0. lra. }
      unfold Rdiv. apply Rmult_le_compat_r; [left; apply Rinv_0_lt_compat; lra|].
      assert (S1 : 1 <= sqrt T) by (rewrite <- sqrt_1; now apply sqrt_le_1_alt).
      assert (S2 : sqrt (kappa + T * (4 * kappa + (kappa * / 2 + 2 * (T * tol)))) <= 5 / 2 * sqrt T * sqrt kappa + T * sqrt (2 * tol)).
      { assert (SA : sqrt (25 / 4 * T * kappa) = 5 / 2 * sqrt T * sqrt kappa).
        { rewrite <- (sqrt_square (5 / 2)) at 1 by lra. rewrite <- !sqrt_mult_alt by nra. f_equal. lra. }
        assert (SB : sqrt (T * T * (2 * tol)) = T * sqrt (2 * tol)) by (rewrite sqrt_mult_alt, sqrt_square by nra; reflexivity).
        rewrite <- SA, <- SB. assert (0 <= T * kappa) by (apply Rmult_le_pos; lra). assert (0 <= T * T * (2 * tol)) by (repeat apply Rmult_le_pos; lra).
        eapply Rle_trans; [|apply sqrt_plus_le; lra]. apply sqrt_le_1_alt. nra. }
      pose proof (sqrt_pos kappa). pose proof (sqrt_pos (2 * tol)). nra.
  Qed.
End Near.
