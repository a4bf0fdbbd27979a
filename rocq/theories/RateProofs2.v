(** * Convergence rate of herding: the gap left by each greedy choice *)
From Coq Require Import List ZArith Reals Lra Lia Bool Permutation.
From Verif Require Import Num Jax RSum MeanSpec GreedySpec MetricSpec GreedyProofs GreedyProofs2 GreedyProofs3 MetricProofs RateProofs.
Import ListNotations.
Open Scope R_scope.

Lemma Rsum_repeat c n : Rsum (repeat c n) = INR n * c.
Proof. induction n as [|n IH]; [cbn; lra|]. cbn [repeat Rsum]. rewrite IH, S_INR. lra. Qed.
Lemma in_combine_nth {A B} (a0 : A) (b0 : B) xs ws q : In q (combine xs ws) ->
  exists j, (j < length xs)%nat /\ (j < length ws)%nat /\ q = (nth j xs a0, nth j ws b0).
Proof.
  revert ws. induction xs as [|a xs IH]; intros [|b ws] H; cbn in H; try contradiction.
  destruct H as [<-|H]; [exists 0%nat; cbn; repeat split; lia|]. destruct (IH ws H) as (j & H1 & H2 & E).
  exists (S j). cbn. repeat split; [lia|lia|exact E].
Qed.
Lemma lin_nm_one {P} (xs : list P) w : length w = length xs -> Rsum w <> 0 -> lin (nm xs w) (fun _ => 1) = 1.
Proof.
  intros HL HS. unfold lin, nm. rewrite map_map. cbn [fst snd]. transitivity (Rsum w / Rsum w); [|field; exact HS].
  rewrite <- (map_id w) at 2. rewrite <- Rsum_map_div.
  clear HS. generalize (Rsum w) as S. intro S. revert w HL. induction xs as [|a xs IH]; intros [|b w] HL; cbn in *; try lia; [reflexivity|].
  rewrite (IH w) by lia. lra.
Qed.
Lemma lin_nm_bound {P} (p0 : P) (f : P -> R) M xs w : length w = length xs -> (forall a, In a w -> 0 <= a) -> 0 < Rsum w ->
  (forall j, (j < length xs)%nat -> 0 < nth j w 0 -> f (nth j xs p0) <= M) -> lin (nm xs w) f <= M.
Proof.
  intros HL HN HS H. rewrite <- (Rmult_1_r M), <- (lin_nm_one xs w HL) by lra. apply lin_bound.
  intros q Hq. unfold nm in Hq. apply in_map_iff in Hq. destruct Hq as (r & <- & Hr).
  destruct (in_combine_nth p0 0 _ _ _ Hr) as (j & H1 & H2 & ->). cbn [fst snd].
  pose proof (HN _ (nth_In w 0 H2)) as Hj. assert (HI : 0 < / Rsum w) by (now apply Rinv_0_lt_compat).
  split; [unfold Rdiv; nra|]. intro Hd. apply H; [exact H1|]. unfold Rdiv in Hd.
  destruct Hj as [Hj|Hj]; [exact Hj|]. rewrite <- Hj in Hd. lra.
Qed.
Lemma lin_nm_uniform {P} (p0 : P) (f : P -> R) xs c : 0 < c -> xs <> [] ->
  lin (nm xs (repeat c (length xs))) f = Rsum (map (fun j => f (nth j xs p0)) (seq 0 (length xs))) / INR (length xs).
Proof.
  intros Hc Hx. assert (HI : 0 < INR (length xs)) by (apply lt_0_INR; destruct xs; [congruence|cbn; lia]).
  replace (map (fun j => f (nth j xs p0)) (seq 0 (length xs))) with (map f xs)
    by (now rewrite <- (map_map (fun j => nth j xs p0) f), GreedyProofs2.map_nth_seq).
  unfold lin, nm. rewrite map_map, Rsum_repeat. cbn [fst snd].
  transitivity (Rsum (map f xs) * / INR (length xs)); [|reflexivity].
  generalize dependent (INR (length xs)). intros N HN. clear Hx. induction xs as [|a xs IH]; cbn; [lra|].
  rewrite IH. field. lra.
Qed.

Lemma nth_repeat_below {A} (c d : A) n j : (j < n)%nat -> nth j (repeat c n) d = c.
Proof. revert j. induction n as [|n IH]; intros [|j] H; cbn; try lia; [reflexivity|]. apply IH. lia. Qed.

Lemma greedy_prefix (dw : list R) score l s : greedy_argmax (candidate dw true) score l -> (s <= length l)%nat ->
  NoDup (firstn s l) /\ forall i, In i (firstn s l) -> (i < length dw)%nat.
Proof.
  intros HG. induction s as [|s IH]; intro Hs; [cbn; split; [constructor|contradiction]|].
  destruct (IH ltac:(lia)) as [I1 I2]. destruct (HG s ltac:(lia)) as [(C1 & C2 & C3) _].
  rewrite firstn_snoc by lia. split.
  - apply (Permutation_NoDup (l := nth s l 0%nat :: firstn s l)); [apply Permutation_cons_append|].
    constructor; [now apply C3|exact I1].
  - intros i Hi. apply in_app_or in Hi. destruct Hi as [Hi|[<-|[]]]; [auto|lia].
Qed.

Section HerdGap.
  Context {P : Type} (p0 : P) (k : P -> P -> R) (Hk : psd k) (xs : list P) (dw : list R) (kappa : R).
  Notation x := (fun j => nth j xs p0).
  Notation p := (nm xs dw).
  Notation score := (herding_score k (fun j => wavg (fun b => k (nth j xs p0) b) xs dw) x).
  Hypothesis HL : length dw = length xs.
  Hypothesis HN : forall a, In a dw -> 0 <= a.
  Hypothesis HS : 0 < Rsum dw.
  Hypothesis Hd : forall a, In a xs -> k a a <= kappa.
  Lemma score_wv l j : bil k [(x j, 1)] (wv x p l) = (INR (length l) + 1) * score l j.
  Proof using Hk.
    rewrite (sym k Hk), bil_wv, (sym k Hk p), (sym k Hk (phi x l)), bil_one_phi, bil_one.
    unfold herding_score. rewrite wavg_lin_nm, plus_INR. cbn [INR].
    change (lin p (fun b => k (nth j xs p0) b)) with (lin p (k (nth j xs p0))).
    assert (0 <= INR (length l)) by apply pos_INR. field. lra.
  Qed.
  Lemma k_offdiag a b : In a xs -> In b xs -> k a b <= kappa.
  Proof using Hk Hd.
    intros Ha Hb. pose proof (proj2 Hk [(a, 1); (b, -1)]) as H. unfold bil in H. cbn in H. rewrite (proj1 Hk b a) in H.
    pose proof (Hd a Ha). pose proof (Hd b Hb). lra.
  Qed.
  Lemma A_le : bil k p p <= kappa.
  Proof using p0 HL HN HS Hk Hd.
    rewrite bil_lin. apply (lin_nm_bound p0); auto. intros i Hi _. apply (lin_nm_bound p0); auto.
    intros j Hj _. apply k_offdiag; now apply nth_In.
  Qed.
  Lemma gap_repeats l t : greedy_argmax (candidate dw false) score l -> (t < length l)%nat ->
    2 * (bil k p (wv x p (firstn t l)) - bil k [(x (nth t l 0%nat), 1)] (wv x p (firstn t l))) <= 0.
  Proof using HL HN HS Hk.
    intros HG Ht. destruct (HG t Ht) as [_ HM]. set (l' := firstn t l) in *. set (c := nth t l 0%nat) in *.
    assert (bil k p (wv x p l') <= bil k [(x c, 1)] (wv x p l')); [|lra].
    rewrite (bil_as_lin k p). apply (lin_nm_bound p0); auto. intros j Hj Hw.
    rewrite (score_wv l' j), (score_wv l' c). apply Rmult_le_compat_l; [pose proof (pos_INR (length l')); lra|].
    apply HM. repeat split; [lia|exact Hw|discriminate].
  Qed.
  Lemma gap_unique l t c0 : dw = repeat c0 (length xs) -> (length l <= length xs)%nat ->
    greedy_argmax (candidate dw true) score l -> (t < length l)%nat ->
    2 * (bil k p (wv x p (firstn t l)) - bil k [(x (nth t l 0%nat), 1)] (wv x p (firstn t l))) <= kappa / 2.
  Proof using p0 HL HN HS Hk Hd.
    intros Hu Hll HG Ht. set (n := length xs) in *.
    assert (Hn : (0 < n)%nat) by lia. assert (Hx : xs <> []) by (intro E; unfold n in Hn; rewrite E in Hn; cbn in Hn; lia).
    assert (Hc0 : 0 < c0). { rewrite Hu, Rsum_repeat in HS. assert (0 < INR n) by (now apply lt_0_INR). nra. }
    assert (Hpos : forall j, (j < n)%nat -> 0 < nth j dw 0). { intros j Hj. rewrite Hu, nth_repeat_below by exact Hj. exact Hc0. }
    assert (HND : NoDup (firstn t l) /\ forall i, In i (firstn t l) -> (i < n)%nat).
    { rewrite <- HL. apply (greedy_prefix dw score); [exact HG|lia]. }
    destruct HND as [HND HI]. destruct (HG t Ht) as [_ HM].
    assert (Hlt : length (firstn t l) = t) by (apply firstn_length_le; lia).
    set (l' := firstn t l) in *. set (c := nth t l 0%nat) in *. set (w := wv x p l').
    set (F := fun j : nat => bil k [(nth j xs p0, 1)] w).
    assert (E1 : Rsum (map F (seq 0 n)) = INR n * bil k p w).
    { rewrite (bil_as_lin k p). rewrite Hu. unfold n. rewrite (lin_nm_uniform p0) by assumption. unfold F.
      field. apply not_0_INR. fold n. lia. }
    assert (E2 : Rsum (map F l') = (INR t + 1) * bil k p w - bil k w w).
    { unfold F. rewrite <- (bil_phi k x l' w). unfold w at 3. rewrite bil_wv, Hlt. fold w. ring. }
    pose proof (Rsum_not_chosen F l' n HND HI) as E3. pose proof (length_not_chosen l' n HND HI) as E4.
    set (U := filter _ (seq 0 n)) in *.
    assert (HB : Rsum (map F U) <= INR (length U) * F c).
    { apply Rsum_bound. intros i Hi. destruct (in_not_chosen l' n i Hi) as [Hi1 Hi2]. unfold F, w.
      rewrite (score_wv l' i), (score_wv l' c). apply Rmult_le_compat_l; [pose proof (pos_INR (length l')); lra|].
      apply HM. repeat split; [lia|now apply Hpos|intros _; exact Hi2]. }
    assert (EU : INR n = INR (length U) + INR t) by (rewrite <- plus_INR; f_equal; lia).
    assert (HU : 1 <= INR (length U)) by (change 1 with (INR 1); apply le_INR; lia).
    change (bil k [(nth c xs p0, 1)] w) with (F c). set (u := bil k p w) in *. set (W := bil k w w) in *.
    (* (n - t - 1) u + W <= (n - t) F c *)
    assert (G : INR (length U) * (u - F c) <= u - W) by nra.
    assert (Q : u - W <= kappa / 4).
    { pose proof (proj2 Hk (scal 2 w ++ scal (-1) p)) as PS.
      rewrite bil_app_l, !bil_app_r, !bil_scal_l, !bil_scal_r, (sym k Hk w p) in PS. fold u W in PS. pose proof A_le. lra. }
    assert (HK : 0 <= kappa). { pose proof (proj2 Hk p). pose proof A_le. lra. }
    destruct (Rle_dec (u - F c) 0); [lra|]. assert (u - F c <= INR (length U) * (u - F c)) by nra. lra.
  Qed.
  Lemma nm_ones (l : list nat) : l <> [] -> scal (-1) (nm (map x l) (repeat 1 (length l))) = scal (- / INR (length l)) (phi x l).
  Proof.
    intro Hl. unfold nm, scal, phi. rewrite Rsum_repeat, !map_map. cbn [fst snd]. rewrite Rmult_1_r.
    generalize (INR (length l)). intro N. clear. induction l as [|a l IH]; [reflexivity|]. cbn [map length repeat combine fst snd].
    f_equal; [f_equal; unfold Rdiv; ring|exact IH].
  Qed.
  Lemma herding_rate l (unique : bool) : l <> [] -> (length l <= length xs)%nat ->
    (unique = true -> exists c0, dw = repeat c0 (length xs)) ->
    greedy_argmax (candidate dw unique) score l ->
    sqrt (mmd2 k xs dw (map x l) (repeat 1 (length l))) <= 7 / 2 * sqrt (kappa / INR (length l)).
  Proof using p0 HL HN HS Hk Hd.
    intros Hl Hlen Hu HG. rewrite mmd2_bil by apply Hk. rewrite nm_ones by exact Hl.
    assert (HI : forall c, In c l -> (c < length xs)%nat).
    { intros c Hc. apply (In_nth _ _ 0%nat) in Hc. destruct Hc as (t & Ht & <-). destruct (HG t Ht) as [(C1 & _) _]. lia. }
    assert (HK : 0 <= kappa). { pose proof (proj2 Hk p). pose proof A_le. lra. }
    assert (HT : 1 <= INR (length l)). { change 1 with (INR 1). apply le_INR. destruct l; [congruence|cbn; lia]. }
    eapply Rle_trans.
    - apply (herding_bound k Hk x p kappa (kappa / 2) l A_le); [intros c Hc; apply Hd, nth_In, HI, Hc| |exact Hl].
      intros t Ht. destruct unique.
      + destruct (Hu eq_refl) as [c0 E]. now apply (gap_unique l t c0).
      + eapply Rle_trans; [now apply gap_repeats|]. lra.
    - set (T := INR (length l)) in *. rewrite sqrt_div_alt by lra.
      replace (7 / 2 * (sqrt kappa / sqrt T)) with (7 / 2 * sqrt T * sqrt kappa / T).
      2:{ rewrite <- (sqrt_sqrt T) at 2 by lra. field. apply Rgt_not_eq, sqrt_lt_R0. lra. }
      unfold Rdiv. apply Rmult_le_compat_r; [left; apply Rinv_0_lt_compat; lra|].
      assert (S1 : 1 <= sqrt T) by (rewrite <- sqrt_1; now apply sqrt_le_1_alt).
      assert (S2 : sqrt (kappa + T * (4 * kappa + kappa * / 2)) <= 5 / 2 * sqrt T * sqrt kappa).
      { rewrite <- (sqrt_square (5 / 2)) by lra. rewrite <- !sqrt_mult_alt by nra. apply sqrt_le_1_alt. nra. }
      pose proof (sqrt_pos kappa). nra.
  Qed.
End HerdGap.
