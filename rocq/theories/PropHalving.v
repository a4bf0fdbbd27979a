(** * Property theorem: the expected quality of kernel halving (C67)

    [s us] is a KernelThinning solver whose random key makes [us] the uniform numbers
    drawn by the successive swap decisions of one call of [kt_half]; the expectation is
    over [us] independent and uniform on the unit interval ([expect], HalvingSpec).  [k]
    is the square-root kernel of the solver. *)
From Coq Require Import List ZArith QArith Reals Lra Lia Bool Permutation.
From Verif Require Import Num Jax RSum JaxFacts DataModel MeanModel MeanSpec GreedySpec GreedyModel MetricSpec MetricModel
  MetricProofs PropMetric PropGreedy KTModel KTSpec KTProofs KTProofs2 KTProofs4 PropKT RateProofs PropRate HalvingSpec HalvingProofs.
From Coquelicot Require Import Coquelicot.
Import ListNotations.
Open Scope R_scope.

(** the numbers compared by the swap decisions of one [kt_half] are [us] *)
Definition draws_are {P K} (s : kthin ER P K) (us : list R) : Prop :=
  exists u : K -> R, (forall key, kt_uniform s key = Fin (u key)) /\
    forall i, (i < length us)%nat ->
      u (fst (kt_split s (Nat.iter i (fun key => snd (kt_split s key)) (kt_key s)))) = nth i us 0.
Definition unit_cube (n : nat) (us : list R) : Prop := length us = n /\ forall u, In u us -> 0 <= u <= 1.
(** squared distances of the pairs of consecutive points, added up, over [4 n^2] *)
Definition pair_spread {P} (k : P -> P -> R) (x : nat -> P) (n : nat) : R :=
  Rsum (map (fun i => k (x (2 * i)%nat) (x (2 * i)%nat) + k (x (2 * i + 1)%nat) (x (2 * i + 1)%nat)
                      - 2 * k (x (2 * i)%nat) (x (2 * i + 1)%nat)) (seq 0 n)) / (4 * INR n ^ 2).

Lemma pairf_norm {P} (k : P -> P -> R) (Hk : psd k) x i : bil k (pairf x i) (pairf x i)
  = k (x (2 * i)%nat) (x (2 * i)%nat) + k (x (2 * i + 1)%nat) (x (2 * i + 1)%nat) - 2 * k (x (2 * i)%nat) (x (2 * i + 1)%nat).
Proof.
  unfold bil, pairf. cbn [map Rsum fst snd]. rewrite (proj1 Hk (x (2 * i + 1)%nat) (x (2 * i)%nat)). ring.
Qed.
Lemma pair_norm_le {P} (k : P -> P -> R) (Hk : psd k) a b kappa : k a a <= kappa -> k b b <= kappa ->
  k a a + k b b - 2 * k a b <= 4 * kappa.
Proof.
  intros Ha Hb. pose proof (proj2 Hk [(a, 1); (b, 1)]) as H. unfold bil in H. cbn [map Rsum fst snd] in H.
  rewrite (proj1 Hk b a) in H. lra.
Qed.
Lemma spread_le {P} (k : P -> P -> R) (Hk : psd k) xs p0 n kappa : (1 <= n)%nat -> length xs = (2 * n)%nat ->
  (forall a, In a xs -> k a a <= kappa) -> pair_spread k (fun i => nth i xs p0) n <= kappa / INR n.
Proof.
  intros Hn HL Hd. assert (HN : 0 < INR n) by (apply lt_0_INR; lia). unfold pair_spread.
  set (f := fun i : nat => _).
  assert (B : Rsum (map f (seq 0 n)) <= INR n * (4 * kappa)).
  { assert (C : forall i, In i (seq 0 n) -> f i <= 4 * kappa).
    { intros i Hi. apply in_seq in Hi. unfold f. apply (pair_norm_le k Hk); apply Hd, nth_In; lia. }
    clear - C. revert C. rewrite <- (seq_length n 0) at 2. generalize (seq 0 n). intros l C. induction l as [|i l IH]; [cbn; lra|].
    cbn [map Rsum length]. rewrite S_INR. pose proof (C i (or_introl eq_refl)). specialize (IH ltac:(intros; apply C; now right)). lra. }
  apply (Rmult_le_reg_r (4 * INR n ^ 2)); [nra|]. unfold Rdiv at 1. rewrite Rmult_assoc, Rinv_l by nra.
  replace (kappa / INR n * (4 * INR n ^ 2)) with (INR n * (4 * kappa)) by (field; lra). lra.
Qed.
Lemma chosen_of {P} (x : nat -> P) (fl : nat -> bool) n :
  chosen (map fl (seq 0 n)) = map (fun i => pair_first (fl i) i) (seq 0 n).
Proof.
  unfold chosen. rewrite map_length, seq_length. apply map_ext_in. intros i Hi. apply in_seq in Hi. unfold pickp.
  rewrite (nth_indep _ false (fl 0%nat)) by (rewrite map_length, seq_length; lia). now rewrite map_nth, seq_nth by lia.
Qed.

Theorem C67_halving_expected :
  forall P Y K (p0 : P) (y0 : Y) (k : P -> P -> R) (delta w : R) (xs : list P) (n : nat)
         (s : list R -> kthin ER P K) (bs : bsarg),
    psd k -> (1 <= n)%nat -> length xs = (2 * n)%nat -> 0 < w -> 0 < delta <= 2 ->
    let x i := nth i xs p0 in
    (forall i, (i < n)%nat -> let y := x (2 * i)%nat in let z := x (2 * i + 1)%nat in 0 < k y y + k z z - 2 * k y z) ->
    (forall us, unit_cube n us ->
       kt_sqrt (s us) = kE k /\ kt_delta (s us) = Fin delta /\
       (forall r, 0 < r -> kt_log (s us) (Fin r) = Fin (ln r)) /\ draws_are (s us) us) ->
    exists (mmd : list R -> R) (v : R),
      (forall us, unit_cube n us -> exists half1 half2,
         kt_half EROps p0 y0 (s us) (unsup xs (repeat w (2 * n))) = Ok (half1, half2) /\
         reported_mmd p0 y0 k bs half1 = Ok (Fin (mmd us)) /\ reported_mmd p0 y0 k bs half2 = Ok (Fin (mmd us))) /\
      expect n (fun us => mmd us ^ 2) v /\
      v <= pair_spread k x n /\
      (forall kappa, (forall a, In a xs -> k a a <= kappa) -> v <= kappa / INR n).
Proof.
  intros P Y K p0 y0 k delta w xs n s bs Hk Hn HL Hw Hd x Hgap HS.
  assert (HN : 0 < INR n) by (apply lt_0_INR; lia).
  set (a := fun i => thresh delta (pair_b k (x (2 * i)%nat) (x (2 * i + 1)%nat)) (sigma_at k delta x i)).
  set (G := fun hist => bil k (psi x hist) (psi x hist)).
  set (c := / (4 * INR n ^ 2)).
  set (m2 := fun us => c * G (walk (prob k x a) us [])).
  assert (Hc : 0 < c) by (apply Rinv_0_lt_compat; nra).
  assert (HG : forall h, 0 <= G h) by (intro h; apply Hk).
  assert (Ha : forall i, (i < n)%nat -> 0 < a i).
  { intros i Hi. unfold a, thresh. eapply Rlt_le_trans; [|apply Rmax_r].
    assert (0 < pair_b k (x (2 * i)%nat) (x (2 * i + 1)%nat)) by (apply sqrt_lt_R0; apply (Hgap i Hi)). nra. }
  exists (fun us => sqrt (m2 us)), (c * value (prob k x a) G n []).
  assert (BV : c * value (prob k x a) G n [] <= pair_spread k x n).
  { pose proof (value_bound k Hk x a n Ha n [] ltac:(cbn; lia)) as B. cbn [length] in B.
    replace (bil k (psi x []) (psi x [])) with 0 in B by (unfold bil; cbn; ring).
    unfold pair_spread, c, Rdiv. rewrite (Rmult_comm _ (/ (4 * INR n ^ 2))). fold c. apply Rmult_le_compat_l; [lra|].
    rewrite Rplus_0_l in B. eapply Rle_trans; [exact B|]. right. apply Rsum_map_ext. intros i _. now apply pairf_norm. }
  split; [|split; [|split; [exact BV|]]].
  - intros us [HU1 HU2]. destruct (HS us (conj HU1 HU2)) as (S1 & S2 & S3 & (u & U1 & U2)).
    set (fl := run_decision EROps p0 (s us) xs n).
    assert (W : map fl (seq 0 n) = walk (prob k x a) us []).
    { apply walk_spec; [cbn; now rewrite map_length, seq_length|reflexivity|].
      cbn [length Nat.add]. intros i Hi.
      rewrite (nth_indep _ false (fl 0%nat)) by (rewrite map_length, seq_length; lia). rewrite map_nth, seq_nth by lia. cbn [Nat.add].
      assert (FS : firstn i (map fl (seq 0 n)) = map fl (seq 0 i)).
      { rewrite firstn_map. f_equal. replace n with (i + (n - i))%nat by lia. rewrite seq_app, firstn_app, seq_length, Nat.sub_diag, firstn_O, app_nil_r.
        apply firstn_all2. rewrite seq_length. lia. }
      rewrite FS. pose proof (walk_decision p0 (s us) k delta u xs n S1 S2 Hd S3 U1 HL Hgap i ltac:(lia)) as D. fold fl in D.
      unfold key_at in D. rewrite U2 in D by lia.
      unfold prob. rewrite alpha_imbalance, map_length, seq_length, (chosen_of x).
      assert (FX : firstn (2 * i) xs = map x (seq 0 (2 * i))).
      { unfold x. rewrite <- (GreedyProofs2.map_nth_seq xs p0) at 1. rewrite firstn_map, HL. f_equal.
        replace (2 * n)%nat with (2 * i + (2 * n - 2 * i))%nat by lia. rewrite seq_app, firstn_app, seq_length, Nat.sub_diag, firstn_O, app_nil_r.
        apply firstn_all2. rewrite seq_length. lia. }
      rewrite FX in D. unfold rle. fold (a i). destruct (Rle_dec _ _) as [L|L].
      - apply D. exact L.
      - destruct (fl i); [|reflexivity]. exfalso. apply L, D. reflexivity. }
    assert (DL : d_len (unsup xs (repeat w (2 * n)) : Data P Y ER) = (2 * n)%nat) by exact HL.
    eexists _, _. split; [exact (kt_half_run EROps p0 y0 (s us) _ n DL)|].
    change (d_x (unsup xs (repeat w (2 * n)))) with xs. fold fl.
    assert (RV : forall g : bool -> bool, G (map g (map fl (seq 0 n))) = G (map fl (seq 0 n)) ->
      reported_mmd p0 y0 k bs (mkCS (map Z.of_nat (map (fun i => pair_first (g (fl i)) i) (seq 0 n))) (repeat (f1 EROps) n) (unsup xs (repeat w (2 * n))))
      = Ok (Fin (sqrt (m2 us)))).
    { intros g EG. set (l := map (fun i => pair_first (g (fl i)) i) (seq 0 n)).
      assert (LL : length l = n) by (unfold l; now rewrite map_length, seq_length).
      replace (repeat (f1 EROps) n) with (repeat (Fin 1 : ER) (length l)) by (now rewrite LL). rewrite reported_value; [|exact Hk|now rewrite repeat_length| | |].
      - do 3 f_equal. rewrite <- HL. rewrite LL. set (hist := map (fun i => g (fl i)) (seq 0 n)).
        assert (EH : map g (map fl (seq 0 n)) = hist) by (unfold hist; now rewrite map_map).
        assert (LH : length hist = n) by (unfold hist; now rewrite map_length, seq_length).
        replace l with (chosen hist) by (unfold l, hist; now rewrite (chosen_of x)).
        rewrite <- LH. rewrite (mmd2_psi k Hk p0 xs w hist); [|lra|lia|intro E; rewrite E in LH; cbn in LH; lia].
        rewrite LH. unfold m2, c. fold x. f_equal. rewrite <- W, <- EG, EH. reflexivity.
      - rewrite Rsum_repeat. assert (0 < INR (2 * n)) by (apply lt_0_INR; lia). nra.
      - intro E. rewrite E in LL. cbn in LL. lia.
      - intros i Hi. unfold l in Hi. apply in_map_iff in Hi as (j & <- & Hj). apply in_seq in Hj. unfold pair_first. destruct (g _); lia. }
    split; [apply (RV (fun b => b)); now rewrite map_id|].
    replace (map (fun i => pair_second (fl i) i) (seq 0 n)) with (map (fun i => pair_first (negb (fl i)) i) (seq 0 n)).
    + apply (RV negb). apply psi_negb_norm, Hk.
    + apply map_ext. intro i. now destruct (fl i).
  - apply (expect_ext n m2).
    + intros us _ _. cbn [pow]. rewrite Rmult_1_r, sqrt_sqrt; [reflexivity|]. unfold m2. specialize (HG (walk (prob k x a) us [])). nra.
    + apply expect_scal, expect_walk.
  - intros kappa Hkap. eapply Rle_trans; [exact BV|]. now apply (spread_le k Hk).
Qed.
Print Assumptions C67_halving_expected.

(** the bound is what fair coins give: keeping one point of each pair, chosen at random,
    has exactly this expected squared MMD *)
Theorem C67_fair_coins :
  forall P (p0 : P) (k : P -> P -> R) (w : R) (xs : list P) (n : nat),
    psd k -> (1 <= n)%nat -> length xs = (2 * n)%nat -> 0 < w ->
    let x i := nth i xs p0 in
    let heads us i := if Rle_dec (nth i us 0) (1 / 2) then true else false in
    expect n (fun us => mmd2 k xs (repeat w (2 * n)) (map (fun i => x (pair_first (heads us i) i)) (seq 0 n)) (repeat 1 n))
      (pair_spread k x n).
Proof.
  intros P p0 k w xs n Hk Hn HL Hw x heads.
  set (G := fun hist => bil k (psi x hist) (psi x hist)).
  pose proof (expect_scal n _ _ (/ (4 * INR n ^ 2)) (expect_walk (fun _ => 1 / 2) G n [])) as E.
  unfold G in E at 2. rewrite (value_fair k Hk x n []) in E. cbn [length] in E.
  replace (bil k (psi x []) (psi x [])) with 0 in E by (unfold bil; cbn; ring).
  replace (pair_spread k x n) with (/ (4 * INR n ^ 2) * (0 + Rsum (map (fun i => bil k (pairf x i) (pairf x i)) (seq 0 n)))).
  2: { unfold pair_spread, Rdiv. rewrite Rplus_0_l, Rmult_comm. f_equal. apply Rsum_map_ext. intros i _. now apply pairf_norm. }
  refine (expect_ext n _ _ _ _ E). intros us HU _. cbv beta.
  assert (W : map (heads us) (seq 0 n) = walk (fun _ => 1 / 2) us []).
  { apply walk_spec; [cbn; now rewrite map_length, seq_length|reflexivity|]. cbn [length Nat.add]. intros i Hi.
    rewrite (nth_indep _ false (heads us 0%nat)) by (rewrite map_length, seq_length; lia). now rewrite map_nth, seq_nth by lia. }
  rewrite <- W. set (hist := map (heads us) (seq 0 n)).
  assert (LH : length hist = n) by (unfold hist; now rewrite map_length, seq_length).
  rewrite <- (map_map (fun i => pair_first (heads us i) i) x), <- (chosen_of x). fold hist. rewrite <- HL.
  replace (repeat 1 n) with (repeat 1 (length hist)) by (now rewrite LH).
  change (map x (chosen hist)) with (map (fun i => nth i xs p0) (chosen hist)).
  rewrite (mmd2_psi k Hk p0 xs w hist); [|lra|lia|intro E'; rewrite E' in LH; cbn in LH; lia].
  now rewrite LH.
Qed.
Print Assumptions C67_fair_coins.

(** Two pairs on the line with the cosine kernel (squared distances of the pairs
    [2 - 2 cos 1]), any two numbers of the unit interval: the hypotheses hold. *)
Definition ex_solver (us : list R) : kthin ER R nat :=
  mkKT 2 (kE cosk) (kE cosk) (Fin 1) 0%nat
    (fun v => match v with Fin r => Fin (ln r) | _ => NaN end)
    (fun key => (key, S key)) (fun key => Fin (nth key us 0))
    (fun _ draws _ _ => Ok (seq 0 draws)) (fun n size => Nat.log2 (n / size)) (fun size _ => seq 0 size).
Example C67_applies :
  psd cosk /\ length [0; 1; 3; 4] = (2 * 2)%nat /\ (0 < 1 <= 2) /\
  (let x i := nth i [0; 1; 3; 4] 0 in
   forall i, (i < 2)%nat -> let y := x (2 * i)%nat in let z := x (2 * i + 1)%nat in 0 < cosk y y + cosk z z - 2 * cosk y z) /\
  forall us, unit_cube 2 us ->
    kt_sqrt (ex_solver us) = kE cosk /\ kt_delta (ex_solver us) = Fin 1 /\
    (forall r, 0 < r -> kt_log (ex_solver us) (Fin r) = Fin (ln r)) /\ draws_are (ex_solver us) us.
Proof.
  split; [exact cosk_psd|]. split; [reflexivity|]. split; [lra|]. split; [exact C48_case|].
  intros us [HU _]. repeat split. exists (fun key => nth key us 0). split; [reflexivity|].
  intros i Hi. rewrite HU in Hi. destruct i as [|[|i]]; [reflexivity|reflexivity|lia].
Qed.

(** The pairs must be distinct points: eight pairs on the line, the first of two equal
    points.  Whatever the random numbers, no pair is swapped (C48) and both halves have
    squared MMD 49/256, above the bound [kappa / n = 1/8]. *)
Definition dup_xs : list R := [0; 0; 0; 1; 0; 1; 0; 1; 0; 1; 0; 1; 0; 1; 0; 1].
Theorem C67_duplicate_pair_refuted :
  psd lin1 /\ (forall a, In a dup_xs -> lin1 a a <= 1) /\ length dup_xs = (2 * 8)%nat /\
  forall Y K (y0 : Y) (s : kthin ER R K) (lg : R) (bs : bsarg),
    kt_sqrt s = kE lin1 -> kt_log s (fdiv EROps (fofZ EROps 2) (kt_delta s)) = Fin lg ->
    exists half1 half2 mmd,
      kt_half EROps 0 y0 s (unsup dup_xs (repeat 1 (2 * 8))) = Ok (half1, half2) /\
      reported_mmd 0 y0 lin1 bs half1 = Ok (Fin mmd) /\ reported_mmd 0 y0 lin1 bs half2 = Ok (Fin mmd) /\
      mmd ^ 2 = 49 / 256 /\ 1 / INR 8 < mmd ^ 2.
Proof.
  split; [exact lin1_psd|]. split; [intros a H; cbn in H; unfold lin1; repeat (destruct H as [<-|H]; [lra|]); contradiction|].
  split; [reflexivity|]. intros Y K y0 s lg bs H1 H2.
  assert (F : forall j, (j < 8)%nat -> run_decision EROps 0 s dup_xs 8 j = false).
  { intros j Hj. apply (frozen 0 s lin1 lg dup_xs 8 H1 H2 eq_refl 0%nat j); [lia|reflexivity|lia]. }
  set (l1 := [0; 2; 4; 6; 8; 10; 12; 14]%nat). set (l2 := [1; 3; 5; 7; 9; 11; 13; 15]%nat).
  exists (mkCS (map Z.of_nat l1) (repeat (Fin 1) (length l1)) (unsup dup_xs (repeat 1 (2 * 8)))),
         (mkCS (map Z.of_nat l2) (repeat (Fin 1) (length l2)) (unsup dup_xs (repeat 1 (2 * 8)))), (7 / 16).
  split; [|split; [|split; [|split; [field|cbn; lra]]]].
  - rewrite (kt_half_run EROps 0 y0 s (unsup dup_xs (repeat 1 (2 * 8))) 8 eq_refl).
    change (d_x (unsup dup_xs (repeat 1 (2 * 8)))) with dup_xs.
    rewrite (map_ext_in (fun i => pair_first (run_decision EROps 0 s dup_xs 8 i) i) (fun i => pair_first false i))
      by (intros i Hi; apply in_seq in Hi; now rewrite F by lia).
    rewrite (map_ext_in (fun i => pair_second (run_decision EROps 0 s dup_xs 8 i) i) (fun i => pair_second false i))
      by (intros i Hi; apply in_seq in Hi; now rewrite F by lia).
    reflexivity.
  - rewrite reported_value; [|exact lin1_psd|reflexivity|cbn; lra|discriminate|intros i Hi; cbn in Hi; cbn; lia].
    do 2 f_equal. replace (mmd2 _ _ _ _ _) with ((7 / 16) * (7 / 16)); [apply sqrt_square; lra|].
    unfold mmd2, wavg, lin1, dup_xs, l1. cbn. field.
  - rewrite reported_value; [|exact lin1_psd|reflexivity|cbn; lra|discriminate|intros i Hi; cbn in Hi; cbn; lia].
    do 2 f_equal. replace (mmd2 _ _ _ _ _) with ((7 / 16) * (7 / 16)); [apply sqrt_square; lra|].
    unfold mmd2, wavg, lin1, dup_xs, l2. cbn. field.
Qed.
Print Assumptions C67_duplicate_pair_refuted.
