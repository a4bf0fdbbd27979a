(** * Convergence rate of Stein thinning *)
From Coq Require Import List ZArith Reals Lra Lia Bool Permutation.
From Verif Require Import Num Jax RSum MeanSpec GreedySpec MetricSpec GreedyProofs GreedyProofs2 GreedyProofs3 MetricProofs RateProofs RateProofs2 FloatRateSpec.
Import ListNotations.
Open Scope R_scope.

Fixpoint harm (m : nat) : R := match m with 0%nat => 0 | S m => harm m + / INR (S m) end.
Lemma harm_nonneg m : 0 <= harm m.
Proof. induction m as [|m IH]; [cbn; lra|]. cbn [harm]. assert (0 < / INR (S m)) by (apply Rinv_0_lt_compat, lt_0_INR; lia). lra. Qed.
Lemma harm_ln m : (1 <= m)%nat -> harm m <= 1 + ln (INR m).
Proof.
  intro Hm. induction m as [|m IH]; [lia|]. destruct m as [|m]; [cbn; rewrite ln_1; lra|].
  specialize (IH ltac:(lia)). cbn [harm] in *. set (M := INR (S m)) in *.
  assert (HM : 0 < M) by (apply lt_0_INR; lia). rewrite (S_INR (S m)). fold M.
  assert (ln M <= ln (M + 1) - / (M + 1)).
  { assert (E : M = (M + 1) * (1 - / (M + 1))) by (field; lra).
    assert (H1 : 0 < 1 - / (M + 1)). { replace (1 - / (M + 1)) with (M / (M + 1)) by (field; lra). apply Rdiv_lt_0_compat; lra. }
    rewrite E at 1. rewrite ln_mult by lra.
    pose proof (exp_ineq1_le (ln (1 - / (M + 1)))) as X. rewrite exp_ln in X by exact H1. lra. }
  lra.
Qed.

Section SteinRate.
  Context {P : Type} (p0 : P) (k : P -> P -> R) (Hk : psd k) (xs : list P) (dw : list R) (kappa rho : R) (lap rl tol : nat -> R).
  Notation x := (fun j => nth j xs p0).
  Notation score := (stein_score k lap rl x).
  Hypothesis HL : length dw = length xs.
  Hypothesis Hd : forall a, In a xs -> k a a <= kappa.
  Hypothesis Hrho : 0 <= rho.
  Context (l : list nat).
  (** the regularisation terms of two rows and the tolerance are never more than [rho] *)
  Hypothesis Hreg : forall t i j, (t < length l)%nat -> (i < length xs)%nat -> (j < length xs)%nat ->
    (lap j - INR (t + 1) * rl j) - (lap i - INR (t + 1) * rl i) + tol t <= rho.
  Hypothesis HI : forall i, In i l -> (i < length xs)%nat.
  Context (q : list R).
  Hypothesis Hql : length q = length xs.
  Hypothesis Hqn : forall a, In a q -> 0 <= a.
  Hypothesis Hqs : 0 < Rsum q.
  Hypothesis Hqp : forall j, 0 < nth j q 0 -> 0 < nth j dw 0.
  Notation h := (nm xs q).
  Notation C t := (bil k (phi x (firstn t l)) (phi x (firstn t l))).
  Notation B := (kappa + rho).
  Notation H := (bil k h h).
  Notation b t := (bil k h (phi x (firstn t l))).
  Notation Sc t j := (bil k [(x j, 1)] (phi x (firstn t l))).

  Lemma C_step t : (t < length l)%nat -> C (S t) = C t + (k (x (nth t l 0%nat)) (x (nth t l 0%nat)) + 2 * Sc t (nth t l 0%nat)).
  Proof using Hk.
    intro Ht. rewrite firstn_snoc by exact Ht. rewrite phi_snoc, bil_app_l, !bil_app_r.
    rewrite (sym k Hk (phi x (firstn t l)) [(nth (nth t l 0%nat) xs p0, 1)]).
    assert (E1 : forall a, bil k [(a, 1)] [(a, 1)] = k a a) by (intro a; unfold bil; cbn; ring). rewrite E1. lra.
  Qed.
  Lemma choice unique t j : (t < length l)%nat -> near_greedy (candidate dw unique) score tol l ->
    (j < length xs)%nat -> 0 < nth j dw 0 -> (unique = true -> ~ In j (firstn t l)) ->
    k (x (nth t l 0%nat)) (x (nth t l 0%nat)) + 2 * Sc t (nth t l 0%nat) <= B + 2 * Sc t j.
  Proof using HL Hd Hreg HI Hql.
    intros Ht HG Hj Hw HU. destruct (HG t Ht) as [_ HM]. specialize (HM j). unfold candidate in HM.
    specialize (HM ltac:(repeat split; [lia|exact Hw|exact HU])). unfold stein_score in HM.
    rewrite !firstn_length_le in HM by lia. rewrite !bil_one_phi.
    assert (Hc : (nth t l 0%nat < length xs)%nat) by (apply HI, nth_In, Ht).
    pose proof (Hreg t (nth t l 0%nat) j Ht Hc Hj). pose proof (Hd _ (nth_In xs p0 Hj)). lra.
  Qed.
  Lemma young t : (t <= length l)%nat -> 2 * INR t * b t <= C t + INR t * INR t * H.
  Proof using Hk.
    intro Ht. pose proof (proj2 Hk (scal (INR t) h ++ scal (-1) (phi x (firstn t l)))) as PS.
    rewrite bil_app_l, !bil_app_r, !bil_scal_l, !bil_scal_r, (sym k Hk (phi x (firstn t l)) h) in PS. lra.
  Qed.
  Lemma H_nonneg : 0 <= H. Proof using Hk. apply (proj2 Hk). Qed.
  Lemma step_repeats t : (t < length l)%nat -> near_greedy (candidate dw false) score tol l -> C (S t) <= C t + B + 2 * b t.
  Proof using HL Hd Hreg HI Hk Hql Hqn Hqs Hqp.
    intros Ht HG. rewrite C_step by exact Ht.
    set (z := k _ _ + 2 * _). enough (- b t <= - ((z - B) / 2)) by lra.
    rewrite (bil_as_lin k h).
    replace (- lin h (fun a => bil k [(a, 1)] (phi x (firstn t l)))) with (lin h (fun a => -1 * bil k [(a, 1)] (phi x (firstn t l)))) by (rewrite lin_mul; lra).
    apply (lin_nm_bound p0); auto. intros j Hj Hw. pose proof (choice false t j Ht HG Hj (Hqp j Hw) ltac:(discriminate)) as X. unfold z. cbv beta in *. lra.
  Qed.
  Lemma step_unique t c0 : q = repeat c0 (length xs) -> (length l <= length xs)%nat -> NoDup l ->
    (t < length l)%nat -> near_greedy (candidate dw true) score tol l ->
    (INR (length xs) - INR t) * (C (S t) - C t - B) <= 2 * (INR (length xs) * b t - C t).
  Proof using HL Hd Hreg HI Hk Hql Hqn Hqs Hqp.
    intros Hu Hll HND Ht HG. set (n := length xs) in *.
    assert (Hx : xs <> []) by (intro E; unfold n in *; rewrite E in *; cbn in *; lia).
    assert (Hc0 : 0 < c0). { rewrite Hu, Rsum_repeat in Hqs. assert (0 < INR n) by (apply lt_0_INR; lia). nra. }
    assert (Hpos : forall j, (j < n)%nat -> 0 < nth j dw 0). { intros j Hj. apply Hqp. rewrite Hu, nth_repeat_below by exact Hj. exact Hc0. }
    assert (Hlt : length (firstn t l) = t) by (apply firstn_length_le; lia).
    assert (HND' : NoDup (firstn t l)). { rewrite <- (firstn_skipn t l) in HND. clear - HND. induction (firstn t l) as [|a l' IH]; [constructor|].
      cbn in HND. inversion HND; subst. constructor; [|auto]. intro Ha. match goal with X : ~ _ |- _ => apply X, in_or_app; now left end. }
    assert (HI' : forall i, In i (firstn t l) -> (i < n)%nat). { intros i Hi. apply HI. rewrite <- (firstn_skipn t l). apply in_or_app. now left. }
    rewrite C_step by exact Ht. set (z := k _ _ + 2 * _).
    set (F := fun j : nat => Sc t j).
    assert (E1 : Rsum (map F (seq 0 n)) = INR n * b t).
    { rewrite (bil_as_lin k h), Hu. unfold n. rewrite (lin_nm_uniform p0) by assumption. unfold F. field. apply not_0_INR. fold n. lia. }
    assert (E2 : Rsum (map F (firstn t l)) = C t) by (unfold F; now rewrite <- (bil_phi k x)).
    pose proof (Rsum_not_chosen F _ n HND' HI') as E3. pose proof (length_not_chosen _ n HND' HI') as E4.
    set (U := filter _ (seq 0 n)) in *.
    assert (HB : Rsum (map (fun j => - F j) U) <= INR (length U) * (- ((z - B) / 2))).
    { apply Rsum_bound. intros i Hi. destruct (in_not_chosen _ n i Hi) as [Hi1 Hi2].
      pose proof (choice true t i Ht HG Hi1 (Hpos i Hi1) (fun _ => Hi2)) as X. unfold F, z. cbv beta in *. lra. }
    rewrite (Rsum_map_ext _ (fun j => -1 * F j)), Rsum_map_scal in HB by (intros; lra).
    assert (EU : INR (length U) = INR n - INR t) by (replace n with (length U + t)%nat by lia; rewrite plus_INR; lra).
    rewrite <- EU. nra.
  Qed.
  Lemma stein_energy unique t : (t <= length l)%nat -> near_greedy (candidate dw unique) score tol l ->
    (unique = true -> NoDup l /\ (length l <= length xs)%nat /\ exists c0, q = repeat c0 (length xs)) ->
    C t <= INR t * INR t * H + INR t * B * harm t.
  Proof using HL Hd Hreg HI Hk Hql Hqn Hqs Hqp Hrho.
    intros Ht HG HU. induction t as [|t IH]; [cbn; rewrite !Rmult_0_l, Rplus_0_l; right; reflexivity|].
    specialize (IH ltac:(lia)). pose proof (young t ltac:(lia)) as Y. pose proof H_nonneg as HH. pose proof (harm_nonneg t) as HHt.
    assert (HB : 0 <= B).
    { assert (Hc : (nth 0 l 0%nat < length xs)%nat) by (apply HI, nth_In; lia).
      pose proof (Hd _ (nth_In xs p0 Hc)). pose proof (proj2 Hk [(nth (nth 0 l 0%nat) xs p0, 1)]) as X. unfold bil in X. cbn in X. lra. }
    cbn [harm]. set (T := INR t) in *. assert (HT : 0 <= T) by apply pos_INR. rewrite S_INR. fold T.
    replace ((T + 1) * B * (harm t + / (T + 1))) with ((T + 1) * B * harm t + B) by (field; lra).
    assert (Z : t = 0%nat -> C t = 0 /\ b t = 0 /\ T = 0).
    { intros ->. split; [reflexivity|]. split; [|reflexivity]. cbn [firstn phi map]. rewrite (sym k Hk). reflexivity. }
    destruct unique.
    - destruct (HU eq_refl) as (ND & LL & c0 & E). pose proof (step_unique t c0 E LL ND ltac:(lia) HG) as S.
      assert (HN : T + 1 <= INR (length xs)). { unfold T. rewrite <- S_INR. apply le_INR. lia. }
      set (N := INR (length xs)) in *. fold T in S.
      destruct (Nat.eq_dec t 0) as [Et|Et].
      + destruct (Z Et) as (Z1 & Z2 & Z3). rewrite Z1, Z2, Z3 in *. assert (C (Datatypes.S t) <= B) by nra. nra.
      + assert (HT1 : 1 <= T) by (change 1 with (INR 1); apply le_INR; lia).
        set (C1 := C (Datatypes.S t)) in *. set (C0 := C t) in *. set (bt := b t) in *. set (Hh := H) in *. set (g := B * harm t).
        assert (Hg : 0 <= g) by (apply Rmult_le_pos; assumption).
        replace (T * B * harm t) with (T * g) in IH by (unfold g; ring). replace ((T + 1) * B * harm t) with ((T + 1) * g) by (unfold g; ring).
        apply Rmult_le_reg_l with ((N - T) * T); [nra|].
        assert (A1 : (N - T) * T * C1 <= (N - T) * T * (C0 + B) + (N * (2 * T * bt) - 2 * T * C0)) by nra.
        assert (A2 : N * (2 * T * bt) <= N * (C0 + T * T * Hh)) by (apply Rmult_le_compat_l; lra).
        assert (A3 : ((N - T) * (T + 1) - T) * C0 <= ((N - T) * (T + 1) - T) * (T * T * Hh + T * g)) by (apply Rmult_le_compat_l; [nra|exact IH]).
        assert (A4 : 0 <= (N - T) * T * Hh) by (repeat apply Rmult_le_pos; lra).
        assert (A5 : 0 <= T * T * g) by (repeat apply Rmult_le_pos; lra).
        nra.
    - pose proof (step_repeats t ltac:(lia) HG) as S.
      destruct (Nat.eq_dec t 0) as [Et|Et].
      + destruct (Z Et) as (Z1 & Z2 & Z3). rewrite Z1, Z2, Z3 in *. nra.
      + assert (HT1 : 1 <= T) by (change 1 with (INR 1); apply le_INR; lia).
        set (C1 := C (Datatypes.S t)) in *. set (C0 := C t) in *. set (bt := b t) in *. set (Hh := H) in *. set (g := B * harm t).
        assert (Hg : 0 <= g) by (apply Rmult_le_pos; assumption).
        replace (T * B * harm t) with (T * g) in IH by (unfold g; ring). replace ((T + 1) * B * harm t) with ((T + 1) * g) by (unfold g; ring).
        apply Rmult_le_reg_l with T; [lra|].
        assert (A1 : T * C1 <= T * (C0 + B) + 2 * T * bt) by nra.
        assert (A2 : (T + 1) * C0 <= (T + 1) * (T * T * Hh + T * g)) by (apply Rmult_le_compat_l; lra).
        assert (A4 : 0 <= T * Hh) by (apply Rmult_le_pos; lra).
        nra.
  Qed.
  Lemma stein_rate_near unique : l <> [] -> near_greedy (candidate dw unique) score tol l ->
    (unique = true -> NoDup l /\ (length l <= length xs)%nat /\ exists c0, q = repeat c0 (length xs)) ->
    wavg (fun a => wavg (fun b => k a b) (map x l) (repeat 1 (length l))) (map x l) (repeat 1 (length l))
    <= wavg (fun a => wavg (fun b => k a b) xs q) xs q + B * (1 + ln (INR (length l))) / INR (length l).
  Proof using HL Hd Hreg HI Hk Hql Hqn Hqs Hqp Hrho.
    intros Hl HG HU. pose proof (stein_energy unique (length l) (le_n _) HG HU) as E. rewrite firstn_all in E.
    rewrite !wavg2_bil. set (m := length l) in *.
    assert (Hm : (1 <= m)%nat) by (unfold m; destruct l; [congruence|cbn; lia]).
    assert (HM : 1 <= INR m) by (change 1 with (INR 1); now apply le_INR).
    assert (E1 : bil k (nm (map x l) (repeat 1 m)) (nm (map x l) (repeat 1 m)) = bil k (phi x l) (phi x l) / (INR m * INR m)).
    { assert (X : scal (-1) (nm (map x l) (repeat 1 m)) = scal (- / INR m) (phi x l)) by (unfold m; now apply nm_ones).
      transitivity (bil k (scal (-1) (nm (map x l) (repeat 1 m))) (scal (-1) (nm (map x l) (repeat 1 m)))).
      - rewrite bil_scal_l, bil_scal_r. ring.
      - rewrite X, bil_scal_l, bil_scal_r. field. lra. }
    rewrite E1. apply Rmult_le_reg_l with (INR m * INR m); [nra|].
    replace (INR m * INR m * (bil k (phi x l) (phi x l) / (INR m * INR m))) with (bil k (phi x l) (phi x l)) by (field; lra).
    replace (INR m * INR m * (H + B * (1 + ln (INR m)) / INR m)) with (INR m * INR m * H + INR m * B * (1 + ln (INR m))) by (field; lra).
    eapply Rle_trans; [exact E|]. apply Rplus_le_compat_l. apply Rmult_le_compat_l; [|now apply harm_ln].
    apply Rmult_le_pos; [lra|].
    assert (Hc : (nth 0 l 0%nat < length xs)%nat) by (apply HI, nth_In; unfold m in *; lia).
    pose proof (Hd _ (nth_In xs p0 Hc)). pose proof (proj2 Hk [(nth (nth 0 l 0%nat) xs p0, 1)]) as X. unfold bil in X. cbn in X. lra.
  Qed.
End SteinRate.

Lemma greedy_near cand score l : greedy_argmax cand score l -> near_greedy cand score (fun _ => 0) l.
Proof. intros H t Ht. destruct (H t Ht) as [C M]. split; [exact C|]. intros j Hj. destruct (M j Hj). cbv beta. lra. Qed.
Lemma stein_rate {P} (p0 : P) k : psd k -> forall xs dw kappa rho lap rl, length dw = length xs ->
  (forall a, In a xs -> k a a <= kappa) -> 0 <= rho -> forall l,
  (forall t i j, (t < length l)%nat -> (i < length xs)%nat -> (j < length xs)%nat ->
    (lap j - INR (t + 1) * rl j) - (lap i - INR (t + 1) * rl i) <= rho) ->
  (forall i, In i l -> (i < length xs)%nat) -> forall q, length q = length xs -> (forall a, In a q -> 0 <= a) -> 0 < Rsum q ->
  (forall j, 0 < nth j q 0 -> 0 < nth j dw 0) -> forall unique, l <> [] ->
  greedy_argmax (candidate dw unique) (stein_score k lap rl (fun j => nth j xs p0)) l ->
  (unique = true -> NoDup l /\ (length l <= length xs)%nat /\ exists c0, q = repeat c0 (length xs)) ->
  wavg (fun a => wavg (fun b => k a b) (map (fun j => nth j xs p0) l) (repeat 1 (length l))) (map (fun j => nth j xs p0) l) (repeat 1 (length l))
  <= wavg (fun a => wavg (fun b => k a b) xs q) xs q + (kappa + rho) * (1 + ln (INR (length l))) / INR (length l).
Proof.
  intros. apply stein_rate_near with (dw := dw) (lap := lap) (rl := rl) (tol := fun _ => 0) (unique := unique); auto.
  - intros t i j ? ? ?. rewrite Rplus_0_r. auto.
  - now apply greedy_near.
Qed.
