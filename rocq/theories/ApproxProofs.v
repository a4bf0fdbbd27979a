(** * Approximate kernels *)
From Coq Require Import List ZArith Reals Lra Lia Bool Permutation.
From Verif Require Import Num Jax RSum JaxFacts DataModel MeanModel MeanSpec MeanProofs DataMeanLemmas MetricModel MetricSpec MetricProofs MetricProofs2
  KernelProofs4 KTProofs4 GKPSpec CholSpec ArgFacts LsqModel LsqSpec LsqProofs LsqProofs2 ApproxModel ApproxSpec.
Import ListNotations.
Open Scope R_scope.

Lemma upd_app {A} (l : list A) v w m : upd (length l) v (l ++ w :: m) = l ++ v :: m.
Proof. induction l as [|a l IH]; cbn; [reflexivity|]. now rewrite IH. Qed.
Section Approx.
  Context {P : Type} (p0 : P) (k : P -> P -> R) (Ksym : forall a b, k a b = k b a).
  Context {Y : Type} (y0 : Y) {K : Type}.
  Context (choice : K -> nat -> nat -> option (list ER) -> bool -> result (list nat)) (lstsq : list (list ER) -> list ER -> list ER).
  Notation kE := (fun a b => Fin (k a b)).

  Lemma wavg_units f (xs : list P) : xs <> [] -> wavg f xs (repeat 1 (length xs)) = Rsum (map f xs) / INR (length xs).
  Proof.
    intro H. rewrite wavg_ones by exact H. unfold lin, uniform. rewrite map_map. cbn. rewrite Rsum_map_scal. unfold Rdiv. ring.
  Qed.
  Lemma mean_over_fin x sub : x <> [] -> sub <> [] -> mean_over EROps p0 y0 kE x sub = Ok (map Fin (map (avg_at k x) sub)).
  Proof.
    intros Hx Hs. unfold mean_over. rewrite !as_data_fin. rewrite row_mean_spec; try assumption; try (now rewrite repeat_length).
    2:{ rewrite Rsum_repeat. destruct x; [contradiction|]. rewrite Rmult_1_r. apply not_0_INR. discriminate. }
    cbn [bind vec_of]. f_equal. rewrite map_map. apply map_ext. intro y. f_equal. now apply wavg_units.
  Qed.
  Lemma own_mean_fin sub : sub <> [] -> own_mean EROps p0 y0 kE sub = Ok (map Fin (map (avg_at k sub) sub)).
  Proof. intro H. unfold own_mean, gramian_row_mean. now apply mean_over_fin. Qed.

  Lemma choice_sample key n m : (forall key, choice_ok (choice key)) -> (m <= n)%nat -> (0 < n)%nat ->
    exists l, random_indices choice key n m = Ok l /\ sample_of n m l.
  Proof.
    intros C L H. destruct (proj2 (C key n m None false)) as (l & E & Ll & B & D); [split; [now right|left; lia]|].
    exists l. split; [exact E|]. repeat split; auto.
  Qed.
  Lemma choice_err key n m : (forall key, choice_ok (choice key)) -> (n < m)%nat -> random_indices choice key n m = Err ValueError.
  Proof. intros C L. apply (proj1 (C key n m None false)). left. split; [reflexivity|lia]. Qed.

  Lemma pairwise_FF (x sub : list P) : pairwise kE x sub = map (map Fin) (map (fun a => map (k a) sub) x).
  Proof. unfold pairwise. rewrite map_map. apply map_ext. intro a. now rewrite map_map. Qed.
  Lemma nth_feature (x sub : list P) i : (i < length x)%nat -> nth i (pairwise kE x sub) [] = map Fin (map (k (nth i x p0)) sub).
  Proof.
    intro H. rewrite pairwise_FF. rewrite (nth_indep _ [] (map Fin (map (k p0) sub))) by (now rewrite !map_length).
    rewrite map_map. apply (map_nth (fun a => map Fin (map (k a) sub))).
  Qed.

  (** the regression step, with any anchors and any training sample *)
  Lemma rls_fin key x num anchors train f :
    (forall key, choice_ok (choice key)) ->
    random_indices choice key (length x) num = Ok train -> (forall i, In i train -> (i < length x)%nat) ->
    forall tm, tm (select p0 x train) = Ok (map Fin (map f (select p0 x train))) ->
    lstsq_on lstsq (map (fun a => map (k a) (select p0 x anchors)) (select p0 x train)) (length anchors) (map f (select p0 x train)) ->
    exists c, best_fit p0 k x f anchors train c /\
      random_least_squares EROps p0 choice lstsq key x (pairwise kE x (select p0 x anchors)) num tm
      = Ok (map Fin (map (expansion p0 k x anchors c) x)).
  Proof.
    intros C E B tm T (z & LZ & Lz & MZ). exists z. split.
    - split; [exact Lz|]. intros c' L'. specialize (MZ c' L').
      assert (X : forall c, sq_residual (map (fun a => map (k a) (select p0 x anchors)) (select p0 x train)) (map f (select p0 x train)) c
        = fit_error p0 k x f anchors train c).
      { intro c. unfold sq_residual, fit_error, Rmv. rewrite map_map, map2_map_same. reflexivity. }
      now rewrite !X in MZ.
    - unfold random_least_squares. rewrite E. cbn [bind]. change (map (fun i => nth i x p0) train) with (select p0 x train). rewrite T. cbn [bind].
      replace (map (fun i => nth i (pairwise kE x (select p0 x anchors)) []) train)
        with (map (map (@Fin R)) (map (fun a => map (k a) (select p0 x anchors)) (select p0 x train))).
      2:{ unfold select at 2. rewrite !map_map. apply map_ext_in. intros i Hi. symmetry. apply nth_feature. now apply B. }
      rewrite LZ. f_equal. unfold matvec. rewrite pairwise_FF, !map_map. apply map_ext. intro a. apply fdot_fin.
  Qed.
  Lemma rls_err key x F num tm : (forall key, choice_ok (choice key)) -> (length x < num)%nat ->
    random_least_squares EROps p0 choice lstsq key x F num tm = Err ValueError.
  Proof. intros C L. unfold random_least_squares. now rewrite choice_err. Qed.

  Lemma select_nonempty x train n m : sample_of n m train -> (0 < m)%nat -> select p0 x train <> [].
  Proof. intros [L _] H E. apply (f_equal (@length P)) in E. unfold select in E. rewrite map_length in E. cbn in E. lia. Qed.

  (** a sample of everything is everything *)
  Lemma sample_all n l : sample_of n n l -> Permutation l (seq 0 n).
  Proof.
    intros (L & D & B). apply NoDup_Permutation_bis; [exact D|rewrite seq_length; lia|]. intros i Hi. apply in_seq. specialize (B i Hi). lia.
  Qed.
  Lemma select_all x l : sample_of (length x) (length x) l -> Permutation (select p0 x l) x.
  Proof.
    intro H. apply (Permutation_trans (l' := map (fun i => nth i x p0) (seq 0 (length x)))); [|now rewrite <- list_seq].
    apply Permutation_map, sample_all, H.
  Qed.
  Lemma fit_error_all x f anchors train c : sample_of (length x) (length x) train ->
    fit_error p0 k x f anchors train c = Rsum (map (fun y => (expansion p0 k x anchors c y - f y) ^ 2) x).
  Proof. intro H. unfold fit_error. apply Rsum_perm, Permutation_map, select_all, H. Qed.
  Lemma avg_perm xs ys y : Permutation xs ys -> avg_at k xs y = avg_at k ys y.
  Proof.
    intro H. unfold avg_at. rewrite (Permutation_length H). f_equal. apply Rsum_perm, Permutation_map, H.
  Qed.

  Lemma sumsq_map_zero {A} (g : A -> R) l : Rsum (map (fun a => (g a) ^ 2) l) <= 0 -> forall a, In a l -> g a = 0.
  Proof.
    intro H. induction l as [|b l IH]; intros a I; [destruct I|].
    change ((g b) ^ 2 + Rsum (map (fun a => (g a) ^ 2) l) <= 0) in H.
    assert (0 <= Rsum (map (fun a => (g a) ^ 2) l)) by (apply Rsum_nonneg; intros v Hv; apply in_map_iff in Hv; destruct Hv as (u & <- & _); nra).
    pose proof (pow2_ge_0 (g b)) as Q. destruct I as [<-|I]; [|apply IH; [lra|exact I]].
    assert (Z : g b * g b = 0) by lra. now destruct (Rmult_integral _ _ Z).
  Qed.
  (** all points used for training and the row mean in the span of the features: exact *)
  Lemma best_fit_exact x f anchors train c c0 : sample_of (length x) (length x) train -> best_fit p0 k x f anchors train c ->
    length c0 = length anchors -> (forall y, In y x -> expansion p0 k x anchors c0 y = f y) ->
    map (expansion p0 k x anchors c) x = map f x.
  Proof.
    intros S [L M] L0 E. specialize (M c0 L0). rewrite !(fit_error_all x f) in M by exact S.
    rewrite (Rsum_map_ext (fun y => (expansion p0 k x anchors c0 y - f y) ^ 2) (fun _ => 0) x) in M by (intros y Hy; rewrite E by exact Hy; ring).
    apply map_ext_in. intros y Hy. rewrite Rsum_map_const0 in M.
    pose proof (sumsq_map_zero (fun y => expansion p0 k x anchors c y - f y) x M y Hy). cbn in *. lra.
  Qed.
  (** averages over a subset are kernel expansions on it *)
  Lemma expansion_avg x anchors y :
    expansion p0 k x anchors (repeat (/ INR (length anchors)) (length anchors)) y = avg_at k (select p0 x anchors) y.
  Proof.
    unfold expansion, avg_at. replace (length anchors) with (length (select p0 x anchors)) by apply map_length.
    unfold Rdiv. generalize (/ INR (length (select p0 x anchors))). intro c.
    assert (G : forall l, Rdot (map (k y) l) (repeat c (length l)) = Rsum (map (fun z => k z y) l) * c).
    { induction l as [|a l IH]; [unfold Rdot; cbn; ring|]. unfold Rdot in *. cbn. rewrite IH, (Ksym y a). ring. }
    apply G.
  Qed.
  Lemma expansion_sub x anchors c d y : length c = length d ->
    expansion p0 k x anchors (KernelSpec.vsub c d) y = expansion p0 k x anchors c y - expansion p0 k x anchors d y.
  Proof. intro L. apply Rdot_sub_r. exact L. Qed.
  (** a kernel expansion vanishing on its own anchors vanishes everywhere *)
  Lemma expansion_zero x anchors d : psd k -> length d = length anchors ->
    (forall y, In y (select p0 x anchors) -> expansion p0 k x anchors d y = 0) -> forall y, expansion p0 k x anchors d y = 0.
  Proof.
    intros PSD L Z y. set (ms := combine (select p0 x anchors) d).
    assert (E : forall y, expansion p0 k x anchors d y = lin ms (k y)) by (intro; unfold expansion; apply Rdot_lin).
    assert (B0 : bil k ms ms = 0).
    { rewrite bil_lin. unfold lin at 1. rewrite (Rsum_map_ext _ (fun _ => 0)); [apply Rsum_map_const0|].
      intros m Hm. change (fun q => k (fst m) q) with (k (fst m)). rewrite <- E, Z; [ring|]. destruct m as [a w]. eapply in_combine_l. exact Hm. }
    pose proof (cauchy k PSD [(y, 1)] ms) as C. rewrite B0, Rmult_0_r in C.
    assert (BY : bil k [(y, 1)] ms = expansion p0 k x anchors d y).
    { rewrite E, bil_lin. unfold lin at 1. cbn [map Rsum fst snd]. change (fun q => k y q) with (k y). ring. }
    rewrite BY in C. assert (Q : expansion p0 k x anchors d y * expansion p0 k x anchors d y = 0) by (pose proof (Rle_0_sqr (expansion p0 k x anchors d y)) as S; unfold Rsqr in S; lra).
    now destruct (Rmult_integral _ _ Q).
  Qed.
  Lemma nystrom_average x anchors c : psd k ->
    best_fit p0 k x (avg_at k (select p0 x anchors)) anchors anchors c ->
    forall y, expansion p0 k x anchors c y = avg_at k (select p0 x anchors) y.
  Proof.
    intros PSD [L M] y. set (u := repeat (/ INR (length anchors)) (length anchors)).
    assert (Lu : length u = length anchors) by apply repeat_length. specialize (M u Lu).
    assert (EU : forall y, expansion p0 k x anchors u y = avg_at k (select p0 x anchors) y) by (intro; apply expansion_avg).
    unfold fit_error in M. rewrite (Rsum_map_ext (fun y => (expansion p0 k x anchors u y - avg_at k (select p0 x anchors) y) ^ 2) (fun _ => 0)) in M
      by (intros z _; rewrite EU; ring).
    rewrite Rsum_map_const0 in M.
    assert (Z : forall z, expansion p0 k x anchors (KernelSpec.vsub c u) z = 0).
    { apply expansion_zero; [exact PSD|apply vsub_len'; assumption|]. intros z Hz. rewrite expansion_sub by congruence.
      pose proof (sumsq_map_zero (fun y => expansion p0 k x anchors c y - avg_at k (select p0 x anchors) y) _ M z Hz) as Q. cbn in Q.
      rewrite EU. exact Q. }
    specialize (Z y). rewrite expansion_sub in Z by congruence. rewrite EU in Z. lra.
  Qed.

  (** ** ANNchor *)
  Definition chosen_far (x : list P) (s : list nat) : Prop :=
    forall j i, (0 < j < length s)%nat -> (i < length x)%nat ->
      exists l, (l < j)%nat /\ forall l', (l' < j)%nat ->
        k (nth (nth j s 0%nat) x p0) (nth (nth l' s 0%nat) x p0) <= k (nth i x p0) (nth (nth l s 0%nat) x p0).
  Definition ann_row (x : list P) (num : nat) (s : list nat) (a : P) : list R := map (k a) (select p0 x s) ++ repeat 0 (num - length s).
  Lemma ann_row_len x num s a : (length s <= num)%nat -> length (ann_row x num s a) = num.
  Proof. intro H. unfold ann_row, select. rewrite app_length, !map_length, repeat_length. lia. Qed.
  Lemma ann_row_upd x num s a e : (length s < num)%nat ->
    upd (length s) (k a (nth e x p0)) (ann_row x num s a) = ann_row x num (s ++ [e]) a.
  Proof.
    intro H. unfold ann_row. rewrite app_length. cbn [length]. replace (num - length s)%nat with (S (num - (length s + 1))) by lia. cbn [repeat].
    replace (length s) with (length (map (k a) (select p0 x s))) at 1 by (unfold select; now rewrite !map_length).
    rewrite upd_app. unfold select. rewrite !map_app. cbn [map]. now rewrite <- app_assoc.
  Qed.
  Hypothesis Kpos : forall a b, 0 <= k a b.
  (** the largest similarity of [a] to the anchors so far *)
  Lemma ann_row_max x num s a : s <> [] -> (length s <= num)%nat ->
    exists big, largest big (ann_row x num s a) /\ (exists l, (l < length s)%nat /\ big = k a (nth (nth l s 0%nat) x p0)) /\
      forall l, (l < length s)%nat -> k a (nth (nth l s 0%nat) x p0) <= big.
  Proof.
    intros Hs Hn. set (vals := map (fun i => k a (nth i x p0)) s).
    assert (EV : map (k a) (select p0 x s) = vals) by (unfold select, vals; now rewrite map_map).
    assert (NV : forall l, (l < length s)%nat -> nth l vals 0 = k a (nth (nth l s 0%nat) x p0)).
    { intros l Hl. unfold vals. rewrite (nth_indep _ 0 (k a (nth 0 x p0))) by (now rewrite map_length).
      apply (map_nth (fun i => k a (nth i x p0))). }
    assert (LV : length vals = length s) by apply map_length.
    destruct vals as [|v0 vt] eqn:EE; [destruct s; [contradiction|discriminate]|].
    destruct (fold_Rmax_largest vt v0) as [I G]. set (big := fold_left Rmax vt v0) in *. exists big.
    destruct (In_nth _ _ 0 I) as (l & Hl & El). split; [|split].
    - unfold ann_row. rewrite EV. split; [apply in_app_iff; now left|]. intros v Hv. apply in_app_iff in Hv. destruct Hv as [Hv|Hv]; [now apply G|].
      apply repeat_spec in Hv. subst v. apply Rle_trans with (nth l (v0 :: vt) 0); [|lra]. rewrite NV by lia. apply Kpos.
    - exists l. split; [lia|]. rewrite <- NV by lia. now rewrite El.
    - intros l' Hl'. rewrite <- NV by lia. apply G. apply nth_In. lia.
  Qed.
  Lemma ann_step x num s : x <> [] -> s <> [] -> (length s < num)%nat ->
    exists e, (e < length x)%nat /\
      annchor_body EROps p0 kE x (length s) (map (fun a => map Fin (ann_row x num s a)) x) = map (fun a => map Fin (ann_row x num (s ++ [e]) a)) x /\
      forall i, (i < length x)%nat -> exists l, (l < length s)%nat /\ forall l', (l' < length s)%nat ->
        k (nth e x p0) (nth (nth l' s 0%nat) x p0) <= k (nth i x p0) (nth (nth l s 0%nat) x p0).
  Proof.
    intros Hx Hs Hn. set (mx := map (vmax EROps) (map (fun a => map Fin (ann_row x num s a)) x)).
    assert (MX : forall i, (i < length x)%nat -> exists big, nth i mx NaN = Fin big /\
      (exists l, (l < length s)%nat /\ big = k (nth i x p0) (nth (nth l s 0%nat) x p0)) /\
      forall l, (l < length s)%nat -> k (nth i x p0) (nth (nth l s 0%nat) x p0) <= big).
    { intros i Hi. destruct (ann_row_max x num s (nth i x p0) Hs ltac:(lia)) as (big & L & H). exists big. split; [|exact H].
      unfold mx. rewrite map_map. rewrite (nth_indep _ NaN (vmax EROps (map Fin (ann_row x num s p0)))) by (now rewrite map_length).
      rewrite (map_nth (fun a => vmax EROps (map Fin (ann_row x num s a)))). now apply vmax_fin. }
    assert (LM : length mx = length x) by (unfold mx; now rewrite !map_length).
    destruct (argmin_spec ROps ROps_laws mx) as (R1 & R2 & _).
    { intro E. rewrite E in LM. destruct x; [contradiction|discriminate]. }
    { apply Forall_forall. intros v Hv. destruct (In_nth _ _ NaN Hv) as (i & Hi & <-). rewrite LM in Hi. destruct (MX i Hi) as (b & -> & _). discriminate. }
    change (argmin (extOps ROps) mx) with (argmin EROps mx) in *. set (e := argmin EROps mx) in *. rewrite LM in R1, R2.
    exists e. split; [exact R1|]. split.
    - unfold annchor_body. fold mx. fold e. rewrite <- (map_id x) at 1. rewrite map2_map_same. apply map_ext. intro a.
      change (Fin (k a (nth e x p0))) with (Fin (k a (nth e x p0))). rewrite <- map_upd. f_equal. now apply ann_row_upd.
    - intros i Hi. destruct (MX i Hi) as (bi & Ei & (l & Hl & El) & _). destruct (MX e R1) as (be & Ee & _ & Ge).
      exists l. split; [exact Hl|]. intros l' Hl'. specialize (R2 i Hi). rewrite Ei, Ee in R2. cbn in R2. apply Rltb_false in R2.
      specialize (Ge l' Hl'). lra.
  Qed.
  Lemma ann_features x num : x <> [] -> (0 < num)%nat -> exists s, length s = num /\ nth 0 s 0%nat = 0%nat /\
    (forall i, In i s -> (i < length x)%nat) /\ annchor_features EROps p0 kE x num = pairwise kE x (select p0 x s) /\ chosen_far x s.
  Proof.
    intros Hx Hn. unfold annchor_features.
    assert (G : exists s, length s = S (num - 1) /\ nth 0 s 0%nat = 0%nat /\ (forall i, In i s -> (i < length x)%nat) /\
      fori (num - 1) (fun i => annchor_body EROps p0 kE x (S i)) (map (fun a => upd 0 (kE a (nth 0 x p0)) (repeat (f0 EROps) num)) x)
      = map (fun a => map Fin (ann_row x num s a)) x /\ chosen_far x s).
    { set (Inv := fun t F => (t <= num - 1)%nat -> exists s, length s = S t /\ nth 0 s 0%nat = 0%nat /\ (forall i, In i s -> (i < length x)%nat) /\
        F = map (fun a => map Fin (ann_row x num s a)) x /\ chosen_far x s).
      assert (I : Inv (num - 1)%nat (fori (num - 1) (fun i => annchor_body EROps p0 kE x (S i)) (map (fun a => upd 0 (kE a (nth 0 x p0)) (repeat (f0 EROps) num)) x))).
      { apply fori_ind.
        - intros _. exists [0%nat]. split; [reflexivity|]. split; [reflexivity|]. split.
          { intros i [<-|[]]. destruct x; [contradiction|cbn; lia]. }
          split; [|intros j i Hj; cbn in Hj; lia]. apply map_ext. intro a. unfold ann_row. cbn [select map app length].
          destruct num as [|m]; [lia|]. cbn [repeat upd]. rewrite Nat.sub_succ, Nat.sub_0_r. cbn [map]. f_equal. rewrite f0_fin. clear. induction m; cbn; [reflexivity|]. now f_equal.
        - intros t F _ IH Ht. destruct (IH ltac:(lia)) as (s & Ls & S0 & B & -> & CF).
          destruct (ann_step x num s) as (e & He & E & FAR); [exact Hx|intro Z; rewrite Z in Ls; discriminate|lia|].
          exists (s ++ [e]). rewrite app_length, Ls. split; [cbn; lia|]. split; [rewrite app_nth1 by lia; exact S0|]. split.
          { intros i Hi. apply in_app_iff in Hi. destruct Hi as [Hi|[<-|[]]]; auto. }
          split; [now rewrite <- Ls|]. intros j i Hj Hi. rewrite app_length, Ls in Hj. cbn in Hj.
          assert (NL : forall l, (l < length s)%nat -> nth l (s ++ [e]) 0%nat = nth l s 0%nat) by (intros; now apply app_nth1).
          destruct (Nat.eq_dec j (S t)) as [->|N].
          + replace (nth (S t) (s ++ [e]) 0%nat) with e by (rewrite app_nth2 by lia; rewrite Ls, Nat.sub_diag; reflexivity).
            rewrite <- Ls. destruct (FAR i Hi) as (l & Hl & H). exists l. split; [exact Hl|]. intros l' Hl'. rewrite !NL by lia. now apply H.
          + destruct (CF j i ltac:(lia) Hi) as (l & Hl & H). exists l. split; [exact Hl|]. intros l' Hl'. rewrite !NL by lia. now apply H. }
      apply I. lia. }
    destruct G as (s & Ls & S0 & B & E & CF). exists s. split; [lia|]. split; [exact S0|]. split; [exact B|]. split; [|exact CF].
    etransitivity; [exact E|]. rewrite pairwise_FF, map_map. apply map_ext. intro a. f_equal. unfold ann_row.
    replace (num - length s)%nat with 0%nat by lia. apply app_nil_r.
  Qed.
End Approx.
