(** * Property theorems: approximate kernels (C38, C51, C52) *)
From Coq Require Import List ZArith Reals Lra Lia Bool Permutation QArith.
From Verif Require Import Num Jax RSum DataModel MeanModel MetricSpec MetricProofs2 KernelModel GKPSpec CholSpec
  KernelProofs4 MeanSpec DataMeanLemmas PsdProofs PropChol LsqSpec ApproxModel ApproxSpec ApproxProofs.
Import ListNotations.
Open Scope R_scope.

(** ** C38: pointwise values, gradients and divergences are those of the base kernel *)
Theorem C38_pointwise {V} (base : meth V) x y :
  m_val (approx_meth base) x y = m_val base x y /\ m_gx (approx_meth base) x y = m_gx base x y /\
  m_gy (approx_meth base) x y = m_gy base x y /\ m_div (approx_meth base) x y = m_div base x y.
Proof. repeat split. Qed.
Print Assumptions C38_pointwise.

(** ** C38: number of points in the constructor *)
Theorem C38_constructor {K} (key : K) nk nt :
  rr_check (mkRR key nk nt) = if (0 <? nk)%Z && (0 <? nt)%Z then Ok (mkRR key nk nt) else Err ValueError.
Proof.
  unfold rr_check. cbn. destruct (Z.leb_spec nk 0), (Z.ltb_spec 0 nk); try lia; cbn; [reflexivity|].
  destruct (Z.leb_spec nt 0), (Z.ltb_spec 0 nt); try lia; reflexivity.
Qed.
Print Assumptions C38_constructor.

Lemma mc_run {P Y K} (p0 : P) (y0 : Y) (k : P -> P -> R)
  (choice : K -> nat -> nat -> option (list ER) -> bool -> result (list nat)) (lstsq : list (list ER) -> list ER -> list ER) key nk nt (d : Data P Y ER) : (forall a b, k a b = k b a) -> (forall key, choice_ok (choice key)) ->
  d_x d <> [] -> (0 < nt)%nat -> (nk <= length (d_x d))%nat -> (nt <= length (d_x d))%nat ->
  fits p0 k (d_x d) lstsq (fun _ => avg_at k (d_x d)) nk nt ->
  exists anchors train c, choice key (length (d_x d)) nk None false = Ok anchors /\
    sample_of (length (d_x d)) nk anchors /\ sample_of (length (d_x d)) nt train /\
    best_fit p0 k (d_x d) (avg_at k (d_x d)) anchors train c /\
    monte_carlo_row_mean EROps p0 y0 choice lstsq (fun a b => Fin (k a b)) (mkRR key (Z.of_nat (S nk)) (Z.of_nat nt)) d = Ok (map Fin (map (expansion p0 k (d_x d) anchors c) (d_x d))).
Proof.
  intros Ks C Hx Ht Lk Lt F. set (x := d_x d) in *. assert (Hn : (0 < length x)%nat) by (destruct x; [contradiction|cbn; lia]).
  destruct (choice_sample choice key (length x) nk C Lk Hn) as (anchors & EA & SA).
  destruct (choice_sample choice key (length x) nt C Lt Hn) as (train & ET & ST).
  assert (NE : select p0 x train <> []) by (eapply select_nonempty; eassumption).
  destruct (rls_fin p0 k choice lstsq key x nt anchors train (avg_at k x) C ET) with (tm := mean_over EROps p0 y0 (fun a b => Fin (k a b)) x) as (c & B & E).
  { apply ST. } { now apply mean_over_fin. }
  { replace (length anchors) with nk by (symmetry; apply SA). apply F; [apply SA|apply SA|exact ST]. }
  exists anchors, train, c. split; [exact EA|]. split; [exact SA|]. split; [exact ST|]. split; [exact B|].
  unfold monte_carlo_row_mean. fold x. cbn [rr_key rr_num_kernel rr_num_train]. cbv zeta.
  replace (Z.to_nat (Z.of_nat (S nk) - 1)) with nk by lia. rewrite EA. cbn [bind]. rewrite Nat2Z.id. exact E.
Qed.

(** ** C38: the Monte Carlo row mean is a kernel expansion on [num_kernel_points - 1]
    distinct data points whose coefficients are a least-squares fit of the exact row
    mean on [num_train_points] distinct data points.  It is exact when all points are
    used for training and the exact row mean is in the span of the features. *)
Theorem C38_monte_carlo {P Y K} (p0 : P) (y0 : Y) (k : P -> P -> R)
  (choice : K -> nat -> nat -> option (list ER) -> bool -> result (list nat)) (lstsq : list (list ER) -> list ER -> list ER) key nk nt (d : Data P Y ER) :
  (forall a b, k a b = k b a) -> (forall key, choice_ok (choice key)) ->
  d_x d <> [] -> (0 < nt)%nat -> (nk <= length (d_x d))%nat -> (nt <= length (d_x d))%nat ->
  fits p0 k (d_x d) lstsq (fun _ => avg_at k (d_x d)) nk nt ->
  exists anchors train c, choice key (length (d_x d)) nk None false = Ok anchors /\
    sample_of (length (d_x d)) nk anchors /\ sample_of (length (d_x d)) nt train /\
    best_fit p0 k (d_x d) (avg_at k (d_x d)) anchors train c /\
    monte_carlo_row_mean EROps p0 y0 choice lstsq (fun a b => Fin (k a b)) (mkRR key (Z.of_nat (S nk)) (Z.of_nat nt)) d = Ok (map Fin (map (expansion p0 k (d_x d) anchors c) (d_x d))) /\
    (nt = length (d_x d) ->
     (exists c0, length c0 = nk /\ forall y, In y (d_x d) -> expansion p0 k (d_x d) anchors c0 y = avg_at k (d_x d) y) ->
     monte_carlo_row_mean EROps p0 y0 choice lstsq (fun a b => Fin (k a b)) (mkRR key (Z.of_nat (S nk)) (Z.of_nat nt)) d = Ok (map Fin (exact_row_mean k (d_x d)))).
Proof.
  intros Ks C Hx Ht Lk Lt F. destruct (mc_run p0 y0 k choice lstsq key nk nt d) as (anchors & train & c & EA & SA & ST & B & E); try assumption.
  exists anchors, train, c. do 5 (split; [assumption|]).
  intros -> (c0 & L0 & H0). rewrite E. do 2 f_equal. apply (best_fit_exact p0 k (d_x d) (avg_at k (d_x d)) anchors train c c0); try assumption.
  rewrite L0. symmetry. apply SA.
Qed.

(** ** C38: ANNchor, for a non-negative kernel: the same with [num_kernel_points] anchors,
    the first data point first and each further one among the least similar to those
    already chosen (C52) *)
Theorem C38_annchor {P Y K} (p0 : P) (y0 : Y) (k : P -> P -> R)
  (choice : K -> nat -> nat -> option (list ER) -> bool -> result (list nat)) (lstsq : list (list ER) -> list ER -> list ER) key nk nt (d : Data P Y ER) :
  (forall a b, k a b = k b a) -> (forall a b, 0 <= k a b) -> (forall key, choice_ok (choice key)) ->
  d_x d <> [] -> (0 < nk)%nat -> (0 < nt)%nat -> (nt <= length (d_x d))%nat ->
  fits p0 k (d_x d) lstsq (fun _ => avg_at k (d_x d)) nk nt ->
  exists anchors, (length anchors = nk /\ (forall i, In i anchors -> (i < length (d_x d))%nat)) /\
    nth 0 anchors 0%nat = 0%nat /\
    (forall j i, (0 < j < nk)%nat -> (i < length (d_x d))%nat -> exists l, (l < j)%nat /\ forall l', (l' < j)%nat ->
      k (nth (nth j anchors 0%nat) (d_x d) p0) (nth (nth l' anchors 0%nat) (d_x d) p0)
      <= k (nth i (d_x d) p0) (nth (nth l anchors 0%nat) (d_x d) p0)) /\
    exists train c, sample_of (length (d_x d)) nt train /\
    best_fit p0 k (d_x d) (avg_at k (d_x d)) anchors train c /\
    annchor_row_mean EROps p0 y0 choice lstsq (fun a b => Fin (k a b)) (mkRR key (Z.of_nat nk) (Z.of_nat nt)) d = Ok (map Fin (map (expansion p0 k (d_x d) anchors c) (d_x d))) /\
    (nt = length (d_x d) ->
     (exists c0, length c0 = nk /\ forall y, In y (d_x d) -> expansion p0 k (d_x d) anchors c0 y = avg_at k (d_x d) y) ->
     annchor_row_mean EROps p0 y0 choice lstsq (fun a b => Fin (k a b)) (mkRR key (Z.of_nat nk) (Z.of_nat nt)) d = Ok (map Fin (exact_row_mean k (d_x d)))).
Proof.
  intros Ks Kp C Hx Hk Ht Lt F. set (x := d_x d) in *. assert (Hn : (0 < length x)%nat) by (destruct x; [contradiction|cbn; lia]).
  destruct (ann_features p0 k Kp x nk Hx Hk) as (anchors & La & S0 & B & FE & CF).
  destruct (choice_sample choice key (length x) nt C Lt Hn) as (train & ET & ST).
  assert (NE : select p0 x train <> []) by (eapply select_nonempty; eassumption).
  destruct (rls_fin p0 k choice lstsq key x nt anchors train (avg_at k x) C ET) with (tm := mean_over EROps p0 y0 (fun a b => Fin (k a b)) x) as (c & BF & E).
  { apply ST. } { now apply mean_over_fin. } { rewrite La. now apply F. }
  exists anchors. split; [split; assumption|]. split; [exact S0|]. split; [rewrite <- La; exact CF|].
  exists train, c. split; [exact ST|]. split; [exact BF|].
  assert (R : annchor_row_mean EROps p0 y0 choice lstsq (fun a b => Fin (k a b)) (mkRR key (Z.of_nat nk) (Z.of_nat nt)) d = Ok (map Fin (map (expansion p0 k x anchors c) x))).
  { unfold annchor_row_mean. fold x. cbn [rr_key rr_num_kernel rr_num_train]. cbv zeta. rewrite !Nat2Z.id, FE. destruct x; [contradiction|exact E]. }
  split; [exact R|]. intros -> (c0 & L0 & H0). rewrite R. do 2 f_equal.
  apply (best_fit_exact p0 k x (avg_at k x) anchors train c c0); try assumption. lia.
Qed.

Lemma nys_run {P Y K} (p0 : P) (y0 : Y) (k : P -> P -> R)
  (choice : K -> nat -> nat -> option (list ER) -> bool -> result (list nat)) (lstsq : list (list ER) -> list ER -> list ER) key nk nt (d : Data P Y ER) : (forall a b, k a b = k b a) -> (forall key, choice_ok (choice key)) ->
  d_x d <> [] -> (0 < nt)%nat -> (nk <= length (d_x d))%nat -> (nt <= length (d_x d))%nat ->
  fits p0 k (d_x d) lstsq (avg_at k) nk nt ->
  exists anchors train c, choice key (length (d_x d)) nk None false = Ok anchors /\ choice key (length (d_x d)) nt None false = Ok train /\
    sample_of (length (d_x d)) nk anchors /\ sample_of (length (d_x d)) nt train /\
    best_fit p0 k (d_x d) (avg_at k (select p0 (d_x d) train)) anchors train c /\
    nystrom_row_mean EROps p0 y0 choice lstsq (fun a b => Fin (k a b)) (mkRR key (Z.of_nat nk) (Z.of_nat nt)) d = Ok (map Fin (map (expansion p0 k (d_x d) anchors c) (d_x d))).
Proof.
  intros Ks C Hx Ht Lk Lt F. set (x := d_x d) in *. assert (Hn : (0 < length x)%nat) by (destruct x; [contradiction|cbn; lia]).
  destruct (choice_sample choice key (length x) nk C Lk Hn) as (anchors & EA & SA).
  destruct (choice_sample choice key (length x) nt C Lt Hn) as (train & ET & ST).
  assert (NE : select p0 x train <> []) by (eapply select_nonempty; eassumption).
  destruct (rls_fin p0 k choice lstsq key x nt anchors train (avg_at k (select p0 x train)) C ET) with (tm := own_mean EROps p0 y0 (fun a b => Fin (k a b))) as (c & B & E).
  { apply ST. } { now apply own_mean_fin. }
  { replace (length anchors) with nk by (symmetry; apply SA). apply F; [apply SA|apply SA|exact ST]. }
  exists anchors, train, c. split; [exact EA|]. split; [exact ET|]. split; [exact SA|]. split; [exact ST|]. split; [exact B|].
  unfold nystrom_row_mean. fold x. cbn [rr_key rr_num_kernel rr_num_train]. cbv zeta. rewrite !Nat2Z.id. unfold random_indices in EA |- *. rewrite EA. exact E.
Qed.

(** ** C38: Nystrom with all points used for training is exact when the exact row mean is
    in the span of the features; in particular when all points are kernel points too *)
Theorem C38_nystrom {P Y K} (p0 : P) (y0 : Y) (k : P -> P -> R)
  (choice : K -> nat -> nat -> option (list ER) -> bool -> result (list nat)) (lstsq : list (list ER) -> list ER -> list ER) key nk (d : Data P Y ER) :
  (forall a b, k a b = k b a) -> (forall key, choice_ok (choice key)) ->
  d_x d <> [] -> (nk <= length (d_x d))%nat ->
  fits p0 k (d_x d) lstsq (avg_at k) nk (length (d_x d)) ->
  exists anchors, choice key (length (d_x d)) nk None false = Ok anchors /\ sample_of (length (d_x d)) nk anchors /\
    ((exists c0, length c0 = nk /\ forall y, In y (d_x d) -> expansion p0 k (d_x d) anchors c0 y = avg_at k (d_x d) y) \/ nk = length (d_x d) ->
     nystrom_row_mean EROps p0 y0 choice lstsq (fun a b => Fin (k a b)) (mkRR key (Z.of_nat nk) (Z.of_nat (length (d_x d)))) d = Ok (map Fin (exact_row_mean k (d_x d)))).
Proof.
  intros Ks C Hx Lk F. set (x := d_x d) in *. assert (Hn : (0 < length x)%nat) by (destruct x; [contradiction|cbn; lia]).
  destruct (nys_run p0 y0 k choice lstsq key nk (length x) d) as (anchors & train & c & EA & ET & SA & ST & B & E); try assumption; try (unfold x; lia).
  fold x in EA, SA, ST, B, E. exists anchors. split; [exact EA|]. split; [exact SA|]. intro H.
  assert (G : exists c0, length c0 = length anchors /\ forall y, In y x -> expansion p0 k x anchors c0 y = avg_at k x y).
  { destruct H as [(c0 & L0 & H0)|H].
    - exists c0. split; [rewrite L0; symmetry; apply SA|exact H0].
    - exists (repeat (/ INR (length anchors)) (length anchors)). split; [apply repeat_length|]. intros y _. rewrite (expansion_avg p0 k Ks).
      apply avg_perm. rewrite H in SA. now apply select_all. }
  destruct G as (c0 & L0 & H0). rewrite E. do 2 f_equal.
  transitivity (map (avg_at k (select p0 x train)) x).
  - apply (best_fit_exact p0 k x _ anchors train c c0); try assumption. intros y Hy. rewrite H0 by exact Hy.
    apply avg_perm, Permutation_sym, select_all, ST.
  - apply map_ext. intro y. apply avg_perm, select_all, ST.
Qed.

(** ** C38: too many points.  Partial: Monte Carlo accepts one kernel point too many and
    ANNchor accepts any number ([C38_too_many_kernel_points_refuted]) *)
Theorem C38_too_many_points_partial {P Y K} (p0 : P) (y0 : Y) (k : P -> P -> R)
  (choice : K -> nat -> nat -> option (list ER) -> bool -> result (list nat)) (lstsq : list (list ER) -> list ER -> list ER) key (nk nt : Z) (d : Data P Y ER) :
  (forall key, choice_ok (choice key)) -> d_x d <> [] -> (0 < nk)%Z -> (0 < nt)%Z ->
  let n := Z.of_nat (length (d_x d)) in
  ((nt > n)%Z -> monte_carlo_row_mean EROps p0 y0 choice lstsq (fun a b => Fin (k a b)) (mkRR key nk nt) d = Err ValueError /\ annchor_row_mean EROps p0 y0 choice lstsq (fun a b => Fin (k a b)) (mkRR key nk nt) d = Err ValueError /\ nystrom_row_mean EROps p0 y0 choice lstsq (fun a b => Fin (k a b)) (mkRR key nk nt) d = Err ValueError) /\
  ((nk > n)%Z -> nystrom_row_mean EROps p0 y0 choice lstsq (fun a b => Fin (k a b)) (mkRR key nk nt) d = Err ValueError) /\
  ((nk > n + 1)%Z -> monte_carlo_row_mean EROps p0 y0 choice lstsq (fun a b => Fin (k a b)) (mkRR key nk nt) d = Err ValueError).
Proof.
  intros C Hx Hk Ht n. assert (Hn : (0 < length (d_x d))%nat) by (destruct (d_x d); [contradiction|cbn; lia]).
  assert (A : forall F tm, (nt > n)%Z -> random_least_squares EROps p0 choice lstsq key (d_x d) F (Z.to_nat nt) tm = Err ValueError).
  { intros F tm H. apply rls_err; [exact C|unfold n in H; lia]. }
  assert (B : forall m, random_indices choice key (length (d_x d)) m = Err ValueError \/ exists l, random_indices choice key (length (d_x d)) m = Ok l).
  { intro m. destruct (Nat.le_gt_cases m (length (d_x d))) as [L|L]; [right|left; now apply choice_err].
    destruct (choice_sample choice key (length (d_x d)) m C L Hn) as (l & E & _). eauto. }
  split; [|split].
  - intro H. split; [|split].
    + unfold monte_carlo_row_mean. cbn [rr_key rr_num_kernel rr_num_train]. cbv zeta.
      destruct (B (Z.to_nat (nk - 1))) as [->|(l & ->)]; [reflexivity|]. cbn [bind]. now apply A.
    + unfold annchor_row_mean. cbn [rr_key rr_num_kernel rr_num_train]. cbv zeta. rewrite A by exact H. destruct (d_x d); [contradiction|reflexivity].
    + unfold nystrom_row_mean. cbn [rr_key rr_num_kernel rr_num_train]. cbv zeta.
      destruct (B (Z.to_nat nk)) as [->|(l & ->)]; [reflexivity|]. cbn [bind]. now apply A.
  - intro H. unfold nystrom_row_mean. cbn [rr_key rr_num_kernel rr_num_train]. cbv zeta. rewrite choice_err; [reflexivity|exact C|unfold n in H; lia].
  - intro H. unfold monte_carlo_row_mean. cbn [rr_key rr_num_kernel rr_num_train]. cbv zeta. rewrite choice_err; [reflexivity|exact C|unfold n in H; lia].
Qed.

(** For every data set: n + 1 kernel points are accepted by the Monte Carlo kernel, and
    any number of kernel points by ANNchor *)
Theorem C38_too_many_kernel_points_refuted {P Y K} (p0 : P) (y0 : Y) (k : P -> P -> R)
  (choice : K -> nat -> nat -> option (list ER) -> bool -> result (list nat)) (lstsq : list (list ER) -> list ER -> list ER) key nk nt (d : Data P Y ER) :
  (forall a b, k a b = k b a) -> (forall key, choice_ok (choice key)) -> d_x d <> [] -> (0 < nt <= length (d_x d))%nat -> (0 < nk)%nat ->
  (exists v, monte_carlo_row_mean EROps p0 y0 choice lstsq (fun a b => Fin (k a b)) (mkRR key (Z.of_nat (length (d_x d) + 1)) (Z.of_nat nt)) d = Ok v) /\
  (exists v, annchor_row_mean EROps p0 y0 choice lstsq (fun a b => Fin (k a b)) (mkRR key (Z.of_nat nk) (Z.of_nat nt)) d = Ok v).
Proof.
  intros Ks C Hx Ht Hk. assert (Hn : (0 < length (d_x d))%nat) by lia.
  assert (A : forall F, exists v, random_least_squares EROps p0 choice lstsq key (d_x d) F nt (mean_over EROps p0 y0 (fun a b => Fin (k a b)) (d_x d)) = Ok v).
  { intro F. unfold random_least_squares. destruct (choice_sample choice key (length (d_x d)) nt C ltac:(lia) Hn) as (l & E & S).
    rewrite E. cbn [bind]. change (map (fun i => nth i (d_x d) p0) l) with (select p0 (d_x d) l). rewrite mean_over_fin; auto.
    - cbn [bind]. eauto.
    - eapply select_nonempty; [exact S|lia]. }
  split.
  - unfold monte_carlo_row_mean. cbn [rr_key rr_num_kernel rr_num_train]. cbv zeta.
    replace (Z.to_nat (Z.of_nat (length (d_x d) + 1) - 1)) with (length (d_x d)) by lia.
    destruct (choice_sample choice key (length (d_x d)) (length (d_x d)) C ltac:(lia) Hn) as (l & E & S). rewrite E, Nat2Z.id. cbn [bind]. apply A.
  - unfold annchor_row_mean. cbn [rr_key rr_num_kernel rr_num_train]. cbv zeta. rewrite !Nat2Z.id.
    destruct (A (annchor_features EROps p0 (fun a b => Fin (k a b)) (d_x d) nk)) as (v & E). exists v. rewrite E. destruct (d_x d); [contradiction|reflexivity].
Qed.

(** ** C51: with as many training as kernel points, the Nystrom kernel of a positive
    semi-definite base kernel returns the plain average of k(x_i, z) over the selected
    points z: the remaining data does not influence the averages at all *)
Theorem C51_nystrom_is_subset_average {P Y K} (p0 : P) (y0 : Y) (k : P -> P -> R)
  (choice : K -> nat -> nat -> option (list ER) -> bool -> result (list nat)) (lstsq : list (list ER) -> list ER -> list ER) key m (d : Data P Y ER) :
  psd k -> (forall key, choice_ok (choice key)) ->
  d_x d <> [] -> (0 < m <= length (d_x d))%nat -> fits p0 k (d_x d) lstsq (avg_at k) m m ->
  exists sel, choice key (length (d_x d)) m None false = Ok sel /\ sample_of (length (d_x d)) m sel /\
    nystrom_row_mean EROps p0 y0 choice lstsq (fun a b => Fin (k a b)) (mkRR key (Z.of_nat m) (Z.of_nat m)) d = Ok (map Fin (map (avg_at k (select p0 (d_x d) sel)) (d_x d))).
Proof.
  intros PSD C Hx Hm F. destruct PSD as [Ks PS].
  destruct (nys_run p0 y0 k choice lstsq key m m d) as (anchors & train & c & EA & ET & SA & ST & B & E); try assumption; try lia.
  rewrite EA in ET. injection ET as <-. exists anchors. split; [exact EA|]. split; [exact SA|]. rewrite E. do 2 f_equal.
  apply map_ext. intro y. apply (nystrom_average p0 k Ks); [split; assumption|exact B].
Qed.

(** ** C52: one kernel point: the Monte Carlo kernel uses none and returns zeros *)
Theorem C52_monte_carlo_one_point_refuted {P Y K} (p0 : P) (y0 : Y) (k : P -> P -> R)
  (choice : K -> nat -> nat -> option (list ER) -> bool -> result (list nat)) (lstsq : list (list ER) -> list ER -> list ER) key nt (d : Data P Y ER) :
  (forall a b, k a b = k b a) -> (forall key, choice_ok (choice key)) -> d_x d <> [] -> (0 < nt <= length (d_x d))%nat ->
  fits p0 k (d_x d) lstsq (fun _ => avg_at k (d_x d)) 0 nt ->
  monte_carlo_row_mean EROps p0 y0 choice lstsq (fun a b => Fin (k a b)) (mkRR key 1 (Z.of_nat nt)) d = Ok (repeat (Fin 0) (length (d_x d))).
Proof.
  intros Ks C Hx Ht F. destruct (mc_run p0 y0 k choice lstsq key 0 nt d) as (anchors & train & c & EA & SA & ST & B & E); try assumption; try lia.
  change (Z.of_nat 1) with 1%Z in E. rewrite E. f_equal. destruct anchors; [|destruct SA as [L _]; discriminate]. destruct B as [Lc _].
  destruct c; [|discriminate]. unfold expansion, select. cbn. unfold Rdot. cbn. rewrite map_map. clear. induction (d_x d) as [|a l IH]; cbn; [reflexivity|].
  f_equal. exact IH.
Qed.
Print Assumptions C38_monte_carlo.
Print Assumptions C38_annchor.
Print Assumptions C38_nystrom.
Print Assumptions C38_too_many_points_partial.
Print Assumptions C38_too_many_kernel_points_refuted.
Print Assumptions C51_nystrom_is_subset_average.
Print Assumptions C52_monte_carlo_one_point_refuted.

(** ** C52: the Nystrom row mean is a kernel expansion on exactly [num_kernel_points]
    distinct data points, fitted on [num_train_points] distinct data points *)
Theorem C52_nystrom_points {P Y K} (p0 : P) (y0 : Y) (k : P -> P -> R)
  (choice : K -> nat -> nat -> option (list ER) -> bool -> result (list nat)) lstsq key nk nt (d : Data P Y ER) :
  (forall a b, k a b = k b a) -> (forall key, choice_ok (choice key)) ->
  d_x d <> [] -> (0 < nt)%nat -> (nk <= length (d_x d))%nat -> (nt <= length (d_x d))%nat ->
  fits p0 k (d_x d) lstsq (avg_at k) nk nt ->
  exists anchors train c, sample_of (length (d_x d)) nk anchors /\ sample_of (length (d_x d)) nt train /\
    best_fit p0 k (d_x d) (avg_at k (select p0 (d_x d) train)) anchors train c /\
    nystrom_row_mean EROps p0 y0 choice lstsq (fun a b => Fin (k a b)) (mkRR key (Z.of_nat nk) (Z.of_nat nt)) d
      = Ok (map Fin (map (expansion p0 k (d_x d) anchors c) (d_x d))).
Proof.
  intros Ks C Hx Ht Lk Lt F. destruct (nys_run p0 y0 k choice lstsq key nk nt d) as (anchors & train & c & _ & _ & SA & ST & B & E); try assumption.
  exists anchors, train, c. auto.
Qed.
Print Assumptions C52_nystrom_points.

Lemma missing_index n (s : list nat) : (length s < n)%nat -> exists q, (q < n)%nat /\ ~ In q s.
Proof.
  intro L. destruct (Exists_dec (fun q => ~ In q s) (seq 0 n)) as [E|E].
  { intro q. destruct (in_dec Nat.eq_dec q s); [right|left]; auto. }
  - apply Exists_exists in E as (q & H1 & H2). apply in_seq in H1. exists q. split; [lia|exact H2].
  - exfalso. assert (I : incl (seq 0 n) s).
    { intros q Hq. destruct (in_dec Nat.eq_dec q s) as [H|H]; [exact H|]. exfalso. apply E. apply Exists_exists. eauto. }
    apply NoDup_incl_length in I; [|apply seq_NoDup]. rewrite seq_length in I. lia.
Qed.

(** ** C52: the anchors of ANNchor are [num_kernel_points] different data points, for a
    non-negative kernel under which different data points are less similar than equal ones *)
Theorem C52_annchor_points_partial {P Y K} (p0 : P) (y0 : Y) (k : P -> P -> R)
  (choice : K -> nat -> nat -> option (list ER) -> bool -> result (list nat)) lstsq key nk nt (d : Data P Y ER) :
  (forall a b, k a b = k b a) -> (forall a b, 0 <= k a b) -> (forall key, choice_ok (choice key)) ->
  (forall a b c, (a < length (d_x d))%nat -> (b < length (d_x d))%nat -> (c < length (d_x d))%nat -> a <> b ->
     k (nth a (d_x d) p0) (nth b (d_x d) p0) < k (nth c (d_x d) p0) (nth c (d_x d) p0)) ->
  (0 < nk <= length (d_x d))%nat -> (0 < nt <= length (d_x d))%nat ->
  fits p0 k (d_x d) lstsq (fun _ => avg_at k (d_x d)) nk nt ->
  exists anchors train c, sample_of (length (d_x d)) nk anchors /\ sample_of (length (d_x d)) nt train /\
    best_fit p0 k (d_x d) (avg_at k (d_x d)) anchors train c /\
    annchor_row_mean EROps p0 y0 choice lstsq (fun a b => Fin (k a b)) (mkRR key (Z.of_nat nk) (Z.of_nat nt)) d
      = Ok (map Fin (map (expansion p0 k (d_x d) anchors c) (d_x d))).
Proof.
  intros Ks Kp C Kd Hk Ht F. assert (Hx : d_x d <> []) by (intro E; rewrite E in Hk; cbn in Hk; lia).
  destruct (C38_annchor p0 y0 k choice lstsq key nk nt d) as (anchors & (La & B) & S0 & FAR & train & c & ST & BF & E & _); try assumption; try lia.
  exists anchors, train, c. split; [|auto]. split; [exact La|]. split; [|exact B].
  assert (Bn : forall j, (j < nk)%nat -> (nth j anchors 0%nat < length (d_x d))%nat) by (intros j Hj; apply B, nth_In; lia).
  assert (W : forall i j, (i < j < nk)%nat -> nth i anchors 0%nat <> nth j anchors 0%nat).
  { intros i j Hij EQ. destruct (missing_index (length (d_x d)) (firstn j anchors)) as (q & Hq & NI).
    { rewrite firstn_length. lia. }
    destruct (FAR j q ltac:(lia) Hq) as (l & Hl & H). specialize (H i ltac:(lia)). rewrite EQ in H.
    assert (q <> nth l anchors 0%nat).
    { intros ->. apply NI. rewrite <- (firstn_skipn j anchors) at 1. rewrite app_nth1 by (rewrite firstn_length; lia). apply nth_In. rewrite firstn_length. lia. }
    pose proof (Kd q (nth l anchors 0%nat) (nth j anchors 0%nat) Hq (Bn l ltac:(lia)) (Bn j ltac:(lia)) H0). lra. }
  apply (NoDup_nth anchors 0%nat). intros i j Hi Hj EQ. destruct (Nat.lt_trichotomy i j) as [L|[L|L]]; [|exact L|]; exfalso.
  - now apply (W i j ltac:(lia)).
  - now apply (W j i ltac:(lia)).
Qed.
Print Assumptions C52_annchor_points_partial.

(** ** C52: with a kernel that takes negative values ANNchor does not choose the least
    similar point: of 1, -1 and -2 it chooses -1 after 1 although k(-2, 1) < k(-1, 1) *)
Theorem C52_annchor_negative_kernel_refuted :
  let x := [1; -1; -2]%Z in
  annchor_features EQOps 0%Z (fun a b => Fin (inject_Z (a * b))) x 2
    = map (fun a => [Fin (inject_Z (a * 1)); Fin (inject_Z (a * -1))]) x
  /\ (-2 * 1 < -1 * 1)%Z.
Proof. split; [vm_compute; reflexivity|lia]. Qed.
Print Assumptions C52_annchor_negative_kernel_refuted.

(** ** Witnesses *)
(** least squares with at most one unknown *)
Definition lstsq1 (A : list (list ER)) (b : list ER) : list ER :=
  match A with
  | [] :: _ => []
  | _ => let col := map (fun r => nth 0 r (Fin 0)) A in [fdiv EROps (fdot EROps col b) (fdot EROps col col)]
  end.
Lemma sq_res1 (col b : list R) z : length col = length b ->
  sq_residual (map (fun a => [a]) col) b [z] = z ^ 2 * Rdot col col - 2 * z * Rdot col b + Rdot b b.
Proof.
  revert b. unfold sq_residual, Rmv, Rdot. induction col as [|a col IH]; intros [|y b] L; cbn in L; try discriminate.
  - cbn. ring.
  - specialize (IH b ltac:(lia)). cbn [map map2 Rsum] in IH |- *. rewrite IH. ring.
Qed.
Lemma Rdot_self_pos l : l <> [] -> (forall v, In v l -> 0 < v) -> 0 < Rdot l l.
Proof.
  unfold Rdot. intros NE H. destruct l as [|a l]; [contradiction|]. cbn. pose proof (H a (or_introl eq_refl)).
  assert (0 <= Rsum (map2 Rmult l l)).
  { clear -H. assert (G : forall v, In v l -> 0 < v) by (intros; apply H; now right). clear H. induction l as [|b l IH]; cbn; [lra|].
    pose proof (G b (or_introl eq_refl)). specialize (IH (fun v h => G v (or_intror h))). nra. }
  nra.
Qed.
Lemma lstsq1_fits {P} (p0 : P) k (x : list P) f nk nt : (forall a b, 0 < k a b) -> (nk <= 1)%nat -> (0 < nt)%nat -> fits p0 k x lstsq1 f nk nt.
Proof.
  intros Kp Hk Ht anchors train La Ba ST. assert (NE : select p0 x train <> []) by (eapply select_nonempty; eassumption).
  set (sub := select p0 x train) in *. set (b := map (f sub) sub). destruct anchors as [|a0 [|]]; cbn in La; [subst nk|subst nk|lia].
  - exists []. split; [|split; [reflexivity|]]. { destruct sub; [contradiction|reflexivity]. }
    intros z' Lz. destruct z'; [lra|discriminate].
  - set (col := map (fun y => k y (nth a0 x p0)) sub).
    assert (EA : map (fun y => map (k y) (select p0 x [a0])) sub = map (fun v => [v]) col) by (unfold col; rewrite map_map; reflexivity).
    rewrite EA. assert (L : length col = length b) by (unfold col, b; now rewrite !map_length).
    assert (Pc : 0 < Rdot col col).
    { apply Rdot_self_pos. - unfold col. destruct sub; [contradiction|discriminate]. - intros v Hv. apply in_map_iff in Hv as (y & <- & _). apply Kp. }
    exists [Rdot col b / Rdot col col]. split; [|split; [reflexivity|]].
    + unfold lstsq1. rewrite map_map. destruct col as [|c0 ct] eqn:EC; [cbn in Pc; unfold Rdot in Pc; cbn in Pc; lra|]. rewrite <- EC in *.
      replace (map (fun r => nth 0 r (Fin 0)) (map (fun v => map Fin [v]) col)) with (map Fin col) by (rewrite map_map; reflexivity).
      rewrite !fdot_fin by (auto). rewrite fdiv_fin by lra. rewrite EC. reflexivity.
    + intros z' Lz. destruct z' as [|z [|]]; try discriminate. rewrite !sq_res1 by exact L. set (B := Rdot col b) in *. set (Q := Rdot col col) in *.
      assert (0 <= (z - B / Q) ^ 2 * Q) by (apply Rmult_le_pos; [apply pow2_ge_0|lra]).
      replace (z ^ 2 * Q - 2 * z * B + Rdot b b) with ((B / Q) ^ 2 * Q - 2 * (B / Q) * B + Rdot b b + (z - B / Q) ^ 2 * Q) by (field; lra). lra.
Qed.
Definition knat (a b : nat) : R := 1 + INR a * INR b.
Lemma knat_sym a b : knat a b = knat b a. Proof. unfold knat. ring. Qed.
Lemma knat_pos a b : 0 < knat a b.
Proof. unfold knat. pose proof (pos_INR a). pose proof (pos_INR b). nra. Qed.
Lemma knat_psd : psd knat.
Proof. apply (psd_add (fun _ _ => 1) (fun p q : nat => INR p * INR q)); [apply psd_const; lra|apply psd_rank1]. Qed.
Definition fc (_ : unit) := first_choice ER.
Lemma fc_ok : forall key, choice_ok (fc key). Proof. intro. apply first_choice_ok. Qed.
Definition dnat : Data nat unit ER := as_data EROps [1; 0; 2]%nat.

Example C38_monte_carlo_applies : exists anchors train c, sample_of 3 1 anchors /\ sample_of 3 2 train /\
  best_fit 0%nat knat [1; 0; 2]%nat (avg_at knat [1; 0; 2]%nat) anchors train c /\
  monte_carlo_row_mean EROps 0%nat tt fc lstsq1 (fun a b => Fin (knat a b)) (mkRR tt 2 2) dnat
    = Ok (map Fin (map (expansion 0%nat knat [1; 0; 2]%nat anchors c) [1; 0; 2]%nat)).
Proof.
  destruct (C38_monte_carlo 0%nat tt knat fc lstsq1 tt 1 2 dnat knat_sym fc_ok) as (a & t & c & _ & SA & ST & B & E & _);
    try (cbn; lia); try (apply lstsq1_fits; [exact knat_pos|lia|lia]).
  { discriminate. }
  exists a, t, c. auto.
Qed.
(** the row mean of the constant kernel is in the span of any single feature *)
Example C38_monte_carlo_exact_applies :
  monte_carlo_row_mean EROps 0%nat tt fc lstsq1 (fun _ _ => Fin 3) (mkRR tt 2 3) dnat = Ok (map Fin (exact_row_mean (fun _ _ => 3) [1; 0; 2]%nat)).
Proof.
  destruct (C38_monte_carlo 0%nat tt (fun _ _ => 3) fc lstsq1 tt 1 3 dnat ltac:(reflexivity) fc_ok) as (a & t & c & _ & SA & ST & B & _ & E);
    try (cbn; lia); try (apply lstsq1_fits; [intros; lra|lia|lia]).
  { discriminate. }
  apply E; [reflexivity|]. exists [1]. split; [reflexivity|]. intros y _. destruct SA as [L _]. destruct a as [|a0 [|]]; try discriminate.
  unfold expansion, avg_at, Rdot. cbn. field.
Qed.
Example C38_annchor_applies :
  annchor_row_mean EROps 0%nat tt fc lstsq1 (fun _ _ => Fin 3) (mkRR tt 1 3) dnat = Ok (map Fin (exact_row_mean (fun _ _ => 3) [1; 0; 2]%nat)).
Proof.
  destruct (C38_annchor 0%nat tt (fun _ _ => 3) fc lstsq1 tt 1 3 dnat ltac:(reflexivity) ltac:(intros; lra) fc_ok) as (a & (La & _) & _ & _ & t & c & ST & B & _ & E);
    try (cbn; lia); try (apply lstsq1_fits; [intros; lra|lia|lia]).
  { discriminate. }
  apply E; [reflexivity|]. exists [1]. split; [reflexivity|]. intros y _. destruct a as [|a0 [|]]; try discriminate.
  unfold expansion, avg_at, Rdot. cbn. field.
Qed.
Example C38_nystrom_applies :
  nystrom_row_mean EROps 0%nat tt fc lstsq1 (fun _ _ => Fin 3) (mkRR tt 1 3) dnat = Ok (map Fin (exact_row_mean (fun _ _ => 3) [1; 0; 2]%nat)).
Proof.
  destruct (C38_nystrom 0%nat tt (fun _ _ => 3) fc lstsq1 tt 1 dnat ltac:(reflexivity) fc_ok) as (a & _ & SA & E);
    try (cbn; lia); try (apply lstsq1_fits; [intros; lra|cbn; lia|cbn; lia]).
  { discriminate. }
  apply E. left. exists [1]. split; [reflexivity|]. intros y _. destruct SA as [L _]. destruct a as [|a0 [|]]; try discriminate.
  unfold expansion, avg_at, Rdot. cbn. field.
Qed.
Example C38_too_many_points_applies :
  nystrom_row_mean EROps 0%nat tt fc lstsq1 (fun a b => Fin (knat a b)) (mkRR tt 4 2) dnat = Err ValueError /\
  exists v, monte_carlo_row_mean EROps 0%nat tt fc lstsq1 (fun a b => Fin (knat a b)) (mkRR tt 4 2) dnat = Ok v.
Proof.
  split.
  - apply (C38_too_many_points_partial 0%nat tt knat fc lstsq1 tt 4 2 dnat fc_ok); try discriminate; cbn; lia.
  - apply (C38_too_many_kernel_points_refuted 0%nat tt knat fc lstsq1 tt 4 2 dnat knat_sym fc_ok); try discriminate; cbn; lia.
Qed.
Example C52_annchor_applies : exists anchors, sample_of 3 1 anchors.
Proof.
  destruct (C52_annchor_points_partial 0%nat tt (fun a b => if Nat.eqb a b then 2 else 1) fc lstsq1 tt 1 2 dnat) as (a & _ & _ & S & _); try (cbn; lia).
  - intros a b. now rewrite Nat.eqb_sym. - intros a b. destruct (a =? b)%nat; lra. - exact fc_ok.
  - cbn [d_x dnat as_data length]. intros a b c Ha Hb Hc N. do 3 (destruct a as [|a]; [do 3 (destruct b as [|b]; [try lia; cbn; rewrite Nat.eqb_refl; lra|]); cbn in Hb; lia|]). cbn in Ha. lia.
  - apply lstsq1_fits; [intros a b; destruct (a =? b)%nat; lra|lia|lia].
  - exists a. exact S.
Qed.
Example C52_one_point_applies :
  monte_carlo_row_mean EROps 0%nat tt fc lstsq1 (fun a b => Fin (knat a b)) (mkRR tt 1 2) dnat = Ok [Fin 0; Fin 0; Fin 0].
Proof.
  apply (C52_monte_carlo_one_point_refuted 0%nat tt knat fc lstsq1 tt 2 dnat knat_sym fc_ok); try discriminate; try (cbn; lia).
  apply lstsq1_fits; [exact knat_pos|lia|lia].
Qed.

(** ** C51: at the selected point the Nystrom estimator (the projection of the mean onto the
    selected features) has the exact row mean 3/2; the code returns 2 *)
Theorem C51_nystrom_estimator_refuted :
  exists v, nystrom_row_mean EROps 0%nat tt fc lstsq1 (fun a b => Fin (knat a b)) (mkRR tt 1 1) (as_data EROps [1; 0]%nat) = Ok v /\
    fc tt 2 1 None false = Ok [0]%nat /\ nth 0 v NaN = Fin 2 /\ nth 0 (exact_row_mean knat [1; 0]%nat) 0 = 3 / 2.
Proof.
  destruct (C51_nystrom_is_subset_average 0%nat tt knat fc lstsq1 tt 1 (as_data EROps [1; 0]%nat) knat_psd fc_ok) as (sel & E & S & R);
    try discriminate; try (cbn; lia); try (apply lstsq1_fits; [exact knat_pos|lia|lia]).
  vm_compute in E. injection E as <-. eexists. split; [exact R|]. split; [reflexivity|]. cbn. unfold avg_at, knat. cbn. split; [f_equal|]; field.
Qed.
Print Assumptions C51_nystrom_estimator_refuted.

(** ** C38: the weights of a Data object are ignored, so the row mean that the approximation
    reproduces is the unweighted one.  The rank-one kernel (1 + a)(1 + b) has its weighted row
    mean in the span of every feature, all points are used for training, and still the two
    differ. *)
Definition krank (a b : nat) : R := (1 + INR a) * (1 + INR b).
Theorem C38_weights_refuted :
  let d := mkData [1; 0]%nat [Fin 3; Fin 1] (@None (list unit)) in
  gramian_row_mean EROps 0%nat tt (fun a b => Fin (krank a b)) d (BOne None) = Ok (MVec [Fin (7 / 2); Fin (7 / 4)]) /\
  nystrom_row_mean EROps 0%nat tt fc lstsq1 (fun a b => Fin (krank a b)) (mkRR tt 1 2) d = Ok [Fin 3; Fin (3 / 2)].
Proof.
  intro d. assert (Ks : forall a b, krank a b = krank b a) by (intros; unfold krank; ring). split.
  - unfold gramian_row_mean. change d with (mkData [1; 0]%nat (map Fin [3; 1]) (@None (list unit))).
    rewrite row_mean_spec; try assumption; try discriminate; try reflexivity; [|cbn; lra].
    unfold wavg, wsum, krank. cbn. do 2 f_equal. repeat (f_equal; try field).
  - assert (Kp : forall a b, 0 < krank a b).
    { intros a b. unfold krank. pose proof (pos_INR a). pose proof (pos_INR b). nra. }
    destruct (C38_nystrom 0%nat tt krank fc lstsq1 tt 1 d Ks fc_ok) as (a & E0 & SA & E);
      try discriminate; try (cbn; lia); try (apply lstsq1_fits; [exact Kp|cbn; lia|cbn; lia]).
    change (Z.of_nat (length (d_x d))) with 2%Z in E. change (Z.of_nat 1) with 1%Z in E. rewrite E.
    + unfold exact_row_mean, avg_at, krank. cbn. f_equal. repeat (f_equal; try field).
    + left. vm_compute in E0. injection E0 as <-. exists [3 / 4]. split; [reflexivity|]. intros y _.
      unfold expansion, avg_at, krank, Rdot. cbn. field.
Qed.
Print Assumptions C38_weights_refuted.
