(** * Property theorems: SteinThinning as a whole (C20, C22) *)
From Coq Require Import List ZArith Reals Lra Lia Bool Permutation.
From Coquelicot Require Import Coquelicot.
From Verif Require Import Num Jax RSum JaxFacts DataModel MeanModel MeanSpec GreedySpec GreedyModel DataMeanLemmas GreedyProofs4 GreedyProofs5
  KernelModel KernelSpec KernelProofs4 KernelProofs7 KernelProofs8 PropKernel ScoreModel ScoreSpec ScoreProofs ThinModel ThinSpec ThinProofs ThinProofs2 PropGreedy KTProofs4 MetricProofs2.
Import ListNotations.
Open Scope R_scope.

(** ** C22: the complete solver, given a Stein kernel, selects greedily by the published
    criterion: [k_p] is the documented Stein kernel of the base and the score function,
    [laps] the sums of positive second derivatives of the log-density with that score and
    [lp] the log-density estimated by the external [gaussian_kde].  Partial: another kernel
    is used as it is, see [C22_conversion_refuted]. *)
Theorem C22_stein_kernel_partial {Y} (y0 : Y) jgrad keq jac kde_logpdf
    (base : kern R) (score : list R -> list R) (d m : nat) (unique regularise : bool) (lam : option R) bs ord
    (X : list (list R)) (dw lp : list R) :
  (forall a b, keq a b = true -> a = b) ->
  closed_form base -> no_const_product base ->
  (forall x y, length x = d -> length y = d -> smooth_at base x y /\ div_ok base x y) ->
  (forall x, length x = d -> length (score x) = d) ->
  (forall x, In x X -> length x = d /\ jac_correct jac (fun z => map Fin (score (map unfin z))) score x) ->
  kde_logpdf (map (map Fin) X) (map Fin dw) (map (map Fin) X) = map Fin lp -> length lp = length X ->
  length dw = length X -> (1 <= m <= length X)%nat -> (forall i, Permutation (ord i) (seq 0 m)) ->
  (1 <= npos dw)%nat -> (unique = true -> (m <= npos dw)%nat) ->
  exists l laps,
    thin_reduce EROps ERT jgrad keq jac kde_logpdf (map Fin (repeat 0 d)) y0
      (mkThin m (lift (KStein base score)) None unique regularise (option_map Fin lam) bs) ord (unsup (map (map Fin) X) dw)
    = Ok (mkCS (map Z.of_nat l) (repeat (Fin 1) m) (unsup (map (map Fin) X) dw)) /\
    length l = m /\ (forall i, In i l -> (i < length X)%nat /\ 0 < nth i dw 0) /\ (unique = true -> NoDup l) /\
    Forall2 (positive_laplacian score) X laps /\
    greedy_argmax (candidate dw unique)
      (stein_score (stein_fun (kfun base) score)
         (fun j => if regularise then nth j laps 0 else 0)
         (fun j => if regularise then (match lam with Some l => l | None => 1 / INR m end) * nth j lp 0 else 0)
         (fun j => nth j X (repeat 0 d))) l.
Proof.
  intros KS C N SM SL HX Hlp Llp Hdw Hm Ho Hp1 Hp.
  destruct (vec_list d X (fun x H => proj1 (HX x H))) as (Xs & EX).
  set (sE := fun z => map Fin (score (map unfin z))) in *.
  assert (HS : forall z, length z = d -> sE (map Fin z) = map Fin (score z)) by (intros; unfold sE; now rewrite unfin_map).
  destruct (laplaces_fin jac sE score X d HX HS) as (laps & EL & FL).
  assert (LL : length laps = length X) by (symmetry; eapply Forall2_len; exact FL).
  assert (LX : length Xs = length X) by (rewrite <- EX; now rewrite map_length).
  set (k := fun a b : vec d => stein_fun (kfun base) score (pv a) (pv b)).
  assert (HK : forall a b : vec d, m_val (methods EROps ERT jgrad keq (lift (KStein base score))) (vf a) (vf b) = Sc (Fin (k a b))).
  { intros [a La] [b Lb]. unfold k, vf. unfold pv; cbn [proj1_sig]. destruct (SM a b La Lb).
    apply C45_stein_documented; try assumption; try congruence; rewrite SL; congruence. }
  pose proof (thin_reduce_map y0 jgrad keq jac kde_logpdf (vzero d) vf k
    (mkThin m (lift (KStein base score)) None unique regularise (option_map Fin lam) bs) (lift (KStein base score)) ord Xs (map Fin dw) HK eq_refl) as E.
  rewrite vf_map, EX in E. change (vf (vzero d)) with (map Fin (repeat 0 d)) in E. cbn [t_size t_unique t_bs t_regularise t_lambda lift score_function] in E.
  fold sE in E. change (lift (KStein base score)) with (KStein (lift base) sE).
  assert (NX : forall j, pv (nth j Xs (vzero d)) = nth j X (repeat 0 d)).
  { intro j. rewrite <- EX. change (repeat 0 d) with (pv (vzero d)). now rewrite map_nth. }
  assert (SC : forall la rl ch j, stein_score k la rl (fun j => nth j Xs (vzero d)) ch j
                 = stein_score (stein_fun (kfun base) score) la rl (fun j => nth j X (repeat 0 d)) ch j).
  { intros la rl ch j. unfold stein_score, k. rewrite NX. do 3 f_equal. f_equal. apply map_ext. intro. now rewrite NX. }
  destruct regularise.
  - destruct (C22_stein_greedy_partial (vec d) Y (vzero d) y0 k m unique bs ord Xs dw lam
      (fun x w => kde_logpdf (map vf x) w (map vf x)) (fun x => map (laplace_positive EROps jac sE) (map vf x)) lp laps) as (l & E' & L & R & ND & G);
      try assumption; try congruence.
    { now rewrite vf_map, EX. } { now rewrite vf_map, EX. }
    exists l, laps. rewrite E, E'. cbn [rmap cmap]. unfold cmap, dmap. cbn [c_idx c_w c_pre d_x d_w d_y]. rewrite vf_map, EX.
    split; [reflexivity|]. split; [exact L|]. split; [rewrite <- LX; exact R|]. split; [exact ND|]. split; [exact FL|].
    eapply greedy_argmax_score_ext; [|exact G]. intros ch j _. apply SC.
  - destruct (C22_stein_greedy_unregularised_partial (vec d) Y (vzero d) y0 k m unique bs ord Xs dw) as (l & E' & L & R & ND & G);
      try assumption; try congruence.
    exists l, laps. rewrite E, E'. cbn [rmap cmap]. unfold cmap, dmap. cbn [c_idx c_w c_pre d_x d_w d_y]. rewrite vf_map, EX.
    split; [reflexivity|]. split; [exact L|]. split; [rewrite <- LX; exact R|]. split; [exact ND|]. split; [exact FL|].
    eapply greedy_argmax_score_ext; [|exact G]. intros ch j _. apply SC.
Qed.
Print Assumptions C22_stein_kernel_partial.

(** ** C22: a score matching object does not influence an unregularised selection at all,
    although it is documented to overwrite the score function of a Stein kernel *)
Theorem C22_score_matching_ignored_refuted {V Y} (O : FOps V) T (y0 : Y) jgrad keq jac kde_logpdf p0 m base score sm unique lam bs ord d :
  thin_reduce O T jgrad keq jac kde_logpdf p0 y0 (mkThin m (KStein base score) (Some sm) unique false lam bs) ord d
  = thin_reduce O T jgrad keq jac kde_logpdf p0 y0 (mkThin m (KStein base score) None unique false lam bs) ord d.
Proof. reflexivity. Qed.
Print Assumptions C22_score_matching_ignored_refuted.

(** a standard normal target in two dimensions *)
Definition normal_score (x : list R) : list R := map Ropp x.
Definition normal_jac (_ : list ER -> list ER) (x : list ER) : list (list ER) :=
  map (fun i => map (fun j => if Nat.eqb i j then Fin (-1) else Fin 0) (seq 0 (length x))) (seq 0 (length x)).
Definition normal_kde (_ : list (list ER)) (_ : list ER) (z : list (list ER)) : list ER :=
  map (fun p => Fin (- Rdot (map unfin p) (map unfin p) / 2)) z.
Lemma normal_jac_ok x : jac_correct normal_jac (fun z => map Fin (normal_score (map unfin z))) normal_score x.
Proof.
  intros _. exists (map (fun i => map (fun j => if Nat.eqb i j then -1 else 0) (seq 0 (length x))) (seq 0 (length x))). split; [|split].
  - unfold normal_jac. rewrite map_length, map_map. apply map_ext. intro i. rewrite map_map. apply map_ext. intro j. now destruct (Nat.eqb i j).
  - intros i Hi. rewrite map_length, seq_length. split; [exact Hi|]. rewrite nth_map_seq by exact Hi. now rewrite map_length, seq_length.
  - split; [now rewrite map_length, seq_length|]. intros i Hi. rewrite nth_map_seq by exact Hi. rewrite nth_map_seq by exact Hi.
    rewrite nth_map_seq by exact Hi. rewrite Nat.eqb_refl.
    apply (is_derive_ext Ropp).
    + intro t. unfold normal_score, set_coord. rewrite (nth_indep _ 0 (- 0)) by now rewrite map_length, upd_length.
      rewrite map_nth, nth_upd, Nat.eqb_refl. apply Nat.ltb_lt in Hi. rewrite Hi. reflexivity.
    + auto_derive; [exact Logic.I|reflexivity].
Qed.
Example C22_stein_kernel_applies : exists l laps,
  thin_reduce EROps ERT (fun _ z => z) (fun _ _ => false) normal_jac normal_kde (map Fin (repeat 0 2)) tt
    (mkThin 2 (lift (KStein (KSE 1 1) normal_score)) None true true None (BOne None)) (fun _ => seq 0 2)
    (unsup (map (map Fin) [[0; 1]; [2; 0]; [1; 1]]) [1; 0; 2])
  = Ok (mkCS (map Z.of_nat l) (repeat (Fin 1) 2) (unsup (map (map Fin) [[0; 1]; [2; 0]; [1; 1]]) [1; 0; 2])) /\
  length l = 2%nat /\ Forall2 (positive_laplacian normal_score) [[0; 1]; [2; 0]; [1; 1]] laps.
Proof.
  destruct (C22_stein_kernel_partial tt (fun _ z => z) (fun _ _ => false) normal_jac normal_kde (KSE 1 1) normal_score 2 2 true true None (BOne None) (fun _ => seq 0 2)
    [[0; 1]; [2; 0]; [1; 1]] [1; 0; 2] (map (fun p => - Rdot p p / 2) [[0; 1]; [2; 0]; [1; 1]])) as (l & laps & E & L & _ & _ & FL & _); try reflexivity.
  - discriminate. - constructor. cbn. lra. - intros x y _ _. split; exact Logic.I.
  - intros x <-. unfold normal_score. now rewrite map_length.
  - intros x Hx. split; [|apply normal_jac_ok]. destruct Hx as [<-|[<-|[<-|[]]]]; reflexivity.
  - cbn. lia.
  - unfold npos. cbn. repeat destruct (Rlt_dec _ _); cbn; try lia; lra.
  - intros _. unfold npos. cbn. repeat destruct (Rlt_dec _ _); cbn; try lia; lra.
  - exists l, laps. auto.
Qed.

(** ** C20: the complete solver, given a Stein kernel, selects the same rows after zero-weight
    points are appended.  [lpf]: zero-weight points do not change the density that
    [gaussian_kde] estimates.  Partial: false with the default score matching, see below. *)
Theorem C20_stein_padding_partial {Y} (y0 : Y) jgrad keq jac kde_logpdf
    (base : kern R) (score : list R -> list R) (d m : nat) (unique regularise : bool) (lam : option R) bs bs' ord ord'
    (X Z : list (list R)) (dw : list R) (lpf : list R -> R) :
  (forall a b, keq a b = true -> a = b) ->
  closed_form base -> no_const_product base ->
  (forall x y, length x = d -> length y = d -> smooth_at base x y /\ div_ok base x y) ->
  (forall x, length x = d -> length (score x) = d) ->
  (forall x, In x (X ++ Z) -> length x = d /\ jac_correct jac (fun z => map Fin (score (map unfin z))) score x) ->
  kde_logpdf (map (map Fin) X) (map Fin dw) (map (map Fin) X) = map Fin (map lpf X) ->
  kde_logpdf (map (map Fin) (X ++ Z)) (map Fin (dw ++ repeat 0 (length Z))) (map (map Fin) (X ++ Z)) = map Fin (map lpf (X ++ Z)) ->
  length dw = length X -> (1 <= m <= length X)%nat ->
  (forall i, Permutation (ord i) (seq 0 m)) -> (forall i, Permutation (ord' i) (seq 0 m)) ->
  (1 <= npos dw)%nat -> (unique = true -> (m <= npos dw)%nat) ->
  exists l,
    thin_reduce EROps ERT jgrad keq jac kde_logpdf (map Fin (repeat 0 d)) y0
      (mkThin m (lift (KStein base score)) None unique regularise (option_map Fin lam) bs) ord (unsup (map (map Fin) X) dw)
    = Ok (mkCS (map Z.of_nat l) (repeat (Fin 1) m) (unsup (map (map Fin) X) dw)) /\
    thin_reduce EROps ERT jgrad keq jac kde_logpdf (map Fin (repeat 0 d)) y0
      (mkThin m (lift (KStein base score)) None unique regularise (option_map Fin lam) bs') ord'
      (unsup (map (map Fin) (X ++ Z)) (dw ++ repeat 0 (length Z)))
    = Ok (mkCS (map Z.of_nat l) (repeat (Fin 1) m) (unsup (map (map Fin) (X ++ Z)) (dw ++ repeat 0 (length Z)))).
Proof.
  intros KS C N SM SL HX Hlp Hlp' Hdw Hm Ho Ho' Hp1 Hp.
  destruct (vec_list d X) as (Xs & EX). { intros x Hx. apply HX, in_or_app. now left. }
  destruct (vec_list d Z) as (Zs & EZ). { intros x Hx. apply HX, in_or_app. now right. }
  assert (EXZ : map pv (Xs ++ Zs) = X ++ Z) by (now rewrite map_app, EX, EZ).
  assert (LX : length Xs = length X) by (rewrite <- EX; now rewrite map_length).
  assert (LZ : length Zs = length Z) by (rewrite <- EZ; now rewrite map_length).
  set (sE := fun z => map Fin (score (map unfin z))) in *.
  assert (HS : forall z, length z = d -> sE (map Fin z) = map Fin (score z)) by (intros; unfold sE; now rewrite unfin_map).
  set (lapf := fun v : vec d => unfin (laplace_positive EROps jac sE (vf v))).
  assert (EL : forall vs : list (vec d), (forall v, In v vs -> In (pv v) (X ++ Z)) ->
                 map (laplace_positive EROps jac sE) (map vf vs) = map Fin (map lapf vs)).
  { intros vs Hv. rewrite !map_map. apply map_ext_in. intros v Iv. destruct (HX _ (Hv v Iv)) as [Lv Jv].
    destruct (laplace_fin jac sE score (pv v) Jv) as (L & E & _). { intros; apply HS; congruence. }
    unfold lapf, vf. now rewrite E. }
  set (k := fun a b : vec d => stein_fun (kfun base) score (pv a) (pv b)).
  assert (HK : forall a b : vec d, m_val (methods EROps ERT jgrad keq (lift (KStein base score))) (vf a) (vf b) = Sc (Fin (k a b))).
  { intros [a La] [b Lb]. unfold k, vf. unfold pv; cbn [proj1_sig]. destruct (SM a b La Lb).
    apply C45_stein_documented; try assumption; try congruence; rewrite SL; congruence. }
  set (reg := if regularise then Some (lam, fun (x : list (vec d)) (_ : list R) => map lpf (map pv x), fun x => map lapf x) else None).
  assert (RUN : forall bs ord (vs : list (vec d)) (w : list R),
      (forall v, In v vs -> In (pv v) (X ++ Z)) ->
      kde_logpdf (map vf vs) (map Fin w) (map vf vs) = map Fin (map lpf (map pv vs)) ->
      thin_reduce EROps ERT jgrad keq jac kde_logpdf (map Fin (repeat 0 d)) y0
        (mkThin m (KStein (lift base) sE) None unique regularise (option_map Fin lam) bs) ord (unsup (map (map Fin) (map pv vs)) w)
      = rmap (cmap vf) (stein_reduce EROps (vzero d) y0 (stein_of k m unique bs reg) ord (unsup vs w))).
  { intros bs0 ord0 vs w Hv Hk.
    pose proof (thin_reduce_map y0 jgrad keq jac kde_logpdf (vzero d) vf k
      (mkThin m (lift (KStein base score)) None unique regularise (option_map Fin lam) bs0) (lift (KStein base score)) ord0 vs (map Fin w) HK eq_refl) as E.
    rewrite vf_map in E. change (vf (vzero d)) with (map Fin (repeat 0 d)) in E. cbn [t_size t_unique t_bs t_regularise t_lambda lift score_function] in E.
    fold sE in E. rewrite E. f_equal. unfold reg. destruct regularise; [|reflexivity].
    rewrite (stein_reduce_env (vzero d) y0 k m unique bs0 ord0 vs w lam _ _ (map lpf (map pv vs)) (map lapf vs) Hk (EL vs Hv)).
    symmetry. apply (stein_reduce_env (vzero d) y0 k m unique bs0 ord0 vs w lam
      (fun x _ => map Fin (map lpf (map pv x))) (fun x => map Fin (map lapf x))); reflexivity. }
  change (lift (KStein base score)) with (KStein (lift base) sE).
  destruct (stein_padding (vzero d) y0 k m unique bs bs' reg ord ord' Xs dw Zs) as (l & E1 & E2); try congruence; try lia; try assumption.
  - unfold reg. destruct regularise; [|exact Logic.I]. cbn. now rewrite !map_length.
  - unfold reg. destruct regularise; [|exact Logic.I]. cbn. now rewrite !map_length.
  - unfold reg. destruct regularise; [|exact Logic.I]. cbn. intros j Hj. rewrite !map_app. rewrite !app_nth1 by (rewrite ?map_length; lia). auto.
  - exists l. rewrite <- EXZ. split.
    + rewrite <- EX at 1. rewrite (RUN bs ord Xs dw).
      * rewrite E1. cbn [rmap]. unfold cmap, dmap. cbn [c_idx c_w c_pre d_x d_w d_y]. now rewrite vf_map, EX.
      * intros v Hv. apply in_or_app. left. rewrite <- EX. now apply in_map.
      * now rewrite vf_map, EX.
    + rewrite LZ in E2. rewrite (RUN bs' ord' (Xs ++ Zs) (dw ++ repeat 0 (length Z))).
      * rewrite E2. cbn [rmap]. unfold cmap, dmap. cbn [c_idx c_w c_pre d_x d_w d_y]. now rewrite vf_map.
      * intros v Hv. rewrite <- EXZ. now apply in_map.
      * now rewrite vf_map, EXZ.
Qed.
Print Assumptions C20_stein_padding_partial.
Example C20_stein_padding_applies : exists l,
  thin_reduce EROps ERT (fun _ z => z) (fun _ _ => false) normal_jac normal_kde (map Fin (repeat 0 2)) tt
    (mkThin 2 (lift (KStein (KSE 1 1) normal_score)) None true true None (BOne None)) (fun _ => seq 0 2)
    (unsup (map (map Fin) [[0; 1]; [2; 0]; [1; 1]]) [1; 0; 2])
  = Ok (mkCS (map Z.of_nat l) (repeat (Fin 1) 2) (unsup (map (map Fin) [[0; 1]; [2; 0]; [1; 1]]) [1; 0; 2])) /\
  thin_reduce EROps ERT (fun _ z => z) (fun _ _ => false) normal_jac normal_kde (map Fin (repeat 0 2)) tt
    (mkThin 2 (lift (KStein (KSE 1 1) normal_score)) None true true None (BOne None)) (fun _ => seq 0 2)
    (unsup (map (map Fin) ([[0; 1]; [2; 0]; [1; 1]] ++ [[0; 0]; [0; 0]])) ([1; 0; 2] ++ repeat 0 2))
  = Ok (mkCS (map Z.of_nat l) (repeat (Fin 1) 2) (unsup (map (map Fin) ([[0; 1]; [2; 0]; [1; 1]] ++ [[0; 0]; [0; 0]])) ([1; 0; 2] ++ repeat 0 2))).
Proof.
  apply (C20_stein_padding_partial tt (fun _ z => z) (fun _ _ => false) normal_jac normal_kde (KSE 1 1) normal_score 2 2 true true None (BOne None) (BOne None)
    (fun _ => seq 0 2) (fun _ => seq 0 2) [[0; 1]; [2; 0]; [1; 1]] [[0; 0]; [0; 0]] [1; 0; 2] (fun p => - Rdot p p / 2)); try reflexivity.
  - discriminate. - constructor. cbn. lra. - intros x y _ _. split; exact Logic.I.
  - intros x <-. unfold normal_score. now rewrite map_length.
  - intros x Hx. split; [|apply normal_jac_ok]. cbn in Hx. decompose [or] Hx; subst; try reflexivity. contradiction.
  - cbn. lia.
  - unfold npos. cbn. repeat destruct (Rlt_dec _ _); cbn; try lia; lra.
  - intros _. unfold npos. cbn. repeat destruct (Rlt_dec _ _); cbn; try lia; lra.
Qed.

(** ** C20: SteinThinning with its default settings and the squared exponential kernel is
    not padding invariant, although it declares itself so.  The default score is that of a
    density estimate from the bare points, in which zero-weight points count like the
    others.  From 5/2 and 100 the first is chosen; after eight zero points of weight zero
    (the padding that MapReduce adds) are appended, the second.  The density term is the
    same for both points, as it is for an estimate from two points of equal weight. *)
Theorem C20_default_score_refuted jgrad keq jac kde_logpdf ord (v : R) (zs : list R) :
  let X := [[5 / 2]; [100]] in
  let Z := repeat [0] 8 in
  let solver := mkThin 1 (lift (KSE 1 1)) None true true None (BOne None) in
  let reduce := thin_reduce EROps ERT jgrad keq jac kde_logpdf [Fin 0] tt solver ord in
  jac_exact jac -> (forall i, Permutation (ord i) (seq 0 1)) ->
  kde_logpdf (map (map Fin) X) (map Fin [1; 1]) (map (map Fin) X) = map Fin [v; v] ->
  kde_logpdf (map (map Fin) (X ++ Z)) (map Fin ([1; 1] ++ repeat 0 8)) (map (map Fin) (X ++ Z)) = map Fin ([v; v] ++ zs) ->
  length zs = 8%nat ->
  reduce (unsup (map (map Fin) X) [1; 1]) = Ok (mkCS [0%Z] [Fin 1] (unsup (map (map Fin) X) [1; 1])) /\
  reduce (unsup (map (map Fin) (X ++ Z)) ([1; 1] ++ repeat 0 8))
    = Ok (mkCS [1%Z] [Fin 1] (unsup (map (map Fin) (X ++ Z)) ([1; 1] ++ repeat 0 8))).
Proof.
  intros X Z solver reduce JE Ho HK HK' Lz.
  set (k := fun a b : R => kfun (KSE 1 1) [a] [b]).
  assert (K1 : forall a, k a a = 1).
  { intro a. unfold k. cbn [kfun]. unfold KernelSpec.sqdist, Rdot, vsub. cbn. replace (- (((a - a) * (a - a) + 0) / (2 * (1 * (1 * 1))))) with 0 by field. rewrite exp_0. ring. }
  assert (HV : forall a b : R, m_val (methods EROps ERT jgrad keq (t_kernel solver)) [Fin a] [Fin b] = Sc (Fin (k a b))).
  { intros a b. change [Fin a] with (map Fin [a]). change [Fin b] with (map Fin [b]).
    destruct (ev_se 1 1 [a] [b] ltac:(lra) eq_refl) as [[E _] _]. exact E. }
  set (kk := lift (KSE 1 (1 / (sqrt (2 * PI) * 1)))).
  assert (GEN : forall cs w lps, cs <> [] -> length w = length cs -> (1 <= npos w)%nat -> length lps = length cs ->
    kde_logpdf (map (map Fin) (map (fun c => [c]) cs)) (map Fin w) (map (map Fin) (map (fun c => [c]) cs)) = map Fin lps ->
    exists c laps, reduce (unsup (map (map Fin) (map (fun c => [c]) cs)) w) = Ok (mkCS [Z.of_nat c] [Fin 1] (unsup (map (map Fin) (map (fun c => [c]) cs)) w)) /\
      Forall2 (fun t L => L = Rmax 0 (curv cs t)) cs laps /\ (c < length w)%nat /\ 0 < nth c w 0 /\
      forall j, (j < length w)%nat -> 0 < nth j w 0 ->
        nth c laps 0 - nth c lps 0 <= nth j laps 0 - nth j lps 0 /\
        (nth j laps 0 - nth j lps 0 = nth c laps 0 - nth c lps 0 -> (c <= j)%nat)).
  { intros cs w lps Hcs Lw Np Ll HKd.
    set (Xc := map (fun c => [c]) cs) in *.
    assert (HXc : Xc <> []) by (destruct cs; [contradiction|discriminate]).
    assert (LXc : forall z, In z Xc -> length z = 1%nat) by (intros z Hz; apply in_map_iff in Hz as (c & <- & _); reflexivity).
    set (sk := KStein (lift (KSE 1 1)) (kdm_match EROps ERT jgrad keq kk (map (map Fin) Xc))).
    assert (CV : convert_stein_kernel EROps ERT jgrad keq (map (map Fin) Xc) (t_kernel solver) (t_score solver) = Ok sk).
    { unfold convert_stein_kernel. cbn [solver t_kernel t_score lift length_scale_of]. rewrite kdm_init_fin by lra. reflexivity. }
    assert (EF : map (fun r => [Fin r]) cs = map (map Fin) Xc) by (unfold Xc; now rewrite map_map).
    pose proof (thin_reduce_map tt jgrad keq jac kde_logpdf 0 (fun r => [Fin r]) k solver sk ord cs (map Fin w) HV) as E.
    rewrite EF in E. specialize (E CV).
    assert (HS : forall z, length z = 1%nat -> kdm_match EROps ERT jgrad keq kk (map (map Fin) Xc) (map Fin z) = map Fin (score_real 1 Xc z)).
    { intros z Lz'. apply kdm_match_fin; [lra|exact HXc|]. intros c Hc. rewrite Lz'. now apply LXc. }
    destruct (laplaces_fin jac (kdm_match EROps ERT jgrad keq kk (map (map Fin) Xc)) (score_real 1 Xc) Xc 1) as (laps & EL & FL); [|exact HS|].
    { intros x Hx. split; [now apply LXc|]. apply JE. apply in_map_iff in Hx as (c & <- & _). exists [curv cs c]. now apply score_1d_derive. }
    assert (FL' : Forall2 (fun t L => L = Rmax 0 (curv cs t)) cs laps).
    { unfold Xc in FL. clear -FL Hcs. remember cs as cs' eqn:E0 in FL at 1. rewrite E0 in FL at 1.
      assert (G : forall l laps, Forall2 (positive_laplacian (score_real 1 (col cs))) (map (fun c => [c]) l) laps -> Forall2 (fun t L => L = Rmax 0 (curv cs t)) l laps).
      { induction l as [|c l IH]; intros ls F; inversion F; subst; constructor; [now apply positive_laplacian_1d|now apply IH]. }
      apply G. subst cs'. exact FL. }
    destruct (C22_stein_greedy_partial R unit 0 tt k 1 true (BOne None) ord cs w None
      (fun x w => kde_logpdf (map (fun r => [Fin r]) x) w (map (fun r => [Fin r]) x))
      (fun x => map (laplace_positive EROps jac (score_function sk)) (map (fun r => [Fin r]) x)) lps laps) as (l & E' & L & R & _ & G);
      try assumption; try lia.
    { destruct cs; [contradiction|cbn; lia]. }
    { now rewrite EF. }
    { now rewrite EF. }
    { rewrite <- (Forall2_len _ _ _ FL'). reflexivity. }
    destruct l as [|c [|]]; try discriminate. exists c, laps. split; [|split; [exact FL'|]].
    - unfold reduce. cbn [map repeat] in E'.
      refine (eq_trans E _). cbn [t_size t_unique t_bs t_regularise t_lambda solver]. cbn [option_map] in E'. rewrite E'. cbn [rmap]. unfold cmap, dmap. cbn [c_idx c_w c_pre d_x d_w d_y].
      now rewrite EF.
    - destruct (R c (or_introl eq_refl)) as [R1 R2]. rewrite <- Lw in R1. split; [exact R1|]. split; [exact R2|]. intros j Hj Hp.
      destruct (G 0%nat ltac:(cbn; lia)) as [_ G']. cbn [firstn nth] in G'. specialize (G' j). unfold candidate, stein_score in G'. cbn [map Rsum length Nat.add INR] in G'.
      rewrite !K1 in G'. destruct G' as [G1 G2]. { split; [exact Hj|]. split; [exact Hp|]. intros _ []. }
      split; [lra|]. intro EQ. apply G2. lra. }
  split.
  - destruct (GEN cs0 [1; 1] [v; v]) as (c & laps & E & FL & C1 & C2 & G); try reflexivity; try discriminate; try assumption.
    { unfold npos. cbn. repeat destruct (Rlt_dec _ _); cbn; try lia; lra. }
    inversion FL as [|? ? ? ? H1 FL1]; subst. inversion FL1 as [|? ? ? ? H2 FL2]; subst. inversion FL2; subst.
    rewrite !Rmax_left in G by (pose proof curv_cs0_a; pose proof curv_cs0_b; lra).
    destruct c as [|[|c]]; [exact E| |cbn in C1; lia].
    exfalso. destruct (G 0%nat) as [_ G0]; cbn in *; try lia; try lra. specialize (G0 ltac:(lra)). lia.
  - destruct (GEN cs1 ([1; 1] ++ repeat 0 8) ([v; v] ++ zs)) as (c & laps & E & FL & C1 & C2 & G); try reflexivity; try discriminate; try assumption.
    { unfold npos. cbn. repeat destruct (Rlt_dec _ _); cbn; try lia; lra. }
    { rewrite app_length, Lz. reflexivity. }
    inversion FL as [|? ? ? ? H1 FL1]; subst. inversion FL1 as [|? ? ? ? H2 FL2]; subst.
    destruct c as [|[|c]]; [| exact E|].
    + exfalso. destruct (G 1%nat) as [G0 _]; [cbn; lia|cbn; lra|]. cbn [nth app] in G0.
      rewrite (Rmax_left 0 (curv cs1 100)) in G0 by (pose proof curv_cs1_b; lra). rewrite (Rmax_right 0 (curv cs1 (5 / 2))) in G0 by (pose proof curv_cs1_a; lra).
      pose proof curv_cs1_a. lra.
    + exfalso. cbn [nth app] in C2. rewrite nth_repeat in C2. lra.
Qed.
Print Assumptions C20_default_score_refuted.
(** such a [jac] exists: the matrix of partial derivatives *)
Definition derive_jac (s : list ER -> list ER) (x : list ER) : list (list ER) :=
  let v := map unfin x in
  map (fun i => map (fun j => Fin (Derive (fun t => unfin (nth i (s (map Fin (set_coord j v t))) (Fin 0))) (nth j v 0))) (seq 0 (length x))) (seq 0 (length x)).
Lemma derive_jac_exact : jac_exact derive_jac.
Proof.
  intros s score x (ds & Ld & D) HS.
  exists (map (fun i => map (fun j => Derive (fun t => unfin (nth i (s (map Fin (set_coord j x t))) (Fin 0))) (nth j x 0)) (seq 0 (length x))) (seq 0 (length x))).
  split; [|split].
  - unfold derive_jac. rewrite unfin_map, map_length, map_map. apply map_ext. intro i. now rewrite map_map.
  - intros i Hi. rewrite map_length, seq_length. split; [exact Hi|]. rewrite nth_map_seq by exact Hi. now rewrite map_length, seq_length.
  - split; [now rewrite map_length, seq_length|]. intros i Hi. rewrite !nth_map_seq by exact Hi.
    assert (E : forall t, unfin (nth i (s (map Fin (set_coord i x t))) (Fin 0)) = nth i (score (set_coord i x t)) 0).
    { intro t. rewrite HS by (unfold set_coord; now rewrite upd_length). now rewrite (map_nth Fin). }
    rewrite (Derive_ext _ _ _ E).
    assert (E2 : Derive (fun t : R => nth i (score (set_coord i x t)) 0) (nth i x 0) = nth i ds 0) by (apply is_derive_unique, D, Hi).
    rewrite E2. now apply D.
Qed.
Example C20_default_score_applies : exists c c',
  thin_reduce EROps ERT (fun _ z => z) (fun _ _ => false) derive_jac (fun _ _ z => map (fun _ => Fin (-1)) z) [Fin 0] tt
    (mkThin 1 (lift (KSE 1 1)) None true true None (BOne None)) (fun _ => seq 0 1) (unsup (map (map Fin) [[5 / 2]; [100]]) [1; 1]) = Ok c /\
  thin_reduce EROps ERT (fun _ z => z) (fun _ _ => false) derive_jac (fun _ _ z => map (fun _ => Fin (-1)) z) [Fin 0] tt
    (mkThin 1 (lift (KSE 1 1)) None true true None (BOne None)) (fun _ => seq 0 1)
    (unsup (map (map Fin) ([[5 / 2]; [100]] ++ repeat [0] 8)) ([1; 1] ++ repeat 0 8)) = Ok c' /\ c_idx c <> c_idx c'.
Proof.
  destruct (C20_default_score_refuted (fun _ z => z) (fun _ _ => false) derive_jac (fun _ _ z => map (fun _ => Fin (-1)) z) (fun _ => seq 0 1) (-1) (repeat (-1) 8))
    as [E1 E2]; try reflexivity; [exact derive_jac_exact|].
  do 2 eexists. split; [exact E1|]. split; [exact E2|]. discriminate.
Qed.
