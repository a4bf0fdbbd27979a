(** * Property theorems: Stein kernels are positive semi-definite (C54) and the kernelised
    Stein discrepancy as a whole (C46, C55) *)
From Coq Require Import List ZArith Reals Lra Lia Bool FunctionalExtensionality.
From Coquelicot Require Import Coquelicot.
From Verif Require Import Num Jax RSum DataModel MeanModel MeanSpec MetricSpec MetricModel MetricProofs MetricProofs2 MetricProofs3 CholSpec
  KernelModel KernelSpec KernelProofs KernelProofs2 KernelProofs3 KernelProofs4 KernelProofs7 KernelProofs8 PropKernel PsdSpec PsdProofs PsdProofs4 PsdProofs5
  SteinPsdProofs ScoreModel ScoreSpec ScoreProofs ThinModel ThinSpec ThinProofs KsdModel DataMeanLemmas PropMetric.
Import ListNotations.
Open Scope R_scope.
Notation FF := (map (map Fin)).

(** ** C54 *)
Theorem C54_stein_psd jgrad keq d (k : kern R) (score : list R -> list R) :
  (forall a b, keq a b = true -> a = b) ->
  closed_form k -> no_const_product k ->
  (forall x y, length x = d -> length y = d -> smooth_at k x y /\ div_ok k x y) ->
  (forall x, length x = d -> length (score x) = d) ->
  psd_gramian jgrad keq d (lift (KStein k score)).
Proof.
  intros KS C N SM SL. assert (S : smooth_everywhere d k) by (intros x y Hx Hy; now apply SM).
  apply gramian_real. exists (stein_real k score). split.
  - intros x y Hx Hy. destruct (SM x y Hx Hy). apply stein_scalar; auto; rewrite ?SL; congruence.
  - apply psd_stein; auto. apply kernel_psd; [now apply cf_well_formed|now apply smooth_one_dim].
Qed.
Print Assumptions C54_stein_psd.
Lemma smooth_ex d : forall x y : list R, length x = d -> length y = d ->
  let k := KAdd (KProd (KSE 1 2) (KLinear 1 1)) (KPow (KAdd (KPCIMQ 2 1) (KConst 3)) 3) in smooth_at k x y /\ div_ok k x y.
Proof. intros x y _ _. cbn. repeat split; auto; lia. Qed.
Example C54_applies :
  let k := KAdd (KProd (KSE 1 2) (KLinear 1 1)) (KPow (KAdd (KPCIMQ 2 1) (KConst 3)) 3) in
  closed_form k /\ no_const_product k /\ (forall x y, length x = 2%nat -> length y = 2%nat -> smooth_at k x y /\ div_ok k x y) /\
  psd_gramian (fun _ x => x) ex_keq 2 (lift (KStein k (fun x => map (fun v => sin v - v) x))).
Proof.
  intro k. assert (C : closed_form k) by (repeat constructor; cbn; lra || lia).
  assert (N : no_const_product k) by (cbn; repeat split; discriminate). split; [exact C|]. split; [exact N|]. split; [intros; now apply (smooth_ex 2)|].
  apply C54_stein_psd; auto; [apply ex_keq_sound|intros; now apply (smooth_ex 2)|]. intros x <-. apply map_length.
Qed.
Example C54_poisson_applies :
  psd_gramian (fun _ x => x) ex_keq 1 (lift (KStein (KProd (KPoisson (/ 2) 3) (KRQ 1 2 (/ 2))) (map Ropp))).
Proof.
  apply C54_stein_psd.
  - apply ex_keq_sound. - repeat constructor; cbn; lra. - cbn. repeat split; discriminate.
  - intros x y Hx _. cbn. auto. - intros x <-. apply map_length.
Qed.

(** ** The value of the complete metric *)
Lemma mean_scalar_map {P P' Y V} (O : FOps V) (f : P -> P') p0 (y0 : Y) k x y bs :
  mean_scalar O (f p0) y0 k (dmap f x) (dmap f y) bs = mean_scalar O p0 y0 (fun a b => k (f a) (f b)) x y bs.
Proof. unfold mean_scalar. now rewrite compute_mean_map. Qed.
Lemma wavg_map {P P'} (g : P -> P') (f : P' -> R) ys w : wavg f (map g ys) w = wavg (fun p => f (g p)) ys w.
Proof.
  unfold wavg, wsum. do 2 f_equal. revert w. induction ys as [|y ys IH]; intros [|a w]; cbn; auto. f_equal. apply IH.
Qed.
Section Value.
  Context {Y : Type} (y0 : Y) (jgrad : (list ER -> ER) -> list ER -> list ER) (keq : kern ER -> kern ER -> bool)
    (jac : (list ER -> list ER) -> list ER -> list (list ER)) (kde_logpdf : option ER -> list (list ER) -> list ER -> list (list ER) -> list ER).
  Variables (d : nat) (k : kern R) (score : list R -> list R) (scoreE : list ER -> list ER).
  Hypothesis KS : forall a b, keq a b = true -> a = b.
  Hypothesis C : closed_form k.
  Hypothesis N : no_const_product k.
  Hypothesis SM : forall x y, length x = d -> length y = d -> smooth_at k x y /\ div_ok k x y.
  Hypothesis SE : forall z, length z = d -> scoreE (map Fin z) = map Fin (score z).
  Hypothesis SL : forall z, length z = d -> length (score z) = d.
  Lemma stein_entry x y : length x = d -> length y = d ->
    m_val (methods EROps ERT jgrad keq (KStein (lift k) scoreE)) (map Fin x) (map Fin y) = Sc (Fin (stein_fun (kfun k) score x y)).
  Proof.
    intros Hx Hy. destruct (SM x y Hx Hy).
    destruct (C45_stein_documented jgrad keq k score x y) as [E _]; auto; try congruence; try (rewrite SL; congruence).
    rewrite <- E. cbn [lift methods auto_meth m_val]. unfold stein_val. rewrite !unfin_map. now rewrite !SE.
  Qed.
  Lemma stein_fun_psd : psd (fun p q : vec d => stein_fun (kfun k) score (pv p) (pv q)).
  Proof.
    assert (S : smooth_everywhere d k) by (intros x y Hx Hy; now apply SM).
    assert (Q : psd (fun p q : point d => stein_real k score (pt p) (pt q))).
    { apply psd_stein; auto. apply kernel_psd; [now apply cf_well_formed|now apply smooth_one_dim]. }
    eapply psd_ext; [|exact Q]. intros p q. destruct (SM (pt p) (pt q) (pt_len p) (pt_len q)).
    apply stein_documented; auto; now rewrite ?SL, !pt_len by apply pt_len.
  Qed.
  Lemma ksd_whole_value kernel sm (X ys : list (list R)) (wx : list ER) (wy : list R) lc rg bs (lp : list R) :
    convert_stein_kernel EROps ERT jgrad keq (FF X) kernel sm = Ok (KStein (lift k) scoreE) ->
    good ys wy -> (forall y, In y ys -> length y = d /\ (lc = true -> jac_correct jac scoreE score y)) ->
    (rg = true -> kde_logpdf (option_map Fin (own_bandwidth k)) (FF X) wx (FF ys) = map Fin lp /\ length lp = length ys) ->
    exists laps, (lc = true -> Forall2 (positive_laplacian score) ys laps) /\
    let m := INR (length ys) in
    let mean := wavg (fun a => wavg (fun b => stein_fun (kfun k) score a b) ys wy) ys wy in
    0 <= mean /\
    ksd EROps ERT jgrad keq jac kde_logpdf (map Fin (repeat 0 d)) y0 kernel sm lc rg bs
      (mkData (FF X) wx (@None (list Y))) (mkData (FF ys) (map Fin wy) None)
    = Ok (Fin (sqrt (Rmax 0 (mean + (if lc then Rsum laps / m ^ 2 else 0) - (if rg then Rsum lp / m / m else 0))))).
  Proof.
    intros EC [G1 [G2 G3]] HY HL.
    destruct (vec_list d ys (fun y H => proj1 (HY y H))) as (Ys & EY).
    assert (LA : exists laps, (lc = true -> Forall2 (positive_laplacian score) ys laps /\ map (laplace_positive EROps jac scoreE) (FF ys) = map Fin laps)).
    { destruct lc; [|exists []; discriminate]. destruct (laplaces_fin jac scoreE score ys d) as (laps & E & F); auto.
      { intros x Hx. destruct (HY x Hx) as [H1 H2]. split; auto. } exists laps. auto. }
    destruct LA as (laps & LA). exists laps. split; [intro; now apply LA|].
    intros m mean. split.
    { unfold mean. rewrite <- EY, (wavg_map pv). rewrite (wavg_ext _ (fun p => wavg (fun q => stein_fun (kfun k) score (pv p) (pv q)) Ys wy)).
      2: { intro p. apply (wavg_map pv). }
      rewrite (wavg2_bil (fun p q : vec d => stein_fun (kfun k) score (pv p) (pv q))). apply stein_fun_psd. }
    unfold ksd. cbn [unpack2 d_y d_x d_w bind]. rewrite EC. cbn [bind score_function base_kernel].
    replace (mkData (FF ys) (map Fin wy) (@None (list Y))) with (dmap (Y:=Y) (@vf d) (mkData Ys (map Fin wy) None))
      by (unfold dmap; cbn [d_x d_w d_y]; now rewrite vf_map, EY).
    change (map Fin (repeat 0 d)) with (vf (vzero d)). rewrite (mean_scalar_map EROps (@vf d)).
    replace (fun a b : vec d => unsc EROps (m_val (methods EROps ERT jgrad keq (KStein (lift k) scoreE)) (vf a) (vf b)))
      with (fun a b : vec d => Fin (stein_fun (kfun k) score (pv a) (pv b)) : ER).
    2: { extensionality a. extensionality b. unfold vf. rewrite (stein_entry (pv a) (pv b) (proj2_sig a) (proj2_sig b)). reflexivity. }
    assert (LY : length Ys = length ys) by (rewrite <- EY; now rewrite map_length).
    unfold mean_scalar. rewrite (full_mean_spec (vzero d) y0 (fun a b : vec d => stein_fun (kfun k) score (pv a) (pv b)));
      try assumption; try congruence; try (intro Z; subst Ys; cbn in LY; destruct ys; [contradiction|discriminate]).
    cbn [bind].
    replace (wavg (fun x : vec d => wavg (fun y : vec d => stein_fun (kfun k) score (pv x) (pv y)) Ys wy) Ys wy) with mean.
    2: { unfold mean. rewrite <- EY, (wavg_map pv). apply wavg_ext. intro p. symmetry. symmetry. apply (wavg_map pv). }
    unfold dmap, d_len. cbn [d_x d_w d_y]. rewrite map_length, LY.
    assert (Hm : m <> 0) by (subst m; apply not_0_INR; destruct ys; [congruence|discriminate]).
    change (fofZ EROps ?z) with (Fin (IZR z) : ER).
    assert (Em : IZR (Z.of_nat (length ys)) = m) by (rewrite <- INR_IZR_INZ; reflexivity).
    assert (Em2 : IZR (Z.of_nat (length ys) ^ 2) = m ^ 2) by (rewrite Z.pow_2_r, mult_IZR, <- INR_IZR_INZ; fold m; ring).
    rewrite Em, Em2.
    assert (E : forall a b c, fsqrt EROps (fmax EROps (f0 EROps) (fsub EROps (fadd EROps (Fin a) (Fin b)) (Fin c)))
       = Fin (sqrt (Rmax 0 (a + b - c)))) by (intros; apply (sqrt_max_fin (a + b - c))).
    replace (if lc then _ else f0 EROps) with (Fin (if lc then Rsum laps / m ^ 2 else 0)).
    2: { destruct lc; [|reflexivity]. destruct (LA eq_refl) as [_ ->]. rewrite fsum_fin, fdiv_fin; auto. apply pow_nonzero; auto. }
    assert (OB : length_scale_opt (lift k) = option_map Fin (own_bandwidth k)) by (destruct k; reflexivity).
    replace (if rg then _ else f0 EROps) with (Fin (if rg then Rsum lp / m / m else 0)).
    2: { destruct rg; [|reflexivity]. rewrite OB. destruct (HL eq_refl) as [-> Ll]. rewrite map_length, Ll, Em, fsum_fin, !fdiv_fin; auto. }
    now rewrite E.
  Qed.
End Value.

(** ** C46: the complete metric is the documented discrepancy.  [mean] is the average of the
    Stein kernel over the comparison data, which is never negative; the clamp at zero can
    only act when the density term is subtracted. *)
(** given a kernel and a score matching object, or a Stein kernel and a score matching
    object that replaces its score function, or a Stein kernel alone *)
Theorem C46_ksd_explicit_score {Y} (y0 : Y) jgrad keq jac kde_logpdf (d : nat) (k kernel : kern R) (score : list R -> list R) sm
    (X ys : list (list R)) (wx : list ER) (wy : list R) lc rg bs (lp : list R) :
  (forall a b, keq a b = true -> a = b) ->
  closed_form k -> no_const_product k ->
  (forall x y, length x = d -> length y = d -> smooth_at k x y /\ div_ok k x y) ->
  (forall z, length z = d -> length (score z) = d) ->
  let scoreE := fun z => map Fin (score (map unfin z)) in
  ((kernel = k \/ exists s, kernel = KStein k s) /\ sm = Some (fun _ => scoreE)) \/ (kernel = KStein k score /\ sm = None) ->
  good ys wy -> (forall y, In y ys -> length y = d /\ (lc = true -> jac_correct jac scoreE score y)) ->
  (rg = true -> kde_logpdf (option_map Fin (own_bandwidth k)) (FF X) wx (FF ys) = map Fin lp /\ length lp = length ys) ->
  exists laps, (lc = true -> Forall2 (positive_laplacian score) ys laps) /\
  let m := INR (length ys) in
  let mean := wavg (fun a => wavg (fun b => stein_fun (kfun k) score a b) ys wy) ys wy in
  0 <= mean /\
  ksd EROps ERT jgrad keq jac kde_logpdf (map Fin (repeat 0 d)) y0 (lift kernel) sm lc rg bs
    (mkData (FF X) wx (@None (list Y))) (mkData (FF ys) (map Fin wy) None)
  = Ok (Fin (sqrt (Rmax 0 (mean + (if lc then Rsum laps / m ^ 2 else 0) - (if rg then Rsum lp / m / m else 0))))).
Proof.
  intros KS C N SM SL scoreE HC G HY HL. apply (ksd_whole_value y0 jgrad keq jac kde_logpdf d k score scoreE); auto.
  - intros z Hz. unfold scoreE. now rewrite unfin_map.
  - destruct HC as [[[->|[s ->]] ->]|[-> ->]].
    + unfold convert_stein_kernel. destruct C; reflexivity.
    + reflexivity.
    + reflexivity.
Qed.
Print Assumptions C46_ksd_explicit_score.
(** the score of a Gaussian kernel density estimate can be differentiated *)
Lemma score_real_differentiable len X x : 0 < len -> X <> [] -> (forall c, In c X -> length c = length x) ->
  exists ds, diagonal_derivatives (score_real len X) x ds.
Proof.
  intros Hl HX HL. set (kR := KSE len (1 / (sqrt (2 * PI) * len))).
  assert (E : forall i, (i < length x)%nat -> exists l : R, is_derive (fun t => nth i (score_real len X (set_coord i x t)) 0) (nth i x 0) l).
  { intros i Hi.
    apply ex_derive_ext with (fun t => (Rsum (map (fun c => GX kR (set_coord i x t) c i) X) * / INR (length X)) * / (ksum len X (set_coord i x t) * / INR (length X))).
    { intro t. unfold score_real. rewrite nth_map_seq by (now rewrite set_len). reflexivity. }
    assert (IN : INR (length X) <> 0) by (destruct X; [contradiction|apply not_0_INR; discriminate]).
    assert (D1 : ex_derive (fun t => Rsum (map (fun c => GX kR (set_coord i x t) c i) X)) (nth i x 0)).
    { eexists. apply (is_derive_Rsum (fun c t => GX kR (set_coord i x t) c i) (fun c => - MX kR x c i)). intros c Hc.
      apply is_derive_ext with (fun t => -1 * GY kR (set_coord i x t) c i).
      { intro t. unfold kR. cbn [GX GY]. change (@eq R_NormedModule) with (@eq R). ring. }
      eapply is_derive_eq; [apply is_derive_scal_R; apply (kernel_derivatives kR x c i); [symmetry; now apply HL|exact Hi|now apply kR_cf|exact I]|]. ring. }
    assert (D2 : ex_derive (fun t => ksum len X (set_coord i x t)) (nth i x 0)).
    { eexists. unfold ksum. apply (is_derive_Rsum (fun c t => kfun kR (set_coord i x t) c) (fun c => GX kR x c i)). intros c Hc.
      apply (kernel_derivatives kR x c i); [symmetry; now apply HL|exact Hi|now apply kR_cf|exact I]. }
    assert (PK := ksum_pos len Hl X (set_coord i x (nth i x 0)) HX).
    destruct D1 as [l1 D1]. destruct D2 as [l2 D2]. set (n := INR (length X)) in *.
    assert (D1' := is_derive_mult_R _ (fun _ => / n) _ _ _ D1 (is_derive_const (/ n) _)).
    assert (D2' := is_derive_mult_R _ (fun _ => / n) _ _ _ D2 (is_derive_const (/ n) _)).
    eexists. apply (is_derive_div _ _ _ _ _ D1' D2').
    apply Rmult_integral_contrapositive. split; [lra|now apply Rinv_neq_0_compat]. }
  assert (F : forall n, (n <= length x)%nat -> exists ds, length ds = n /\ forall i, (i < n)%nat ->
    is_derive (fun t => nth i (score_real len X (set_coord i x t)) 0) (nth i x 0) (nth i ds 0)).
  { induction n as [|n IH]; intro Hn; [exists []; split; [reflexivity|intros; lia]|].
    destruct IH as (ds & L & D); [lia|]. destruct (E n) as (l & Dl); [lia|]. exists (ds ++ [l]). split; [rewrite app_length, L; cbn; lia|].
    intros i Hi. destruct (Nat.eq_dec i n) as [->|].
    - rewrite app_nth2 by lia. rewrite L, Nat.sub_diag. exact Dl.
    - rewrite app_nth1 by lia. apply D. lia. }
  destruct (F (length x)) as (ds & L & D); [lia|]. exists ds. split; auto.
Qed.
(** given only a kernel: the score is that of the Gaussian kernel density estimate of the
    reference data *)
Theorem C46_ksd_default_score {Y} (y0 : Y) jgrad keq jac kde_logpdf (d : nat) (k : kern R)
    (X ys : list (list R)) (wx : list ER) (wy : list R) lc rg bs (lp : list R) :
  (forall a b, keq a b = true -> a = b) ->
  closed_form k -> no_const_product k ->
  (forall x y, length x = d -> length y = d -> smooth_at k x y /\ div_ok k x y) ->
  X <> [] -> (forall c, In c X -> length c = d) -> jac_exact jac ->
  good ys wy -> (forall y, In y ys -> length y = d) ->
  (rg = true -> kde_logpdf (option_map Fin (own_bandwidth k)) (FF X) wx (FF ys) = map Fin lp /\ length lp = length ys) ->
  exists score laps, (forall z, length z = d -> kde_score_at (bandwidth k) X z (score z)) /\
  (lc = true -> Forall2 (positive_laplacian score) ys laps) /\
  let m := INR (length ys) in
  let mean := wavg (fun a => wavg (fun b => stein_fun (kfun k) score a b) ys wy) ys wy in
  0 <= mean /\
  ksd EROps ERT jgrad keq jac kde_logpdf (map Fin (repeat 0 d)) y0 (lift k) None lc rg bs
    (mkData (FF X) wx (@None (list Y))) (mkData (FF ys) (map Fin wy) None)
  = Ok (Fin (sqrt (Rmax 0 (mean + (if lc then Rsum laps / m ^ 2 else 0) - (if rg then Rsum lp / m / m else 0))))).
Proof.
  intros KS C N SM HX HL J G HY HP.
  assert (B : 0 < bandwidth k) by (destruct C; cbn in *; lra).
  assert (EB : length_scale_of EROps (lift k) = Fin (bandwidth k)) by (destruct k; reflexivity).
  set (kk := lift (KSE (bandwidth k) (1 / (sqrt (2 * PI) * bandwidth k)))).
  set (score := score_real (bandwidth k) X). exists score.
  assert (HX' : forall z : list R, length z = d -> forall c, In c X -> length c = length z) by (intros z Hz c Hc; rewrite Hz; auto).
  destruct (ksd_whole_value y0 jgrad keq jac kde_logpdf d k score (kdm_match EROps ERT jgrad keq kk (FF X))) with
    (kernel := lift k) (sm := @None (list (list ER) -> list ER -> list ER)) (X := X) (ys := ys) (wx := wx) (wy := wy) (lc := lc) (rg := rg) (bs := bs) (lp := lp)
    as (laps & H1 & H2); auto.
  - intros z Hz. apply kdm_match_fin; auto.
  - intros z Hz. unfold score, score_real. now rewrite map_length, seq_length.
  - unfold convert_stein_kernel. rewrite EB, kdm_init_fin by exact B. destruct C; reflexivity.
  - intros y Hy. split; [auto|]. intros _. apply J. apply score_real_differentiable; auto.
  - exists laps. split; [|split]; auto. intros z Hz. apply score_real_spec; auto.
Qed.
Print Assumptions C46_ksd_default_score.
From Verif Require PropThin.
(** a linear kernel with the score of the standard normal, with both corrections *)
Example C46_explicit_applies : exists laps, Forall2 (positive_laplacian PropThin.normal_score) [[0; 1]; [2; 0]] laps /\ exists v,
  ksd EROps ERT (fun _ x => x) ex_keq PropThin.normal_jac (fun _ => PropThin.normal_kde) (map Fin (repeat 0 2)) tt (lift (KLinear 1 1))
    (Some (fun _ z => map Fin (PropThin.normal_score (map unfin z)))) true true (BOne (Some 1%Z))
    (mkData (FF [[0; 0]]) [Fin 1] None) (mkData (FF [[0; 1]; [2; 0]]) (map Fin [1; 3]) None) = Ok (Fin v).
Proof.
  destruct (C46_ksd_explicit_score tt (fun _ x => x) ex_keq PropThin.normal_jac (fun _ => PropThin.normal_kde) 2 (KLinear 1 1) (KLinear 1 1)
    PropThin.normal_score (Some (fun _ z => map Fin (PropThin.normal_score (map unfin z)))) [[0; 0]] [[0; 1]; [2; 0]] [Fin 1] [1; 3] true true (BOne (Some 1%Z))
    (map (fun p => - Rdot p p / 2) [[0; 1]; [2; 0]])) as (laps & F & _ & E).
  - apply ex_keq_sound. - constructor. cbn. lra. - exact I. - intros. split; exact I.
  - intros z <-. unfold PropThin.normal_score. apply map_length.
  - left. split; [now left|reflexivity].
  - repeat split; [discriminate|cbn; lra].
  - intros y Hy. split; [destruct Hy as [<-|[<-|[]]]; reflexivity|]. intros _. apply PropThin.normal_jac_ok.
  - intros _. split; reflexivity.
  - exists laps. split; [now apply F|]. eexists. exact E.
Qed.
Example C46_default_applies : exists v,
  ksd EROps ERT (fun _ x => x) ex_keq PropThin.derive_jac (fun _ _ _ _ => []) (map Fin (repeat 0 2)) tt (lift (KPCIMQ 1 2))
    None true false (BOne None) (mkData (FF [[0; 0]; [1; 2]]) [Fin 1; Fin 1] None) (mkData (FF [[0; 1]; [2; 0]]) (map Fin [1; 3]) None) = Ok (Fin v).
Proof.
  destruct (C46_ksd_default_score tt (fun _ x => x) ex_keq PropThin.derive_jac (fun _ _ _ _ => []) 2 (KPCIMQ 1 2) [[0; 0]; [1; 2]] [[0; 1]; [2; 0]] [Fin 1; Fin 1] [1; 3]
    true false (BOne None) []) as (score & laps & _ & _ & _ & E).
  - apply ex_keq_sound. - constructor. cbn. lra. - exact I. - intros. split; exact I. - discriminate.
  - intros c [<-|[<-|[]]]; reflexivity. - apply PropThin.derive_jac_exact. - repeat split; [discriminate|cbn; lra].
  - intros y [<-|[<-|[]]]; reflexivity. - discriminate.
  - eexists. exact E.
Qed.

(** ** C55: without corrections the discrepancy depends on the distribution of the
    comparison data only, not on its representation.  Partial: false with either correction
    and for the reference data, see below. *)
Theorem C55_comparison_representation_partial {Y} (y0 : Y) jgrad keq jac kde_logpdf (d : nat) (k kernel : kern R) (score : list R -> list R) sm
    (X ys ys' : list (list R)) (wx : list ER) (wy wy' : list R) bs bs' :
  (forall a b, keq a b = true -> a = b) ->
  closed_form k -> no_const_product k ->
  (forall x y, length x = d -> length y = d -> smooth_at k x y /\ div_ok k x y) ->
  (forall z, length z = d -> length (score z) = d) ->
  let scoreE := fun z => map Fin (score (map unfin z)) in
  ((kernel = k \/ exists s, kernel = KStein k s) /\ sm = Some (fun _ => scoreE)) \/ (kernel = KStein k score /\ sm = None)
  \/ (kernel = k /\ sm = None /\ X <> [] /\ (forall c, In c X -> length c = d)) ->
  good ys wy -> good ys' wy' -> (forall y, In y ys \/ In y ys' -> length y = d) ->
  same_dist ys wy ys' wy' ->
  exists v,
  ksd EROps ERT jgrad keq jac kde_logpdf (map Fin (repeat 0 d)) y0 (lift kernel) sm false false bs
    (mkData (FF X) wx (@None (list Y))) (mkData (FF ys) (map Fin wy) None) = Ok (Fin v) /\
  ksd EROps ERT jgrad keq jac kde_logpdf (map Fin (repeat 0 d)) y0 (lift kernel) sm false false bs'
    (mkData (FF X) wx (@None (list Y))) (mkData (FF ys') (map Fin wy') None) = Ok (Fin v).
Proof.
  intros KS C N SM SL scoreE HC G G' HY SD.
  assert (A : exists score' scoreE', convert_stein_kernel EROps ERT jgrad keq (FF X) (lift kernel) sm = Ok (KStein (lift k) scoreE') /\
    (forall z, length z = d -> scoreE' (map Fin z) = map Fin (score' z)) /\ (forall z, length z = d -> length (score' z) = d)).
  { destruct HC as [[[->|[s ->]] ->]|[[-> ->]|(-> & -> & HX & HL)]].
    - exists score, scoreE. split; [destruct C; reflexivity|]. split; auto. intros. unfold scoreE. now rewrite unfin_map.
    - exists score, scoreE. split; [reflexivity|]. split; auto. intros. unfold scoreE. now rewrite unfin_map.
    - exists score, scoreE. split; [reflexivity|]. split; auto. intros. unfold scoreE. now rewrite unfin_map.
    - assert (B : 0 < bandwidth k) by (destruct C; cbn in *; lra).
      assert (EB : length_scale_of EROps (lift k) = Fin (bandwidth k)) by (destruct k; reflexivity).
      set (kk := lift (KSE (bandwidth k) (1 / (sqrt (2 * PI) * bandwidth k)))).
      exists (score_real (bandwidth k) X), (kdm_match EROps ERT jgrad keq kk (FF X)). split; [|split].
      + unfold convert_stein_kernel. rewrite EB, kdm_init_fin by exact B. destruct C; reflexivity.
      + intros z Hz. apply kdm_match_fin; auto. intros. rewrite Hz. auto.
      + intros z Hz. unfold score_real. now rewrite map_length, seq_length. }
  destruct A as (score' & scoreE' & A1 & A2 & A3).
  destruct (ksd_whole_value y0 jgrad keq jac kde_logpdf d k score' scoreE' KS C N SM A2 A3 (lift kernel) sm X ys wx wy false false bs []) as (l1 & _ & _ & E1); auto; try discriminate.
  { intros y Hy. split; [auto|discriminate]. }
  destruct (ksd_whole_value y0 jgrad keq jac kde_logpdf d k score' scoreE' KS C N SM A2 A3 (lift kernel) sm X ys' wx wy' false false bs' []) as (l2 & _ & _ & E2); auto; try discriminate.
  { intros y Hy. split; [auto|discriminate]. }
  eexists. split; [exact E1|]. rewrite E2. do 6 f_equal. rewrite <- (SD (fun a => wavg (fun b => stein_fun (kfun k) score' a b) ys' wy')).
  apply wavg_ext. intro a. symmetry. apply SD.
Qed.
Print Assumptions C55_comparison_representation_partial.
Example C55_applies : good [[1]; [2]; [5]] [1; 2; 0] /\ good [[2]; [1]] [4; 2] /\ same_dist [[1]; [2]; [5]] [1; 2; 0] [[2]; [1]] [4; 2].
Proof.
  repeat split; try discriminate; try (cbn; lra). intro f. unfold wavg, wsum. cbn. field.
Qed.
(** Appending a zero-weight point to the comparison data changes both corrections: they
    average over the points without their weights.  Stein kernel of x y + 1 with the score
    s(x) = x, comparison data the single point 0. *)
Lemma stein_lin_value a b (s : list R -> list R) : stein_fun (kfun (KLinear 1 1)) s [a] [b]
  = 1 + nth 0 (s [b]) 0 * b + nth 0 (s [a]) 0 * a + Rdot (s [a]) (s [b]) * (a * b + 1).
Proof.
  unfold stein_fun. cbn [length seq map Rsum].
  replace (partial_x (kfun (KLinear 1 1)) 0 [a] [b]) with b.
  2: { symmetry. apply is_derive_unique. cbn. apply (is_derive_ext (fun t => 1 * (t * b + 0) + 1)); [intro; unfold Rdot; cbn; reflexivity|]. auto_derive; auto; ring. }
  replace (partial_y (kfun (KLinear 1 1)) 0 [a] [b]) with a.
  2: { symmetry. apply is_derive_unique. cbn. apply (is_derive_ext (fun t => 1 * (a * t + 0) + 1)); [intro; unfold Rdot; cbn; reflexivity|]. auto_derive; auto; ring. }
  replace (partial_x (partial_y (kfun (KLinear 1 1)) 0) 0 [a] [b]) with 1.
  2: { symmetry. apply is_derive_unique. cbn. apply (is_derive_ext (fun t => t)).
       { intro t. symmetry. apply is_derive_unique. cbn. apply (is_derive_ext (fun u => 1 * (t * u + 0) + 1)); [intro; unfold Rdot; cbn; reflexivity|]. auto_derive; auto; ring. }
       apply (is_derive_id (K := R_AbsRing)). }
  cbn [kfun]. replace (Rdot [a] [b]) with (a * b) by (unfold Rdot; cbn; ring). ring.
Qed.
Lemma sqrt_neq a b : 0 <= a -> 0 <= b -> a <> b -> sqrt a <> sqrt b.
Proof. intros Ha Hb H E. apply H. now apply sqrt_inj. Qed.
Lemma id_laplacian y L : length y = 1%nat -> positive_laplacian (fun x => x) y L -> L = 1.
Proof.
  intros Hy (ds & [Ld D] & ->). rewrite Hy in Ld. destruct ds as [|e [|]]; try discriminate. destruct y as [|a [|]]; try discriminate.
  specialize (D 0%nat ltac:(cbn; lia)). cbn in D.
  assert (E := is_derive_unique _ _ _ D). rewrite Derive_id in E. cbn. rewrite <- E, Rmax_right by lra. ring.
Qed.
Theorem C55_corrections_refuted jgrad keq jac kde_logpdf :
  (forall a b, keq a b = true -> a = b) -> jac_exact jac ->
  (forall b x w z, kde_logpdf b x w z = map (fun p => Fin (- Rdot (map unfin p) (map unfin p) / 2)) z) ->
  let metric lc rg ys wy := ksd EROps ERT jgrad keq jac kde_logpdf [Fin 0] tt (lift (KStein (KLinear 1 1) (fun x => x))) None lc rg (BOne None)
    (mkData [[Fin 0]] [Fin 1] None) (mkData (FF ys) (map Fin wy) None) in
  metric true false [[0]] [1] <> metric true false [[0]; [2]] [1; 0] /\
  metric false true [[0]] [1] <> metric false true [[0]; [2]] [1; 0].
Proof.
  intros KS J KD metric.
  assert (V : forall lc rg ys wy, good ys wy -> (forall y, In y ys -> length y = 1%nat) -> exists laps,
    (lc = true -> Forall2 (positive_laplacian (fun x => x)) ys laps) /\
    metric lc rg ys wy = Ok (Fin (sqrt (Rmax 0 (wavg (fun a => wavg (fun b => stein_fun (kfun (KLinear 1 1)) (fun x => x) a b) ys wy) ys wy
      + (if lc then Rsum laps / INR (length ys) ^ 2 else 0) - (if rg then Rsum (map (fun p => - Rdot p p / 2) ys) / INR (length ys) / INR (length ys) else 0)))))).
  { intros lc rg ys wy G L.
    destruct (C46_ksd_explicit_score tt jgrad keq jac kde_logpdf 1 (KLinear 1 1) (KStein (KLinear 1 1) (fun x => x)) (fun x => x) None [[0]] ys [Fin 1] wy lc rg (BOne None)
      (map (fun p => - Rdot p p / 2) ys)) as (laps & F & _ & E); auto.
    - constructor. cbn. lra. - exact I. - intros. split; exact I.
    - intros y Hy. split; auto. intros _. apply J. exists (repeat 1 (length y)). split; [apply repeat_length|]. intros i Hi.
      apply is_derive_ext with (fun t => t); [intro; now rewrite nth_set|].
      replace (nth i (repeat 1 (length y)) 0) with 1 by (rewrite (nth_indep (repeat 1 (length y)) 0 1) by (now rewrite repeat_length); now rewrite nth_repeat). apply (is_derive_id (K := R_AbsRing)).
    - intros _. rewrite KD. rewrite map_length, !map_map. split; auto. apply map_ext. intro. now rewrite unfin_map.
    - exists laps. split; auto. }
  assert (M1 : wavg (fun a => wavg (fun b => stein_fun (kfun (KLinear 1 1)) (fun x => x) a b) [[0]] [1]) [[0]] [1] = 1).
  { unfold wavg, wsum. cbn [combine map fst snd Rsum]. rewrite stein_lin_value. unfold Rdot. cbn. field. }
  assert (M2 : wavg (fun a => wavg (fun b => stein_fun (kfun (KLinear 1 1)) (fun x => x) a b) [[0]; [2]] [1; 0]) [[0]; [2]] [1; 0] = 1).
  { unfold wavg, wsum. cbn [combine map fst snd Rsum]. rewrite !stein_lin_value. unfold Rdot. cbn. field. }
  assert (G1 : good [[0]] [1]) by (repeat split; [discriminate|cbn; lra]).
  assert (G2 : good [[0]; [2]] [1; 0]) by (repeat split; [discriminate|cbn; lra]).
  assert (L1 : forall y, In y [[0]] -> length y = 1%nat) by (intros y [<-|[]]; reflexivity).
  assert (L2 : forall y, In y [[0]; [2]] -> length y = 1%nat) by (intros y [<-|[<-|[]]]; reflexivity).
  split.
  - destruct (V true false _ _ G1 L1) as (l1 & F1 & ->). destruct (V true false _ _ G2 L2) as (l2 & F2 & ->).
    specialize (F1 eq_refl). specialize (F2 eq_refl). rewrite M1, M2.
    inversion F1 as [|? a ? l1' P1 T1]; subst. inversion T1; subst. inversion F2 as [|? b ? l2' P2 T2]; subst. inversion T2 as [|? c ? l3 P3 T3]; subst. inversion T3; subst.
    apply id_laplacian in P1, P2, P3; auto. subst. cbn. rewrite !Rmax_right by lra. intro E. injection E as E. revert E. apply sqrt_neq; lra.
  - destruct (V false true _ _ G1 L1) as (l1 & F1 & ->). destruct (V false true _ _ G2 L2) as (l2 & F2 & ->). rewrite M1, M2.
    unfold Rdot. cbn. rewrite !Rmax_right by lra. intro E. injection E as E. revert E. apply sqrt_neq; lra.
Qed.
Print Assumptions C55_corrections_refuted.
Example C55_corrections_applies :
  (forall a b, ex_keq a b = true -> a = b) /\ jac_exact PropThin.derive_jac.
Proof. split; [apply ex_keq_sound|apply PropThin.derive_jac_exact]. Qed.
(** Appending a zero-weight point to the reference data changes the discrepancy: the default
    score matching ignores the weights.  Kernel x y + 1, comparison data the point 0. *)
Theorem C55_reference_padding_refuted jgrad keq jac kde_logpdf :
  (forall a b, keq a b = true -> a = b) ->
  let metric X wx := ksd EROps ERT jgrad keq jac kde_logpdf [Fin 0] tt (lift (KLinear 1 1)) None false false (BOne None)
    (mkData (FF X) wx None) (mkData [[Fin 0]] [Fin 1] None) in
  metric [[0]] [Fin 1] <> metric [[0]; [2]] [Fin 1; Fin 0].
Proof.
  intros KS metric.
  assert (V : forall X wx, X <> [] -> (forall c, In c X -> length c = 1%nat) ->
    metric X wx = Ok (Fin (sqrt (Rmax 0 (1 + Rdot (score_real 1 X [0]) (score_real 1 X [0])))))).
  { intros X wx HX HL. set (kk := lift (KSE 1 (1 / (sqrt (2 * PI) * 1)))).
    destruct (ksd_whole_value tt jgrad keq jac kde_logpdf 1 (KLinear 1 1) (score_real 1 X) (kdm_match EROps ERT jgrad keq kk (FF X)) KS) with
      (kernel := lift (KLinear 1 1)) (sm := @None (list (list ER) -> list ER -> list ER)) (X := X) (ys := [[0]]) (wx := wx) (wy := [1])
      (lc := false) (rg := false) (bs := BOne None) (lp := @nil R) as (laps & _ & _ & E); try discriminate.
    - constructor. cbn. lra. - exact I. - intros. split; exact I.
    - intros z Hz. apply kdm_match_fin; auto; [lra|]. intros. rewrite Hz. auto.
    - intros z Hz. unfold score_real. now rewrite map_length, seq_length.
    - unfold convert_stein_kernel. cbn [lift length_scale_of]. change (f1 EROps) with (Fin 1). rewrite kdm_init_fin by lra. reflexivity.
    - repeat split; [discriminate|cbn; lra].
    - intros y [<-|[]]. split; [reflexivity|discriminate].
    - transitivity (Ok (Fin (sqrt (Rmax 0 (wavg (fun a => wavg (fun b => stein_fun (kfun (KLinear 1 1)) (score_real 1 X) a b) [[0]] [1]) [[0]] [1] + 0 - 0))))); [exact E|].
      do 4 f_equal. unfold wavg, wsum. cbn [combine map fst snd Rsum]. rewrite stein_lin_value. field. }
  rewrite (V [[0]]), (V [[0]; [2]]); try discriminate.
  2: { intros c [<-|[<-|[]]]; reflexivity. } 2: { intros c [<-|[]]; reflexivity. }
  assert (P := ksum_pos 1 ltac:(lra) [[0]; [2]] [0] ltac:(discriminate)).
  assert (Z : score_real 1 [[0]] [0] = [0]).
  { unfold score_real. cbn [length seq map GX nth Rsum]. f_equal. unfold Rdiv. ring. }
  assert (W : exists s, 0 < s /\ score_real 1 [[0]; [2]] [0] = [s]).
  { eexists. split; [|unfold score_real; cbn [length seq map]; reflexivity].
    apply Rdiv_lt_0_compat; [|apply Rdiv_lt_0_compat; [exact P|cbn; lra]].
    apply Rdiv_lt_0_compat; [|cbn; lra]. cbn [map GX nth Rsum phi1].
    set (q := exp (- (sqdist [0] [2] / _))). assert (Q : 0 < q) by apply exp_pos.
    assert (S := sc_pos 1 ltac:(lra)). assert (0 < 1 / (sqrt (2 * PI) * 1) / (2 * 1 ^ 2) * q) by (apply Rmult_lt_0_compat; [apply Rdiv_lt_0_compat; lra|exact Q]). lra. }
  destruct W as (s & Hs & ->). rewrite Z. unfold Rdot. cbn. assert (0 < s * s) by (now apply Rmult_lt_0_compat).
  rewrite !Rmax_right by lra. intro E. injection E as E. revert E. apply sqrt_neq; lra.
Qed.
Print Assumptions C55_reference_padding_refuted.
