(** * Property theorems: score matching and conversion to Stein kernels (C41, C53, C22) *)
From Coq Require Import List ZArith Reals Lra Lia Bool QArith.
From Coquelicot Require Import Coquelicot.
From Verif Require Import Num Jax RSum DataModel MeanModel KernelModel KernelSpec KernelProofs4 KernelProofs7 KTProofs4 GreedyModel PropKernel
  ScoreModel ScoreSpec ScoreProofs.
Import ListNotations.
Open Scope R_scope.
Notation FF := (map (map Fin)).

(** ** C41: [match] returns the gradient of the log of the Gaussian kernel density estimate:
    for several points, for one point, and for a number *)
Theorem C41_kde_score jgrad keq len (X xs : list (list R)) :
  0 < len -> X <> [] -> xs <> [] -> (forall c x, In c X -> In x xs -> length c = length x) ->
  exists kernel, kdm_init EROps ERT (Fin len) = Ok kernel /\
    exists ss, kdm_score EROps ERT jgrad keq kernel (FF X) (IPoints (FF xs)) = Ok (OMat (FF ss)) /\
      Forall2 (kde_score_at len X) xs ss.
Proof.
  intros Hl HX Hxs HL. exists (lift (KSE len (1 / (sqrt (2 * PI) * len)))). split; [now apply kdm_init_fin|].
  exists (map (score_real len X) xs). split; [now apply kdm_points|].
  assert (G : forall x, In x xs -> kde_score_at len X x (score_real len X x)) by (intros x Hx; apply score_real_spec; auto).
  clear -G. induction xs as [|x xs IH]; cbn; constructor; [apply G; now left|apply IH; intros; apply G; now right].
Qed.
Print Assumptions C41_kde_score.
Theorem C41_ranks jgrad keq len (X : list (list R)) (x : list R) :
  0 < len -> X <> [] -> (forall c, In c X -> length c = length x) ->
  exists kernel s, kdm_init EROps ERT (Fin len) = Ok kernel /\ kde_score_at len X x s /\
    kdm_score EROps ERT jgrad keq kernel (FF X) (IPoint (map Fin x)) = Ok (OVec (map Fin s)) /\
    (forall v, x = [v] -> kdm_score EROps ERT jgrad keq kernel (FF X) (IScalar (Fin v)) = Ok (OMat [map Fin s])).
Proof.
  intros Hl HX HL. exists (lift (KSE len (1 / (sqrt (2 * PI) * len)))), (score_real len X x). split; [now apply kdm_init_fin|].
  split; [now apply score_real_spec|]. split; [now apply kdm_point|]. intros v ->. apply kdm_scalar; auto.
Qed.
Print Assumptions C41_ranks.
Theorem C41_constructor len : kdm_init EROps ERT (Fin len) = Err ValueError <-> len <= 0.
Proof.
  destruct (Rlt_le_dec 0 len) as [H|H].
  - rewrite (kdm_init_fin len H). split; [discriminate|intro; lra].
  - split; [intros _; exact H|]. intros _. unfold kdm_init, check_init.
    replace (le0 EROps (Fin len)) with true; [reflexivity|]. symmetry. unfold le0. now apply fleb_fin.
Qed.
Print Assumptions C41_constructor.
Example C41_applies : exists s, kdm_score EROps ERT (fun _ z => z) (fun _ _ => false) (lift (KSE 2 (1 / (sqrt (2 * PI) * 2))))
    (FF [[0; 1]; [3; 5]]) (IPoint (map Fin [1; 1])) = Ok (OVec (map Fin s)) /\ kde_score_at 2 [[0; 1]; [3; 5]] [1; 1] s.
Proof.
  destruct (C41_ranks (fun _ z => z) (fun _ _ => false) 2 [[0; 1]; [3; 5]] [1; 1]) as (k & s & E & K & S & _); try lra; try discriminate.
  { intros c [<-|[<-|[]]]; reflexivity. }
  exists s. rewrite kdm_init_fin in E by lra. injection E as <-. auto.
Qed.

(** ** C53: conversion to a Stein kernel *)
(** an explicit score matching object decides the score function, also of a Stein kernel;
    a Stein kernel without one is returned as it is *)
Theorem C53_explicit_score {V} (O : FOps V) T jgrad keq (x : list (list V)) (k base : kern V) score sm :
  convert_stein_kernel O T jgrad keq x (KStein base score) None = Ok (KStein base score) /\
  convert_stein_kernel O T jgrad keq x (KStein base score) (Some sm) = Ok (KStein base (sm x)) /\
  (~ is_stein k -> convert_stein_kernel O T jgrad keq x k (Some sm) = Ok (KStein k (sm x))).
Proof. split; [reflexivity|]. split; [reflexivity|]. intro H. destruct k; try reflexivity. elim H. exact Logic.I. Qed.
Print Assumptions C53_explicit_score.

(** by default the result is the Stein kernel of [k], whatever kernel [k] is, whose score
    function is that of the kernel density estimate of the data with the bandwidth of [k],
    or 1; its values are the documented ones where [k] is smooth *)
Theorem C53_default_score jgrad keq (X : list (list R)) (k : kern R) (d : nat) :
  ~ is_stein k -> 0 < bandwidth k -> X <> [] -> (forall c, In c X -> length c = d) ->
  exists scoreE score, convert_stein_kernel EROps ERT jgrad keq (FF X) (lift k) None = Ok (KStein (lift k) scoreE) /\
    (forall z, length z = d -> scoreE (map Fin z) = map Fin (score z) /\ kde_score_at (bandwidth k) X z (score z)) /\
    ((forall a b, keq a b = true -> a = b) -> closed_form k -> no_const_product k ->
     forall x y, length x = d -> length y = d -> smooth_at k x y -> div_ok k x y ->
      m_val (methods EROps ERT jgrad keq (KStein (lift k) scoreE)) (map Fin x) (map Fin y) = Sc (Fin (stein_fun (kfun k) score x y))).
Proof.
  intros NS B HX HL.
  assert (EB : length_scale_of EROps (lift k) = Fin (bandwidth k)) by (destruct k; reflexivity).
  set (kk := lift (KSE (bandwidth k) (1 / (sqrt (2 * PI) * bandwidth k)))).
  assert (M : forall z, length z = d -> kdm_match EROps ERT jgrad keq kk (FF X) (map Fin z) = map Fin (score_real (bandwidth k) X z)).
  { intros z Hz. apply kdm_match_fin; auto. intros c Hc. rewrite Hz. auto. }
  exists (kdm_match EROps ERT jgrad keq kk (FF X)), (score_real (bandwidth k) X). split; [|split].
  - unfold convert_stein_kernel. rewrite EB, kdm_init_fin by exact B. destruct k; try reflexivity. elim NS. exact Logic.I.
  - intros z Hz. split; [now apply M|]. apply score_real_spec; auto. intros c Hc. rewrite Hz. auto.
  - intros KS C N x y Lx Ly S D.
    assert (SL : forall z, length (score_real (bandwidth k) X z) = length z) by (intro; unfold score_real; now rewrite map_length, seq_length).
    destruct (C45_stein_documented jgrad keq k (score_real (bandwidth k) X) x y) as [E _]; try assumption; try congruence; try apply SL.
    rewrite <- E. cbn [lift methods auto_meth m_val]. unfold stein_val. rewrite !unfin_map. now rewrite !M.
Qed.
Print Assumptions C53_default_score.
Example C53_applies : exists scoreE, convert_stein_kernel EROps ERT (fun _ z => z) (fun _ _ => false) (FF [[0; 1]; [3; 5]]) (lift (KPCIMQ 3 1)) None = Ok (KStein (lift (KPCIMQ 3 1)) scoreE) /\
  exists v, m_val (methods EROps ERT (fun _ z => z) (fun _ _ => false) (KStein (lift (KPCIMQ 3 1)) scoreE)) (map Fin [1; 2]) (map Fin [4; 4]) = Sc (Fin v).
Proof.
  destruct (C53_default_score (fun _ z => z) (fun _ _ => false) [[0; 1]; [3; 5]] (KPCIMQ 3 1) 2) as (scE & sc & E & _ & H).
  - intros []. - cbn. lra. - discriminate. - intros c [<-|[<-|[]]]; reflexivity.
  - exists scE. split; [exact E|]. eexists. apply H; try reflexivity; try exact Logic.I; [discriminate|constructor; cbn; lra].
Qed.

(** ** C22: SteinThinning does not use the Stein kernel induced by the kernel it is given.
    Two points 2 and 0, linear kernel x y + 1, score 2 - x of the normal distribution with
    mean 2.  The induced Stein kernel is 1 at (2, 2) and 5 at (0, 0), so the first point
    minimises the published criterion; the solver selects the second one.  Given the Stein
    kernel itself it selects the first. *)
Theorem C22_conversion_refuted :
  let k := KLinear (Fin 1%Q) (Fin 1%Q) in
  let sm := fun (_ : list (list EQ)) => map (fun v => fsub EQOps (Fin 2%Q) v) in
  let X := [[Fin 2%Q]; [Fin 0%Q]] in
  let d := mkData X [Fin 1%Q; Fin 1%Q] (@None (list unit)) in
  let value := fun kern a b => unsc EQOps (m_val (methods EQOps EQT (fun _ z => z) (fun _ _ => false) kern) a b) in
  let select := fun kern => stein_reduce EQOps [] tt (mkStein 1 (value kern) true (BOne None) None) (fun _ => seq 0 1) d in
  exists kp, convert_stein_kernel EQOps EQT (fun _ z => z) (fun _ _ => false) X k (Some sm) = Ok kp /\
    value kp [Fin 2%Q] [Fin 2%Q] = Fin 1%Q /\ value kp [Fin 0%Q] [Fin 0%Q] = Fin 5%Q /\
    select k = Ok (mkCS [1%Z] [Fin 1%Q] d) /\ select kp = Ok (mkCS [0%Z] [Fin 1%Q] d).
Proof. cbv zeta. eexists. split; [reflexivity|]. repeat split; vm_compute; reflexivity. Qed.
Print Assumptions C22_conversion_refuted.
