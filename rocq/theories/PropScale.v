(** * Property theorems: rescaling the kernel (C58)

    Multiplying a kernel by a positive number (its output scale) changes no selected index.
    No assumption on kernels, data, weights, random draws or scatter orders; infinite and
    NaN kernel values are included. *)
From Coq Require Import List ZArith Reals Lra Lia Bool.
From Verif Require Import Num Jax JaxFacts RSum DataModel MeanModel GreedyModel MetricModel CholModel CholSpec PropChol MapReduceModel
  GKPModel KTModel KTProofs5 KTSpec PropKT PropSqrt ScaleProofs.
Import ListNotations.
Open Scope R_scope.

(** the kernel [c * k] and the array [c * l] *)
Definition times {P} (c : R) (k : P -> P -> ER) : P -> P -> ER := fun a b => fmul EROps (Fin c) (k a b).
Definition times_all (c : R) (l : list ER) : list ER := map (fmul EROps (Fin c)) l.
Lemma times_all_sc c : 0 < c -> times_all c = map (sc c).
Proof. intro H. unfold times_all. apply FunctionalExtensionality.functional_extensionality. intro l. apply map_ext. intro v. now apply sc_mul. Qed.

(** ** Kernel herding.  The temperature of the probabilistic mode is measured in the unit
    of the kernel, so it is rescaled too; a cached Gramian row-mean passed to the solver or
    returned by it is rescaled. *)
Definition times_mode (c : R) (m : hmode (V := ER)) : hmode :=
  match m with Greedy => Greedy | Prob ex temp choice => Prob ex (fmul EROps (Fin c) temp) choice end.
Definition times_herding {P} (c : R) (h : herding (V := ER) (P := P)) : herding :=
  mkHerding (h_size h) (times c (h_kernel h)) (h_unique h) (h_bs h) (times_mode c (h_mode h)).
Theorem C58_herding_refine :
  forall P Y (p0 : P) (y0 : Y) (h : herding) (ord : nat -> list nat) (coreset : Coresubset P Y ER) (cached : option (list ER)) (c : R),
  0 < c ->
  herding_refine EROps p0 y0 (times_herding c h) ord coreset (option_map (times_all c) cached)
  = do (coreset', row_mean) <- herding_refine EROps p0 y0 h ord coreset cached;
    Ok (coreset', times_all c row_mean).
Proof. intros. rewrite times_all_sc by assumption. now apply herding_scale. Qed.
Print Assumptions C58_herding_refine.
Theorem C58_herding_reduce :
  forall P Y (p0 : P) (y0 : Y) (h : herding) (ord : nat -> list nat) (d : Data P Y ER) (cached : option (list ER)) (c : R),
  0 < c ->
  herding_reduce EROps p0 y0 (times_herding c h) ord d (option_map (times_all c) cached)
  = do (coreset, row_mean) <- herding_reduce EROps p0 y0 h ord d cached;
    Ok (coreset, times_all c row_mean).
Proof.
  intros. unfold herding_reduce. cbn [times_herding h_size]. destruct (initial_coresubset _ _ _ _ _ _); [|reflexivity]. cbn [bind].
  now apply C58_herding_refine.
Qed.
Print Assumptions C58_herding_reduce.
Theorem C58_herding_reduce_iterative :
  forall P Y (p0 : P) (y0 : Y) (h : herding) (modes : nat -> hmode) (ords : nat -> nat -> list nat) (d : Data P Y ER)
         (cached : option (list ER)) (iterations : nat) (c : R),
  0 < c ->
  herding_reduce_iterative EROps p0 y0 (times_herding c h) (fun i => times_mode c (modes i)) ords d (option_map (times_all c) cached) iterations
  = do (coreset, row_mean) <- herding_reduce_iterative EROps p0 y0 h modes ords d cached iterations;
    Ok (coreset, times_all c row_mean).
Proof.
  intros P Y p0 y0 h modes ords d cached iters c Hc. unfold herding_reduce_iterative. cbn [times_herding h_size h_kernel h_unique h_bs].
  destruct (initial_coresubset _ _ _ _ _ _) as [cs|]; [|reflexivity]. cbn [bind].
  assert (L : forall g,
    (do c' <- fori iters (fun i r => do c0 <- r;
        do (c', _) <- herding_refine EROps p0 y0 (mkHerding (h_size h) (times c (h_kernel h)) (h_unique h) (h_bs h) (times_mode c (modes i)))
          (ords i) c0 (Some (times_all c g)); Ok c') (Ok cs);
      Ok (c', times_all c g))
    = do (c', g) <- (do c' <- fori iters (fun i r => do c0 <- r;
        do (c', _) <- herding_refine EROps p0 y0 (mkHerding (h_size h) (h_kernel h) (h_unique h) (h_bs h) (modes i))
          (ords i) c0 (Some g); Ok c') (Ok cs); Ok (c', g)); Ok (c', times_all c g)).
  { intro g.
    assert (F : forall i r, (do c0 <- r;
        do (c', _) <- herding_refine EROps p0 y0 (mkHerding (h_size h) (times c (h_kernel h)) (h_unique h) (h_bs h) (times_mode c (modes i)))
          (ords i) c0 (Some (times_all c g)); Ok c')
      = do c0 <- r; do (c', _) <- herding_refine EROps p0 y0 (mkHerding (h_size h) (h_kernel h) (h_unique h) (h_bs h) (modes i))
          (ords i) c0 (Some g); Ok c').
    { intros i r. destruct r as [c0|]; [|reflexivity]. cbn [bind].
      pose proof (C58_herding_refine P Y p0 y0 (mkHerding (h_size h) (h_kernel h) (h_unique h) (h_bs h) (modes i)) (ords i) c0 (Some g) c Hc) as E.
      unfold times_herding in E. cbn [h_size h_kernel h_unique h_bs h_mode option_map] in E.
      etransitivity; [apply (f_equal (fun r : result (Coresubset P Y ER * list ER) => do x <- r; let (c', _) := x in Ok c') E)|]. clear E.
      match goal with |- _ = do _ <- ?f; _ => destruct f as [[a b]|] end; reflexivity. }
    rewrite (ThinProofs.fori_ext iters _ _ _ F).
    match goal with |- (do _ <- ?f; _) = _ => destruct f end; reflexivity. }
  destruct cached as [g|]; cbn [option_map bind].
  - apply L.
  - unfold gramian_row_mean, times at 1. rewrite (mean_scale p0 y0 c Hc (h_kernel h)).
    destruct (compute_mean _ _ _ (h_kernel h) _ _ _ _) as [[v|g]|]; [reflexivity| |reflexivity]. cbn [bind scale_mean].
    rewrite <- (times_all_sc c Hc). apply L.
Qed.
Print Assumptions C58_herding_reduce_iterative.

(** ** Stein thinning without regularisation *)
Theorem C58_stein_reduce :
  forall P Y (p0 : P) (y0 : Y) (size : nat) (k : P -> P -> ER) (unique : bool) (bs : bsarg) (ord : nat -> list nat) (d : Data P Y ER) (c : R),
  0 < c ->
  stein_reduce EROps p0 y0 (mkStein size (times c k) unique bs None) ord d
  = stein_reduce EROps p0 y0 (mkStein size k unique bs None) ord d.
Proof.
  intros P Y p0 y0 size k unique bs ord d c Hc. unfold stein_reduce. cbn [s_size]. destruct (initial_coresubset _ _ _ _ _ _) as [cs|]; [|reflexivity]. cbn [bind].
  exact (stein_scale p0 y0 c (mkStein size k unique bs None) ord cs Hc eq_refl).
Qed.
Print Assumptions C58_stein_reduce.

(** ** Randomly pivoted Cholesky.  [jr.choice] normalises its probabilities: rescaling
    them does not change the draw.  The returned residual diagonal is rescaled. *)
Theorem C58_rpcholesky_reduce :
  forall P Y (p0 : P) (y0 : Y) (size : nat) (k : P -> P -> ER) (unique : bool) (pick : nat -> list ER -> nat) (d : Data P Y ER)
         (cached : option (list ER)) (c : R),
  0 < c -> (forall i p, pick i (times_all c p) = pick i p) ->
  chol_reduce EROps p0 y0 (mkChol size (times c k) unique pick) d (option_map (times_all c) cached)
  = do (coreset, residual) <- chol_reduce EROps p0 y0 (mkChol size k unique pick) d cached;
    Ok (coreset, times_all c residual).
Proof.
  intros P Y p0 y0 size k unique pick d cached c Hc Hp. rewrite times_all_sc in Hp |- * by exact Hc.
  exact (chol_scale p0 y0 c Hc k size unique pick Hp d cached).
Qed.
Print Assumptions C58_rpcholesky_reduce.
(** the contract is met by the pivot rule used for C23 *)
Example C58_pick_case : forall i p, (fun _ : nat => first_positive) i (times_all 7 p) = first_positive p.
Proof.
  intros i p. rewrite times_all_sc by lra. cbv beta. clear i. induction p as [|v p IH]; [reflexivity|]. cbn [map first_positive].
  assert (E : forall w, fltb EROps (Fin 0) (sc 7 w) = fltb EROps (Fin 0) w).
  { intro w. replace (Fin 0) with (sc 7 (Fin 0)) at 1 by (cbn; f_equal; ring). apply sc_ltb. lra. }
  assert (X : existsb (fltb EROps (Fin 0)) (map (sc 7) p) = existsb (fltb EROps (Fin 0)) p).
  { clear IH. induction p as [|w p IH]; [reflexivity|]. cbn [map existsb]. now rewrite E, IH. }
  rewrite E, X, IH. reflexivity.
Qed.

(** ** Greedy kernel points, when the regularisation parameter is rescaled with the kernel.
    [homogeneous]: solving (cA + c r I) z = b gives 1/c times the solution of (A + r I) z = b. *)
Definition homogeneous (c : R) (solve : ls_solver (V := ER)) : Prop :=
  forall A r b identity, solve (map (times_all c) A) (fmul EROps (Fin c) r) b identity = times_all (/ c) (solve A r b identity).
Definition times_gkp {P K} (c : R) (s : gkp (V := ER) (P := P) (K := K)) : gkp :=
  mkGKP (gk_size s) (times c (gk_kernel s)) (fmul EROps (Fin c) (gk_reg s)) (gk_unique s) (gk_candidates s) (gk_loss s) (gk_solve s)
    (gk_split s) (gk_permutation s) (gk_key s).
Theorem C58_greedy_kernel_points_refine :
  forall P K (p0 : P) (s : gkp (K := K)) (coreset : Coresubset P ER ER) (cached : option (list (list ER))) (c : R),
  0 < c -> homogeneous c (gk_solve s) ->
  gkp_refine EROps p0 (times_gkp c s) coreset (option_map (map (times_all c)) cached)
  = do (coreset', gramian) <- gkp_refine EROps p0 s coreset cached; Ok (coreset', map (times_all c) gramian).
Proof.
  intros P K p0 s coreset cached c Hc Hs. assert (Hi : 0 < / c) by now apply Rinv_0_lt_compat. rewrite (times_all_sc c Hc).
  apply (gkp_scale_refine p0 c Hc s). intros A r b I. specialize (Hs A r b I).
  rewrite (times_all_sc c Hc), (times_all_sc (/ c) Hi), sc_mul in Hs by exact Hc. exact Hs.
Qed.
Print Assumptions C58_greedy_kernel_points_refine.
Theorem C58_greedy_kernel_points_reduce :
  forall P K (p0 : P) (s : gkp (K := K)) (d : Data P ER ER) (cached : option (list (list ER))) (c : R),
  0 < c -> homogeneous c (gk_solve s) ->
  gkp_reduce EROps p0 (times_gkp c s) d (option_map (map (times_all c)) cached)
  = do (coreset, gramian) <- gkp_reduce EROps p0 s d cached; Ok (coreset, map (times_all c) gramian).
Proof.
  intros. unfold gkp_reduce. cbn [times_gkp gk_size]. destruct (initial_coresubset _ _ _ _ _ _); [|reflexivity]. cbn [bind].
  now apply C58_greedy_kernel_points_refine.
Qed.
Print Assumptions C58_greedy_kernel_points_reduce.
(** the exact least-squares solver inherits homogeneity from [jnp.linalg.lstsq] *)
Theorem C58_min_norm_homogeneous :
  forall (lstsq : list (list ER) -> list ER -> list ER) (c : R), 0 < c ->
  (forall A b, lstsq (map (times_all c) A) b = times_all (/ c) (lstsq A b)) -> homogeneous c (min_norm_solver EROps lstsq).
Proof.
  intros lstsq c Hc H A r b I. unfold min_norm_solver. rewrite <- H. f_equal. rewrite times_all_sc, sc_mul, abs_scale by exact Hc. revert I.
  induction A as [|row A IH]; intros [|e I]; auto. cbn [map map2]. rewrite IH. f_equal. clear IH. revert e.
  induction row as [|a row IH]; intros [|v e]; auto. cbn [map map2]. rewrite IH. f_equal. rewrite sc_l by exact Hc. apply sc_add.
Qed.
Print Assumptions C58_min_norm_homogeneous.
(** a homogeneous [lstsq]: exact for diagonal matrices *)
Definition diagonal_lstsq (A : list (list ER)) (b : list ER) : list ER :=
  map2 (fun i v => fdiv EROps v (nth i (nth i A []) (Fin 0))) (seq 0 (length b)) b.
Example C58_lstsq_case : forall c, 0 < c -> homogeneous c (min_norm_solver EROps diagonal_lstsq).
Proof.
  intros c Hc. apply C58_min_norm_homogeneous; [exact Hc|]. intros A b. assert (Hi : 0 < / c) by now apply Rinv_0_lt_compat.
  rewrite !times_all_sc by assumption. unfold diagonal_lstsq. apply map2_out. intros i v.
  assert (E : nth i (nth i (map (map (sc c)) A) []) (Fin 0) = sc c (nth i (nth i A []) (Fin 0))).
  { change (nth i (map (map (sc c)) A) []) with (nth i (map (map (sc c)) A) (map (sc c) [])). rewrite map_nth.
    etransitivity; [|apply map_nth]. f_equal. cbn. f_equal. ring. }
  rewrite E. rewrite <- (sc_1 v) at 1. rewrite sc_div by lra. f_equal. unfold Rdiv. ring.
Qed.

(** ** Kernel thinning and Compress++ (the square root kernel is covered by C57) *)
Definition with_kernel {V P K} (s : kthin V P K) (k : P -> P -> V) : kthin V P K :=
  mkKT (kt_size s) k (kt_sqrt s) (kt_delta s) (kt_key s) (kt_log s) (kt_split s) (kt_uniform s) (kt_choice s) (kt_depth s) (kt_ord s).
Theorem C58_kernel_thinning_reduce :
  forall P Y K (p0 : P) (y0 : Y) (s : kthin ER P K) (d : Data P Y ER) (c : R), 0 < c ->
  kt_reduce EROps p0 y0 (with_kernel s (times c (kt_kernel s))) d = kt_reduce EROps p0 y0 s d.
Proof. intros. now apply (reduce_kernel p0 y0 c). Qed.
Print Assumptions C58_kernel_thinning_reduce.
Theorem C58_compress_reduce :
  forall P Y K (p0 : P) (y0 : Y) (s : kthin ER P K) (d : Data P Y ER) g log4 fuel (c : R), 0 < c ->
  compress_reduce EROps p0 y0 (mkCP g (with_kernel s (times c (kt_kernel s))) log4) fuel d
  = compress_reduce EROps p0 y0 (mkCP g s log4) fuel d.
Proof. intros. now apply (compress_kernel p0 y0 c). Qed.
Print Assumptions C58_compress_reduce.
Example C58_applies : exists l,
  kt_reduce EROps 0 tt (with_kernel (ex_kt 3) (times 5 (kt_kernel (ex_kt 3)))) (unsup [0; 1; 2; 3; 4; 5; 6] [1; 2; 1; 1; 3; 1; 1])
  = Ok (mkCS (map Z.of_nat l) (repeat (Fin 1) 3) (unsup [0; 1; 2; 3; 4; 5; 6] [1; 2; 1; 1; 3; 1; 1])) /\ NoDup l.
Proof. rewrite C58_kernel_thinning_reduce by lra. exact C29_applies. Qed.

(** ** The MMD is multiplied by the square root of the factor *)
Theorem C58_mmd :
  forall P Y (p0 : P) (y0 : Y) (k : P -> P -> ER) (x y : Data P Y ER) (bs : bsarg) (c : R), 0 < c ->
  mmd_compute EROps p0 y0 (times c k) x y bs = do v <- mmd_compute EROps p0 y0 k x y bs; Ok (fmul EROps (Fin (sqrt c)) v).
Proof.
  intros P Y p0 y0 k x y bs c Hc. unfold times. rewrite mmd_scale by exact Hc. destruct (mmd_compute _ _ _ k x y bs); [|reflexivity]. cbn [bind].
  now rewrite sc_mul by now apply sqrt_lt_R0.
Qed.
Print Assumptions C58_mmd.
