(** * Proofs for C76: every solver of the benchmark on real data *)
From Coq Require Import String List ZArith Reals Lra Lia Bool Permutation FunctionalExtensionality.
From Verif Require Import Num Jax RSum JaxFacts DataModel MeanModel MeanSpec UtilModel UtilSpec UtilProofs KernelModel KernelSpec KernelProofs KernelProofs4 KernelProofs7 KernelProofs8
  GreedySpec GreedyModel GreedyProofs4 GreedyProofs5 CholModel CholSpec MapReduceModel MapReduceSpec KTModel KTSpec KTProofs2 MetricSpec MetricProofs ScoreModel ThinModel ThinSpec ThinProofs BenchModel
  BenchSolvers BenchSpec InvSpec InvProofs SqrtProofs PsdProofs PsdProofs2 PsdProofs4 PropUtil PropKernel PropGreedy PropChol PropKT PropIter PropThin.
Import ListNotations.
Open Scope R_scope.

Section Bench.
  Context {Y K : Type} (y0 : Y).
  Variable jgrad : (list ER -> ER) -> list ER -> list ER.
  Variable keq : kern ER -> kern ER -> bool.
  Hypothesis KS : forall a b, keq a b = true -> a = b.
  Variable jac : (list ER -> list ER) -> list ER -> list (list ER).
  Variable kde_logpdf : list (list ER) -> list ER -> list (list ER) -> list ER.
  Variable E : externals ER K.
  Hypothesis EO : externals_ok E.
  Variable dim : nat.
  Let p0 : list ER := map Fin (repeat 0 dim).
  Notation slv := (solve EROps ERT p0 y0 jgrad keq jac kde_logpdf E).
  Notation kv := (kval EROps ERT jgrad keq).
  Notation rd X w := (@real_data Y X w).

  Variable b : R.
  Hypothesis Hb : 0 < b.
  Notation kern_b := (KSE (Fin b : ER) (Fin 1)).

  Lemma kv_gauss x y : kv kern_b (map Fin x) (map Fin y) = Fin (gaussian b x y).
  Proof.
    unfold kval. change kern_b with (lift (KSE b 1)). rewrite (kernel_value jgrad keq KS (KSE b 1)) by (cbn; lra).
    cbn [unsc kfun]. unfold gaussian. now rewrite Rmult_1_l.
  Qed.
  (** the kernel on vectors of the given dimension *)
  Definition kd (u v : vec dim) : R := gaussian b (pv u) (pv v).
  Lemma pull_kv : pull vf (kv kern_b) = fun u v : vec dim => Fin (kd u v).
  Proof. apply functional_extensionality. intro u. apply functional_extensionality. intro v. unfold pull, vf. apply kv_gauss. Qed.
  Lemma kd_psd : psd kd.
  Proof.
    assert (B2 : 0 < 2 * b ^ 2) by nra.
    apply (psd_ext (fun p q : vec dim => exp (- (/ (2 * b ^ 2) * KernelSpec.sqdist (pv p) (pv q))))).
    - intros. unfold kd, gaussian. f_equal. field. lra.
    - apply (psd_gauss (fun p q : point dim => KernelSpec.sqdist (pt p) (pt q))); [apply cnd_sqdist|].
      left. now apply Rinv_0_lt_compat.
  Qed.
  Lemma kd_diag u v : kd u u = kd v v.
  Proof.
    unfold kd, gaussian. f_equal. f_equal. f_equal. rewrite !sqdist_refl. reflexivity.
  Qed.

  (** *** Transfer from vectors to rows *)
  Variable Xs : list (vec dim).
  Variable w : list R.
  Hypothesis Lw : length w = length Xs.
  Hypothesis Hw : Forall (fun v => 0 < v) w.
  Notation X := (map pv Xs).
  Notation dv := (@mkData (vec dim) Y ER Xs (map Fin w) None).
  Lemma rd_map : rd X w = map_data vf dv.
  Proof. unfold real_data, map_data. cbn [d_x d_w d_y]. now rewrite vf_map. Qed.
  Lemma selects_map (r : result (Coresubset (list ER) Y ER)) r' l m : r = rmap (map_coreset vf) r' ->
    r' = Ok (mkCS (map Z.of_nat l) (repeat (Fin 1) m) dv) -> length l = m -> selects r (rd X w) l.
  Proof. intros -> -> <-. unfold selects. cbn [rmap map_coreset c_idx c_w c_pre]. now rewrite rd_map. Qed.
  Lemma p0_vf : p0 = vf (vzero dim).
  Proof. reflexivity. Qed.
  Lemma npos_all : npos w = length Xs.
  Proof.
    unfold npos. rewrite <- Lw. clear Lw. induction Hw as [|a l H1 H2 IH]; [reflexivity|]. cbn [filter].
    destruct (Rlt_dec 0 a); [|lra]. cbn [length]. now rewrite IH.
  Qed.
  Lemma mn (k : list ER -> list ER -> ER) : mean_nat EROps (@vf dim) (vzero dim) p0 y0 k.
  Proof. apply compute_mean_nat. exact p0_vf. Qed.
  Lemma nz_any l : nz (@vf dim) (vzero dim) p0 l.
  Proof. now left. Qed.
  Lemma wf_any (d : Data (vec dim) Y ER) : InvProofs.wfd (@vf dim) (vzero dim) p0 d.
  Proof. now left. Qed.

  Variable size : nat.
  Hypothesis Hs : (1 <= size)%nat.
  Notation ok s l := (selects (slv s (rd X w)) (rd X w) l /\ different_rows (length Xs) size l).
  Notation in_range := (size <= length Xs)%nat.

  Lemma run_random key : in_range -> exists l, ok (SRandom (mkRS size false true (x_choice E key))) l /\
    x_choice E key (length Xs) size None false = Ok l.
  Proof.
    intro H. cbn [solve]. rewrite rd_map.
    destruct (C27_random_sample (vzero dim) y0 (mkRS size false true (x_choice E key)) dv (xo_choice E EO key)) as [_ A].
    destruct (A H) as (l & El & L & R & U). cbn [rs_size rs_unique] in *. exists l. split; [split|].
    - rewrite <- rd_map. rewrite rd_map at 1. eapply selects_map; [apply random_nat|exact El|exact L].
    - split; [exact L|]. split; [now apply U|exact R].
    - unfold random_reduce in El. cbn [rs_choice rs_size rs_weighted rs_unique negb] in El. change (d_len dv) with (length Xs) in El.
      destruct (x_choice E key (length Xs) size None false) as [l'|e]; [|discriminate]. cbn [bind] in El.
      apply cs_init_pre in El. injection El as El _. f_equal.
      clear -El. revert l El. induction l' as [|a t IH]; intros [|c l] El; try discriminate; [reflexivity|].
      injection El as E1 E2. apply Nat2Z.inj in E1. subst. f_equal. now apply IH.
  Qed.
  Lemma run_chol key : in_range -> exists l, ok (SCholesky (mkChol size (kv kern_b) true (x_pick E key))) l.
  Proof.
    intro H. cbn [solve]. rewrite rd_map.
    destruct (C23_rpcholesky_pivots (vzero dim) y0 (pull_chol vf (mkChol size (kv kern_b) true (x_pick E key))) dv None) as [_ A].
    - apply (xo_pick E EO).
    - intros a _. cbn [pull_chol ch_kernel]. rewrite pull_kv. right. exists (kd a a). split; [reflexivity|]. left. apply exp_pos.
    - discriminate.
    - destruct (A H) as (l & g & El & L & R & U & _). cbn [pull_chol ch_size ch_unique] in *. exists l. split.
      + rewrite <- rd_map. rewrite rd_map at 1. rewrite (chol_nat EROps vf (vzero dim)) by now left. rewrite El. cbn [rmap bind on_fst fst].
        unfold selects. cbn [map_coreset c_idx c_w c_pre]. now rewrite L, rd_map.
      + split; [exact L|]. split; [now apply U|exact R].
  Qed.
  Lemma run_herding : in_range -> exists l g, ok (SHerding (mkHerding size (kv kern_b) true (BOne None) Greedy)) l /\
    herding_reduce EROps (vzero dim) y0 (mkHerding size (fun u v => Fin (kd u v)) true (BOne None) Greedy) (x_ord E size 0) dv None
    = Ok (mkCS (map Z.of_nat l) (repeat (Fin 1) size) dv, g).
  Proof.
    intro H. cbn [solve]. rewrite rd_map.
    destruct (C17_herding_reduce (vec dim) Y (vzero dim) y0 kd size true (BOne None) (x_ord E size 0) Xs w None) as (l & g & El & L & R & U).
    - exact Lw. - lia. - intros; apply (xo_ord E EO). - rewrite npos_all; lia. - intros _. now rewrite npos_all. - discriminate.
    - exists l, g. split; [split|exact El].
      + rewrite <- rd_map. rewrite rd_map at 1. rewrite (herding_reduce_nat EROps vf (vzero dim)); [|apply mn|apply nz_any|apply wf_any].
        unfold pull_herding. cbn [h_size h_kernel h_unique h_bs h_mode]. rewrite pull_kv. cbn [option_map] in El. rewrite El.
        unfold selects. cbn [rmap on_fst fst bind map_coreset c_idx c_w c_pre]. now rewrite L, rd_map.
      + split; [exact L|]. split; [now apply U|]. intros i Hi. now apply R.
  Qed.
  Lemma run_iterative key prob temp n (sch : option (list R)) : in_range -> 0 < temp ->
    (forall t, sch = Some t -> length t = S n /\ forall x, In x t -> 0 < x) ->
    exists l g, ok (SIterative (mkIter size (kv kern_b) true (BOne None) prob (Fin temp) key (S n) (option_map (map Fin) sch))) l /\
    iterative_reduce EROps (vzero dim) y0 (x_exp E) (x_fold_in E) (x_draw E)
      (mkIter size (fun u v => Fin (kd u v)) true (BOne None) prob (Fin temp) key (S n) (option_map (map Fin) sch)) (x_ord E size) dv None
    = Ok (mkCS (map Z.of_nat l) (repeat (Fin 1) size) dv, g).
  Proof.
    intros H HT HS. cbn [solve]. rewrite rd_map.
    destruct (C61_valid_coreset_partial (vec dim) Y K (vzero dim) y0 (x_fold_in E) (x_draw E) kd size true prob (BOne None) temp key n sch
      (x_ord E size) Xs w) as (l & g & El & L & R & U).
    - exact Lw. - lia. - intros; apply (xo_ord E EO). - rewrite npos_all; lia. - intros _. now rewrite npos_all.
    - intros _. split; [now apply Forall_forall|]. split; [exact HT|]. split; [exact HS|apply (xo_draw E EO)].
    - rewrite (xo_exp E EO). exists l, g. split; [split|exact El].
      + rewrite <- rd_map. rewrite rd_map at 1. unfold iterative_reduce. cbn [it_size it_kernel it_unique it_bs it_iterations it_probabilistic it_temperature it_key].
        rewrite (herding_iterative_nat EROps vf (vzero dim)); [|apply mn|apply nz_any|apply wf_any].
        unfold pull_herding. cbn [h_size h_kernel h_unique h_bs h_mode]. rewrite pull_kv.
        unfold iterative_reduce in El. cbn [it_size it_kernel it_unique it_bs it_iterations it_probabilistic it_temperature it_key] in El.
        match type of El with ?r = _ => match goal with |- context [rmap _ ?r'] => change r' with r end end. rewrite El.
        unfold selects. cbn [rmap on_fst fst bind map_coreset c_idx c_w c_pre]. now rewrite L, rd_map.
      + split; [exact L|]. split; [now apply U|]. intros i Hi. now apply R.
  Qed.

  Lemma run_stein sE score lp : in_range -> density_is jac kde_logpdf sE dim X w score lp -> exists l laps,
    ok (SStein (mkThin size (KStein kern_b sE) None true true None (BOne None))) l /\
    Forall2 (positive_laplacian score) X laps /\
    greedy_argmax (candidate w true) (stein_score (stein_fun (gaussian b) score)
      (fun j => nth j laps 0) (fun j => 1 / INR size * nth j lp 0) (fun j => nth j X (repeat 0 dim))) l.
  Proof.
    intros H (HS & HJ & Hlp & Llp). cbn [solve t_size].
    assert (HX : forall x, In x X -> length x = dim /\ jac_correct jac sE score x).
    { intros x Hx. split; [|now apply HJ]. apply in_map_iff in Hx as (v & <- & _). now destruct v. }
    destruct (laplaces_fin jac sE score X dim HX (fun z Hz => proj1 (HS z Hz))) as (laps & EL & FL).
    assert (LL : length laps = length X) by (symmetry; eapply Forall2_len; exact FL).
    set (k := fun a c : vec dim => stein_fun (kfun (KSE b 1)) score (pv a) (pv c)).
    assert (HK : forall a c : vec dim, m_val (methods EROps ERT jgrad keq (KStein kern_b sE)) (vf a) (vf c) = Sc (Fin (k a c))).
    { intros [a La] [c Lc]. unfold k, vf. unfold pv; cbn [proj1_sig].
      destruct (C45_stein_documented jgrad keq (KSE b 1) score a c) as [V _]; auto; try congruence; try exact Logic.I.
      - apply cf_se; cbn; lra. - rewrite (proj2 (HS a La)); congruence. - rewrite (proj2 (HS c Lc)); congruence.
      - rewrite <- V. cbn [lift methods auto_meth m_val]. unfold stein_val. rewrite !unfin_map.
        now rewrite (proj1 (HS a La)), (proj1 (HS c Lc)). }
    pose proof (thin_reduce_map y0 jgrad keq jac kde_logpdf (vzero dim) vf k
      (mkThin size (KStein kern_b sE) None true true None (BOne None)) (KStein kern_b sE) (x_ord E size 0) Xs (map Fin w) HK eq_refl) as ET.
    rewrite vf_map in ET. cbn [t_size t_unique t_bs t_regularise t_lambda score_function] in ET.
    destruct (C22_stein_greedy_partial (vec dim) Y (vzero dim) y0 k size true (BOne None) (x_ord E size 0) Xs w None
      (fun x w => kde_logpdf (map vf x) w (map vf x)) (fun x => map (laplace_positive EROps jac sE) (map vf x)) lp laps) as (l & E' & L & R & ND & GA).
    - exact Lw. - lia. - intros; apply (xo_ord E EO). - rewrite npos_all; lia. - intros _. now rewrite npos_all.
    - now rewrite vf_map. - now rewrite Llp, map_length. - now rewrite vf_map. - now rewrite LL, map_length.
    - exists l, laps. split; [split|split; [exact FL|]].
      + unfold selects, real_data. etransitivity; [exact ET|]. cbn [option_map] in E'. rewrite E'.
        cbn [rmap]. unfold cmap, ScoreProofs.dmap. cbn [c_idx c_w c_pre d_x d_w d_y]. rewrite L, <- vf_map. reflexivity.
      + split; [exact L|]. split; [now apply ND|]. intros i Hi. now apply R.
      + assert (G : kfun (KSE b 1) = gaussian b).
        { apply functional_extensionality. intro x. apply functional_extensionality. intro z. cbn [kfun]. unfold gaussian. now rewrite Rmult_1_l. }
        eapply greedy_argmax_score_ext; [|exact GA]. intros ch j _. unfold stein_score, k. rewrite G.
        assert (NX : forall j, pv (nth j Xs (vzero dim)) = nth j X (repeat 0 dim)).
        { intro i. change (repeat 0 dim) with (pv (vzero dim)). now rewrite map_nth. }
        rewrite NX. do 3 f_equal. f_equal. apply map_ext. intro. now rewrite NX.
  Qed.

  Variables (sqrt_kernel : kern ER) (delta : ER).
  Notation ths := (thinning_solver EROps ERT jgrad keq E kern_b sqrt_kernel delta).
  Lemma ths_ok key : kt_ok (pull_kt (@vf dim) (ths key size)).
  Proof. constructor; cbn; [exact Hs|apply (xo_choice E EO)|apply (xo_depth E EO)|intros; apply (xo_ord E EO)]. Qed.
  Lemma ths_kernel key : kt_kernel (pull_kt (@vf dim) (ths key size)) = fun u v => Fin (kd u v).
  Proof. exact pull_kv. Qed.
  Lemma run_thinning key : in_range -> exists l, ok (SThinning (ths key size)) l /\
    forall r, x_choice E key (length Xs) size None false = Ok r ->
      mmd2 kd Xs w (map (fun j => nth j Xs (vzero dim)) l) (repeat 1 size) <= mmd2 kd Xs w (map (fun j => nth j Xs (vzero dim)) r) (repeat 1 size).
  Proof.
    intro H. cbn [solve]. rewrite rd_map.
    destruct (C29_best_candidate_improved (vec dim) Y K (vzero dim) y0 (pull_kt vf (ths key size)) kd Xs w (ths_ok key) (ths_kernel key) kd_psd
      (fun a c _ _ => kd_diag a c) Lw Hw H) as (halves & base & cands & best & l & _ & _ & _ & Ch & _ & _ & _ & El & L & N & R & M).
    cbn [pull_kt kt_size kt_choice thinning_solver] in *. exists l. split; [split|].
    - rewrite <- rd_map. rewrite rd_map at 1. eapply selects_map; [|exact El|exact L].
      apply (kt_reduce_nat EROps vf (vzero dim)); [apply mn|apply wf_any].
    - split; [exact L|]. split; [exact N|exact R].
    - intros r Er. rewrite Ch in Er. injection Er as <-. apply M. apply in_app_iff. right. now left.
  Qed.
  Lemma run_compress key g : in_range -> compress_accepts E (length Xs) g size -> exists l,
    ok (SCompress (mkCP g (ths key size) (x_log4 E))) l.
  Proof.
    intros H (A1 & A2 & A3). cbn [solve]. rewrite rd_map.
    destruct (C30_compress_plus_plus (vec dim) Y K (vzero dim) y0 (pull_compress vf (mkCP g (ths key size) (x_log4 E))) kd Xs w (x_limit E)) as [A _].
    - apply ths_ok. - apply ths_kernel. - exact Lw. - exact Hw.
    - intro Z. rewrite Z in H. cbn in H. lia.
    - cbn [pull_compress cp_log4]. apply (xo_log4 E EO). lia. - exact A3.
    - destruct A as (l & El & L & N & R); [cbn; auto|]. cbn [pull_compress cp_kt pull_kt kt_size thinning_solver] in El, L. exists l. split.
      + rewrite <- rd_map. rewrite rd_map at 1. eapply selects_map; [|exact El|exact L].
        apply (compress_nat EROps vf (vzero dim)). apply mn.
      + split; [exact L|]. split; [exact N|exact R].
  Qed.
End Bench.
