(** * C76: the solvers of the benchmark *)
From Coq Require Import String List ZArith Reals Lra Lia Bool Permutation FunctionalExtensionality.
From Verif Require Import Num Jax RSum JaxFacts DataModel MeanModel MeanSpec UtilModel UtilSpec UtilProofs KernelModel KernelSpec KernelProofs
  GreedySpec GreedyModel GreedyProofs4 CholModel CholSpec MapReduceModel MapReduceSpec MapReduceProofs3 KTModel KTSpec KTProofs2 KTProofs3 MetricSpec ScoreModel ThinModel ThinSpec ThinProofs BenchModel
  BenchSolvers BenchSpec BenchProofs BenchProofs2 BenchSized InvSpec SqrtProofs PropUtil PropSqrt PropGreedy PropChol PropKT PropIter PropMapReduce PropThin.
Import ListNotations.
Open Scope R_scope.

(** the table for real training rows, the function that runs a solver, and the score function *)
Notation origin dim := (map Fin (repeat 0 dim) : list ER).
Notation benchmark Y y0 jgrad keq kde E dim train wt := (initialise_solvers EROps ERT (origin dim) y0 jgrad keq kde E (@real_data Y train wt)).
Notation run y0 jgrad keq jac kde E dim := (solve EROps ERT (origin dim) y0 jgrad keq jac kde E).
Notation kernel_equality keq := (forall a b : kern ER, keq a b = true -> a = b).

Ltac nine H := cbn [In] in H; repeat (destruct H as [H|H]; [injection H as <- <-|]); try contradiction.
Ltac sized_ok H := unfold sized_init in H; cbn [Nat.eqb bind] in H;
  try match type of H with context [(?n =? 0)%nat] => destruct (Nat.eqb_spec n 0); [try lia; cbn [bind] in H; discriminate|] end;
  cbn [bind wrap] in H; injection H as <-.

(** ** Construction: the bandwidth is chosen so that [2 b^2] is the median of the squared
    distances of the sampled rows; a zero median is rejected; otherwise there are nine solvers,
    each refusing size zero and using the size it is given and the Gaussian kernel. *)
Theorem C76_setup {Y K} (y0 : Y) jgrad keq kde (E : externals ER K) dim train wt key g leaf :
  kernel_equality keq -> externals_ok E -> (2 <= length train)%nat ->
  exists b, 0 <= b /\ is_median (pair_distances (sampled E train)) (2 * b ^ 2) /\
    (b = 0 -> benchmark Y y0 jgrad keq kde E dim train wt key g leaf = Err ValueError) /\
    (0 < b -> exists table, benchmark Y y0 jgrad keq kde E dim train wt key g leaf = Ok table /\
       map fst table = benchmark_names /\
       forall name mk, In (name, mk) table -> mk 0%nat = Err ValueError /\
         (leaf = None -> forall size, (1 <= size)%nat -> exists s, mk size = Ok s) /\
         forall size s, mk size = Ok s -> requested_size s = size /\
           (name <> "Random Sample"%string -> name <> "Stein Thinning"%string -> kernel_values s <> None) /\
           forall kv, kernel_values s = Some kv -> forall x y, kv (map Fin x) (map Fin y) = Fin (gaussian b x y)).
Proof.
  intros KS EO H. destruct (bandwidth y0 E EO (origin dim) train wt H) as (b & B0 & Md & M). exists b.
  split; [exact B0|]. split; [exact Md|]. split.
  - intros ->. now apply init_zero.
  - intro Hb. eexists. split; [now apply (init_pos y0 jgrad keq kde E (origin dim) train wt b)|]. split; [reflexivity|].
    destruct (delta_ok E (Y := Y) train wt) as (dl & D); [lia|].
    intros name mk I. unfold solver_table in I. rewrite D in I. cbv zeta in I.
    nine I; (split; [reflexivity|]); (split; [intros -> size Hs; cbn [wrap bind]; unfold sized_init; destruct (Nat.eqb_spec size 0); [lia|]; cbn [bind]; eauto|]);
      intros size s Es; unfold sized_init, wrap in Es; destruct (Nat.eqb_spec size 0); try discriminate; cbn [bind] in Es;
      try (destruct leaf as [L|]; [unfold mr_init in Es; destruct (L <=? size)%nat; [discriminate|]; cbn [bind] in Es|]);
      injection Es as <-; cbn [requested_size kernel_values rs_size ch_size h_size t_size kt_size cp_kt it_size thinning_solver ch_kernel h_kernel kt_kernel it_kernel];
      (split; [reflexivity|]); (split; [intros N1 N2; try (exfalso; now apply N1); try (exfalso; now apply N2); discriminate|]);
      intros kv Ek; try discriminate; injection Ek as <-; intros x y; now apply kv_gauss.
Qed.
Print Assumptions C76_setup.

(** ** Every solver returns the number of different rows it was asked for *)
Theorem C76_valid_coresets {Y K} (y0 : Y) jgrad keq jac kde (E : externals ER K) dim train wt key g table name mk size s X w :
  kernel_equality keq -> externals_ok E -> (2 <= length train)%nat ->
  benchmark Y y0 jgrad keq kde E dim train wt key g None = Ok table -> In (name, mk) table -> mk size = Ok s ->
  good_rows dim X w -> (size <= length X)%nat ->
  (name = "Compress++"%string -> compress_accepts E (length X) g size) ->
  (name = "Stein Thinning"%string ->
     density_ok jac kde (kde_score EROps (origin dim) y0 jgrad kde E (@real_data Y train wt)) dim X w) ->
  exists l, selects (run y0 jgrad keq jac kde E dim s (real_data X w)) (real_data X w) l /\ different_rows (length X) size l.
Proof.
  intros KS EO H It I Es (HX & Lw & Hw) Hn HC HS.
  destruct (init_inv y0 jgrad keq kde E EO (origin dim) train wt 16 key g None table H It) as (b & Hb & _ & -> & _).
  destruct (vec_list dim X HX) as (Xs & <-). rewrite map_length in *.
  destruct (delta_ok E (Y := Y) train wt) as (dl & D); [lia|]. unfold solver_table in I. rewrite D in I. cbv zeta in I. cbn [bind] in I.
  assert (Hs : (1 <= size)%nat).
  { destruct size; [|lia]. exfalso. nine I; discriminate. }
  rewrite milli_fin, cubic_fin in I.
  nine I; sized_ok Es.
  - destruct (run_random y0 jgrad keq jac kde E EO dim Xs w size key Hn) as (l & A & _). exists l. exact A.
  - destruct (run_chol y0 jgrad keq KS jac kde E EO dim b Hb Xs w size key Hn) as (l & A). exists l. exact A.
  - destruct (run_herding y0 jgrad keq KS jac kde E EO dim b Hb Xs w Lw Hw size Hs Hn) as (l & _ & A & _). exists l. exact A.
  - destruct (HS eq_refl) as (score & lp & HD).
    destruct (run_stein y0 jgrad keq KS jac kde E EO dim b Hb Xs w Lw Hw size Hs _ score lp Hn HD) as (l & _ & A & _). exists l. exact A.
  - destruct (run_thinning y0 jgrad keq KS jac kde E EO dim b Hb Xs w Lw Hw size Hs (lift (KSE (root_length b) (root_scale b 1 16))) dl key Hn) as (l & A & _). exists l. exact A.
  - destruct (run_compress y0 jgrad keq KS jac kde E EO dim b Hb Xs w Lw Hw size Hs (lift (KSE (root_length b) (root_scale b 1 16))) dl key g Hn (HC eq_refl)) as (l & A). exists l. exact A.
  - destruct (run_iterative y0 jgrad keq KS jac kde E EO dim b Hb Xs w Lw Hw size Hs key true (1 / 1000) 4 None Hn) as (l & _ & A & _); [lra|discriminate|]. exists l. exact A.
  - destruct (run_iterative y0 jgrad keq KS jac kde E EO dim b Hb Xs w Lw Hw size Hs key false (1 / 1000) 4 None Hn) as (l & _ & A & _); [lra|discriminate|]. exists l. exact A.
  - destruct (run_iterative y0 jgrad keq KS jac kde E EO dim b Hb Xs w Lw Hw size Hs key true (1 / 1000) 9 (Some cubic_R) Hn) as (l & _ & A & _); [lra| |].
    + intros t Et. injection Et as <-. split; [reflexivity|apply cubic_pos].
    + exists l. exact A.
Qed.
Print Assumptions C76_valid_coresets.

(** ** More points than there are rows: every solver raises an error *)
Theorem C76_too_large {Y K} (y0 : Y) jgrad keq jac kde (E : externals ER K) dim train wt key g table name mk size s
    (d : Data (list ER) Y ER) :
  externals_ok E -> (2 <= length train)%nat ->
  benchmark Y y0 jgrad keq kde E dim train wt key g None = Ok table -> In (name, mk) table -> mk size = Ok s ->
  (d_len d < size)%nat -> run y0 jgrad keq jac kde E dim s d = Err ValueError.
Proof.
  intros EO H It I Es Hn.
  destruct (init_inv y0 jgrad keq kde E EO (origin dim) train wt 16 key g None table H It) as (b & Hb & _ & -> & _).
  destruct (delta_ok E (Y := Y) train wt) as (dl & D); [lia|]. unfold solver_table in I. rewrite D in I. cbv zeta in I. cbn [bind] in I.
  nine I; sized_ok Es; cbn [solve].
  - destruct (C27_random_sample (origin dim) y0 (mkRS size false true (x_choice E key)) d (xo_choice E EO key)) as [A _]. apply A. cbn [rs_size]. lia.
  - unfold chol_reduce. cbn [ch_size]. now rewrite initial_too_large.
  - unfold herding_reduce. cbn [h_size]. now rewrite initial_too_large.
  - unfold thin_reduce. cbn [t_size]. now rewrite initial_too_large.
  - unfold kt_reduce. cbn [thinning_solver kt_size]. now rewrite (proj2 (Nat.ltb_lt _ _)).
  - apply compress_invalid. left. exact Hn.
  - unfold iterative_reduce, herding_reduce_iterative. cbn [it_size h_size]. now rewrite initial_too_large.
  - unfold iterative_reduce, herding_reduce_iterative. cbn [it_size h_size]. now rewrite initial_too_large.
  - unfold iterative_reduce, herding_reduce_iterative. cbn [it_size h_size]. now rewrite initial_too_large.
Qed.
Print Assumptions C76_too_large.

(** ** Stein Thinning makes the documented greedy choice, for the Stein kernel of the Gaussian
    kernel and the score function estimated from the sampled rows *)
Theorem C76_stein_choice {Y K} (y0 : Y) jgrad keq jac kde (E : externals ER K) dim train wt key g table mk size s X w score lp :
  kernel_equality keq -> externals_ok E -> (2 <= length train)%nat ->
  benchmark Y y0 jgrad keq kde E dim train wt key g None = Ok table -> In ("Stein Thinning"%string, mk) table -> mk size = Ok s ->
  good_rows dim X w -> (size <= length X)%nat ->
  density_is jac kde (fun z => jgrad (fun p => nth 0 (kde (map (map Fin) (sampled E train)) (repeat (Fin 1) (length (sampled E train))) [p]) NaN) z) dim X w score lp ->
  exists b l laps, 0 < b /\ is_median (pair_distances (sampled E train)) (2 * b ^ 2) /\
    selects (run y0 jgrad keq jac kde E dim s (real_data X w)) (real_data X w) l /\ different_rows (length X) size l /\
    Forall2 (positive_laplacian score) X laps /\
    greedy_argmax (candidate w true) (stein_score (stein_fun (gaussian b) score)
      (fun j => nth j laps 0) (fun j => 1 / INR size * nth j lp 0) (fun j => nth j X (repeat 0 dim))) l.
Proof.
  intros KS EO H It I Es (HX & Lw & Hw) Hn HD.
  destruct (init_inv y0 jgrad keq kde E EO (origin dim) train wt 16 key g None table H It) as (b & Hb & Md & -> & _).
  destruct (vec_list dim X HX) as (Xs & <-). rewrite map_length in *.
  assert (I' : mk = fun size => do s <- sized_init size (SStein (mkThin size (KStein (KSE (Fin b : ER) (Fin 1)) (kde_score EROps (origin dim) y0 jgrad kde E (@real_data Y train wt))) None true true None (BOne None))); Ok s).
  { unfold solver_table in I. cbv zeta in I. cbn [In wrap] in I. clear -I.
    destruct I as [I|[I|[I|[I|[I|[I|[I|[I|[I|[]]]]]]]]]]; try discriminate. now injection I as <-. }
  clear I. subst mk. unfold sized_init in Es. destruct (Nat.eqb_spec size 0); [discriminate|]. cbn [bind] in Es. injection Es as <-.
  assert (EK : kde_score EROps (origin dim) y0 jgrad kde E (@real_data Y train wt)
    = fun z => jgrad (fun p => nth 0 (kde (map (map Fin) (sampled E train)) (repeat (Fin 1) (length (sampled E train))) [p]) NaN) z).
  { apply functional_extensionality. intro z. unfold kde_score. rewrite (sample_rows_fin y0 E EO). unfold sample_idx.
    assert (L : d_len (@real_data Y train wt) = length train) by (unfold d_len, real_data; cbn [d_x]; apply map_length). rewrite L.
    unfold sampled. rewrite map_length. reflexivity. }
  rewrite EK.
  destruct (run_stein y0 jgrad keq KS jac kde E EO dim b Hb Xs w Lw Hw size ltac:(lia) _ score lp Hn HD) as (l & laps & [A B] & F & G).
  exists b, l, laps. auto 10.
Qed.
Print Assumptions C76_stein_choice.

(** ** Kernel Thinning is not worse than Random Sample: for the same data, key and size, its
    coreset has at most the MMD of the random one *)
Theorem C76_thinning_not_worse_than_random {Y K} (y0 : Y) jgrad keq jac kde (E : externals ER K) dim train wt key g table mk1 mk2 size s1 s2 X w :
  kernel_equality keq -> externals_ok E -> (2 <= length train)%nat ->
  benchmark Y y0 jgrad keq kde E dim train wt key g None = Ok table ->
  In ("Kernel Thinning"%string, mk1) table -> mk1 size = Ok s1 -> In ("Random Sample"%string, mk2) table -> mk2 size = Ok s2 ->
  good_rows dim X w -> (size <= length X)%nat ->
  exists b l1 l2, 0 < b /\ is_median (pair_distances (sampled E train)) (2 * b ^ 2) /\
    selects (run y0 jgrad keq jac kde E dim s1 (real_data X w)) (real_data X w) l1 /\
    selects (run y0 jgrad keq jac kde E dim s2 (real_data X w)) (real_data X w) l2 /\
    mmd_to_rows (gaussian b) X w l1 <= mmd_to_rows (gaussian b) X w l2.
Proof.
  intros KS EO H It I1 E1 I2 E2 (HX & Lw & Hw) Hn.
  destruct (init_inv y0 jgrad keq kde E EO (origin dim) train wt 16 key g None table H It) as (b & Hb & Md & -> & _).
  destruct (vec_list dim X HX) as (Xs & <-). rewrite map_length in *.
  destruct (delta_ok E (Y := Y) train wt) as (dl & D); [lia|]. unfold solver_table in I1, I2. rewrite D in I1, I2. cbv zeta in I1, I2. cbn [bind In] in I1, I2.
  destruct I1 as [I|[I|[I|[I|[I|[I|[I|[I|[I|[]]]]]]]]]]; try discriminate. injection I as <-.
  destruct I2 as [I|[I|[I|[I|[I|[I|[I|[I|[I|[]]]]]]]]]]; try discriminate. injection I as <-.
  assert (Hs : (1 <= size)%nat) by (destruct size; [discriminate|lia]).
  sized_ok E1. sized_ok E2.
  destruct (run_random y0 jgrad keq jac kde E EO dim Xs w size key Hn) as (l2 & [A2 (L2 & N2 & R2)] & C).
  destruct (run_thinning y0 jgrad keq KS jac kde E EO dim b Hb Xs w Lw Hw size Hs (lift (KSE (root_length b) (root_scale b 1 16))) dl key Hn) as (l1 & [A1 (L1 & N1 & R1)] & M).
  exists b, l1, l2. split; [exact Hb|]. split; [exact Md|]. split; [exact A1|]. split; [exact A2|].
  rewrite <- (mmd_to_rows_vec b Xs w l1 R1), <- (mmd_to_rows_vec b Xs w l2 R2). rewrite L1, L2. now apply M.
Qed.
Print Assumptions C76_thinning_not_worse_than_random.

(** ** Iterative Herding is not worse than Kernel Herding *)
Theorem C76_iterative_not_worse_than_herding {Y K} (y0 : Y) jgrad keq jac kde (E : externals ER K) dim train wt key g table mk1 mk2 size s1 s2 X w :
  kernel_equality keq -> externals_ok E -> (2 <= length train)%nat ->
  benchmark Y y0 jgrad keq kde E dim train wt key g None = Ok table ->
  In ("Iterative Herding"%string, mk1) table -> mk1 size = Ok s1 -> In ("Kernel Herding"%string, mk2) table -> mk2 size = Ok s2 ->
  good_rows dim X w -> (size <= length X)%nat ->
  exists b l1 l2, 0 < b /\ is_median (pair_distances (sampled E train)) (2 * b ^ 2) /\
    selects (run y0 jgrad keq jac kde E dim s1 (real_data X w)) (real_data X w) l1 /\
    selects (run y0 jgrad keq jac kde E dim s2 (real_data X w)) (real_data X w) l2 /\
    mmd_to_rows (gaussian b) X w l1 <= mmd_to_rows (gaussian b) X w l2.
Proof.
  intros KS EO H It I1 E1 I2 E2 (HX & Lw & Hw) Hn.
  destruct (init_inv y0 jgrad keq kde E EO (origin dim) train wt 16 key g None table H It) as (b & Hb & Md & -> & _).
  destruct (vec_list dim X HX) as (Xs & <-). rewrite map_length in *.
  destruct (delta_ok E (Y := Y) train wt) as (dl & D); [lia|]. unfold solver_table in I1, I2. rewrite D in I1, I2. cbv zeta in I1, I2. cbn [bind In] in I1, I2. rewrite milli_fin in I1, I2.
  destruct I1 as [I|[I|[I|[I|[I|[I|[I|[I|[I|[]]]]]]]]]]; try discriminate. injection I as <-.
  destruct I2 as [I|[I|[I|[I|[I|[I|[I|[I|[I|[]]]]]]]]]]; try discriminate. injection I as <-.
  assert (Hs : (1 <= size)%nat) by (destruct size; [discriminate|lia]).
  sized_ok E1. sized_ok E2.
  destruct (run_iterative y0 jgrad keq KS jac kde E EO dim b Hb Xs w Lw Hw size Hs key false (1 / 1000) 4 None Hn) as (l1 & g1 & [A1 (L1 & N1 & R1)] & F1); [lra|discriminate|].
  destruct (run_herding y0 jgrad keq KS jac kde E EO dim b Hb Xs w Lw Hw size Hs Hn) as (l2 & g2 & [A2 (L2 & N2 & R2)] & F2).
  exists b, l1, l2. split; [exact Hb|]. split; [exact Md|]. split; [exact A1|]. split; [exact A2|].
  rewrite <- (mmd_to_rows_vec b Xs w l1 R1), <- (mmd_to_rows_vec b Xs w l2 R2). rewrite L1, L2.
  assert (Sym : forall a c : vec dim, kd dim b a c = kd dim b c a).
  { intros a c. unfold kd, gaussian. do 3 f_equal. apply KernelProofs.sqdist_sym. }
  assert (Pos : Rsum w <> 0).
  { destruct Xs as [|v Xs]; [cbn in Hn; lia|]. destruct w as [|a t]; [discriminate|]. clear -Hw. inversion Hw; subst.
    assert (0 <= Rsum t) by (clear -H2; induction H2; cbn; lra). cbn. lra. }
  pose proof (C61_one_iteration_is_reduce ER EROps (vec dim) Y K (vzero dim) y0 (x_exp E) (x_fold_in E) (x_draw E) size (fun u v => Fin (kd dim b u v)) true (BOne None) (Fin (1 / 1000)) key None (x_ord E size)
    (@mkData (vec dim) Y ER Xs (map Fin w) None) None) as O1.
  assert (NP : npos w = length Xs) by now apply (npos_all dim).
  assert (Step : forall n, exists l l' g,
      iterative_reduce EROps (vzero dim) y0 (x_exp E) (x_fold_in E) (x_draw E) (mkIter size (fun u v => Fin (kd dim b u v)) true (BOne None) false (Fin (1 / 1000)) key (S n) None) (x_ord E size) (@mkData (vec dim) Y ER Xs (map Fin w) None) None
      = Ok (mkCS (map Z.of_nat l) (repeat (Fin 1) size) (@mkData (vec dim) Y ER Xs (map Fin w) None), g) /\
      iterative_reduce EROps (vzero dim) y0 (x_exp E) (x_fold_in E) (x_draw E) (mkIter size (fun u v => Fin (kd dim b u v)) true (BOne None) false (Fin (1 / 1000)) key (S (S n)) None) (x_ord E size) (@mkData (vec dim) Y ER Xs (map Fin w) None) None
      = Ok (mkCS (map Z.of_nat l') (repeat (Fin 1) size) (@mkData (vec dim) Y ER Xs (map Fin w) None), g) /\
      mmd2 (kd dim b) Xs w (map (fun j => nth j Xs (vzero dim)) l') (repeat 1 size) <= mmd2 (kd dim b) Xs w (map (fun j => nth j Xs (vzero dim)) l) (repeat 1 size)).
  { intro q. apply C61_iterations_never_worse; auto; try lia; try (intros; apply (xo_ord E EO)); try (intros; apply kd_diag). }
  assert (Inj : forall l l' : list nat, map Z.of_nat l = map Z.of_nat l' -> l = l').
  { induction l as [|a l IH]; intros [|c l'] EE; try discriminate; [reflexivity|]. injection EE as Q1 Q2. apply Nat2Z.inj in Q1. subst. f_equal. now apply IH. }
  assert (All : forall n1, exists l g, iterative_reduce EROps (vzero dim) y0 (x_exp E) (x_fold_in E) (x_draw E) (mkIter size (fun u v => Fin (kd dim b u v)) true (BOne None) false (Fin (1 / 1000)) key (S n1) None) (x_ord E size) (@mkData (vec dim) Y ER Xs (map Fin w) None) None
      = Ok (mkCS (map Z.of_nat l) (repeat (Fin 1) size) (@mkData (vec dim) Y ER Xs (map Fin w) None), g) /\
      mmd2 (kd dim b) Xs w (map (fun j => nth j Xs (vzero dim)) l) (repeat 1 size) <= mmd2 (kd dim b) Xs w (map (fun j => nth j Xs (vzero dim)) l2) (repeat 1 size)).
  { induction n1 as [|q IH].
    - exists l2, g2. split; [now rewrite O1|]. lra.
    - destruct IH as (l & gl & EL & ML). destruct (Step q) as (m & m' & gm & S1 & S2 & SM). rewrite EL in S1. injection S1 as S1 _. apply Inj in S1. subst m.
      exists m', gm. split; [exact S2|lra]. }
  destruct (All 4%nat) as (l & gl & EL & ML). cbn [option_map] in F1. rewrite EL in F1. injection F1 as F1 _. apply Inj in F1. now subst l.
Qed.
Print Assumptions C76_iterative_not_worse_than_herding.

(** ** [leaf_size]: Random Sample, RP Cholesky and Compress++ ignore it; the other solvers must
    have a size below it, do not change on data that fit into one leaf, and for a size of at
    most half of it return coresets of the size they were given (nothing is assumed about the
    values in the data, NaN included).  The recursion depth [x_limit E] must suffice. *)
Theorem C76_leaf_size {Y K} (y0 : Y) jgrad keq jac kde (E : externals ER K) dim train wt key g table L :
  externals_ok E -> (2 <= length train)%nat ->
  benchmark Y y0 jgrad keq kde E dim train wt key g None = Ok table ->
  exists table', benchmark Y y0 jgrad keq kde E dim train wt key g (Some L) = Ok table' /\
  forall name mk', In (name, mk') table' -> exists mk, In (name, mk) table /\
    (ignores_leaf_size name -> mk' = mk) /\
    (~ ignores_leaf_size name -> forall size, (1 <= size)%nat ->
       ((L <= size)%nat -> mk' size = Err ValueError) /\
       ((size < L)%nat -> exists s' s, mk' size = Ok s' /\ mk size = Ok s /\
          forall d : Data (list ER) Y ER,
            ((d_len d <= L)%nat -> (1 <= x_limit E)%nat -> run y0 jgrad keq jac kde E dim s' d = run y0 jgrad keq jac kde E dim s d) /\
            ((2 * size <= L)%nat -> length (d_w d) = d_len d -> d_y d = None -> (size <= d_len d < x_limit E)%nat ->
               exists c, run y0 jgrad keq jac kde E dim s' d = Ok c /\ length (c_idx c) = size /\ length (c_w c) = size /\ c_pre c = d))).
Proof.
  intros EO H It.
  destruct (init_inv y0 jgrad keq kde E EO (origin dim) train wt 16 key g None table H It) as (b & Hb & _ & -> & M).
  eexists. split; [now apply (init_pos y0 jgrad keq kde E (origin dim) train wt b)|].
  destruct (delta_ok E (Y := Y) train wt) as (dl & D); [lia|]. unfold solver_table. rewrite D. cbv zeta. cbn [bind wrap].
  intros name mk I.
  assert (W : forall size s (r r0 : result (solver ER K)), r = (do _ <- mr_init L size; Ok (SMapReduce s L)) -> r0 = Ok s -> (1 <= size)%nat ->
     (forall d c, run y0 jgrad keq jac kde E dim s d = Ok c -> c_pre c = d) -> sized false size (run y0 jgrad keq jac kde E dim s) ->
     ((L <= size)%nat -> r = Err ValueError) /\
       ((size < L)%nat -> exists s' s, r = Ok s' /\ r0 = Ok s /\
          forall d : Data (list ER) Y ER,
            ((d_len d <= L)%nat -> (1 <= x_limit E)%nat -> run y0 jgrad keq jac kde E dim s' d = run y0 jgrad keq jac kde E dim s d) /\
            ((2 * size <= L)%nat -> length (d_w d) = d_len d -> d_y d = None -> (size <= d_len d < x_limit E)%nat ->
               exists c, run y0 jgrad keq jac kde E dim s' d = Ok c /\ length (c_idx c) = size /\ length (c_w c) = size /\ c_pre c = d))).
  { intros size s r r0 -> -> Hs Pre Sz. unfold mr_init. split.
    - intro HL. now rewrite (proj2 (Nat.leb_le _ _)).
    - intro HL. rewrite (proj2 (Nat.leb_gt _ _)) by exact HL. exists (SMapReduce s L), s. split; [reflexivity|]. split; [reflexivity|].
      intro d. split.
      + intros Hd Hx. cbn [solve]. apply map_reduce_leaf; auto.
      + intros H2 Hw Hy [Hn Hx]. cbn [solve].
        apply (C31_terminates_partial ER EROps (list ER) Y (origin dim) y0 false size (run y0 jgrad keq jac kde E dim s) (x_tree E) L (x_limit E) d); auto.
        * apply (xo_tree E EO).
        * unfold mr_init. now rewrite (proj2 (Nat.leb_gt _ _)).
        * split; [exact Hw|]. rewrite Hy. discriminate.
        * unfold is_sup. now rewrite Hy. }
  assert (PI : forall s d c, run y0 jgrad keq jac kde E dim (SIterative s) d = Ok c -> c_pre c = d).
  { intros s d c. cbn [solve]. intro Ec. destruct (iterative_reduce _ _ _ _ _ _ _ _ _ _) as [[c1 g1]|] eqn:E1; [|discriminate].
    injection Ec as <-. cbn [fst]. unfold iterative_reduce in E1. eapply iterative_pre. exact E1. }
  assert (SI : forall s, (1 <= it_size s)%nat -> sized false (it_size s) (run y0 jgrad keq jac kde E dim (SIterative s))).
  { intros s Hs. cbn [solve]. now apply iterative_sized. }
  nine I; (eexists; split; [cbn [In]; eauto 12|]);
    (split; [intros Q; try reflexivity; unfold ignores_leaf_size in Q; destruct Q as [Q|[Q|Q]]; discriminate|]);
    intros NI size Hs; try (exfalso; apply NI; unfold ignores_leaf_size; tauto);
    (eapply W; [unfold sized_init; rewrite (proj2 (Nat.eqb_neq size 0)) by lia; reflexivity|unfold sized_init; rewrite (proj2 (Nat.eqb_neq size 0)) by lia; reflexivity|exact Hs| |]); clear W;
    try apply PI; try (apply (SI (mkIter size _ _ _ _ _ _ _ _)); exact Hs); clear PI SI.
  - intros d c. cbn [solve]. intro Ec. destruct (herding_reduce _ _ _ _ _ _ _) as [[c1 g1]|] eqn:E1; [|discriminate].
    injection Ec as <-. eapply herding_reduce_pre. exact E1.
  - cbn [solve h_size]. intros d Hw Hsup Hn.
    destruct (herding_sized EROps (origin dim) y0 (mkHerding size (kval EROps ERT jgrad keq (KSE (Fin b : ER) (Fin 1))) true (BOne None) Greedy) (x_ord E size 0) Hs d Hw Hsup Hn) as (c & Ec & R).
    exists c. split; [|exact R]. unfold herding_base in Ec. destruct (herding_reduce _ _ _ _ _ _ _) as [[c1 g1]|]; [|discriminate]. exact Ec.
  - intros d c. cbn [solve]. unfold thin_reduce. cbn [t_size]. intro Ec. apply (stein_reduce_pre EROps (origin dim) y0 (thin_env EROps ERT jgrad keq jac kde (mkThin size (KStein (KSE (Fin b : ER) (Fin 1)) (kde_score EROps (origin dim) y0 jgrad kde E (@real_data Y train wt))) None true true None (BOne None)) (KStein (KSE (Fin b : ER) (Fin 1)) (kde_score EROps (origin dim) y0 jgrad kde E (@real_data Y train wt)))) (x_ord E size 0) d c).
    rewrite <- Ec. unfold stein_reduce. cbn [s_size thin_env t_size]. destruct (initial_coresubset _ _ _ _ _ _) as [c0|]; [|reflexivity]. cbn [bind].
    unfold thin_refine, stein_refine. destruct (unpack2 (c_pre c0)) as [[x w]|]; reflexivity.
  - cbn [solve t_size]. intros d Hw Hsup Hn.
    destruct (stein_sized EROps (origin dim) y0 (thin_env EROps ERT jgrad keq jac kde (mkThin size (KStein (KSE (Fin b : ER) (Fin 1)) (kde_score EROps (origin dim) y0 jgrad kde E (@real_data Y train wt))) None true true None (BOne None)) (KStein (KSE (Fin b : ER) (Fin 1)) (kde_score EROps (origin dim) y0 jgrad kde E (@real_data Y train wt)))) (x_ord E size 0) Hs d Hw Hsup Hn) as (c & Ec & R).
    exists c. split; [|exact R]. rewrite <- Ec. unfold thin_reduce, stein_reduce. cbn [s_size thin_env t_size]. destruct (initial_coresubset _ _ _ _ _ _) as [c0|]; [|reflexivity]. cbn [bind].
    unfold thin_refine, stein_refine. destruct (unpack2 (c_pre c0)) as [[x w]|]; reflexivity.
  - intros d c. cbn [solve]. apply kt_reduce_pre.
  - cbn [solve]. apply (kt_sized EROps (origin dim) y0 (thinning_solver EROps ERT jgrad keq E (KSE (Fin b : ER) (Fin 1)) (lift (KSE (root_length b) (root_scale b 1 16))) dl key size)).
    + exact Hs. + apply (xo_choice E EO). + apply (xo_depth E EO).
Qed.
Print Assumptions C76_leaf_size.

(** ** The dimension 16 given to [get_sqrt_kernel] does not influence any coreset *)
Theorem C76_dimension {Y K} (y0 : Y) jgrad keq jac kde (E : externals ER K) dim train wt key g leaf D1 D2 t1 t2 name mk1 mk2 size s1 s2 :
  let init D := initialise_solvers_at EROps ERT (origin dim) y0 jgrad keq kde E D (@real_data Y train wt) key g leaf in
  externals_ok E -> (2 <= length train)%nat -> init D1 = Ok t1 -> init D2 = Ok t2 ->
  In (name, mk1) t1 -> In (name, mk2) t2 -> mk1 size = Ok s1 -> mk2 size = Ok s2 ->
  forall d, run y0 jgrad keq jac kde E dim s1 d = run y0 jgrad keq jac kde E dim s2 d.
Proof.
  intros init EO H Q1 Q2 I1 I2 E1 E2.
  destruct (init_inv y0 jgrad keq kde E EO (origin dim) train wt D1 key g leaf t1 H Q1) as (b & Hb & _ & -> & M1).
  destruct (init_inv y0 jgrad keq kde E EO (origin dim) train wt D2 key g leaf t2 H Q2) as (b2 & Hb2 & _ & -> & M2).
  rewrite M1 in M2. injection M2 as <-.
  destruct (delta_ok E (Y := Y) train wt) as (dl & D); [lia|].
  set (ths D := thinning_solver EROps ERT jgrad keq E (KSE (Fin b : ER) (Fin 1)) (lift (KSE (root_length b) (root_scale b 1 D))) dl key size).
  destruct (root_kernel b 1 D1 Hb ltac:(lra)) as (_ & B1 & _). destruct (root_kernel b 1 D2 Hb ltac:(lra)) as (_ & B2 & _).
  set (c := root_scale b 1 D1 / root_scale b 1 D2). assert (Hc : 0 < c) by now apply Rdiv_lt_0_compat.
  assert (ES : ths D1 = with_sqrt (ths D2) (fun x y => fmul EROps (Fin c) (kt_sqrt (ths D2) x y))).
  { unfold ths, thinning_solver, with_sqrt. cbn [kt_sqrt kt_size kt_kernel kt_delta kt_key kt_log kt_split kt_uniform kt_choice kt_depth kt_ord]. f_equal.
    extensionality x. extensionality y. unfold kval. cbn [lift methods se_meth m_val unsc]. unfold se_val. rewrite mul_mul by assumption.
    do 2 f_equal. unfold c. field. lra. }
  assert (K1 : forall d, run y0 jgrad keq jac kde E dim (SThinning (ths D1)) d = run y0 jgrad keq jac kde E dim (SThinning (ths D2)) d).
  { intro d. cbn [solve]. rewrite ES. now apply C57_kernel_thinning_scale. }
  assert (K2 : forall d, run y0 jgrad keq jac kde E dim (SCompress (mkCP g (ths D1) (x_log4 E))) d
     = run y0 jgrad keq jac kde E dim (SCompress (mkCP g (ths D2) (x_log4 E))) d).
  { intro d. cbn [solve]. rewrite ES. now apply C57_compress_scale. }
  unfold solver_table in I1, I2. rewrite D in I1, I2. cbv zeta in I1, I2. cbn [bind] in I1, I2.
  cbn [In] in I1, I2.
  destruct I1 as [I|[I|[I|[I|[I|[I|[I|[I|[I|[]]]]]]]]]]; injection I as <- <-;
  destruct I2 as [I|[I|[I|[I|[I|[I|[I|[I|[I|[]]]]]]]]]]; try discriminate; injection I as <-;
    try (intro d; rewrite E1 in E2; injection E2 as <-; reflexivity);
    unfold sized_init in E1, E2; destruct (Nat.eqb_spec size 0); try discriminate; cbn [bind] in E1, E2.
  - fold (ths D1) in E1. fold (ths D2) in E2. destruct leaf as [L|]; cbn [wrap] in E1, E2.
    + destruct (mr_init L size); [|discriminate]. cbn [bind] in E1, E2. injection E1 as <-. injection E2 as <-.
      intro d. cbn [solve]. f_equal. extensionality e. apply K1.
    + injection E1 as <-. injection E2 as <-. exact K1.
  - fold (ths D1) in E1. fold (ths D2) in E2. injection E1 as <-. injection E2 as <-. exact K2.
Qed.
Print Assumptions C76_dimension.

(** ** Finding: one training row is accepted, and every kernel value is then NaN *)
Theorem C76_single_row_refuted {Y K} (y0 : Y) jgrad keq kde (E : externals ER K) dim x wt key g leaf :
  externals_ok E -> exists table, benchmark Y y0 jgrad keq kde E dim [x] wt key g leaf = Ok table /\
    map fst table = benchmark_names /\
    forall name mk size s kv, In (name, mk) table -> mk size = Ok s -> kernel_values s = Some kv -> forall u v, kv u v = NaN.
Proof.
  intro EO. assert (M : median_heuristic EROps (sample_rows EROps (origin dim) y0 E (@real_data Y [x] wt)) = NaN).
  { rewrite (sample_rows_fin y0 E EO). pose proof (sampled_length E EO [x]) as L. destruct (sampled E [x]) as [|r [|r' t]]; try discriminate L. reflexivity. }
  unfold initialise_solvers, initialise_solvers_at, bench_kernel, bench_sqrt. rewrite M.
  assert (C1 : check_init EROps (KSE (NaN : ER) (f1 EROps)) = Ok (KSE (NaN : ER) (f1 EROps))).
  { unfold check_init, le0, fleb. cbn. now rewrite (proj2 (Rltb_true 0 1)) by lra. }
  assert (C2 : exists k, se_sqrt_kernel EROps ERT (NaN : ER) (f1 EROps) 16 = Ok k).
  { unfold se_sqrt_kernel, check_init. set (r := fsqrt EROps (f1 EROps)). set (q := fdiv EROps (fofZ EROps 2) (fmul EROps (fpi ERT) (sq EROps (NaN : ER)))).
    assert (Q : q = NaN) by reflexivity. rewrite Q. set (e := fdiv EROps (fofZ EROps (Z.of_nat 16)) (fofZ EROps 4)).
    assert (He : e = Fin (16 / 4)) by (unfold e; change (fofZ EROps (Z.of_nat 16)) with (Fin 16 : ER); change (fofZ EROps 4) with (Fin 4 : ER); now rewrite fdiv_fin by lra).
    assert (Sg : nsign ROps (16 / 4) = Some true) by (unfold nsign; now rewrite (proj2 (Rltb_true _ _)) by (cbn; lra)).
    rewrite He. assert (W : fmul EROps r (fpow ERT (NaN : ER) (Fin (16 / 4))) = NaN) by (cbn [fpow ERT ER_pow]; rewrite Sg; destruct r; reflexivity).
    rewrite W. eexists. reflexivity. }
  destruct C2 as (k2 & C2). rewrite C1, C2. cbn [bind].
  eexists. split; [reflexivity|]. split; [reflexivity|].
  destruct (delta_ok E (Y := Y) [x] wt) as (dl & D); [cbn; lia|].
  intros name mk size s kv I. unfold solver_table in I. rewrite D in I. cbv zeta in I.
  assert (N : forall u v, kval EROps ERT jgrad keq (KSE (NaN : ER) (f1 EROps)) u v = NaN).
  { intros u v. unfold kval. cbn [methods se_meth m_val unsc]. unfold se_val. generalize (fneg EROps (squared_distance EROps u v)). intro z.
    assert (Z : fdiv EROps z (fmul EROps (fofZ EROps 2) (sq EROps (NaN : ER))) = NaN) by (change (sq EROps (NaN : ER)) with (NaN : ER); now destruct z).
    rewrite Z. reflexivity. }
  nine I; intros Es Ek u v; unfold sized_init, wrap in Es; destruct (Nat.eqb_spec size 0); try discriminate; cbn [bind] in Es;
      try (destruct leaf as [L|]; [unfold mr_init in Es; destruct (L <=? size)%nat; [discriminate|]; cbn [bind] in Es|]);
      injection Es as <-; cbn [kernel_values] in Ek; try discriminate; injection Ek as <-; apply N.
Qed.
Print Assumptions C76_single_row_refuted.

(** ** The hypotheses are satisfiable *)
Definition ex_ext : externals ER nat :=
  mkExt (fun _ m => seq 0 m) (fun _ => first_choice ER) (fun _ _ => first_positive) (fun _ _ p => Z.of_nat (argmax EROps p))
    (fun k i => (k + i)%nat) (fun k => (2 * k, 2 * k + 1)%nat) (fun k => Fin (/ (1 + INR k)))
    (fun v => match v with Fin r => Fin (ln r) | _ => NaN end) expE
    (fun n size => Nat.log2 (n / size)) (fun n => (Nat.log2 n / 2)%nat) (fun size _ _ => seq 0 size)
    (fun xs _ _ => seq 0 (length xs)) 50.
Lemma ex_ext_ok : externals_ok ex_ext.
Proof.
  constructor; cbn [ex_ext x_numpy x_choice x_pick x_draw x_exp x_depth x_log4 x_ord x_tree].
  - intros n m Hm. split; [apply seq_length|]. split; [apply seq_NoDup|]. intros i Hi. apply in_seq in Hi. lia.
  - intros _. apply first_choice_ok.
  - intros _. apply first_positive_ok.
  - intros _. exact C17_choice_ok.
  - reflexivity.
  - intros n size Hn. apply (ko_depth (ex_kt size) (ex_kt_ok size (proj1 Hn)) n size Hn).
  - intros n Hn. unfold log4_is. pose proof (Nat.log2_spec n ltac:(lia)) as [A B]. pose proof (Nat.div_mod (Nat.log2 n) 2 ltac:(lia)) as DM.
    pose proof (Nat.mod_upper_bound (Nat.log2 n) 2 ltac:(lia)) as M. set (q := (Nat.log2 n / 2)%nat) in *. set (r := (Nat.log2 n mod 2)%nat) in *.
    change 4%nat with (2 ^ 2)%nat. rewrite <- !Nat.pow_mul_r. split.
    + eapply Nat.le_trans; [|exact A]. apply Nat.pow_le_mono_r; lia.
    + eapply Nat.lt_le_trans; [exact B|]. apply Nat.pow_le_mono_r; lia.
  - reflexivity.
  - intros xs w leaf. apply seq_length.
Qed.
Definition ex_train : list (list R) := [[0]; [1]].
Definition ex_jgrad (_ : list ER -> ER) (z : list ER) : list ER := map (fun v => Fin (- unfin v)) z.
Notation ex_bench leaf := (benchmark unit tt ex_jgrad (fun _ _ => false) normal_kde ex_ext 1 ex_train [1; 1] 7%nat 0%Z leaf).
Definition ex_X : list (list R) := map (fun i => [INR i]) (seq 0 6).
Example C76_good_rows : good_rows 1 ex_X (repeat 1 6).
Proof.
  split; [|split; [reflexivity|]].
  - intros x Hx. apply in_map_iff in Hx as (i & <- & _). reflexivity.
  - apply Forall_forall. intros v Hv. apply repeat_spec in Hv. lra.
Qed.
Example C76_compress_accepts : compress_accepts ex_ext (length ex_X) 0 2.
Proof. unfold compress_accepts. cbn. lia. Qed.
Example C76_density_ok : density_ok normal_jac normal_kde (kde_score EROps (origin 1) tt ex_jgrad normal_kde ex_ext (@real_data unit ex_train [1; 1])) 1 ex_X (repeat 1 6).
Proof.
  exists normal_score, (map (fun p => - Rdot p p / 2) ex_X). split; [|split; [|split]].
  - intros z Hz. split; [|unfold normal_score; now rewrite map_length]. unfold kde_score, ex_jgrad, normal_score. rewrite !map_map. reflexivity.
  - intros x _ _. apply (normal_jac_ok x). intros z _. now rewrite KernelProofs7.unfin_map.
  - unfold normal_kde. rewrite !map_map. apply map_ext. intro i. now rewrite KernelProofs7.unfin_map.
  - now rewrite map_length.
Qed.
(** all nine solvers on six points on a line, with and without MapReduce *)
Example C76_applies : exists table, ex_bench None = Ok table /\ map fst table = benchmark_names /\
  (forall name mk, In (name, mk) table -> exists s l, mk 2%nat = Ok s /\
     selects (run tt ex_jgrad (fun _ _ => false) normal_jac normal_kde ex_ext 1 s (real_data ex_X (repeat 1 6))) (real_data ex_X (repeat 1 6)) l /\
     different_rows 6 2 l) /\
  exists table', ex_bench (Some 4%nat) = Ok table' /\ forall name mk, In (name, mk) table' -> ~ ignores_leaf_size name ->
    exists s c, mk 2%nat = Ok s /\ run tt ex_jgrad (fun _ _ => false) normal_jac normal_kde ex_ext 1 s (real_data ex_X (repeat 1 6)) = Ok c /\ length (c_idx c) = 2%nat.
Proof.
  assert (KS : kernel_equality (fun _ _ => false)) by discriminate.
  destruct (C76_setup tt ex_jgrad (fun _ _ => false) normal_kde ex_ext 1 ex_train [1; 1] 7%nat 0%Z None KS ex_ext_ok) as (b & B0 & Md & _ & T); [cbn; lia|].
  destruct T as (table & It & N & T).
  { destruct (Req_dec b 0) as [->|]; [|lra]. exfalso. unfold is_median in Md. cbn in Md. destruct Md as [Md _].
    destruct (Rle_dec _ _) as [Q|]; [clear Md; nra|cbn in Md; lia]. }
  exists table. split; [exact It|]. split; [exact N|]. split.
  - intros name mk I. destruct (T name mk I) as (_ & Mk & _). destruct (Mk eq_refl 2%nat ltac:(lia)) as (s & Es). 
    destruct (C76_valid_coresets tt ex_jgrad (fun _ _ => false) normal_jac normal_kde ex_ext 1 ex_train [1; 1] 7%nat 0%Z table name mk 2 s ex_X (repeat 1 6)
      KS ex_ext_ok ltac:(cbn; lia) It I Es C76_good_rows ltac:(cbn; lia) (fun _ => C76_compress_accepts) (fun _ => C76_density_ok)) as (l & A & B). exists s, l. auto.
  - destruct (C76_leaf_size tt ex_jgrad (fun _ _ => false) normal_jac normal_kde ex_ext 1 ex_train [1; 1] 7%nat 0%Z table 4 ex_ext_ok ltac:(cbn; lia) It) as (table' & It' & T').
    exists table'. split; [exact It'|]. intros name mk I NI. destruct (T' name mk I) as (mk0 & _ & _ & Q). destruct (Q NI 2%nat ltac:(lia)) as (_ & Q2).
    destruct (Q2 ltac:(lia)) as (s & s0 & Es & _ & R). destruct (R (real_data ex_X (repeat 1 6))) as (_ & R2).
    destruct R2 as (c & Ec & Lc & _); [lia|reflexivity|reflexivity|cbn; lia|]. exists s, c. auto.
Qed.
