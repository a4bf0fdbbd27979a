(** * Model of initialise_solvers (coreax/benchmark_util.py 117-354) *)
From Coq Require Import List ZArith Bool String.
From Verif Require Import Num Jax DataModel MeanModel UtilModel KernelModel GreedyModel CholModel MapReduceModel KTModel
  ScoreModel ThinModel BenchModel.
Import ListNotations.

(** Everything the solvers take from outside the library, see the models of the solvers. *)
Record externals (V K : Type) := mkExt {
  x_numpy : nat -> nat -> list nat;     (* np.random.default_rng(seed=45).choice(n, draws, replace=False) *)
  x_choice : K -> nat -> nat -> option (list V) -> bool -> result (list nat); (* jr.choice(key, n, (draws,), p=p, replace=r) *)
  x_pick : K -> nat -> list V -> nat;   (* jr.choice(jr.fold_in(key, i), n, (), p=p, replace=False) *)
  x_draw : K -> nat -> list V -> Z;     (* jr.choice(jr.fold_in(key, i), n, (), p=p) *)
  x_fold_in : K -> nat -> K;            (* jr.fold_in *)
  x_split : K -> K * K;                 (* jr.split *)
  x_uniform : K -> V;                   (* jr.uniform *)
  x_log : V -> V;                       (* jnp.log *)
  x_exp : V -> V;                       (* jnp.exp *)
  x_depth : nat -> nat -> nat;          (* math.floor(math.log2(n) - math.log2(size)) *)
  x_log4 : nat -> nat;                  (* math.floor(math.log(n, 4)) *)
  x_ord : nat -> nat -> nat -> list nat; (* order of duplicate writes: size, iteration, step *)
  x_tree : list (list V) -> list V -> nat -> list nat; (* scikit-learn's node_indices *)
  x_limit : nat }.                      (* recursion limit *)
Arguments mkExt {V K}. Arguments x_numpy {V K}. Arguments x_choice {V K}. Arguments x_pick {V K}. Arguments x_draw {V K}.
Arguments x_fold_in {V K}. Arguments x_split {V K}. Arguments x_uniform {V K}. Arguments x_log {V K}. Arguments x_exp {V K}.
Arguments x_depth {V K}. Arguments x_log4 {V K}. Arguments x_ord {V K}. Arguments x_tree {V K}. Arguments x_limit {V K}.

(** the solver objects *)
Inductive solver (V K : Type) :=
| SRandom (s : @random_sample V)
| SCholesky (s : @rpcholesky V (list V))
| SHerding (h : @herding V (list V))
| SStein (t : thinning (V := V))
| SThinning (s : kthin V (list V) K)
| SCompress (c : compress V (list V) K)
| SIterative (s : @iterative_herding V (list V) K)
| SMapReduce (base : solver V K) (leaf_size : nat).
Arguments SRandom {V K}. Arguments SCholesky {V K}. Arguments SHerding {V K}. Arguments SStein {V K}.
Arguments SThinning {V K}. Arguments SCompress {V K}. Arguments SIterative {V K}. Arguments SMapReduce {V K}.

Section BenchSolvers.
  Context {V : Type} (O : FOps V) (T : TOps V) {Y K : Type} (p0 : list V) (y0 : Y).
  (** [jax.grad], Equinox's [==], [jax.jacfwd] and [jsp.stats.gaussian_kde], see ThinModel *)
  Variable jgrad : (list V -> V) -> list V -> list V.
  Variable keq : kern V -> kern V -> bool.
  Variable jac : (list V -> list V) -> list V -> list (list V).
  Variable kde_logpdf : list (list V) -> list V -> list (list V) -> list V.
  Variable E : externals V K.
  Notation data := (Data (list V) Y V).
  Notation cs := (Coresubset (list V) Y V).

  (** [solver.reduce(data)[0]] *)
  Fixpoint solve (s : solver V K) (d : data) : result cs :=
    match s with
    | SRandom s => random_reduce O p0 y0 s d
    | SCholesky s => do r <- chol_reduce O p0 y0 s d None; Ok (fst r)
    | SHerding h => do r <- herding_reduce O p0 y0 h (x_ord E (h_size h) 0) d None; Ok (fst r)
    | SStein t => thin_reduce O T jgrad keq jac kde_logpdf p0 y0 t (x_ord E (t_size t) 0) d
    | SThinning s => kt_reduce O p0 y0 s d
    | SCompress c => compress_reduce O p0 y0 c (x_limit E) d
    | SIterative s => do r <- iterative_reduce O p0 y0 (x_exp E) (x_fold_in E) (x_draw E) s (x_ord E (it_size s)) d None; Ok (fst r)
    | SMapReduce base leaf_size => map_reduce O p0 y0 (solve base) (x_tree E) leaf_size (x_limit E) d
    end.

  (** solvers/base.py:108-111: [__check_init__] of every solver with a [coreset_size] *)
  Definition sized_init (size : nat) (s : solver V K) : result (solver V K) :=
    if (size =? 0)%nat then Err ValueError else Ok s.
  (** the end of the functions that take [leaf_size] into account, for instance 168-170;
      the warning of composite.py:117-125 is not modelled *)
  Definition wrap (leaf_size : option nat) (size : nat) (s : solver V K) : result (solver V K) :=
    match leaf_size with
    | None => Ok s
    | Some l => do _ <- mr_init l size; Ok (SMapReduce s l)
    end.
  (** an array value as a kernel value *)
  Definition kval (k : kern V) (a b : list V) : V := unsc O (m_val (methods O T jgrad keq k) a b).

  (** 142-148: the sampled rows, the kernel and the square root kernel.
      [train_data_umap[idx]] is a data set, [jnp.asarray] of it the array of its rows.
      [dim] is the constant 16 of line 148. *)
  Definition sample_idx (train : data) : list nat := x_numpy E (d_len train) (Nat.min (d_len train) 300).
  Definition sample_rows (train : data) : list (list V) := d_x (d_getitem O p0 y0 train (map Z.of_nat (sample_idx train))).
  Definition bench_kernel (train : data) : result (kern V) :=
    check_init O (KSE (median_heuristic O (sample_rows train)) (f1 O)).
  Definition bench_sqrt (dim : nat) (train : data) : result (kern V) :=
    se_sqrt_kernel O T (median_heuristic O (sample_rows train)) (f1 O) dim.

  (** 199-215: the score function, the gradient of the log-density estimated from the sampled
      rows.  [x.reshape(1, -1)] of shape (1, d) is taken by [gaussian_kde] as one point.  The
      default weights of [gaussian_kde] are all equal. *)
  Definition kde_score (train : data) (x : list V) : list V :=
    jgrad (fun z => nth 0 (kde_logpdf (sample_rows train) (repeat (f1 O) (List.length (sample_idx train))) [z]) (fnan O)) x.

  (** 161-167 and 255-262: the fields of the thinning solver, of a given size *)
  Definition thinning_solver (kernel sqrt_kernel : kern V) (delta : V) (key : K) (size : nat) : kthin V (list V) K :=
    mkKT size (kval kernel) (kval sqrt_kernel) delta key (x_log E) (x_split E) (x_uniform E) (x_choice E key) (x_depth E)
      (fun m => x_ord E m 0).
  (** 329 [1 / jnp.linspace(10, 100, n_iter) ** 3] with [n_iter = 10] *)
  Definition cubic_schedule : list V :=
    map (fun i => let t := fadd O (fofZ O 10) (fmul O (fofZ O (Z.of_nat i)) (fdiv O (fofZ O 90) (fofZ O 9))) in
                  fdiv O (f1 O) (fmul O t (fmul O t t))) (seq 0 10).
  (** [0.001] *)
  Definition milli : V := fdiv O (f1 O) (fofZ O 1000).

  (** 117-354 [initialise_solvers]: names and constructors, in the order of the dictionary.
      The fields a constructor is not given have the defaults of the solver's class. *)
  Definition solver_table (kernel sqrt_kernel : kern V) (train : data) (key : K) (g : Z) (leaf_size : option nat)
    : list (string * (nat -> result (solver V K))) :=
    let delta := calculate_delta O (x_log E) (Z.of_nat (d_len train)) in
    let iterative (probabilistic : bool) (iterations : nat) (schedule : option (list V)) (size : nat) :=
      do s <- sized_init size (SIterative (mkIter size (kval kernel) true (BOne None) probabilistic milli key iterations schedule));
      wrap leaf_size size s in
    [ ("Random Sample"%string, fun size => sized_init size (SRandom (mkRS size false true (x_choice E key))));       (* 235 *)
      ("RP Cholesky"%string, fun size => sized_init size (SCholesky (mkChol size (kval kernel) true (x_pick E key)))); (* 245 *)
      ("Kernel Herding"%string, fun size =>                                                           (* 183-186 *)
         do s <- sized_init size (SHerding (mkHerding size (kval kernel) true (BOne None) Greedy));
         wrap leaf_size size s);
      ("Stein Thinning"%string, fun size =>                                                           (* 217-226 *)
         do s <- sized_init size (SStein (mkThin size (KStein kernel (kde_score train)) None true true None (BOne None)));
         wrap leaf_size size s);
      ("Kernel Thinning"%string, fun size =>                                                          (* 161-170 *)
         do dl <- delta;
         do s <- sized_init size (SThinning (thinning_solver kernel sqrt_kernel dl key size));
         wrap leaf_size size s);
      ("Compress++"%string, fun size =>                                                               (* 255-263 *)
         do dl <- delta;
         sized_init size (SCompress (mkCP g (thinning_solver kernel sqrt_kernel dl key size) (x_log4 E))));
      ("Iterative Probabilistic Herding (constant)"%string, iterative true 5%nat None);                      (* 278-288 *)
      ("Iterative Herding"%string, iterative false 5%nat None);                                              (* 303-313 *)
      ("Iterative Probabilistic Herding (cubic)"%string, iterative true 10%nat (Some cubic_schedule)) ].     (* 328-342 *)
  Definition initialise_solvers_at (dim : nat) (train : data) (key : K) (g : Z) (leaf_size : option nat)
    : result (list (string * (nat -> result (solver V K)))) :=
    do kernel <- bench_kernel train;
    do sqrt_kernel <- bench_sqrt dim train;
    Ok (solver_table kernel sqrt_kernel train key g leaf_size).
  Definition initialise_solvers := initialise_solvers_at 16.
End BenchSolvers.
