(** * Specification for C76: the solvers of the benchmark *)
From Coq Require Import String List ZArith Reals Permutation.
From Verif Require Import Num Jax RSum DataModel CholSpec KTSpec MapReduceSpec GreedySpec GreedyProofs4 UtilSpec KernelModel KernelSpec
  ThinSpec BenchSolvers.
Import ListNotations.
Open Scope R_scope.

Definition benchmark_names : list string :=
  ["Random Sample"; "RP Cholesky"; "Kernel Herding"; "Stein Thinning"; "Kernel Thinning"; "Compress++";
   "Iterative Probabilistic Herding (constant)"; "Iterative Herding"; "Iterative Probabilistic Herding (cubic)"]%string.
(** the solvers that [leaf_size] turns into MapReduce solvers *)
Definition ignores_leaf_size (name : string) : Prop :=
  name = "Random Sample"%string \/ name = "RP Cholesky"%string \/ name = "Compress++"%string.

(** What is assumed of the functions from outside the library: samplers return what they are
    asked for (nothing is assumed about the distribution), logarithms are accurate enough for
    the depths, the tree lists as many rows as it gets. *)
Record externals_ok {K} (E : externals ER K) : Prop := {
  xo_numpy : forall n m, (m <= n)%nat ->
    length (x_numpy E n m) = m /\ NoDup (x_numpy E n m) /\ (forall i, In i (x_numpy E n m) -> (i < n)%nat);
  xo_choice : forall key, CholSpec.choice_ok (x_choice E key);
  xo_pick : forall key, pick_ok (x_pick E key);
  xo_draw : forall key, GreedyProofs4.choice_ok (x_draw E key);
  xo_exp : x_exp E = expE;
  xo_depth : forall n size, (1 <= size <= n)%nat -> (size * 2 ^ x_depth E n size <= n)%nat;
  xo_log4 : forall n, (1 <= n)%nat -> log4_is n (x_log4 E n);
  xo_ord : forall m j i, Permutation (x_ord E m j i) (seq 0 m);
  xo_tree : tree_sized (x_tree E) }.

(** the Gaussian kernel with bandwidth [b] *)
Definition gaussian (b : R) (x y : list R) : R := exp (- (KernelSpec.sqdist x y / (2 * b ^ 2))).
(** the rows the benchmark looks at to choose the bandwidth *)
Definition sampled {K} (E : externals ER K) (rows : list (list R)) : list (list R) :=
  map (fun i => nth i rows []) (x_numpy E (length rows) (Nat.min (length rows) 300)).
(** a data set of real rows and weights *)
Definition real_data {Y} (X : list (list R)) (w : list R) : Data (list ER) Y ER :=
  mkData (map (map Fin) X) (map Fin w) None.
(** squared MMD between the data and the equally weighted rows with the given numbers *)
Definition mmd_to_rows (k : list R -> list R -> R) (X : list (list R)) (w : list R) (l : list nat) : R :=
  mmd2 k X w (map (fun j => nth j X []) l) (repeat 1 (length l)).
(** [r] is the coreset of the rows numbered [l], each with weight one *)
Definition selects {P Y} (r : result (Coresubset P Y ER)) (d : Data P Y ER) (l : list nat) : Prop :=
  r = Ok (mkCS (map Z.of_nat l) (repeat (Fin 1) (length l)) d).
(** [size] different rows out of [n] *)
Definition different_rows (n size : nat) (l : list nat) : Prop :=
  length l = size /\ NoDup l /\ forall i, In i l -> (i < n)%nat.
(** the sizes Compress++ accepts for [n] rows and oversampling factor [g]: [p] is the number
    of times four goes into [n] *)
Definition compress_accepts {K} (E : externals ER K) (n : nat) (g : Z) (size : nat) : Prop :=
  (0 <= g <= Z.of_nat (x_log4 E n))%Z /\ (size <= 2 ^ (Z.to_nat g + x_log4 E n))%nat /\ (x_log4 E n <= x_limit E)%nat.
(** the density estimate from the data is finite, with logarithms [lp]; the score function of
    the benchmark computes [score], which can be differentiated at the rows [X] *)
Definition density_is jac kde_logpdf (score_computed : list ER -> list ER) (dim : nat) (X : list (list R)) (w : list R)
    (score : list R -> list R) (lp : list R) : Prop :=
  (forall z, length z = dim -> score_computed (map Fin z) = map Fin (score z) /\ length (score z) = dim) /\
  (forall x, In x X -> jac_correct jac score_computed score x) /\
  kde_logpdf (map (map Fin) X) (map Fin w) (map (map Fin) X) = map Fin lp /\ length lp = length X.
Definition density_ok jac kde_logpdf score_computed dim X w : Prop :=
  exists score lp, density_is jac kde_logpdf score_computed dim X w score lp.
(** rows of dimension [dim] with positive weights *)
Definition good_rows (dim : nat) (X : list (list R)) (w : list R) : Prop :=
  (forall x, In x X -> length x = dim) /\ length w = length X /\ Forall (fun v => 0 < v) w.

(** what a solver was given *)
Fixpoint requested_size {V K} (s : solver V K) : nat :=
  match s with
  | SRandom s => CholModel.rs_size s | SCholesky s => CholModel.ch_size s | SHerding h => GreedyModel.h_size h
  | SStein t => ThinModel.t_size t | SThinning s => KTModel.kt_size s | SCompress c => KTModel.kt_size (KTModel.cp_kt c)
  | SIterative s => BenchModel.it_size s | SMapReduce s _ => requested_size s
  end.
Fixpoint kernel_values {V K} (s : solver V K) : option (list V -> list V -> V) :=
  match s with
  | SRandom _ | SStein _ => None
  | SCholesky s => Some (CholModel.ch_kernel s) | SHerding h => Some (GreedyModel.h_kernel h)
  | SThinning s => Some (KTModel.kt_kernel s) | SCompress c => Some (KTModel.kt_kernel (KTModel.cp_kt c))
  | SIterative s => Some (BenchModel.it_kernel s) | SMapReduce s _ => kernel_values s
  end.
