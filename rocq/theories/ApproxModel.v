(** * Model of the approximate kernels (coreax/approximation.py) *)
From Coq Require Import List ZArith Bool.
From Verif Require Import Num Jax DataModel MeanModel MetricModel KernelModel LsqModel.
Import ListNotations.

(** approximation.py:109-137 [ApproximateKernel]: the elementwise methods call those of the
    base kernel *)
Definition approx_meth {V} (base : meth V) : meth V :=
  mkMeth (fun x y => m_val base x y) (fun x y => m_gx base x y)
         (fun x y => m_gy base x y) (fun x y => m_div base x y).

Section ApproxModel.
  Context {V : Type} (O : FOps V) {P Y : Type} (p0 : P) (y0 : Y) {K : Type}.
  Notation mat := (list (list V)).
  (** [jr.choice(key, n, (draws,), p=p, replace=replace)] *)
  Variable choice : K -> nat -> nat -> option (list V) -> bool -> result (list nat).
  (** [jnp.linalg.lstsq(a, b)[0]] for a vector [b] *)
  Variable lstsq : mat -> list V -> list V.
  (** the base kernel: [compute_elementwise]; its [compute_mean] and [gramian_row_mean] are
      those of [ScalarValuedKernel] (a base kernel that is itself approximate is not
      modelled) *)
  Variable k : P -> P -> V.

  (** 49-74 [_random_indices]; the handler re-raises a ValueError *)
  Definition random_indices (key : K) (num_data_points num_select : nat) : result (list nat) :=
    choice key num_data_points num_select None false.

  (** 77-106 [_random_least_squares] *)
  Definition random_least_squares (key : K) (data : list P) (features : mat) (num_indices : nat)
      (target_map : list P -> result (list V)) : result (list V) :=
    do train_idx <- random_indices key (length data) num_indices;
    do target <- target_map (map (fun i => nth i data p0) train_idx);
    let approximate_solution := lstsq (map (fun i => nth i features []) train_idx) target in
    Ok (matvec O features approximate_solution).

  (** 140-160 [RandomRegressionKernel]: fields and [__check_init__] *)
  Record rr_kernel := mkRR { rr_key : K; rr_num_kernel : Z; rr_num_train : Z }.
  Definition rr_check (s : rr_kernel) : result rr_kernel :=
    if (rr_num_kernel s <=? 0)%Z then Err ValueError
    else if (rr_num_train s <=? 0)%Z then Err ValueError
    else Ok s.

  Definition vec_of (m : meanval) : result (list V) :=
    match m with MVec v => Ok v | MScalar _ => Err ShapeError end.
  (** [partial(base_kernel.compute_mean, x, axis=0)] applied to an array *)
  Definition mean_over (x sub : list P) : result (list V) :=
    do m <- compute_mean O p0 y0 k (as_data O x) (as_data O sub) Axis0 (BOne None); vec_of m.
  (** [base_kernel.gramian_row_mean] applied to an array *)
  Definition own_mean (sub : list P) : result (list V) :=
    do m <- gramian_row_mean O p0 y0 k (as_data O sub) (BOne None); vec_of m.

  (** 163-213 [MonteCarloApproximateKernel.gramian_row_mean]; the argument
      is a Data object (an array behaves like [as_data] of it) whose weights are dropped, 197-201 *)
  Definition monte_carlo_row_mean (s : rr_kernel) (d : Data P Y V) : result (list V) :=
    let x := d_x d in
    do features_idx <- random_indices (rr_key s) (length x) (Z.to_nat (rr_num_kernel s - 1));
    let features := pairwise k x (map (fun i => nth i x p0) features_idx) in
    random_least_squares (rr_key s) x features (Z.to_nat (rr_num_train s)) (mean_over x).

  (** 216-284 [ANNchorApproximateKernel.gramian_row_mean]; indexing [x[0]] of an empty array
      is an error *)
  Definition annchor_body (x : list P) (idx : nat) (features : mat) : mat :=
    let max_entry := argmin O (map (vmax O) features) in
    map2 (fun a row => upd idx (k a (nth max_entry x p0)) row) x features.
  Definition annchor_features (x : list P) (num_kernel : nat) : mat :=
    let features := map (fun a => upd 0 (k a (nth 0 x p0)) (repeat (f0 O) num_kernel)) x in
    fori (num_kernel - 1) (fun i => annchor_body x (S i)) features.
  Definition annchor_row_mean (s : rr_kernel) (d : Data P Y V) : result (list V) :=
    let x := d_x d in
    match x with
    | [] => Err ShapeError
    | _ => random_least_squares (rr_key s) x (annchor_features x (Z.to_nat (rr_num_kernel s)))
             (Z.to_nat (rr_num_train s)) (mean_over x)
    end.

  (** 287-337 [NystromApproximateKernel.gramian_row_mean] *)
  Definition nystrom_row_mean (s : rr_kernel) (d : Data P Y V) : result (list V) :=
    let x := d_x d in
    do feature_idx <- random_indices (rr_key s) (length x) (Z.to_nat (rr_num_kernel s));
    let features := pairwise k x (map (fun i => nth i x p0) feature_idx) in
    random_least_squares (rr_key s) x features (Z.to_nat (rr_num_train s)) own_mean.
End ApproxModel.
Arguments mkRR {K}. Arguments rr_key {K}. Arguments rr_num_kernel {K}. Arguments rr_num_train {K}.
