(** * Model of SteinThinning as a whole (coreax/solvers/coresubset.py 416-551): the
    conversion of the kernel, the Laplacian term and the density term, in front of the
    greedy selection modelled in GreedyModel *)
From Coq Require Import List ZArith Bool.
From Verif Require Import Num Jax DataModel MeanModel KernelModel GreedyModel ScoreModel.
Import ListNotations.

Section ThinModel.
  Context {V : Type} (O : FOps V) (T : TOps V) {Y : Type}.
  (** [jax.grad] and Equinox's [==], see KernelModel *)
  Variable jgrad : (list V -> V) -> list V -> list V.
  Variable keq : kern V -> kern V -> bool.
  (** [jax.jacfwd(s)(x)]: row i holds the partial derivatives of the i-th output *)
  Variable jac : (list V -> list V) -> list V -> list (list V).
  (** [jsp.stats.gaussian_kde(x.T, weights=w, bw_method=...).logpdf(z.T)] (lines 509, 518) *)
  Variable kde_logpdf : list (list V) -> list V -> list (list V) -> list V.
  (** the all-zero point used for padding and out-of-range access *)
  Variable p0 : list V.
  Variable y0 : Y.

  (** 465-472: the fields; [unroll] has no effect on values, [kde_bw_method] is part of
      [kde_logpdf]; a score matching object is its [match] method *)
  Record thinning := mkThin {
    t_size : nat; t_kernel : kern V; t_score : option (list (list V) -> list V -> list V);
    t_unique : bool; t_regularise : bool; t_lambda : option V; t_bs : bsarg }.

  (** [kernel.score_function] of the converted kernel, which is always a Stein kernel *)
  Definition score_function (k : kern V) : list V -> list V :=
    match k with KStein _ s => s | _ => fun z => z end.
  (** 520-524 [_laplace_positive] *)
  Definition laplace_positive (score : list V -> list V) (x : list V) : V :=
    let hessian := jac score x in
    fsum O (map (fun i => fmax O (nth i (nth i hessian []) (fnan O)) (f0 O)) (seq 0 (length x))).

  (** 507-551: the rest of [refine] as an instance of GreedyModel.[stein]: lines 507 and
      546 use [self.kernel], lines 520-526 the converted one *)
  Definition thin_env (t : thinning) (kernel : kern V) : stein (V := V) (P := list V) :=
    mkStein (t_size t) (fun a b => unsc O (m_val (methods O T jgrad keq (t_kernel t)) a b)) (t_unique t) (t_bs t)
      (if t_regularise t then
         Some (t_lambda t, fun x w => kde_logpdf x w x, map (laplace_positive (score_function kernel)))
       else None).
  (** 481-551 [refine] *)
  Definition thin_refine (t : thinning) (ord : nat -> list nat) (c : Coresubset (list V) Y V) : result (Coresubset (list V) Y V) :=
    do (x, w) <- unpack2 (c_pre c);
    do kernel <- convert_stein_kernel O T jgrad keq x (t_kernel t) (t_score t);
    stein_refine O p0 y0 (thin_env t kernel) ord c.
  (** 474-479 [reduce] *)
  Definition thin_reduce (t : thinning) (ord : nat -> list nat) (d : Data (list V) Y V) : result (Coresubset (list V) Y V) :=
    do c <- initial_coresubset O p0 y0 0 (t_size t) d;
    thin_refine t ord c.
End ThinModel.
Arguments mkThin {V}. Arguments t_size {V}. Arguments t_kernel {V}. Arguments t_score {V}. Arguments t_unique {V}.
Arguments t_regularise {V}. Arguments t_lambda {V}. Arguments t_bs {V}.
