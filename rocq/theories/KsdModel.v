(** * Model of KSD.compute as a whole (coreax/metrics.py 240-278): the conversion of the
    kernel, the Laplace correction and the density term around the kernel mean *)
From Coq Require Import List ZArith Bool.
From Verif Require Import Num Jax DataModel MeanModel MetricModel KernelModel ScoreModel ThinModel.
Import ListNotations.

Section KsdModel.
  Context {V : Type} (O : FOps V) (T : TOps V) {Y : Type}.
  (** [jax.grad] and Equinox's [==], see KernelModel *)
  Variable jgrad : (list V -> V) -> list V -> list V.
  Variable keq : kern V -> kern V -> bool.
  (** [jax.jacfwd(s)(x)], see ThinModel *)
  Variable jac : (list V -> list V) -> list V -> list (list V).
  (** [jsp.stats.gaussian_kde(x.T, weights=w, bw_method=b).logpdf(z.T)] (lines 255, 258) *)
  Variable kde_logpdf : option V -> list (list V) -> list V -> list (list V) -> list V.
  (** the all-zero point used for padding *)
  Variable p0 : list V.
  Variable y0 : Y.

  (** [kernel.base_kernel] of the converted kernel, which is always a Stein kernel *)
  Definition base_kernel (k : kern V) : kern V := match k with KStein b _ => b | _ => k end.
  (** [getattr(kernel, "length_scale", None)] *)
  Definition length_scale_opt (k : kern V) : option V :=
    match k with
    | KExp l _ | KLap l _ | KSE l _ | KPCIMQ l _ | KRQ l _ _ | KMatern l _ _ | KPer l _ _ => Some l
    | _ => None
    end.
  (** 240-278 [compute].  [kernel] and [score_matching] are the fields of the metric (a
      score matching object is its [match] method); [precision_threshold] is never read. *)
  Definition ksd (kernel : kern V) (score_matching : option (list (list V) -> list V -> list V))
      (laplace_correct regularise : bool) (bs : bsarg) (reference_data comparison_data : Data (list V) Y V) : result V :=
    do (x, w_x) <- unpack2 reference_data;
    do kernel <- convert_stein_kernel O T jgrad keq x kernel score_matching;
    let y := comparison_data in
    do squared_ksd <- mean_scalar O p0 y0 (fun a b => unsc O (m_val (methods O T jgrad keq kernel) a b)) y y bs;
    let len_y := fofZ O (Z.of_nat (d_len y)) in
    let entropic_regularisation :=
      if regularise then
        let lp := kde_logpdf (length_scale_opt (base_kernel kernel)) x w_x (d_x y) in
        fdiv O (fdiv O (fsum O lp) (fofZ O (Z.of_nat (length lp)))) len_y
      else f0 O in
    let laplace_correction :=
      if laplace_correct then
        fdiv O (fsum O (map (laplace_positive O jac (score_function kernel)) (d_x y))) (fofZ O (Z.of_nat (d_len y) ^ 2))
      else f0 O in
    Ok (fsqrt O (fmax O (f0 O) (fsub O (fadd O squared_ksd laplace_correction) entropic_regularisation))).
End KsdModel.
