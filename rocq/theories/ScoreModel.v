(** * Model of kernel density score matching and of the conversion to Stein kernels
    (coreax/score_matching.py) *)
From Coq Require Import List ZArith Bool.
From Verif Require Import Num Jax DataModel MeanModel MetricModel KernelModel ApproxModel.
Import ListNotations.

Section ScoreModel.
  Context {V : Type} (O : FOps V) (T : TOps V).
  (** [jax.grad] and Equinox's [==], see KernelModel *)
  Variable jgrad : (list V -> V) -> list V -> list V.
  Variable keq : kern V -> kern V -> bool.
  Notation meths := (methods O T jgrad keq).

  (** score_matching.py:363-371 [KernelDensityMatching.__init__]: the kernel *)
  Definition kdm_init (length_scale : V) : result (kern V) :=
    check_init O (KSE length_scale
      (fdiv O (f1 O) (fmul O (fsqrt O (fmul O (fofZ O 2) (fpi T))) length_scale))).

  (** [.mean(axis=0)] of a list of vectors *)
  Definition mean_rows (rows : list (list V)) : list V :=
    map (fun j => fdiv O (fsum O (mcol O rows j)) (fofZ O (Z.of_nat (length rows)))) (seq 0 (length (hd [] rows))).
  (** the score has the rank of the query, but at least two for a scalar *)
  Inductive score_out := OVec (v : list V) | OMat (m : list (list V)).
  (** 404-436 [score_function]; [kde_data] is the data passed to [match], a list of points *)
  Definition kdm_score (kernel : kern V) (kde_data : list (list V)) (x : input) : result score_out :=
    let x_ := atleast_2d x in
    do m <- compute_mean O [] tt (fun a b => unsc O (m_val (meths kernel) a b))
              (as_data O x_) (as_data O kde_data) Axis1 (BOne None);
    do gram_matrix_row_means <- vec_of m;
    let gradients := map (fun row => mean_rows (map unvec row))
                       (k_grad_x O T jgrad keq kernel (IPoints x_) (IPoints kde_data)) in
    let score_result := map2 (fun g m => map (fun v => fdiv O v m) g) gradients gram_matrix_row_means in
    match x with IPoint _ => Ok (OVec (nth 0 score_result [])) | _ => Ok (OMat score_result) end.
  (** 373-438 [match], as the function of a vector that a Stein kernel calls; an exception
      when it is called is not tracked there *)
  Definition kdm_match (kernel : kern V) (kde_data : list (list V)) (x : list V) : list V :=
    match kdm_score kernel kde_data (IPoint x) with Ok (OVec v) => v | _ => [] end.

  (** [getattr(kernel, "length_scale", 1.0)]: the classes with this field *)
  Definition length_scale_of (k : kern V) : V :=
    match k with
    | KExp l _ | KLap l _ | KSE l _ | KPCIMQ l _ | KRQ l _ _ | KMatern l _ _ | KPer l _ _ => l
    | _ => f1 O
    end.
  (** 441-475 [convert_stein_kernel]; a score matching object is its [match] method *)
  Definition convert_stein_kernel (x : list (list V)) (kernel : kern V)
      (score_matching : option (list (list V) -> list V -> list V)) : result (kern V) :=
    match kernel with
    | KStein base score =>
        match score_matching with
        | Some sm => Ok (KStein base (sm x))
        | None => Ok kernel
        end
    | _ =>
        match score_matching with
        | Some sm => Ok (KStein kernel (sm x))
        | None => do kk <- kdm_init (length_scale_of kernel); Ok (KStein kernel (kdm_match kk x))
        end
    end.
End ScoreModel.
Arguments OVec {V}. Arguments OMat {V}.
