(** * Specification vocabulary for positive semi-definite Gramians *)
From Coq Require Import List ZArith Reals.
From Verif Require Import Num Jax RSum MetricSpec KernelModel KernelSpec.
Import ListNotations.
Open Scope R_scope.

(** a square symmetric real matrix with v.(G v) >= 0 for every vector *)
Definition psd_matrix (G : list (list R)) : Prop :=
  is_mat (length G) (length G) G /\
  (forall i j, nth j (nth i G []) 0 = nth i (nth j G []) 0) /\
  forall v, length v = length G -> 0 <= Rdot v (Rmv G v).

(** [k.compute(x, x)] is a positive semi-definite matrix of numbers for every list [x] of
    [d]-dimensional points (repetitions allowed) *)
Definition psd_gramian jgrad keq (d : nat) (k : kern ER) : Prop :=
  forall xs : list (list R), (forall x, In x xs -> length x = d) ->
  exists G, length G = length xs /\ psd_matrix G /\
    k_compute EROps ERT jgrad keq k (IPoints (map (map Fin) xs)) (IPoints (map (map Fin) xs))
    = map (map (fun v => Sc (Fin v))) G.

(** periodic and Poisson kernels only on one-dimensional data *)
Fixpoint one_dim_ok (d : nat) (k : kern R) : Prop :=
  match k with
  | KPer _ _ _ | KPoisson _ _ => d = 1%nat
  | KAdd a b | KProd a b => one_dim_ok d a /\ one_dim_ok d b
  | KPow a _ => one_dim_ok d a
  | _ => True
  end.
