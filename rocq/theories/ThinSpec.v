(** * Specification vocabulary for SteinThinning *)
From Coq Require Import List Reals.
From Coquelicot Require Import Coquelicot.
From Verif Require Import Num RSum KernelSpec.
Import ListNotations.
Open Scope R_scope.

(** [ds] are the derivatives of the i-th component of [score] in the i-th direction at [x]
    (the second derivatives of log p if [score] is the gradient of log p) *)
Definition diagonal_derivatives (score : list R -> list R) (x ds : list R) : Prop :=
  length ds = length x /\
  forall i, (i < length x)%nat -> is_derive (fun t => nth i (score (set_coord i x t)) 0) (nth i x 0) (nth i ds 0).
(** Delta^+ log p (x): the sum of the positive second derivatives *)
Definition positive_laplacian (score : list R -> list R) (x : list R) (L : R) : Prop :=
  exists ds, diagonal_derivatives score x ds /\ L = Rsum (map (Rmax 0) ds).
(** [jac] differentiates [s], which computes [score], correctly at [x] *)
Definition jac_correct (jac : (list ER -> list ER) -> list ER -> list (list ER)) (s : list ER -> list ER)
    (score : list R -> list R) (x : list R) : Prop :=
  (forall z, length z = length x -> s (map Fin z) = map Fin (score z)) ->
  exists J, jac s (map Fin x) = map (map Fin) J /\
    (forall i, (i < length x)%nat -> (i < length J)%nat /\ (i < length (nth i J []))%nat) /\
    diagonal_derivatives score x (map (fun i => nth i (nth i J []) 0) (seq 0 (length x))).
(** [jac] differentiates every function that can be differentiated *)
Definition jac_exact (jac : (list ER -> list ER) -> list ER -> list (list ER)) : Prop :=
  forall s score x, (exists ds, diagonal_derivatives score x ds) -> jac_correct jac s score x.
