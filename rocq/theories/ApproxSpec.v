(** * Specification vocabulary for approximate kernels *)
From Coq Require Import List Reals.
From Verif Require Import Num Jax RSum MetricSpec GKPSpec.
Import ListNotations.
Open Scope R_scope.

Section ApproxSpec.
  Context {P : Type} (p0 : P) (k : P -> P -> R) (x : list P).
  (** the average of k(z, y) over the points z of [sub] *)
  Definition avg_at (sub : list P) (y : P) : R := Rsum (map (fun z => k z y) sub) / INR (length sub).
  (** the exact Gramian row mean *)
  Definition exact_row_mean : list R := map (avg_at x) x.
  (** points with the given indices *)
  Definition select (idx : list nat) : list P := map (fun i => nth i x p0) idx.
  (** the value at [y] of the kernel expansion with coefficients [c] on the points [idx] *)
  Definition expansion (idx : list nat) (c : list R) (y : P) : R := Rdot (map (k y) (select idx)) c.
  (** sum of squared errors of that expansion, against the function [f], on the points [train] *)
  Definition fit_error (f : P -> R) (idx train : list nat) (c : list R) : R :=
    Rsum (map (fun y => (expansion idx c y - f y) ^ 2) (select train)).
  (** [c] is a least-squares fit *)
  Definition best_fit (f : P -> R) (idx train : list nat) (c : list R) : Prop :=
    length c = length idx /\
    forall c', length c' = length idx -> fit_error f idx train c <= fit_error f idx train c'.
End ApproxSpec.

(** a least-squares solver, on a given system *)
Definition lstsq_on (lstsq : list (list ER) -> list ER -> list ER) (A : list (list R)) (c : nat) (b : list R) : Prop :=
  exists z, lstsq (map (map Fin) A) (map Fin b) = map Fin z /\ length z = c /\
    forall z', length z' = c -> sq_residual A b z <= sq_residual A b z'.
(** [l]: [m] distinct numbers below [n] *)
Definition sample_of (n m : nat) (l : list nat) : Prop := length l = m /\ NoDup l /\ forall i, In i l -> (i < n)%nat.
(** the system passed to the least-squares routine when the kernel columns of [anchors] are
    fitted to [f] on the points [train] *)
Definition fits {P} (p0 : P) (k : P -> P -> R) (x : list P) (lstsq : list (list ER) -> list ER -> list ER) (f : list P -> P -> R) (nk nt : nat) : Prop :=
  forall anchors train, length anchors = nk -> (forall i, In i anchors -> (i < length x)%nat) -> sample_of (length x) nt train ->
    lstsq_on lstsq (map (fun y => map (k y) (select p0 x anchors)) (select p0 x train)) nk
      (map (f (select p0 x train)) (select p0 x train)).
