(** * Specification for C77: coresets and the representation of a data set *)
From Coq Require Import List Reals Permutation.
From Verif Require Import RSum MeanSpec GreedySpec MetricSpec.
Import ListNotations.
Open Scope R_scope.

(** the points in the rows numbered [l] *)
Definition points_at {P} (p0 : P) (xs : list P) (l : list nat) : list P := map (fun j => nth j xs p0) l.
(** non-negative weights, one per row, not all zero *)
Definition weighted {P} (xs : list P) (w : list R) : Prop :=
  length w = length xs /\ (forall a, In a w -> 0 <= a) /\ (1 <= npos w)%nat.
(** a coreset of size [m] can be selected *)
Definition size_ok (m : nat) (unique : bool) (w : list R) : Prop :=
  (1 <= m <= length w)%nat /\ (unique = true -> (m <= npos w)%nat).
(** the rows of positive weight *)
Definition positive_rows {P} (xs : list P) (w : list R) : list (P * R) :=
  filter (fun p => if Rlt_dec 0 (snd p) then true else false) (combine xs w).
(** the same rows of positive weight in another order, with all weights multiplied by [c] *)
Definition same_rows {P} (xs : list P) (w : list R) (ys : list P) (v : list R) : Prop :=
  exists c, 0 < c /\ Permutation (positive_rows ys v) (map (fun p => (fst p, c * snd p)) (positive_rows xs w)).
(** two data sets a solver should treat alike: the same weighted distribution; if rows must
    not be chosen twice, the same rows *)
Definition same_data {P} (unique : bool) (xs : list P) (w : list R) (ys : list P) (v : list R) : Prop :=
  if unique then same_rows xs w ys v else same_dist xs w ys v.

(** what herding maximises, as a function of points: the mean kernel value minus the running
    average *)
Definition herding_value {P} (k : P -> P -> R) (xs : list P) (w : list R) (chosen : list P) (a : P) : R :=
  wavg (fun b => k a b) xs w - Rsum (map (fun c => k a c) chosen) / INR (length chosen + 1).
(** what Stein thinning maximises *)
Definition stein_value {P} (k : P -> P -> R) (lap rlogp : P -> R) (chosen : list P) (a : P) : R :=
  - (k a a + lap a - INR (length chosen + 1) * rlogp a + 2 * Rsum (map (fun c => k a c) chosen)).
(** in the run that selected [l], no selected point ever tied with a different point *)
Definition no_ties {P} (p0 : P) (value : list P -> P -> R) (xs : list P) (w : list R) (unique : bool) (l : list nat) : Prop :=
  forall t j, (t < length l)%nat -> candidate w unique (firstn t l) j ->
    value (points_at p0 xs (firstn t l)) (nth j xs p0) = value (points_at p0 xs (firstn t l)) (nth (nth t l 0%nat) xs p0) ->
    nth j xs p0 = nth (nth t l 0%nat) xs p0.
