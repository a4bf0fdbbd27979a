(** * Specification vocabulary for the helper functions *)
From Coq Require Import List ZArith Bool Reals Permutation.
From Verif Require Import Num Jax RSum UtilModel.
Import ListNotations.
Open Scope R_scope.

(** apply a function to every leaf of a tree *)
Fixpoint tree_map {A B} (f : A -> B) (t : ptree A) : ptree B :=
  match t with PLeaf a => PLeaf (f a) | PNone => PNone | PNode l => PNode (map (tree_map f) l) end.

(** [M] is a median of [l]: at least half of the entries are below and half above *)
Definition is_median (l : list R) (M : R) : Prop :=
  (length l <= 2 * length (filter (fun a => if Rle_dec a M then true else false) l) /\
   length l <= 2 * length (filter (fun a => if Rle_dec M a then true else false) l))%nat.

(** squared Euclidean distance *)
Definition sqdist (x y : list R) : R := Rsum (map2 (fun a b => (a - b) ^ 2) x y).
(** the squared distances of all unordered pairs of distinct positions *)
Fixpoint pair_distances (xs : list (list R)) : list R :=
  match xs with [] => [] | x :: t => map (sqdist x) t ++ pair_distances t end.

(** seconds per unit *)
Definition unit_seconds (u : tunit) : R :=
  match u with Mins => 60 | Secs => 1 | Millis => / 10 ^ 3 | Micros => / 10 ^ 6 | Nanos => / 10 ^ 9 | Picos => / 10 ^ 12 end.
