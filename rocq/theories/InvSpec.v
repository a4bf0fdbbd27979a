(** * Specification for C74: carrying data along a map of the feature space *)
From Coq Require Import List ZArith.
From Verif Require Import Num Jax DataModel.
Import ListNotations.

(** the same data set with every feature row [x] replaced by [phi x] *)
Definition map_data {P Q Y V} (phi : P -> Q) (d : Data P Y V) : Data Q Y V :=
  mkData (map phi (d_x d)) (d_w d) (d_y d).
(** the same indices and weights, pointing at the mapped data *)
Definition map_coreset {P Q Y V} (phi : P -> Q) (c : Coresubset P Y V) : Coresubset Q Y V :=
  mkCS (c_idx c) (c_w c) (map_data phi (c_pre c)).
(** the kernel [k] seen through the map *)
Definition pull {P Q V} (phi : P -> Q) (k : Q -> Q -> V) : P -> P -> V :=
  fun a b => k (phi a) (phi b).
(** apply a function to a value returned normally; exceptions stay as they are *)
Definition rmap {A B} (f : A -> B) (r : result A) : result B :=
  match r with Ok a => Ok (f a) | Err e => Err e end.
Definition on_fst {A B C} (f : A -> B) (r : A * C) : B * C := (f (fst r), snd r).

(** the two lists of points have the same Gramian (kernel matrix) *)
Definition same_gramian {P Q V} (k1 : P -> P -> V) (xs : list P) (k2 : Q -> Q -> V) (ys : list Q) : Prop :=
  map (fun a => map (fun b => k1 a b) xs) xs = map (fun a => map (fun b => k2 a b) ys) ys.
(** two data sets with the same weights and responses; only the feature rows may differ *)
Definition same_labels {P Q Y V} (d1 : Data P Y V) (d2 : Data Q Y V) : Prop :=
  d_w d1 = d_w d2 /\ d_y d1 = d_y d2.
(** what a coreset selects: indices and weights *)
Definition selected {P Y V} (c : Coresubset P Y V) : list Z * list V := (c_idx c, c_w c).
(** a kernel with real (finite) values, as a function into array entries *)
Definition finite_kernel {P} (k : P -> P -> Reals.Rdefinitions.R) : P -> P -> ER := fun a b => Fin (k a b).
