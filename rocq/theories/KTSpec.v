(** * Specification vocabulary for kernel thinning *)
From Coq Require Import List Reals Permutation.
From Verif Require Import RSum.
Import ListNotations.

(** [lists] splits [all] into [count] parts of [size] elements each *)
Definition splits {A} (lists : list (list A)) (count size : nat) (all : list A) : Prop :=
  length lists = count /\ (forall l, In l lists -> length l = size) /\ Permutation (concat lists) all.

(** [p] is the largest exponent with [4 ^ p <= n] *)
Definition log4_is (n p : nat) : Prop := (4 ^ p <= n < 4 ^ (p + 1))%nat.

(** the member of the [i]-th pair of consecutive points that goes to the first half *)
Definition pair_first (swap : bool) (i : nat) : nat := if swap then 2 * i + 1 else 2 * i.
Definition pair_second (swap : bool) (i : nat) : nat := if swap then 2 * i else 2 * i + 1.

Open Scope R_scope.
(** Kernel halving (Dwivedi and Mackey 2024, Algorithm 1a): distance [b] of the pair in
    the feature space, threshold [a], growth of the scale [sigma], and the inner product
    [alpha] of the pair's difference with the current imbalance *)
Definition pair_b {P} (k : P -> P -> R) (x y : P) : R := sqrt (k x x + k y y - 2 * k x y).
Definition thresh (delta b sigma : R) : R := Rmax (b * sigma * sqrt (2 * ln (2 / delta))) (b * b).
Definition next_sigma (b a sigma : R) : R :=
  sqrt (sigma * sigma + Rmax (b * b * (1 + (b * b - 2 * a) * (sigma * sigma) / (a * a))) 0).
Definition imbalance {P} (k : P -> P -> R) (seen chosen : list P) (x y : P) : R :=
  Rsum (map (fun s => k s x - k s y) seen) - 2 * Rsum (map (fun s => k s x - k s y) chosen).
(** the scale before the [i]-th pair *)
Fixpoint sigma_at {P} (k : P -> P -> R) (delta : R) (x : nat -> P) (i : nat) : R :=
  match i with
  | O => 0
  | S j => let s := sigma_at k delta x j in
           let b := pair_b k (x (2 * j)%nat) (x (2 * j + 1)%nat) in
           next_sigma b (thresh delta b s) s
  end.
