(** * Specification vocabulary: low-rank approximation by a subset of the rows *)
From Coq Require Import List Reals.
From Verif Require Import Num RSum MetricSpec.
From Coquelicot Require Import Coquelicot.
Import ListNotations.
Open Scope R_scope.

(** [draw p u] is the index drawn with weights [p] from the random number [u]: for [u]
    uniform on the unit interval, index [j] comes with probability [p_j / sum p]
    (stated through the average of any function [f] of the index) *)
Definition draws_by_weight (draw : list ER -> R -> nat) : Prop :=
  forall p : list R, (forall r, In r p -> 0 <= r) -> 0 < Rsum p ->
  forall f : nat -> R,
    is_RInt (fun u => f (draw (map Fin p) u)) 0 1
      (Rsum (map (fun j => nth j p 0 / Rsum p * f j) (seq 0 (length p)))).

(** [e] is the squared distance, in the feature space of the kernel [k], of [a] to the
    span of the points [ys] *)
Definition span_distance2 {P} (k : P -> P -> R) (ys : list P) (a : P) (e : R) : Prop :=
  let dist2 cs := let v := (a, 1) :: combine ys cs in bil k v v in
  (forall cs, length cs = length ys -> e <= dist2 cs) /\
  (exists cs, length cs = length ys /\ e = dist2 cs).

(** vectors of length [n], orthonormal families, quadratic form of the Gram matrix *)
Definition inner (n : nat) (v w : nat -> R) : R := Rsum (map (fun i => v i * w i) (seq 0 n)).
Fixpoint orthonormal (n : nat) (vs : list (nat -> R)) : Prop :=
  match vs with
  | [] => True
  | v :: vs => inner n v v = 1 /\ (forall w, In w vs -> inner n v w = 0) /\ orthonormal n vs
  end.
Definition gram_trace {P} (k : P -> P -> R) (xs : list P) : R := Rsum (map (fun a => k a a) xs).
(** the part of the trace of the Gram matrix carried by the directions [vs] *)
Definition captured {P} (k : P -> P -> R) (p0 : P) (xs : list P) (vs : list (nat -> R)) : R :=
  Rsum (map (fun v => Rsum (map (fun i => Rsum (map (fun j =>
    v i * k (nth i xs p0) (nth j xs p0) * v j) (seq 0 (length xs)))) (seq 0 (length xs)))) vs).
