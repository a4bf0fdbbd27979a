(** * Specification for C78: the expected discrepancy of random samples *)
From Coq Require Import List Reals Arith.
From Verif Require Import RSum.
Import ListNotations.
Open Scope R_scope.

Definition average {A} (f : A -> R) (l : list A) : R := Rsum (map f l) / INR (length l).
(** a finite probability space: outcomes [space] with probabilities [q] *)
Definition expectation {W} (space : list W) (q f : W -> R) : R := Rsum (map (fun s => q s * f s) space).
Definition probability {W} (space : list W) (q : W -> R) (event : W -> bool) : R :=
  expectation space q (fun s => if event s then 1 else 0).
Definition distribution {W} (space : list W) (q : W -> R) : Prop := (forall s, In s space -> 0 <= q s) /\ Rsum (map q space) = 1.
(** [draw] takes the values [outcomes] with the probabilities [prob] *)
Definition has_law {W} (space : list W) (q : W -> R) (draw : W -> list nat) (outcomes : list (list nat)) (prob : list nat -> R) : Prop :=
  (forall s, In s space -> In (draw s) outcomes) /\
  forall f : list nat -> R, expectation space q (fun s => f (draw s)) = Rsum (map (fun l => prob l * f l) outcomes).

(** all ways to draw [m] entries of [l] one after another without replacement *)
Fixpoint orderings (m : nat) (l : list nat) : list (list nat) :=
  match m with
  | O => [[]]
  | S m' => flat_map (fun i => map (cons i) (orderings m' (remove Nat.eq_dec i l))) l
  end.
(** [m] rows of [n], all orderings being equally likely *)
Definition uniform_without_replacement {W} (space : list W) (q : W -> R) (draw : W -> list nat) (n m : nat) : Prop :=
  has_law space q draw (orderings m (seq 0 n)) (fun _ => / INR (length (orderings m (seq 0 n)))).
(** all sequences of [m] entries of [l] *)
Fixpoint sequences (m : nat) (l : list nat) : list (list nat) :=
  match m with
  | O => [[]]
  | S m' => flat_map (fun i => map (cons i) (sequences m' l)) l
  end.
(** [m] independent draws of rows with probabilities [p] *)
Definition independent_draws {W} (space : list W) (q : W -> R) (draw : W -> list nat) (p : list R) (m : nat) : Prop :=
  has_law space q draw (sequences m (seq 0 (length p))) (fun l => fold_right Rmult 1 (map (fun i => nth i p 0) l)).
