(** * Specification vocabulary: expectation over independent uniform numbers *)
From Coq Require Import List Reals.
From Coquelicot Require Import Coquelicot.
Import ListNotations.
Open Scope R_scope.

(** [expect n F v]: [v] is the expectation of [F [u_1; ...; u_n]] for [u_1, ..., u_n]
    independent and uniform on the unit interval (an iterated integral that exists) *)
Fixpoint expect (n : nat) (F : list R -> R) (v : R) : Prop :=
  match n with
  | 0%nat => v = F []
  | S n => exists g : R -> R,
      (forall u, 0 <= u <= 1 -> expect n (fun us => F (u :: us)) (g u)) /\ is_RInt g 0 1 v
  end.
