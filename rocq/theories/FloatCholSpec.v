(** * What is assumed of [jax.random.choice] in floating point arithmetic *)
From Coq Require Import List ZArith Reals.
From Flocq Require Import Core.Core IEEE754.BinarySingleNaN.
Import ListNotations.
Open Scope R_scope.

(** as [pick_ok] of CholSpec.v: the index is in range, and if the weights are finite and
    not negative and one of them is positive, then the drawn index has positive weight *)
Definition float_pick_ok {prec emax} (pick : nat -> list (binary_float prec emax) -> nat) : Prop :=
  forall i p, p <> [] ->
    (pick i p < length p)%nat /\
    ((forall v, In v p -> is_finite v = true /\ 0 <= B2R v) ->
     (exists v, In v p /\ 0 < B2R v) ->
     0 < B2R (nth (pick i p) p B754_nan)).
(** a kernel diagonal entry: a finite non-negative number, or not-a-number *)
Definition float_diag_ok {prec emax} (v : binary_float prec emax) : Prop :=
  is_nan v = true \/ (is_finite v = true /\ 0 <= B2R v).
