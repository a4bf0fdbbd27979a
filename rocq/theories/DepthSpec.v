(** * Specification of the C library's logarithms (C75) *)
From Coq Require Import ZArith Reals.
From Verif Require Import MapReduceFloat.
Open Scope R_scope.

(** accurate to 2^-44, far less than what C libraries provide, on the range that occurs *)
Definition accurate (f exact : R -> R) : Prop :=
  forall x, / 2 ^ 31 <= x <= 2 ^ 31 -> Rabs (f x - exact x) <= / 2 ^ 44.
Definition lg (x : R) : R := ln x / ln 2.
(** the best possible: every result is the double nearest to the exact one *)
Definition nearest (exact : R -> R) (x : R) : R := double (exact x).
