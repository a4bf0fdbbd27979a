(** * Vocabulary for greedy kernel points in floating point arithmetic *)
From Coq Require Import List ZArith Reals.
From Flocq Require Import Core.Core IEEE754.BinarySingleNaN.
From Verif Require Import Num Jax GKPModel FloatIdxSpec.
Import ListNotations.

(** the number format has room for sums of [2^a] squared predictions, when kernel values
    are at most [2^e] and the coefficients of the fits at most [2^c] *)
Record fit_room (prec emax a e c : Z) : Prop := mkFitRoom {
  fr_size : (0 <= a /\ a + 2 <= prec)%Z;
  fr_values : (0 <= e /\ 0 <= c)%Z;
  fr_large : (2 * (a + e + c) + a + 2 <= emax)%Z }.

(** the least-squares solver returns numbers of size at most [2^c] on systems of [m]
    equations whose entries are at most [2^e] and right hand sides at most [2^r] *)
Definition solver_bounded {prec emax} (m : nat) (e r c : Z) (solve : ls_solver (V := binary_float prec emax)) : Prop :=
  forall A reg b I, Forall (Forall (at_most e)) A -> length b = m -> Forall (at_most r) b -> Forall (at_most c) (solve A reg b I).
