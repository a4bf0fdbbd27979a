(** * Specification of the accuracy of kernel means in floating point *)
From Coq Require Import List ZArith Reals.
From Flocq Require Import Core.Core IEEE754.BinarySingleNaN.
From Verif Require Import RSum FloatIdxSpec.
Import ListNotations.
Open Scope R_scope.

(** the block size used for [n] points: the requested one, at least 1 and at most [n] *)
Definition block_used (n : nat) (b : option Z) : nat :=
  match b with None => n | Some z => Nat.min (Nat.max 1 (Z.to_nat z)) n end.
(** [n / b] rounded up *)
Definition block_count (n b : nat) : nat := ((n + (b - 1)) / b)%nat.
(** roundings behind the mean of one row over [m] points in blocks of [b]: [m + 1] for a
    normalised weight, one for its product with the kernel, [b] for the sum in a block and
    one for every block *)
Definition row_roundings (m b : nat) : nat := (m + b + block_count m b + 2)%nat.
(** roundings behind the mean over all pairs *)
Definition roundings (n m bx by_ : nat) : nat :=
  (n + m + bx + by_ + block_count n bx * block_count m by_ + 4)%nat.

(** room in the number format for at most [2^a] points, kernel values up to [2^e] and [L]
    roundings *)
Record mean_room (prec emax a e : Z) (L : nat) : Prop := mkMeanRoom {
  mr_size : (0 <= a /\ a + 7 <= emax)%Z;
  mr_large : (e + 4 <= emax)%Z;
  mr_small : (2 * a + 7 <= e + emax)%Z;
  mr_depth : (Z.of_nat L <= 2 ^ (prec - 1))%Z
}.

Section Spec.
  Context {prec emax : Z}.
  Notation flt := (binary_float prec emax).
  Definition total (w : list flt) : R := Rsum (map B2R w).
  (** a data set of at most [2^a] points, one weight for each; the weights are finite, not
      negative, and their total is positive and at most a quarter of the overflow threshold *)
  Record weighted_data (a : Z) {P} (xs : list P) (w : list flt) : Prop := mkWData {
    wd_size : (Z.of_nat (length xs) <= 2 ^ a)%Z;
    wd_len : length w = length xs;
    wd_ok : Forall weight_ok w;
    wd_pos : 0 < total w;
    wd_max : total w <= bpow radix2 (emax - 2)
  }.
End Spec.
