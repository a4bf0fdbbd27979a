(** * Specification of valid coresets for floating point weights *)
From Coq Require Import List ZArith Reals.
From Flocq Require Import Core.Core IEEE754.BinarySingleNaN.
Import ListNotations.
Open Scope R_scope.

Section Spec.
  Context {prec emax : Z}.
  Notation flt := (binary_float prec emax).
  (** a number, not infinite, of absolute value at most [2^e] *)
  Definition at_most (e : Z) (v : flt) : Prop := is_finite v = true /\ Rabs (B2R v) <= bpow radix2 e.
  (** a number, not infinite, not negative *)
  Definition weight_ok (v : flt) : Prop := is_finite v = true /\ 0 <= B2R v.
  (** how many of the weights are positive *)
  Definition positives (w : list flt) : nat := length (filter (fun v => Rlt_bool 0 (B2R v)) w).
  (** [m] indices of points of positive weight, distinct if [unique] *)
  Definition valid_indices (w : list flt) (m : nat) (unique : bool) (l : list nat) : Prop :=
    length l = m /\ (forall i, In i l -> (i < length w)%nat /\ 0 < B2R (nth i w B754_nan)) /\ (unique = true -> NoDup l).
End Spec.
(** the number format has room for sums of [2^a] numbers of size [2^e] and their multiples *)
Record room (prec emax a e : Z) : Prop := mkRoom {
  room_size : (1 <= a /\ a + 3 <= prec)%Z;
  room_large : (e + 3 * a + 5 <= emax)%Z;
  room_small : (3 - emax - prec <= e)%Z
}.
