(** * Model of the loop depths computed with floating point logarithms
    The Python numbers are doubles: the results of [log2], [log], the differences and the
    quotients are rounded.  [log2 x] and [log x] are the functions of the C library. *)
From Coq Require Import ZArith Reals.
From Flocq Require Import Core.Core.
From Verif Require Import MapReduceFloat.
Open Scope R_scope.

(** coresubset.py:1377 [math.floor(math.log2(n) - math.log2(self.coreset_size))] *)
Definition kt_depth_computed (log2 : R -> R) (n size : nat) : Z :=
  Zfloor (double (log2 (INR n) - log2 (INR size))).
(** coresubset.py:1768 [math.floor(math.log(n, 4))]; CPython computes log(n) / log(4) *)
Definition cp_log4_computed (log : R -> R) (n : nat) : Z :=
  Zfloor (double (log (INR n) / log 4)).
(** recombination.py:586 [max(1, math.ceil(math.log(n / m, tree_reduction_factor)))] *)
Definition rec_depth_computed (log : R -> R) (n m factor : nat) : Z :=
  Z.max 1 (Zceil (double (log (double (INR n / INR m)) / log (INR factor)))).
