(** * IEEE 754 arithmetic: the array-entry operations of the model in a binary
      floating point format with rounding to nearest even, for every order of summation

    JAX computes in binary32 by default ([prec] = 24, [emax] = 128) and in binary64 when
    [jax_enable_x64] is set ([prec] = 53, [emax] = 1024).  The operations are those of
    Flocq; every NaN is the same value.  XLA chooses the order in which the entries of a sum are
    added: [SumOrder] is an arbitrary choice, which may depend on the list.  (Two sums of
    equal lists get equal values; XLA could choose differently in two different programs.
    Fused multiply-add is not modelled.) *)
From Coq Require Import List ZArith Bool Reals.
From Flocq Require Import Core.Core IEEE754.BinarySingleNaN.
From Verif Require Import Num SumSpec SumProofs.
Import ListNotations.

(** how [jnp.sum] adds up a list: in some order, starting from [+0] *)
Class SumOrder (prec emax : Z) {Hprec : Prec_gt_0 prec} {Hmax : Prec_lt_emax prec emax} := mkSumOrder {
  sum_fun : list (binary_float prec emax) -> binary_float prec emax;
  sum_fun_ok : forall l, summed (Bplus mode_NE) (B754_zero false) l (sum_fun l)
}.

Section Float.
  Context (prec emax : Z) {Hprec : Prec_gt_0 prec} {Hmax : Prec_lt_emax prec emax} {Sm : SumOrder prec emax}.
  Notation flt := (binary_float prec emax).

  (** [jnp.nan_to_num] *)
  Definition Bnan_to_num (v : flt) : flt :=
    match v with
    | B754_nan => B754_zero false
    | B754_infinity s => if s then Bopp Bmax_float else Bmax_float
    | _ => v
    end.
  Definition FOpsIEEE : FOps flt :=
    mkFOps flt (B754_zero false) Bone (B754_infinity false) (B754_infinity true) B754_nan
      sum_fun (Bplus mode_NE) (Bminus mode_NE) (Bmult mode_NE) (Bdiv mode_NE)
      Bltb is_nan (fun z => binary_normalize prec emax _ _ mode_NE z 0 false)
      (Bsqrt mode_NE) Bnan_to_num.
End Float.

(** the order used in the runnable examples: from left to right *)
Definition left_to_right (prec emax : Z) {Hprec : Prec_gt_0 prec} {Hmax : Prec_lt_emax prec emax} : SumOrder prec emax :=
  {| sum_fun := fun l => fold_left (Bplus mode_NE) l (B754_zero false);
     sum_fun_ok := left_fold_summed (Bplus mode_NE) (B754_zero false) |}.

(** the two formats used by JAX *)
Global Instance prec24 : Prec_gt_0 24 := eq_refl.
Global Instance prec53 : Prec_gt_0 53 := eq_refl.
Global Instance max128 : Prec_lt_emax 24 128 := eq_refl.
Global Instance max1024 : Prec_lt_emax 53 1024 := eq_refl.
Global Instance order32 : SumOrder 24 128 := left_to_right 24 128.
Global Instance order64 : SumOrder 53 1024 := left_to_right 53 1024.
Notation F32 := (binary_float 24 128).
Notation F64 := (binary_float 53 1024).
Definition F32Ops : FOps F32 := FOpsIEEE 24 128.
Definition F64Ops : FOps F64 := FOpsIEEE 53 1024.
(** [n * 2^e], rounded *)
Definition f32 (n e : Z) : F32 := binary_normalize 24 128 _ _ mode_NE n e false.
