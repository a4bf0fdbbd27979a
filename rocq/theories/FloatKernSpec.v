(** * Specification of the accuracy of the built-in kernels in floating point *)
From Coq Require Import List ZArith Reals.
From Flocq Require Import Core.Core IEEE754.BinarySingleNaN.
From Verif Require Import KernelModel KernelSpec.
Import ListNotations.
Open Scope R_scope.

(** the number format has room for length scales between [2^-q] and [2^q] and points with
    [n] features *)
Record kernel_room (prec emax q : Z) (n : nat) : Prop := mkKernelRoom {
  kr_len : (0 <= q /\ 4 * q + 2 * prec + 2 <= emax)%Z;
  kr_dim : (16 * (Z.of_nat n + 10) <= 2 ^ prec)%Z
}.

Section Spec.
  Context {prec emax : Z}.
  Notation flt := (binary_float prec emax).
  (** [exp] has an absolute error of at most [c * 2^-prec] for arguments up to 0, including
      minus infinity.  (The libraries used by XLA have a relative error of a few units in the
      last place.) *)
  Record exp_accurate (c : R) (T : TOps flt) : Prop := mkExpAccurate {
    ea_exp : forall v, is_finite v = true -> B2R v <= 0 ->
      is_finite (fexp T v) = true /\ Rabs (B2R (fexp T v) - exp (B2R v)) <= c * bpow radix2 (- prec);
    ea_inf : is_finite (fexp T (B754_infinity true)) = true /\ Rabs (B2R (fexp T (B754_infinity true))) <= c * bpow radix2 (- prec)
  }.
  (** length scale, output scale and the documented formula (KernelSpec.v) of a kernel *)
  Definition documented (k : kern flt) : option (flt * flt * (list R -> list R -> R)) :=
    match k with
    | KExp l s => Some (l, s, kfun (KExp (B2R l) (B2R s)))
    | KLap l s => Some (l, s, kfun (KLap (B2R l) (B2R s)))
    | KSE l s => Some (l, s, kfun (KSE (B2R l) (B2R s)))
    | KPCIMQ l s => Some (l, s, kfun (KPCIMQ (B2R l) (B2R s)))
    | _ => None
    end.
  (** a length scale between [2^-q] and [2^q], a positive output scale up to [2^e] *)
  Definition sane_params (q e : Z) (l s : flt) : Prop :=
    is_finite l = true /\ bpow radix2 (- q) <= B2R l <= bpow radix2 q /\ is_finite s = true /\ 0 < B2R s <= bpow radix2 e.
  (** the value of a kernel method that returns a number *)
  Definition number (t : ten flt) : flt := match t with Sc v => v | _ => B754_nan end.
End Spec.
(** the error bound, for [n] features, kernels up to [2^e] and [exp] of accuracy [c] *)
Definition kernel_error (prec : Z) (n : nat) (e : Z) (c : R) : R := (6 * INR n + c + 75) * bpow radix2 (e - prec).
