(** * Specification of the accuracy of compound kernels in floating point *)
From Coq Require Import List ZArith Reals.
From Flocq Require Import Core.Core IEEE754.BinarySingleNaN.
From Verif Require Import KernelModel KernelSpec FloatKernSpec.
Import ListNotations.
Open Scope R_scope.

(** a bound on the size of a number and a bound on the error of its computed value *)
Record acc := mkAcc { size : R; error : R }.

Section Spec.
  Context {prec emax : Z}.
  Notation flt := (binary_float prec emax).
  Notation u := (bpow radix2 (- prec)).
  (** the smallest numbers that are rounded with a relative error of [u] *)
  Notation tiny := (bpow radix2 (2 - emax)).
  (** the computed value [v] of [x] has this accuracy *)
  Definition computes (a : acc) (v : flt) (x : R) : Prop :=
    is_finite v = true /\ Rabs x <= size a /\ Rabs (B2R v - x) <= error a.
  Definition fits (a : acc) : Prop := size a + error a < bpow radix2 emax.

  (** propagation of errors through a rounded sum and a rounded product *)
  Definition exactly (v : flt) : acc := mkAcc (Rabs (B2R v)) 0.
  Definition add_acc (a b : acc) : acc :=
    mkAcc (size a + size b) (error a + error b + u * (size a + error a + (size b + error b))).
  Definition mul_acc (a b : acc) : acc :=
    mkAcc (size a * size b)
      ((size a + error a) * error b + size b * error a + u * ((size a + error a) * (size b + error b) + tiny)).
  Definition pow_acc (a : acc) (d : Z) : acc :=
    match d with 2%Z => mul_acc a a | 3%Z => mul_acc a (mul_acc a a) | _ => a end.
  (** the scalar product of two points with [n] features of absolute value up to [2^b] *)
  Definition dot_acc (n : nat) (b : Z) : acc :=
    mkAcc (INR n * bpow radix2 (2 * b)) (2 * INR (n + 1) * u * (INR n * (bpow radix2 (2 * b) + tiny))).

  (** [n] features up to [2^b]; base kernels up to [2^e], [exp] of accuracy [c] *)
  Variables (n : nat) (b e : Z) (c : R).
  Definition base_acc : acc := mkAcc (bpow radix2 e) (kernel_error prec n e c).
  Fixpoint kernel_acc (k : kern flt) : acc :=
    match k with
    | KConst v => exactly v
    | KLinear s v => add_acc (mul_acc (exactly s) (dot_acc n b)) (exactly v)
    | KPoly s v d => mul_acc (exactly s) (pow_acc (add_acc (dot_acc n b) (exactly v)) d)
    | KAdd k1 k2 => add_acc (kernel_acc k1) (kernel_acc k2)
    | KProd k1 k2 => mul_acc (kernel_acc k1) (kernel_acc k2)
    | KPow k1 d => pow_acc (kernel_acc k1) d
    | _ => base_acc
    end.
  (** no power overflows *)
  Definition pow_fits (a : acc) (d : Z) : Prop := fits (pow_acc a d) /\ (d = 3%Z -> fits (mul_acc a a)).
  (** the kernels covered: sums, products and powers (up to three: the order of the
      multiplications is then fixed) of constant, linear, polynomial and built-in
      exponential and inverse multiquadric kernels, with length scales between [2^-q] and
      [2^q], without overflow *)
  Fixpoint compound (q : Z) (k : kern flt) : Prop :=
    match k with
    | KConst v => is_finite v = true
    | KLinear s v => is_finite s = true /\ is_finite v = true /\ fits (mul_acc (exactly s) (dot_acc n b)) /\ fits (kernel_acc k)
    | KPoly s v d => is_finite s = true /\ is_finite v = true /\ (1 <= d <= 3)%Z /\
        fits (add_acc (dot_acc n b) (exactly v)) /\ pow_fits (add_acc (dot_acc n b) (exactly v)) d /\ fits (kernel_acc k)
    | KAdd k1 k2 | KProd k1 k2 => compound q k1 /\ compound q k2 /\ fits (kernel_acc k)
    | KPow k1 d => compound q k1 /\ (1 <= d <= 3)%Z /\ pow_fits (kernel_acc k1) d
    | _ => exists l s f, documented k = Some (l, s, f) /\ sane_params q e l s
    end.
  (** the kernel with its parameters as real numbers *)
  Fixpoint real_kernel (k : kern flt) : kern R :=
    match k with
    | KConst v => KConst (B2R v)
    | KLinear s v => KLinear (B2R s) (B2R v)
    | KPoly s v d => KPoly (B2R s) (B2R v) d
    | KExp l s => KExp (B2R l) (B2R s)
    | KLap l s => KLap (B2R l) (B2R s)
    | KSE l s => KSE (B2R l) (B2R s)
    | KPCIMQ l s => KPCIMQ (B2R l) (B2R s)
    | KRQ l s a => KRQ (B2R l) (B2R s) (B2R a)
    | KMatern l s p => KMatern (B2R l) (B2R s) p
    | KPer l s p => KPer (B2R l) (B2R s) (B2R p)
    | KPoisson i s => KPoisson (B2R i) (B2R s)
    | KAdd k1 k2 => KAdd (real_kernel k1) (real_kernel k2)
    | KProd k1 k2 => KProd (real_kernel k1) (real_kernel k2)
    | KPow k1 d => KPow (real_kernel k1) d
    | KStein k1 _ => real_kernel k1 (* not covered *)
    end.
  (** a data point with [n] features up to [2^b] *)
  Definition bounded_point (x : list flt) : Prop :=
    length x = n /\ Forall (fun v => is_finite v = true /\ Rabs (B2R v) <= bpow radix2 b) x.
End Spec.
(** room for base kernels (see [kernel_room]), an [exp] of accuracy [c], and scalar products *)
Record compound_room (prec emax q : Z) (n : nat) (b e : Z) (c : R) : Prop := mkCompoundRoom {
  cr_room : kernel_room prec emax q n;
  cr_base : (2 - emax <= e /\ e + 1 <= emax)%Z;
  cr_exp : 0 <= c <= bpow radix2 (prec - 1);
  cr_dot : INR n * (bpow radix2 (2 * b) + bpow radix2 (2 - emax)) <= bpow radix2 (emax - 2)
}.
