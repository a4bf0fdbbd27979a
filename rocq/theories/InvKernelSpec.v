(** * Specification for C74: motions of the feature space and the shipped kernels *)
From Coq Require Import List ZArith Reals.
From Verif Require Import Num Jax RSum KernelModel KernelSpec.
Import ListNotations.
Open Scope R_scope.

(** [x + t] and [c * x] coordinate by coordinate *)
Definition translate (t x : list R) : list R := map2 Rplus x t.
Definition dilate (c : R) (x : list R) : list R := map (Rmult c) x.

(** kernel expressions built with +, * and ** from the kernels that are functions of
    [x - y] *)
Fixpoint stationary (k : kern R) : Prop :=
  match k with
  | KLinear _ _ | KPoly _ _ _ | KStein _ _ => False
  | KAdd a b | KProd a b => stationary a /\ stationary b
  | KPow a _ => stationary a
  | _ => True
  end.
(** those that are functions of the Euclidean distance: not the Laplacian kernel *)
Fixpoint isotropic (k : kern R) : Prop :=
  match k with
  | KLinear _ _ | KPoly _ _ _ | KStein _ _ | KLap _ _ => False
  | KAdd a b | KProd a b => isotropic a /\ isotropic b
  | KPow a _ => isotropic a
  | _ => True
  end.
(** those with a length (or period) in every factor: not the Poisson kernel *)
Fixpoint has_units (k : kern R) : Prop :=
  match k with
  | KLinear _ _ | KPoly _ _ _ | KStein _ _ | KPoisson _ _ => False
  | KAdd a b | KProd a b => has_units a /\ has_units b
  | KPow a _ => has_units a
  | _ => True
  end.
(** the kernel in another unit of length.  The exponential and the Laplacian kernel divide
    the distance itself by [2 * length_scale ^ 2], so their length scale changes with the
    square root of the unit; for the periodic kernel the period carries the unit. *)
Fixpoint change_unit (c : R) (k : kern R) : kern R :=
  match k with
  | KExp l s => KExp (sqrt c * l) s
  | KLap l s => KLap (sqrt c * l) s
  | KSE l s => KSE (c * l) s
  | KPCIMQ l s => KPCIMQ (c * l) s
  | KRQ l s a => KRQ (c * l) s a
  | KMatern l s p => KMatern (c * l) s p
  | KPer l s p => KPer l s (c * p)
  | KAdd a b => KAdd (change_unit c a) (change_unit c b)
  | KProd a b => KProd (change_unit c a) (change_unit c b)
  | KPow a n => KPow (change_unit c a) n
  | _ => k
  end.

(** the array entry [kernel.compute_elementwise] returns, as used by the solvers *)
Definition computed jgrad keq (k : kern R) (x y : list R) : ER :=
  match m_val (methods EROps ERT jgrad keq (lift k)) (map Fin x) (map Fin y) with Sc v => v | _ => NaN end.
