(** * Specification vocabulary for kernels: the documented formulas over the reals *)
From Coq Require Import List ZArith Reals.
From Coquelicot Require Import Coquelicot.
From Verif Require Import Num Jax RSum KernelModel.
Import ListNotations.
Open Scope R_scope.

(** jax.numpy's transcendental functions on the extended reals.  [fpow] of a negative
    finite base is not used by the kernels and left as NaN. *)
Definition ER_exp (a : ER) : ER :=
  match a with Fin x => Fin (exp x) | PInf => PInf | NInf => Fin 0 | NaN => NaN end.
Definition ER_fin1 (f : R -> R) (a : ER) : ER := match a with Fin x => Fin (f x) | _ => NaN end.
Definition ER_pow (a b : ER) : ER :=
  match b with
  | Fin y =>
      match nsign ROps y with
      | None => Fin 1
      | Some pos =>
          match a with
          | NaN | NInf => NaN
          | PInf => if pos then PInf else Fin 0
          | Fin x => match nsign ROps x with
                     | Some true => Fin (Rpower x y)
                     | None => if pos then Fin 0 else PInf
                     | Some false => NaN
                     end
          end
      end
  | _ => NaN
  end.
Definition ERT : TOps ER := mkTOps ER ER_exp (ER_fin1 sin) (ER_fin1 cos) (Fin PI) ER_pow.

(** ** Formulas from the class docstrings; [x], [y] are vectors of equal length *)
Definition vsub (x y : list R) : list R := map2 Rminus x y.
Definition sqdist (x y : list R) : R := Rdot (vsub x y) (vsub x y).
Definition dist2 (x y : list R) : R := sqrt (sqdist x y).
Definition dist1 (x y : list R) : R := Rsum (map Rabs (vsub x y)).
Definition matern_fun (len scale : R) (p : nat) (x y : list R) : R :=
  let b := sqrt (2 * INR p + 1) * dist2 x y / len in
  scale ^ 2 * exp (- b) * (INR (fact p) / INR (fact (2 * p))) *
  Rsum (map (fun i => INR (fact (p + i)) / (INR (fact i) * INR (fact (p - i))) * (2 * b) ^ (p - i)) (seq 0 (p + 1))).

(** replace coordinate [i] of [x] *)
Definition set_coord (i : nat) (x : list R) (t : R) : list R := upd i t x.
(** [g] is the gradient of [f] at [x] *)
Definition is_gradient (f : list R -> R) (x g : list R) : Prop :=
  length g = length x /\
  forall i, (i < length x)%nat -> is_derive (fun t => f (set_coord i x t)) (nth i x 0) (nth i g 0).
(** [D] is sum_i d/dx_i d/dy_i of [f] at [(x, y)] *)
Definition is_mixed_divergence (f : list R -> list R -> R) (x y : list R) (D : R) : Prop :=
  exists ds, length ds = length x /\ D = Rsum ds /\
  forall i, (i < length x)%nat ->
    locally (nth i x 0) (fun t => ex_derive (fun u => f (set_coord i x t) (set_coord i y u)) (nth i y 0)) /\
    is_derive (fun t => Derive (fun u => f (set_coord i x t) (set_coord i y u)) (nth i y 0))
      (nth i x 0) (nth i ds 0).

(** the value each class documents; the Stein kernel in terms of derivatives of its base *)
Definition partial_x (f : list R -> list R -> R) (i : nat) (x y : list R) : R :=
  Derive (fun t => f (set_coord i x t) y) (nth i x 0).
Definition partial_y (f : list R -> list R -> R) (i : nat) (x y : list R) : R :=
  Derive (fun u => f x (set_coord i y u)) (nth i y 0).
Definition stein_fun (f : list R -> list R -> R) (score : list R -> list R) (x y : list R) : R :=
  Rsum (map (fun i =>
    partial_x (partial_y f i) i x y + nth i (score x) 0 * partial_y f i x y
    + nth i (score y) 0 * partial_x f i x y) (seq 0 (length x)))
  + Rdot (score x) (score y) * f x y.

Fixpoint kfun (k : kern R) (x y : list R) : R :=
  match k with
  | KConst c => c
  | KLinear s c => s * Rdot x y + c
  | KPoly s c d => s * (Rdot x y + c) ^ Z.to_nat d
  | KExp l s => s * exp (- (dist2 x y / (2 * l ^ 2)))
  | KLap l s => s * exp (- (dist1 x y / (2 * l ^ 2)))
  | KSE l s => s * exp (- (sqdist x y / (2 * l ^ 2)))
  | KPCIMQ l s => s / sqrt (1 + sqdist x y / (2 * l ^ 2))
  | KRQ l s a => s * Rpower (1 + sqdist x y / (2 * a * l ^ 2)) (- a)
  | KMatern l s p => matern_fun l s (Z.to_nat p) x y
  | KPer l s p => s * exp (- 2 * sin (PI * dist2 x y / p) ^ 2 / l ^ 2)
  | KPoisson r s => s / (1 - 2 * r * cos (dist2 x y) + r ^ 2)
  | KAdd a b => kfun a x y + kfun b x y
  | KProd a b => kfun a x y * kfun b x y
  | KPow a n => kfun a x y ^ Z.to_nat n
  | KStein a score => stein_fun (kfun a) score x y
  end.

(** real hyper-parameters as array entries *)
Definition unfin (a : ER) : R := match a with Fin x => x | _ => 0 end.
Fixpoint lift (k : kern R) : kern ER :=
  match k with
  | KConst c => KConst (Fin c)
  | KLinear s c => KLinear (Fin s) (Fin c)
  | KPoly s c d => KPoly (Fin s) (Fin c) d
  | KExp l s => KExp (Fin l) (Fin s)
  | KLap l s => KLap (Fin l) (Fin s)
  | KSE l s => KSE (Fin l) (Fin s)
  | KPCIMQ l s => KPCIMQ (Fin l) (Fin s)
  | KRQ l s a => KRQ (Fin l) (Fin s) (Fin a)
  | KMatern l s p => KMatern (Fin l) (Fin s) p
  | KPer l s p => KPer (Fin l) (Fin s) (Fin p)
  | KPoisson r s => KPoisson (Fin r) (Fin s)
  | KAdd a b => KAdd (lift a) (lift b)
  | KProd a b => KProd (lift a) (lift b)
  | KPow a n => KPow (lift a) n
  | KStein a score => KStein (lift a) (fun x => map Fin (score (map unfin x)))
  end.

(** ** Which kernels *)
(** the hyper-parameter ranges the docstrings give *)
Definition documented_params (k : kern R) : Prop :=
  match k with
  | KConst c => 0 <= c
  | KLinear s c => 0 < s /\ 0 <= c
  | KPoly s c d => 0 < s /\ 0 <= c /\ (2 <= d)%Z
  | KExp l s | KLap l s | KSE l s | KPCIMQ l s => 0 < l /\ 0 < s
  | KRQ l s a => 0 < l /\ 0 < s /\ 0 <= a
  | KMatern l s p => 0 < l /\ 0 < s /\ (0 <= p)%Z
  | KPer l s p => 0 < l /\ 0 < s
  | KPoisson r s => 0 < r < 1 /\ 0 < s
  | KPow _ n => (1 <= n)%Z
  | KAdd _ _ | KProd _ _ | KStein _ _ => True
  end.
(** what [+], [*] and [**] can build from the kernels that ship closed-form derivatives
    (not Matern or Stein): constants only appear as right operands.  The relative
    weighting of a rational quadratic and the period of a periodic kernel are not 0. *)
Inductive closed_form : kern R -> Prop :=
| cf_linear s c : documented_params (KLinear s c) -> closed_form (KLinear s c)
| cf_poly s c d : documented_params (KPoly s c d) -> closed_form (KPoly s c d)
| cf_exp l s : documented_params (KExp l s) -> closed_form (KExp l s)
| cf_lap l s : documented_params (KLap l s) -> closed_form (KLap l s)
| cf_se l s : documented_params (KSE l s) -> closed_form (KSE l s)
| cf_pcimq l s : documented_params (KPCIMQ l s) -> closed_form (KPCIMQ l s)
| cf_rq l s a : documented_params (KRQ l s a) -> a <> 0 -> closed_form (KRQ l s a)
| cf_per l s p : documented_params (KPer l s p) -> p <> 0 -> closed_form (KPer l s p)
| cf_poisson r s : documented_params (KPoisson r s) -> closed_form (KPoisson r s)
| cf_add a b : closed_form a -> closed_form b -> closed_form (KAdd a b)
| cf_add_const a c : closed_form a -> 0 <= c -> closed_form (KAdd a (KConst c))
| cf_prod a b : closed_form a -> closed_form b -> closed_form (KProd a b)
| cf_prod_const a c : closed_form a -> 0 <= c -> closed_form (KProd a (KConst c))
| cf_pow a n : closed_form a -> (1 <= n)%Z -> closed_form (KPow a n).

(** every kernel expression over documented hyper-parameters, Matern included, without
    score functions; the period of a periodic kernel is not 0 *)
Fixpoint well_formed (k : kern R) : Prop :=
  documented_params k /\
  match k with
  | KPer _ _ p => p <> 0
  | KAdd a b | KProd a b => well_formed a /\ well_formed b
  | KPow a _ => well_formed a
  | KStein _ _ => False
  | _ => True
  end.

(** points away from the documented singularities: exponential and periodic kernels need
    x <> y, the Laplacian needs every coordinate to differ, the Poisson kernel is a
    function of one-dimensional data *)
Fixpoint smooth_at (k : kern R) (x y : list R) : Prop :=
  match k with
  | KExp _ _ | KPer _ _ _ => x <> y
  | KLap _ _ => forall i, (i < length x)%nat -> nth i x 0 <> nth i y 0
  | KPoisson _ _ => length x = 1%nat
  | KAdd a b | KProd a b => smooth_at a x y /\ smooth_at b x y
  | KPow a _ => smooth_at a x y
  | KMatern _ _ _ | KStein _ _ => False
  | _ => True
  end.
(** additionally for the divergence: a first power of a kernel is taken where it is not
    zero, and periodic kernels have output scale 1 *)
Fixpoint div_ok (k : kern R) (x y : list R) : Prop :=
  match k with
  | KPer _ s _ => s = 1
  | KAdd a b | KProd a b => div_ok a x y /\ div_ok b x y
  | KPow a n => div_ok a x y /\ (n = 1%Z -> kfun a x y <> 0)
  | _ => True
  end.
(** no product with a plain number *)
Fixpoint no_const_product {V} (k : kern V) : Prop :=
  match k with
  | KProd a b => no_const_product a /\ no_const_product b /\ (forall c, b <> KConst c)
  | KAdd a b => no_const_product a /\ no_const_product b
  | KPow a _ => no_const_product a
  | KStein a _ => no_const_product a
  | _ => True
  end.
(** what a user can build: any shipped kernel, and [+], [*], [**] and Stein kernels of
    such; plain numbers only as right operands *)
Inductive user_kernel {V} : kern V -> Prop :=
| uk_leaf k : match k with
    | KConst _ | KAdd _ _ | KProd _ _ | KPow _ _ | KStein _ _ => False | _ => True end -> user_kernel k
| uk_add a b : user_kernel a -> user_kernel b -> user_kernel (KAdd a b)
| uk_add_const a c : user_kernel a -> user_kernel (KAdd a (KConst c))
| uk_prod a b : user_kernel a -> user_kernel b -> user_kernel (KProd a b)
| uk_prod_const a c : user_kernel a -> user_kernel (KProd a (KConst c))
| uk_pow a n : user_kernel a -> user_kernel (KPow a n)
| uk_stein a sc : user_kernel a -> user_kernel (KStein a sc).
(** the score functions of a kernel return vectors of the dimension of their argument *)
Fixpoint scores_ok {V} (k : kern V) : Prop :=
  match k with
  | KAdd a b | KProd a b => scores_ok a /\ scores_ok b
  | KPow a _ => scores_ok a
  | KStein a sc => scores_ok a /\ forall x, length (sc x) = length x
  | _ => True
  end.
