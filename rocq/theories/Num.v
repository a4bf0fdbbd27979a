(** * Numbers: scalar fields and IEEE-style extended values

    The code under study computes with JAX floating point arrays.  The model
    abstracts rounding (finite arithmetic is exact) but keeps the special
    values +inf, -inf and NaN, because the solvers use them as control flow
    (infinite penalties, NaN-masking, 0/0 in [normalize], ...).

    [NumOps T] : operations of an exact scalar type, no laws.
    [ext T]    : finite value of [T] or a special value.
    [FOps V]   : operations of the array-entry type used by all models. *)

From Coq Require Import List ZArith QArith Qreduction Qabs Reals Bool Lia Lra.
Import ListNotations.

Record NumOps (T : Type) : Type := mkNumOps {
  n0 : T; n1 : T;
  nadd : T -> T -> T; nsub : T -> T -> T; nmul : T -> T -> T; ndiv : T -> T -> T;
  nleb : T -> T -> bool;
  nofZ : Z -> T;
  nsqrt : T -> T;
  nbig : T  (* the largest finite float, used by [nan_to_num] only *)
}.
Arguments n0 {T}. Arguments n1 {T}. Arguments nadd {T}. Arguments nsub {T}.
Arguments nmul {T}. Arguments ndiv {T}. Arguments nleb {T}. Arguments nofZ {T}.
Arguments nsqrt {T}. Arguments nbig {T}.

Definition nltb {T} (N : NumOps T) (a b : T) : bool := negb (nleb N b a).
Definition neqb {T} (N : NumOps T) (a b : T) : bool := nleb N a b && nleb N b a.

(** The only laws of the scalar order that index-level theorems need. *)
Record NumLaws {T} (N : NumOps T) : Prop := mkNumLaws {
  nleb_refl  : forall a, nleb N a a = true;
  nleb_trans : forall a b c, nleb N a b = true -> nleb N b c = true -> nleb N a c = true;
  nleb_total : forall a b, nleb N a b = true \/ nleb N b a = true;
  n01        : nleb N (n1 N) (n0 N) = false
}.

(** ** Extended values *)
Inductive ext (T : Type) : Type := Fin (x : T) | PInf | NInf | NaN.
Arguments Fin {T}. Arguments PInf {T}. Arguments NInf {T}. Arguments NaN {T}.

Definition is_fin {T} (a : ext T) : bool := match a with Fin _ => true | _ => false end.

Section ExtOps.
  Context {T : Type} (N : NumOps T).

  Definition eneg (a : ext T) : ext T :=
    match a with
    | Fin x => Fin (nsub N (n0 N) x) | PInf => NInf | NInf => PInf | NaN => NaN
    end.
  Definition eadd (a b : ext T) : ext T :=
    match a, b with
    | NaN, _ | _, NaN => NaN
    | Fin x, Fin y => Fin (nadd N x y)
    | PInf, NInf | NInf, PInf => NaN
    | PInf, _ | _, PInf => PInf
    | NInf, _ | _, NInf => NInf
    end.
  Definition esub (a b : ext T) : ext T :=
    match a, b with
    | NaN, _ | _, NaN => NaN
    | Fin x, Fin y => Fin (nsub N x y)
    | PInf, PInf | NInf, NInf => NaN
    | PInf, _ | _, NInf => PInf
    | NInf, _ | _, PInf => NInf
    end.
  (** sign of a finite value: [Some true] positive, [Some false] negative *)
  Definition nsign (x : T) : option bool :=
    if nltb N (n0 N) x then Some true else if nltb N x (n0 N) then Some false else None.
  Definition inf_times (pos : bool) (x : T) : ext T :=
    match nsign x with
    | None => NaN
    | Some s => if Bool.eqb s pos then PInf else NInf
    end.
  Definition emul (a b : ext T) : ext T :=
    match a, b with
    | NaN, _ | _, NaN => NaN
    | Fin x, Fin y => Fin (nmul N x y)
    | PInf, Fin y => inf_times true y
    | NInf, Fin y => inf_times false y
    | Fin x, PInf => inf_times true x
    | Fin x, NInf => inf_times false x
    | PInf, PInf | NInf, NInf => PInf
    | PInf, NInf | NInf, PInf => NInf
    end.
  (** Zeros are unsigned: x/0 follows IEEE division by +0. *)
  Definition ediv (a b : ext T) : ext T :=
    match a, b with
    | NaN, _ | _, NaN => NaN
    | Fin x, Fin y =>
        match nsign y with
        | None => match nsign x with None => NaN | Some true => PInf | Some false => NInf end
        | Some _ => Fin (ndiv N x y)
        end
    | Fin _, _ => Fin (n0 N)
    | PInf, Fin y => match nsign y with Some false => NInf | _ => PInf end
    | NInf, Fin y => match nsign y with Some false => PInf | _ => NInf end
    | _, _ => NaN
    end.
  (** IEEE [<]: false as soon as a NaN is involved. *)
  Definition eltb (a b : ext T) : bool :=
    match a, b with
    | NaN, _ | _, NaN => false
    | Fin x, Fin y => nltb N x y
    | NInf, NInf => false
    | NInf, _ => true
    | Fin _, PInf => true
    | _, _ => false
    end.
  Definition eisnan (a : ext T) : bool := match a with NaN => true | _ => false end.
  Definition esqrt (a : ext T) : ext T :=
    match a with
    | Fin x => if nltb N x (n0 N) then NaN else Fin (nsqrt N x)
    | PInf => PInf | _ => NaN
    end.
  (** [jnp.nan_to_num] *)
  Definition enan_to_num (a : ext T) : ext T :=
    match a with
    | Fin x => Fin x | NaN => Fin (n0 N)
    | PInf => Fin (nbig N) | NInf => Fin (nsub N (n0 N) (nbig N))
    end.
End ExtOps.

(** ** Operations on array entries *)
Record FOps (V : Type) : Type := mkFOps {
  f0 : V; f1 : V; finf : V; fninf : V; fnan : V;
  fsum : list V -> V;   (* [jnp.sum]: the implementation chooses the order of the additions *)
  fadd : V -> V -> V; fsub : V -> V -> V; fmul : V -> V -> V; fdiv : V -> V -> V;
  fltb : V -> V -> bool;
  fisnan : V -> bool;
  fofZ : Z -> V;
  fsqrt : V -> V;
  fnan_to_num : V -> V
}.
Arguments f0 {V}. Arguments f1 {V}. Arguments finf {V}. Arguments fninf {V}.
Arguments fnan {V}. Arguments fsum {V}. Arguments fadd {V}. Arguments fsub {V}. Arguments fmul {V}.
Arguments fdiv {V}. Arguments fltb {V}. Arguments fisnan {V}. Arguments fofZ {V}.
Arguments fsqrt {V}. Arguments fnan_to_num {V}.

Definition extOps {T} (N : NumOps T) : FOps (ext T) :=
  mkFOps (ext T) (Fin (n0 N)) (Fin (n1 N)) PInf NInf NaN
    (fun l => fold_left (eadd N) l (Fin (n0 N))) (eadd N) (esub N) (emul N) (ediv N) (eltb N) eisnan
    (fun z => Fin (nofZ N z)) (esqrt N) (enan_to_num N).

(** Derived comparisons (IEEE [<=], [==]) and JAX [maximum]/[minimum], which
    propagate NaN. *)
Definition fleb {V} (O : FOps V) (a b : V) : bool :=
  negb (fisnan O a) && negb (fisnan O b) && negb (fltb O b a).
Definition feqb {V} (O : FOps V) (a b : V) : bool := fleb O a b && fleb O b a.
Definition fmax {V} (O : FOps V) (a b : V) : V :=
  if fisnan O a then a else if fisnan O b then b else if fltb O a b then b else a.
Definition fmin {V} (O : FOps V) (a b : V) : V :=
  if fisnan O a then a else if fisnan O b then b else if fltb O b a then b else a.
Definition fgt0 {V} (O : FOps V) (a : V) : bool := fltb O (f0 O) a.
Definition fneg {V} (O : FOps V) (a : V) : V := fsub O (f0 O) a.
Definition fabs {V} (O : FOps V) (a : V) : V := if fltb O (f0 O) a then a else fneg O a.

(** Dot products.  JAX leaves the order of the additions in a sum unspecified.  In the
    exact instance it is irrelevant (PropOrder.v) and sums are left folds; the floating
    point instance (Float.v) is given for every order. *)
Fixpoint map2 {A B C} (f : A -> B -> C) (l : list A) (m : list B) : list C :=
  match l, m with a :: l', b :: m' => f a b :: map2 f l' m' | _, _ => [] end.
Definition fdot {V} (O : FOps V) (l m : list V) : V := fsum O (map2 (fmul O) l m).

(** ** The two scalar instances *)
Definition Rleb (a b : R) : bool := if Rle_dec a b then true else false.
Definition ROps : NumOps R :=
  mkNumOps R 0%R 1%R Rplus Rminus Rmult Rdiv Rleb IZR R_sqrt.sqrt (IZR (2 ^ 128)).

(** Runnable instance.  The square root is exact on squares of rationals and
    only used on such values in the examples. *)
Definition Qsqrt (q : Q) : Q :=
  let q := Qred q in Qmake (Z.sqrt (Qnum q)) (Pos.sqrt (Qden q)).
Definition QOps : NumOps Q :=
  mkNumOps Q 0%Q 1%Q (fun a b => Qred (a + b)) (fun a b => Qred (a - b))
    (fun a b => Qred (a * b)) (fun a b => Qred (a / b))
    Qle_bool inject_Z Qsqrt (inject_Z (2 ^ 128)).

Notation ER := (ext R).
Notation EQ := (ext Q).
Definition EROps : FOps ER := extOps ROps.
Definition EQOps : FOps EQ := extOps QOps.
