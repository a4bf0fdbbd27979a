(** * The fragment of JAX array semantics used by coreax

    Arrays are lists.  Index arrays hold integers [Z] because JAX gives a
    meaning to negative and out-of-range indices. *)

From Coq Require Import List ZArith Bool Lia Permutation.
From Verif Require Import Num.
Import ListNotations.

(** Exceptions are values; the payload is the Python exception class. *)
Inductive exn := ValueError | TypeError | ZeroDivisionError | ShapeError | RecursionLimit.
Inductive result (A : Type) := Ok (a : A) | Err (e : exn).
Arguments Ok {A}. Arguments Err {A}.
Definition bind {A B} (r : result A) (f : A -> result B) : result B :=
  match r with Ok a => f a | Err e => Err e end.
Notation "'do' x <- r ; f" := (bind r (fun x => f))
  (at level 200, x pattern, r at level 100, f at level 200).

(** JAX index normalisation: a negative index has the length added once. *)
Definition wrap (n : nat) (i : Z) : Z := if (i <? 0)%Z then (i + Z.of_nat n)%Z else i.
(** gather [x[i]]: out-of-bounds indices are clamped *)
Definition clamp (n : nat) (i : Z) : nat :=
  Z.to_nat (Z.max 0 (Z.min (wrap n i) (Z.of_nat n - 1))).
Definition jget {A} (d : A) (l : list A) (i : Z) : A := nth (clamp (length l) i) l d.
Definition gather {A} (d : A) (l : list A) (idx : list Z) : list A := map (jget d l) idx.

Fixpoint upd {A} (n : nat) (v : A) (l : list A) {struct l} : list A :=
  match l, n with
  | [], _ => []
  | _ :: t, O => v :: t
  | a :: t, S n' => a :: upd n' v t
  end.
(** scatter [x.at[i].set(v)]: out-of-bounds updates are dropped *)
Definition jset {A} (l : list A) (i : Z) (v : A) : list A :=
  let i' := wrap (length l) i in
  if (0 <=? i')%Z && (i' <? Z.of_nat (length l))%Z then upd (Z.to_nat i') v l else l.
(** scatter with an index array.  XLA does not define the order in which updates
    to duplicate indices are applied: [ord] lists the update positions in the
    order in which they happen to be applied. *)
Definition scatter {A} (ord : list nat) (d : A) (l : list A) (idx : list Z) (vals : list A)
  : list A :=
  fold_left (fun acc p => jset acc (nth p idx 0%Z) (nth p vals d)) ord l.

(** [for i in range(n)] / [fori_loop(0, n, body, init)] *)
Definition fori {S} (n : nat) (body : nat -> S -> S) (init : S) : S :=
  fold_left (fun s i => body i s) (seq 0 n) init.

Section Arg.
  Context {V : Type} (O : FOps V).
  (** index of the first element that is not beaten; [better x b]: x replaces b *)
  Fixpoint argbest (better : V -> V -> bool) (l : list V) (i bi : nat) (bv : V) : nat :=
    match l with
    | [] => bi
    | x :: t => if better x bv then argbest better t (S i) i x
                else argbest better t (S i) bi bv
    end.
  Definition argb (better : V -> V -> bool) (l : list V) : nat :=
    match l with [] => 0 | x :: t => argbest better t 1 0 x end.
  (** [jnp.argmax]/[jnp.argmin]: first extremal index, a NaN beats everything *)
  Definition gt_nan (x b : V) : bool := negb (fisnan O b) && (fisnan O x || fltb O b x).
  Definition lt_nan (x b : V) : bool := negb (fisnan O b) && (fisnan O x || fltb O x b).
  Definition argmax (l : list V) : nat := argb gt_nan l.
  Definition argmin (l : list V) : nat := argb lt_nan l.
  (** [jnp.nanargmax]: NaN is replaced by -inf, then argmax; -1 if all are NaN *)
  Definition nanargmax (l : list V) : Z :=
    if forallb (fisnan O) l then (-1)%Z
    else Z.of_nat (argmax (map (fun v => if fisnan O v then fninf O else v) l)).
  Definition nanargmin (l : list V) : Z :=
    if forallb (fisnan O) l then (-1)%Z
    else Z.of_nat (argmin (map (fun v => if fisnan O v then finf O else v) l)).
End Arg.

(** [jnp.flatnonzero(p, size=size, fill_value=fill)] : positions of true entries,
    truncated or padded to [size] *)
Fixpoint positions (p : list bool) (i : nat) : list nat :=
  match p with [] => [] | b :: t => (if b then [i] else []) ++ positions t (S i) end.
Definition flatnonzero (p : list bool) (size : nat) (fill : nat) : list nat :=
  let pos := positions p 0 in
  firstn size pos ++ repeat fill (size - length pos).

(** reshape of a flat list into rows of length [b] *)
Fixpoint chunks_fuel {A} (fuel b : nat) (l : list A) : list (list A) :=
  match fuel with
  | O => []
  | S f => match l with [] => [] | _ => firstn b l :: chunks_fuel f b (skipn b l) end
  end.
Definition chunks {A} (b : nat) (l : list A) : list (list A) := chunks_fuel (length l) b l.

(** ceiling division on naturals, [math.ceil(a / b)] for b > 0 *)
Definition cdiv (a b : nat) : nat := (a + (b - 1)) / b.
