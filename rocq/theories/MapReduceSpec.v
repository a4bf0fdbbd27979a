(** * Specification vocabulary for MapReduce

    [no_padding] and [never_starves] are conditions on the sizes only: the leaf size, the size [m] of the
    coresets the base solver returns, and the number [n] of data points.  A run on
    [n > leaf] points pads them to [leaves * partition] rows, hands every leaf of
    [partition] rows to the base solver and goes on with [leaves * m] points. *)
From Coq Require Import List Arith Bool ZArith Reals Permutation.
From Verif Require Import Num Jax DataModel GreedySpec MapReduceModel.
Import ListNotations.
Open Scope nat_scope.

(** the number of leaves for [n > leaf] points: the largest power of two that is at most
    [(n - 1) / (leaf / 2)] *)
Definition leaf_count (leaf n : nat) : nat := 2 ^ Nat.log2 ((n - 1) / Nat.max 1 (leaf / 2)).
(** the number of rows missing to the next multiple of the number of leaves *)
Definition padded_rows (leaf n : nat) : nat :=
  (leaf_count leaf n - n mod leaf_count leaf n) mod leaf_count leaf n.
(** the number of rows of each leaf *)
Definition leaf_rows (leaf n : nat) : nat := (n + padded_rows leaf n) / leaf_count leaf n.

(** no level of the recursion adds any padding row *)
Fixpoint no_padding (leaf m fuel n : nat) : bool :=
  match fuel with
  | 0 => true
  | S fuel' => if (n <=? leaf)%nat then true
               else (padded_rows leaf n =? 0)%nat && no_padding leaf m fuel' (leaf_count leaf n * m)
  end.

(** at every level, a leaf that received all the padding would still hold [m] data points *)
Fixpoint never_starves (leaf m fuel n : nat) : bool :=
  match fuel with
  | 0 => true
  | S fuel' => if (n <=? leaf)%nat then true
               else (padded_rows leaf n + m <=? leaf_rows leaf n)%nat
                    && never_starves leaf m fuel' (leaf_count leaf n * m)
  end.

(** ** Contracts of the base solver and of the tree *)
Section Contracts.
  Context {V : Type} {P Y : Type}.
  Notation data := (Data P Y V).
  Notation cs := (Coresubset P Y V).
  (** well-formed data: all arrays have the same length *)
  Definition wfd (d : data) : Prop :=
    length (d_w d) = length (d_x d) /\ forall y, d_y d = Some y -> length y = length (d_x d).
  Definition is_sup (d : data) : bool := match d_y d with Some _ => true | None => false end.
  (** a base solver that succeeds with [m] weighted indices on every (un)supervised data
      set of at least [m] rows *)
  Definition sized (sup : bool) (m : nat) (base : data -> result cs) : Prop :=
    forall d, wfd d -> is_sup d = sup -> m <= d_len d ->
      exists c, base d = Ok c /\ length (c_idx c) = m /\ length (c_w c) = m /\ c_pre c = d.

  (** the tree's index array has one entry per row *)
  Definition tree_sized (tree : list P -> list V -> nat -> list nat) : Prop :=
    forall xs w leaf, length (tree xs w leaf) = length xs.

  (** the tree's index array lists every row exactly once *)
  Definition tree_perm (tree : list P -> list V -> nat -> list nat) : Prop :=
    forall xs w leaf, Permutation (tree xs w leaf) (seq 0 (length xs)).

  (** ** What the recursion does: split, reduce every part, merge *)
  (** all points, all weights and all targets of a list of data sets *)
  Definition merged (l : list data) (d : data) : Prop :=
    d_x d = flat_map d_x l /\ d_w d = flat_map d_w l /\
    d_y d = match l with [] => None | e :: _ =>
              match d_y e with None => None
              | Some _ => Some (flat_map (fun e => match d_y e with Some y => y | None => [] end) l) end end.
  (** [reached O p0 y0 base d0 d]: [d] arises from [d0] by repeatedly splitting the rows into
      parts, each row in exactly one part, reducing every part with the base solver and
      merging the weighted coresets *)
  Inductive reached (O : FOps V) (p0 : P) (y0 : Y) (base : data -> result cs) (d0 : data) : data -> Prop :=
  | reached_start : reached O p0 y0 base d0 d0
  | reached_step d rows outs d' :
      reached O p0 y0 base d0 d ->
      Permutation (concat rows) (seq 0 (d_len d)) ->
      Forall2 (fun r c => base (d_getitem O p0 y0 d (map Z.of_nat r)) = Ok c) rows outs ->
      merged (map (points O p0 y0) outs) d' ->
      reached O p0 y0 base d0 d'.
End Contracts.

Section ContractsR.
  Context {P Y : Type}.
  Notation data := (Data P Y ER).
  Notation cs := (Coresubset P Y ER).
  Notation unsup xs dw := (@mkData P Y ER xs (map Fin dw) None).
  (** on data with at least [m] positive weights the base solver picks [m] distinct
      points of positive weight and gives them positive weights *)
  Definition picks (m : nat) (base : data -> result cs) : Prop :=
    forall xs w, length w = length xs -> Forall (fun v => 0 <= v)%R w -> m <= npos w ->
      exists s ws, base (unsup xs w) = Ok (mkCS (map Z.of_nat s) (map Fin ws) (unsup xs w)) /\
        length s = m /\ length ws = m /\ Forall (fun v => 0 < v)%R ws /\ NoDup s /\
        (forall i, In i s -> i < length xs /\ (0 < nth i w 0)%R).
End ContractsR.
