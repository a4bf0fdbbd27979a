(** * Model of the helper functions of coreax/util.py, coreax/kernels/util.py
      ([median_heuristic]) *)
From Coq Require Import List ZArith Bool Reals.
From Verif Require Import Num Jax MeanModel.
Import ListNotations.

(** ** PyTrees *)
(** A JAX PyTree: a leaf, [None], or a container (tuple, list, dictionary or module)
    of sub-trees in flattening order.  Container types and keys are not modelled. *)
Inductive ptree (A : Type) := PLeaf (a : A) | PNone | PNode (l : list (ptree A)).
Arguments PLeaf {A}. Arguments PNone {A}. Arguments PNode {A}.

(** [jtu.tree_leaves(tree, is_leaf=lambda x: x is None)] (util.py:110) *)
Fixpoint flatten {A} (t : ptree A) : list (option A) :=
  match t with
  | PLeaf a => [Some a]
  | PNone => [None]
  | PNode l => concat (map flatten l)
  end.

(** util.py:96-112 [tree_leaves_repeat]; a list times a negative number is empty, as
    is [tree_leaves[-1:]] of an empty list *)
Definition tree_leaves_repeat {A} (t : ptree A) (len : Z) : list (option A) :=
  let leaves := flatten t in
  let num_repeats := (len - Z.of_nat (length leaves))%Z in
  leaves ++ concat (repeat (skipn (length leaves - 1) leaves) (Z.to_nat num_repeats)).

(** Leaves seen by [tree_zero_pad_leading_axis]: arrays, as the list of their
    leading-axis rows (arrays of dimension 0 are not modelled), and other objects *)
Inductive leaf (B S : Type) := LArr (rows : list B) | LStatic (s : S).
Arguments LArr {B S}. Arguments LStatic {B S}.

(** [eqx.partition(tree, eqx.is_array)] (util.py:125) *)
Fixpoint part_arrays {B S} (t : ptree (leaf B S)) : ptree (leaf B S) :=
  match t with
  | PLeaf (LArr r) => PLeaf (LArr r)
  | PLeaf (LStatic _) => PNone
  | PNone => PNone
  | PNode l => PNode (map part_arrays l)
  end.
Fixpoint part_static {B S} (t : ptree (leaf B S)) : ptree (leaf B S) :=
  match t with
  | PLeaf (LArr _) => PNone
  | PLeaf (LStatic s) => PLeaf (LStatic s)
  | PNone => PNone
  | PNode l => PNode (map part_static l)
  end.
(** [jtu.tree_map(_pad, leaves_to_pad)] (util.py:127-132): [jnp.pad] appends
    [pad_width] zero rows; [z] is the zero row *)
Fixpoint pad_leaves {B S} (z : B) (k : nat) (t : ptree (leaf B S)) : ptree (leaf B S) :=
  match t with
  | PLeaf (LArr r) => PLeaf (LArr (r ++ repeat z k))
  | PLeaf (LStatic s) => PLeaf (LStatic s)
  | PNone => PNone
  | PNode l => PNode (map (pad_leaves z k) l)
  end.
(** [eqx.combine(a, b)] (util.py:133): the first entry that is not [None] *)
Fixpoint combine_trees {A} (a b : ptree A) : ptree A :=
  match a with
  | PLeaf x => PLeaf x
  | PNone => b
  | PNode l =>
      PNode ((fix go (l l' : list (ptree A)) : list (ptree A) :=
                match l, l' with
                | x :: t, y :: t' => combine_trees x y :: go t t'
                | _, _ => []
                end) l (match b with PNode l' => l' | _ => [] end))
  end.
(** util.py:115-133 [tree_zero_pad_leading_axis] *)
Definition tree_zero_pad {B S} (z : B) (t : ptree (leaf B S)) (pad_width : Z) : result (ptree (leaf B S)) :=
  if (pad_width <? 0)%Z then Err ValueError
  else Ok (combine_trees (pad_leaves z (Z.to_nat pad_width) (part_arrays t)) (part_static t)).

(** ** Scalars and vectors *)
Section Arrays.
  Context {V : Type} (O : FOps V).

  (** util.py:136-147 [apply_negative_precision_threshold] *)
  Definition apply_threshold (x t : V) : V :=
    if fltb O (fneg O (fabs O t)) x && fltb O x (f0 O) then f0 O else x.

  (** util.py:215-229 [difference] and util.py:197-212 [squared_distance]; vectors of
      equal length (a scalar argument is a vector of length one) *)
  Definition difference (x y : list V) : list V := map2 (fsub O) x y.
  Definition squared_distance (x y : list V) : V := fdot O (difference x y) (difference x y).

  (** [jnp.median] (method "midpoint" of [jnp.quantile]) of a vector: the mean of the
      two middle entries of the sorted vector; NaN if it is empty or contains NaN *)
  Fixpoint finsert (a : V) (l : list V) : list V :=
    match l with [] => [a] | b :: t => if fltb O b a then b :: finsert a t else a :: l end.
  Definition fsort (l : list V) : list V := fold_right finsert [] l.
  Definition median (l : list V) : V :=
    match l with
    | [] => fnan O
    | _ => if existsb (fisnan O) l then fnan O
           else let s := fsort l in
                let n := length l in
                fdiv O (fadd O (nth ((n - 1) / 2)%nat s (f0 O)) (nth (n / 2)%nat s (f0 O))) (fofZ O 2)
    end.

  (** entries above the diagonal of a square matrix in row-major order
      ([m[jnp.triu_indices_from(m, k=1)]], kernels/util.py:66-69; the preceding
      [jnp.triu] keeps them) *)
  Definition upper (m : list (list V)) : list V :=
    concat (map (fun i => skipn (S i) (nth i m [])) (seq 0 (length m))).

  (** kernels/util.py:50-72 [median_heuristic]; [x] as a list of rows
      ([_atleast_2d_consistent] is applied by the caller of the model) *)
  Definition median_heuristic (x : list (list V)) : V :=
    fsqrt O (fdiv O (median (upper (pairwise squared_distance x x))) (fofZ O 2)).
End Arrays.

(** ** Sampling *)
(** util.py:232-257 [sample_batch_indices]; [split] and [permutation] are
    [jr.split] and [jr.permutation].  [max_index] and [batch_size] may be negative,
    [num_batches] may not. *)
Definition sample_batch_indices {K} (split : K -> nat -> list K) (permutation : K -> nat -> list nat)
    (key : K) (max_index batch_size : Z) (num_batches : nat) : result (list (list nat)) :=
  if (max_index <? batch_size)%Z then Err ValueError
  else if (batch_size <? 0)%Z then Err ValueError
  else Ok (map (fun k => firstn (Z.to_nat batch_size) (permutation k (Z.to_nat max_index)))
               (split key num_batches)).

(** ** util.py:303-336 [format_time], in exact real arithmetic: the scaled number
      before rounding to two digits, and the unit.  [log10(abs num)] raises
      ValueError on 0, which is handled. *)
Inductive tunit := Mins | Secs | Millis | Micros | Nanos | Picos.
Definition log10 (x : R) : R := ln x / ln 10.
Definition format_time (num : R) : R * tunit :=
  if Req_EM_T num 0 then (0%R, Secs)
  else
    let order := log10 (Rabs num) in
    if Rle_dec 2 order then (num / 60, Mins)%R
    else if Rlt_dec order (-9) then (10 ^ 12 * num, Picos)%R
    else if Rlt_dec order (-6) then (10 ^ 9 * num, Nanos)%R
    else if Rlt_dec order (-3) then (10 ^ 6 * num, Micros)%R
    else if Rlt_dec order 0 then (10 ^ 3 * num, Millis)%R
    else (num, Secs).
