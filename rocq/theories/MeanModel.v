(** * Model of kernel matrices and blocked kernel means
      (coreax/util.py [pairwise], coreax/kernels/util.py, coreax/kernels/base.py) *)

From Coq Require Import List ZArith Bool.
From Verif Require Import Num Jax DataModel.
Import ListNotations.

(** util.py:150-194 [pairwise] on two-dimensional arguments: entry (i,j) of the
    result is [fn x_i y_j] *)
Definition pairwise {A B C} (fn : A -> B -> C) (x : list A) (y : list B) : list (list C) :=
  map (fun a => map (fun b => fn a b) y) x.

(** The [block_size] argument of [compute_mean] after Python-level flattening:
    [None] or an integer for both operands, or a pair. *)
Inductive bsarg := BOne (b : option Z) | BTwo (bx by_ : option Z).

(** util.py:96-112 [tree_leaves_repeat(tree, length)] on the list of leaves *)
Definition leaves_repeat {A} (leaves : list A) (len : nat) : list A :=
  leaves ++ match rev leaves with [] => [] | a :: _ => repeat a (len - length leaves) end.

Definition bs_leaves (b : bsarg) : list (option Z) :=
  match b with BOne x => [x] | BTwo x y => [x; y] end.

Section MeanModel.
  Context {V : Type} (O : FOps V) {P Y : Type} (p0 : P) (y0 : Y).
  Variable k : P -> P -> V.   (* [kernel.compute_elementwise] *)
  Notation data := (Data P Y V).

  (** kernels/util.py:34 effective block size *)
  Definition eff_block (n : nat) (bs : option Z) : nat :=
    match bs with None => n | Some b => Z.to_nat (Z.min (Z.max b 1) (Z.of_nat n)) end.

  (** kernels/util.py:29-47 [_block_data_convert]: list of (rows, weights) blocks
      and the unpadded length.  Empty data: [ceil(0 / 0)] raises
      ZeroDivisionError (line 35, outside the [try]). *)
  Definition block_convert (d : data) (bs : option Z)
    : result (list (list P * list V) * nat) :=
    let d := normalize O true d in
    let n := d_len d in
    let b := eff_block n bs in
    match b with
    | 0%nat => Err ZeroDivisionError
    | _ =>
        let padding := (cdiv n b * b - n)%nat in
        let pd := zero_pad O p0 y0 d padding in
        Ok (combine (chunks b (d_x pd)) (chunks b (d_w pd)), n)
    end.

  (** base.py:562-580: inner scan over the y blocks for one x block.  State: the
      accumulated sum; output: the column-sum slice of each y block. *)
  Definition slice_sums (xb : list P * list V) (yblocks : list (list P * list V)) (acc : V)
    : V * list (list V) :=
    fold_left (fun (s : V * list (list V)) yb =>
      let '(acc, slices) := s in
      let kmat := pairwise k (fst xb) (fst yb) in
      let column_sum_slice := map (fun row => fdot O row (snd yb)) kmat in
      (fadd O acc (fdot O (snd xb) column_sum_slice), slices ++ [column_sum_slice]))
      yblocks (acc, []).

  (** [jnp.sum(_, axis=0)] over slices of length [b] *)
  Definition sum_axis0 (b : nat) (m : list (list V)) : list V :=
    map (fun j => fsum O (map (fun row => nth j row (f0 O)) m)) (seq 0 b).

  (** base.py:582-584: outer scan over the x blocks *)
  Definition block_scan (xblocks yblocks : list (list P * list V)) : V * list (list V) :=
    fold_left (fun (s : V * list (list V)) xb =>
      let '(acc, cols) := s in
      let '(acc', slices) := slice_sums xb yblocks acc in
      (acc', cols ++ [sum_axis0 (length (fst xb)) slices]))
      xblocks (f0 O, []).

  Inductive axis := Axis0 | Axis1 | AxisNone.
  (** Result: a scalar (axis=None) or a vector. *)
  Inductive meanval := MScalar (v : V) | MVec (l : list V).

  (** base.py:480-589 [compute_mean].  [unroll] only affects compilation and is
      not modelled. *)
  Definition compute_mean (x y : data) (ax : axis) (bs : bsarg) : result meanval :=
    let bl := leaves_repeat (bs_leaves bs) 2 in
    let bx := nth 0 bl None in
    let by_ := nth 1 bl None in
    let '(x, y, bx, by_) := match ax with Axis0 => (y, x, by_, bx) | _ => (x, y, bx, by_) end in
    do (xblocks, unpadded_len_x) <- block_convert x bx;
    do (yblocks, _) <- block_convert y by_;
    let '(total, cols) := block_scan xblocks yblocks in
    match ax with
    | AxisNone => Ok (MScalar total)
    | _ => Ok (MVec (firstn unpadded_len_x (concat cols)))
    end.

  (** base.py:392-415 [gramian_row_mean] *)
  Definition gramian_row_mean (x : data) (bs : bsarg) : result meanval :=
    compute_mean x x Axis0 bs.
End MeanModel.
Arguments MScalar {V}. Arguments MVec {V}.
