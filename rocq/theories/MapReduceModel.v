(** * Model of MapReduce (coreax/solvers/composite.py) *)
From Coq Require Import List ZArith Bool Arith.
From Verif Require Import Num Jax DataModel.
Import ListNotations.

Section MapReduceModel.
  Context {V : Type} (O : FOps V) {P Y : Type} (p0 : P) (y0 : Y).
  Notation data := (Data P Y V).
  Notation cs := (Coresubset P Y V).

  (** composite.py:220 [_leaf_size] *)
  Definition mr_half (leaf : nat) : nat := Nat.max 1 (leaf / 2).
  (** composite.py:221 [2 ** max(0, floor(log2((n - 1) / _leaf_size)))].  The
      logarithm is taken exactly: floating-point rounding of [math.log2] is not
      modelled.  (For n = 1 Python raises; the function is only called with
      n > leaf_size.) *)
  Definition mr_nleaves (leaf n : nat) : nat := 2 ^ Nat.log2 ((n - 1) / mr_half leaf).
  (** composite.py:222-224 *)
  Definition mr_padding (leaf n : nat) : nat :=
    cdiv n (mr_nleaves leaf n) * mr_nleaves leaf n - n.
  Definition mr_partition (leaf n : nat) : nat := (n + mr_padding leaf n) / mr_nleaves leaf n.

  (** composite.py:191-236 [_jit_tree]: the partitioned data and the row numbers.
      [tree rows weights leaf] is the flattened [node_indices] array of the
      scikit-learn tree. *)
  Definition jit_tree (tree : list P -> list V -> nat -> list nat) (leaf : nat) (d : data)
    : list data * list (list Z) :=
    let n := d_len d in
    let pd := zero_pad O p0 y0 d (mr_padding leaf n) in
    let rows := chunks (mr_partition leaf n) (map Z.of_nat (tree (d_x pd) (d_w pd) (mr_half leaf))) in
    (map (d_getitem O p0 y0 pd) rows,
     map (gather 0%Z (map Z.of_nat (seq 0 n))) rows).

  Fixpoint mapM {A B} (f : A -> result B) (l : list A) : result (list B) :=
    match l with
    | [] => Ok []
    | a :: t => do b <- f a; do r <- mapM f t; Ok (b :: r)
    end.

  (** [jtu.tree_map(jnp.concatenate, ensemble)] *)
  Definition cat_data (l : list data) : data :=
    mkData (concat (map d_x l)) (concat (map d_w l))
      (match l with
       | [] => None
       | d :: _ => match d_y d with
                   | None => None
                   | Some _ => Some (concat (map (fun e => match d_y e with Some y => y | None => [] end) l))
                   end
       end).

  (** composite.py:137-178 [_reduce_coreset]; [base] is [base_solver.reduce] (its
      state plays no role); the recursion depth is bounded by [fuel], exceeding it is
      Python's RecursionError *)
  Fixpoint reduce_coreset (base : data -> result cs) (tree : list P -> list V -> nat -> list nat)
      (leaf : nat) (fuel : nat) (d : data) (indices : option (list Z)) : result (cs * option (list Z)) :=
    match fuel with
    | 0 => Err RecursionLimit
    | S fuel' =>
        if (d_len d <=? leaf)%nat then
          do c <- base d;
          Ok (c, match indices with Some ix => Some (gather 0%Z ix (c_idx c)) | None => None end)
        else
          let '(parts, pidx) := jit_tree tree leaf d in
          do outs <- mapM base parts;
          let cat := concat (map2 (fun ix c => gather 0%Z ix (c_idx c)) pidx outs) in
          let d' := cat_data (map (points O p0 y0) outs) in
          let final := match indices with Some ix => gather 0%Z ix cat | None => cat end in
          reduce_coreset base tree leaf fuel' d' (Some final)
    end.

  (** composite.py:108-115 [__check_init__] *)
  Definition mr_init (leaf size : nat) : result unit :=
    if (leaf <=? size)%nat then Err ValueError else Ok tt.

  (** composite.py:180-187 [MapReduce.reduce] *)
  Definition map_reduce (base : data -> result cs) (tree : list P -> list V -> nat -> list nat)
      (leaf fuel : nat) (d : data) : result cs :=
    do (c, ix) <- reduce_coreset base tree leaf fuel d None;
    Ok (mkCS (match ix with Some i => i | None => c_idx c end) (c_w c) d).
End MapReduceModel.
