(** * Model of recombination (coreax/solvers/recombination.py) *)
From Coq Require Import List ZArith Bool.
From Verif Require Import Num Jax DataModel.
Import ListNotations.

(** lines 130, 132-137: the accepted modes; [MOther] is any other string *)
Inductive rmode := MImplicitExplicit | MImplicit | MExplicit | MOther.

(** [jax.lax.fori_loop(0, n, body, init)] with a body that may raise *)
Definition foriM {S} (n : nat) (body : nat -> S -> result S) (init : S) : result S :=
  fold_left (fun acc i => do s <- acc; body i s) (seq 0 n) (Ok init).

Section RecModel.
  Context {V : Type} (O : FOps V).

  (** number of columns of a matrix given as a list of rows *)
  Definition ncols (M : list (list V)) : nat := length (hd [] M).
  Definition mask_count (l : list bool) : nat := length (filter (fun b => b) l).

  (** lines 278-305 [_push_forward]; [phi] is [test_functions] ([None] is the identity).
      With [augment] the constant one is put in front. *)
  Definition push_forward {P} (phi : P -> list V) (augment : bool) (nodes : list P) : list (list V) :=
    let pf := map phi nodes in
    if augment then map (cons (f1 O)) pf else pf.

  (** lines 308-349 [_co_linearize] *)
  Definition co_indices (w : list V) : list nat :=
    let max_index := argmax O w in
    map (fun p => if fgt0 O (snd p) then fst p else max_index) (combine (seq 0 (length w)) w).
  Definition co_linearize (nodes : list (list V)) (w : list V) : list (list V) * list V * list nat :=
    let max_index := argmax O w in
    let n_zeros := mask_count (map (fun v => negb (fgt0 O v)) w) in
    let indices := co_indices w in
    let w' := upd max_index
                (fdiv O (nth max_index w (f0 O)) (fofZ O (Z.of_nat n_zeros + 1))) w in
    (map (fun i => nth i nodes []) indices, map (fun i => nth i w' (f0 O)) indices, indices).

  (** lines 388-404 [_resolve_rcond]; [eps] is [finfo(dtype).eps] *)
  Definition resolve_rcond (eps : V) (n m : nat) (rcond : option V) : V :=
    match rcond with
    | None => fmul O eps (fofZ O (Z.of_nat (Nat.max n m)))
    | Some r => if fltb O r (f0 O) then eps else r
    end.
  (** lines 356-382 [_resolve_null_basis].  [svd nodes] is [(q.T, s)] of
      [scipy.linalg.svd(nodes, full_matrices=True)]: row j of [q.T] is the j-th left
      singular vector. *)
  Definition resolve_null_basis (svd : list (list V) -> list (list V) * list V) (eps : V)
      (rcond : option V) (nodes : list (list V)) : list (list V) * nat :=
    let '(qT, s) := svd nodes in
    let rc := resolve_rcond eps (length nodes) (ncols nodes) rcond in
    let thr := match s with [] => rc | s0 :: _ => fmul O rc s0 end in
    let rank := mask_count (map (fun v => fltb O thr v) s) in
    (rev qT, length nodes - rank).

  (** lines 215-264 [_eliminate]: state is weights and basis, [i] is [basis_index] *)
  Definition eliminate (i : nat) (st : list V * list (list V)) : list V * list (list V) :=
    let '(w, basis) := st in
    let v := nth i basis [] in
    let cond := map2 (fun a b => if fgt0 O b then fdiv O a b else finf O) w v in
    let k := argmin O cond in
    let alpha := nth k cond (f0 O) in
    let w' := upd k (f0 O) (map2 (fun a b => fsub O a (fmul O alpha b)) w v) in
    let vk := nth k v (f0 O) in
    let scaled := map (fun b => fdiv O b vk) v in
    let basis' := map (fun row =>
        let c := nth k row (f0 O) in
        upd k (f0 O) (map2 (fun a b => fsub O a (fmul O c b)) row scaled)) basis in
    (w', basis').
  (** lines 266-267: the while loop runs while the iteration is below the null rank *)
  Definition eliminate_all (w : list V) (basis : list (list V)) (rank : nat) : list V :=
    fst (fori rank eliminate (w, basis)).

  (** lines 407-458 [_coresubset_nodes]; the result is (indices, weights) *)
  Definition coresubset_nodes (nodes : list (list V)) (w : list V) (indices : list nat)
      (mode : rmode) (is_affine_augmented : bool) : result (list nat * list V) :=
    let n := length nodes in
    let m := if is_affine_augmented then ncols nodes else S (ncols nodes) in
    let nz := map (fun v => negb (feqb O v (f0 O))) w in
    let fill := argmin O w in
    do idx <- match mode with
              | MImplicitExplicit => Ok (flatnonzero nz (Nat.min n m) fill)
              | MImplicit => Ok (flatnonzero nz n fill)
              | MExplicit => Ok (positions nz 0)
              | MOther => Err ValueError
              end;
    Ok (map (fun i => nth i indices 0) idx, map (fun i => nth i w (f0 O)) idx).

  Section Reduce.
    Context {P Y : Type} (p0 : P) (y0 : Y).
    Notation data := (Data P Y V).
    Notation cs := (Coresubset P Y V).

    (** lines 129-137: construction of a solver checks the mode *)
    Definition check_mode (mode : rmode) : result unit :=
      match mode with MOther => Err ValueError | _ => Ok tt end.

    (** lines 181-275 [CaratheodoryRecombination.reduce].  [null] is
        [_resolve_null_basis] with the solver's [rcond]. *)
    Definition carath_reduce (phi : P -> list V) (null : list (list V) -> list (list V) * nat)
        (mode : rmode) (d : data) : result cs :=
      do nw <- unpack2 (normalize O true d);
      let '(nodes, w) := nw in
      let '(safe, sw, indices) := co_linearize (push_forward phi true nodes) w in
      let '(basis, rank) := null safe in
      let out := eliminate_all sw basis rank in
      do r <- coresubset_nodes safe out indices mode true;
      cs_init O p0 y0 (IData (map Z.of_nat (fst r)) (snd r)) (AData d).
  End Reduce.

  (** lines 570-588 [_prepare_tree].  [clog n m f] is [ceil(log(n / m, f))] in floating
      point, which raises for n = 0 and for f <= 1. Result: padding, count, depth. *)
  Definition prepare_tree (clog : nat -> nat -> nat -> result Z) (n m factor : nat)
    : result (Z * nat * nat) :=
    do c <- clog n m factor;
    let depth := Z.to_nat (Z.max 1 c) in
    Ok ((Z.of_nat (m * factor ^ depth) - Z.of_nat n)%Z, factor * m, depth).

  (** [jnp.argsort]: stable ascending sort of the positions (NaN-free input) *)
  Fixpoint insert_by (key : nat -> V) (a : nat) (l : list nat) : list nat :=
    match l with
    | [] => [a]
    | b :: t => if fltb O (key b) (key a) then b :: insert_by key a t else a :: l
    end.
  Definition argsort (w : list V) : list nat :=
    fold_right (insert_by (fun i => nth i w (f0 O))) [] (seq 0 (length w)).

  (** [x.reshape(count, -1, order="F")]: row i holds the positions i, i+count, ...;
      raises when the size is not a multiple of [count] *)
  Definition reshape_F (count : nat) (l : list nat) : result (list (list nat)) :=
    if (length l mod count =? 0)%nat && negb (count =? 0)%nat then
      Ok (map (fun i => map (fun j => nth (i + j * count) l 0) (seq 0 (length l / count)))
            (seq 0 count))
    else Err ShapeError.
  (** [x.reshape(-1, order="F")] of a matrix with rows of length [size] *)
  Definition flatten_F {A} (d : A) (size : nat) (rows : list (list A)) : list A :=
    flat_map (fun j => map (fun r => nth j r d) rows) (seq 0 size).

  (** lines 591-608 [_centroid] for one cluster with rows of length [m] *)
  Definition centroid (m : nat) (nodes : list (list V)) (w : list V) : list V * V :=
    (map (fun c => fnan_to_num O
        (fdiv O (fsum O (map2 (fun x a => fmul O (nth c x (f0 O)) a) nodes w)) (fsum O w)))
       (seq 0 m), fsum O w).

  (** lines 517-560 [_tree_reduce]; state is weights and indices.  The indices may exceed
      the number of data points (padding); the lookup of the pushed forward nodes clamps. *)
  Definition tree_body (null : list (list V) -> list (list V) * nat) (pf : list (list V))
      (count : nat) (st : list V * list nat) : result (list V * list nat) :=
    let '(w, indices) := st in
    do clusters <- reshape_F count (argsort w);
    let size := length w / count in
    let cents := map (fun cl => centroid (ncols pf)
                   (map (fun e => jget [] pf (Z.of_nat (nth e indices 0))) cl)
                   (map (fun e => nth e w (f0 O)) cl)) clusters in
    do cc <- carath_reduce (Y:=unit) [] tt (fun x => x) null MImplicit
               (mkData (map fst cents) (map snd cents) None);
    let ci := map Z.to_nat (c_idx cc) in
    let cw := c_w cc in
    let wui := map (fun i => nth i clusters []) ci in
    let update := map2 (fun a i => fdiv O a (nth i (map snd cents) (f0 O))) cw ci in
    let uw := map2 (fun cl u => map (fun e => fmul O (nth e w (f0 O)) u) cl) wui update in
    Ok (flatten_F (f0 O) size uw, map (fun e => nth e indices 0) (flatten_F 0 size wui)).

  Section Tree.
    Context {P Y : Type} (p0 : P) (y0 : Y).
    Notation data := (Data P Y V).
    Notation cs := (Coresubset P Y V).
    (** lines 504-567 [TreeRecombination.reduce]; a negative padding makes [jnp.pad] raise *)
    Definition tree_reduce (phi : P -> list V) (null : list (list V) -> list (list V) * nat)
        (clog : nat -> nat -> nat -> result Z) (factor : nat) (mode : rmode) (d : data)
      : result cs :=
      do nw <- unpack2 (normalize O true d);
      let '(nodes, w) := nw in
      let pf := push_forward phi false nodes in
      let n := length pf in
      do pt <- prepare_tree clog n (S (ncols pf)) factor;
      let '(padding, count, depth) := pt in
      if (padding <? 0)%Z then Err ValueError else
      do out <- foriM depth (fun _ => tree_body null pf count)
                  (w ++ repeat (f0 O) (Z.to_nat padding), seq 0 (n + Z.to_nat padding));
      do r <- coresubset_nodes pf (fst out) (snd out) mode false;
      cs_init O p0 y0 (IData (map Z.of_nat (fst r)) (snd r)) (AData d).
  End Tree.
End RecModel.
