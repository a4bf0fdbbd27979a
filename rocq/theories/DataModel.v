(** * Model of coreax/data.py and coreax/coreset.py

    [P] is the type of feature rows, [Y] of supervision rows, [V] of array
    entries.  A [Data] with [d_y = None] models the class [Data]; with
    [d_y = Some _] it models [SupervisedData]. *)

From Coq Require Import List ZArith Bool.
From Verif Require Import Num Jax.
Import ListNotations.

Record Data (P Y V : Type) := mkData { d_x : list P; d_w : list V; d_y : option (list Y) }.
Arguments mkData {P Y V}. Arguments d_x {P Y V}. Arguments d_w {P Y V}. Arguments d_y {P Y V}.

(** data.py:188-190 [__len__] *)
Definition d_len {P Y V} (d : Data P Y V) : nat := length (d_x d).

(** Raw array arguments of rank 0, 1 and 2 (higher ranks are not modelled). *)
Inductive raw (A : Type) := R0 (a : A) | R1 (l : list A) | R2 (m : list (list A)).
Arguments R0 {A}. Arguments R1 {A}. Arguments R2 {A}.

(** data.py:66-114 [_atleast_2d_consistent], single-array case: an n-vector
    becomes an (n,1) array. *)
Definition atleast_2d_consistent {A} (r : raw A) : list (list A) :=
  match r with
  | R0 a => [[a]]
  | R1 l => map (fun a => [a]) l
  | R2 m => m
  end.
(** [jnp.atleast_2d] as used by util.py:186-187 [pairwise]: an n-vector becomes a
    (1,n) array. *)
Definition jnp_atleast_2d {A} (r : raw A) : list (list A) :=
  match r with
  | R0 a => [[a]]
  | R1 l => [l]
  | R2 m => m
  end.

(** The [weights] argument of the constructors. *)
Inductive warg (V : Type) := WNone | WScalar (w : V) | WVec (ws : list V).
Arguments WNone {V}. Arguments WScalar {V}. Arguments WVec {V}.

Section DataModel.
  Context {V : Type} (O : FOps V) {P Y : Type} (p0 : P) (y0 : Y).

  (** data.py:156 [jnp.broadcast_to(1 if weights is None else weights, n)] *)
  Definition broadcast_weights (n : nat) (w : warg V) : result (list V) :=
    match w with
    | WNone => Ok (repeat (f1 O) n)
    | WScalar v => Ok (repeat v n)
    | WVec l =>
        if (length l =? n)%nat then Ok l
        else match l with [v] => Ok (repeat v n) | _ => Err ValueError end
    end.

  (** data.py:148-156 [Data.__init__] (rows already two-dimensional) *)
  Definition make_data (x : list P) (w : warg V) : result (Data P Y V) :=
    do ws <- broadcast_weights (length x) w; Ok (mkData x ws None).

  (** data.py:242-257 [SupervisedData.__init__] and [__check_init__] *)
  Definition make_supervised (x : list P) (y : list Y) (w : warg V) : result (Data P Y V) :=
    do ws <- broadcast_weights (length x) w;
    if (length y =? length x)%nat then Ok (mkData x ws (Some y)) else Err ValueError.

  (** data.py:260-262 [as_data] of a bare array: unit weights *)
  Definition as_data (x : list P) : Data P Y V := mkData x (repeat (f1 O) (length x)) None.

  (** data.py:158-160 [__getitem__] with an index vector: every leaf is gathered
      with the same key.  (JAX rejects gathering from an empty array; theorems
      about this function assume in-range indices.) *)
  Definition d_getitem (d : Data P Y V) (idx : list Z) : Data P Y V :=
    mkData (gather p0 (d_x d) idx) (gather (f0 O) (d_w d) idx)
           (option_map (fun y => gather y0 y idx) (d_y d)).
  (** data.py:158-160 [__getitem__] with a slice [:n] *)
  Definition d_take (d : Data P Y V) (n : nat) : Data P Y V :=
    mkData (firstn n (d_x d)) (firstn n (d_w d)) (option_map (firstn n) (d_y d)).

  (** data.py:202-213 [normalize] *)
  Definition normalize_w (preserve_zeros : bool) (w : list V) : list V :=
    let s := fsum O w in
    let nw := map (fun v => fdiv O v s) w in
    if preserve_zeros then map (fnan_to_num O) nw else nw.
  Definition normalize (preserve_zeros : bool) (d : Data P Y V) : Data P Y V :=
    mkData (d_x d) (normalize_w preserve_zeros (d_w d)) (d_y d).

  (** [jax.tree_util.tree_leaves(data)]: the number of array leaves; Python
      unpacking [a, b = tree_leaves(d)] fails with ValueError unless it is two. *)
  Definition n_leaves (d : Data P Y V) : nat := match d_y d with None => 2 | Some _ => 3 end.
  Definition unpack2 (d : Data P Y V) : result (list P * list V) :=
    match d_y d with None => Ok (d_x d, d_w d) | Some _ => Err ValueError end.

  (** util.py:115-133 [tree_zero_pad_leading_axis] on a [Data]: every array leaf
      gets [k] trailing zero rows.  [k] is non-negative here; the negative case is
      in UtilModel. *)
  Definition zero_pad (d : Data P Y V) (k : nat) : Data P Y V :=
    mkData (d_x d ++ repeat p0 k) (d_w d ++ repeat (f0 O) k)
           (option_map (fun y => y ++ repeat y0 k) (d_y d)).
End DataModel.

(** ** coreset.py *)

(** Coresubset: weighted indices and the data they refer to (coreset.py:200-250).
    [c_idx] is [unweighted_indices] (coreset.py:310-313): the (k,1) index array
    squeezed to a vector of length k for every k. *)
Record Coresubset (P Y V : Type) := mkCS { c_idx : list Z; c_w : list V; c_pre : Data P Y V }.
Arguments mkCS {P Y V}. Arguments c_idx {P Y V}. Arguments c_w {P Y V}. Arguments c_pre {P Y V}.

(** PseudoCoreset (coreset.py:92-128) *)
Record PseudoCoreset (P Y V : Type) := mkPC { pc_nodes : Data P Y V; pc_pre : Data P Y V }.
Arguments mkPC {P Y V}. Arguments pc_nodes {P Y V}. Arguments pc_pre {P Y V}.

(** Arguments accepted by the constructors and by [build]. *)
Inductive darg (P Y V : Type) :=
| AData (d : Data P Y V)                  (* Data or SupervisedData *)
| AArray (x : list P)                     (* jax.Array *)
| ATuple (x : list P) (y : list Y)        (* (Array, Array) *)
| AOther.                                 (* any other Python object *)
Arguments AData {P Y V}. Arguments AArray {P Y V}. Arguments ATuple {P Y V}. Arguments AOther {P Y V}.
(** Index arguments: [Data] with weights, or a bare integer array. *)
Inductive iarg (V : Type) := IData (i : list Z) (w : list V) | IArray (i : list Z) | IOther.
Arguments IData {V}. Arguments IArray {V}. Arguments IOther {V}.

Section CoresetModel.
  Context {V : Type} (O : FOps V) {P Y : Type} (p0 : P) (y0 : Y).
  Notation data := (Data P Y V).

  (** coreset.py:304-307 [Coresubset.points] *)
  Definition points (c : Coresubset P Y V) : data :=
    let d := d_getitem O p0 y0 (c_pre c) (c_idx c) in mkData (d_x d) (c_w c) (d_y d).

  (** coreset.py:83-89 [__check_init__]; coreset.py:236-250 [__init__] *)
  Definition cs_init (i : iarg V) (d : darg P Y V) : result (Coresubset P Y V) :=
    match i with
    | IData idx w =>
        match d with
        | AData pre =>
            let c := mkCS idx w pre in
            if (d_len pre <? d_len (points c))%nat then Err ValueError else Ok c
        | _ => Err TypeError
        end
    | _ => Err TypeError
    end.

  (** coreset.py:293-298 conversion of the data argument of [build] *)
  Definition conv_data (d : darg P Y V) : result (darg P Y V) :=
    match d with
    | AArray x => Ok (AData (as_data O x))
    | ATuple x y => do s <- make_supervised O x y WNone; Ok (AData s)
    | _ => Ok d
    end.
  (** coreset.py:275-300 [Coresubset.build]; [as_data] of a non-array object is a
      JAX conversion error, modelled as TypeError *)
  Definition cs_build (i : iarg V) (d : darg P Y V) : result (Coresubset P Y V) :=
    do d' <- conv_data d;
    match i with
    | IArray idx => cs_init (IData idx (repeat (f1 O) (length idx))) d'
    | _ => cs_init i d'
    end.

  (** coreset.py:114-128, 83-89 [PseudoCoreset.__init__] *)
  Definition pc_init (n : darg P Y V) (d : darg P Y V) : result (PseudoCoreset P Y V) :=
    match n with
    | AData nodes =>
        match d with
        | AData pre =>
            if (d_len pre <? d_len nodes)%nat then Err ValueError else Ok (mkPC nodes pre)
        | _ => Err TypeError
        end
    | _ => Err TypeError
    end.
  (** coreset.py:153-180 [PseudoCoreset.build] *)
  Definition pc_build (n : darg P Y V) (d : darg P Y V) : result (PseudoCoreset P Y V) :=
    do d' <- conv_data d;
    match n with
    | AArray x => pc_init (AData (as_data O x)) d'
    | _ => pc_init n d'
    end.

  (** coreset.py:326-329 [Coresubset.solve_weights]; [solve] is the optimiser's
      [solve(dataset, coreset)] (may raise) *)
  Definition cs_solve_weights (solve : data -> data -> result (list V))
      (c : Coresubset P Y V) : result (Coresubset P Y V) :=
    do w <- solve (c_pre c) (points c); Ok (mkCS (c_idx c) w (c_pre c)).
  (** coreset.py:194-197 [PseudoCoreset.solve_weights] *)
  Definition pc_solve_weights (solve : data -> data -> result (list V))
      (c : PseudoCoreset P Y V) : result (PseudoCoreset P Y V) :=
    do w <- solve (pc_pre c) (pc_nodes c);
    Ok (mkPC (mkData (d_x (pc_nodes c)) w (d_y (pc_nodes c))) (pc_pre c)).
  (** coreset.py:73-77 [compute_metric] *)
  Definition cs_compute_metric {M} (metric : data -> data -> M) (c : Coresubset P Y V) : M :=
    metric (c_pre c) (points c).
End CoresetModel.
