(** * Model of RandomSample and RPCholesky (coreax/solvers/coresubset.py 81-112, 554-682) *)
From Coq Require Import List ZArith Bool.
From Verif Require Import Num Jax DataModel GreedyModel.
Import ListNotations.

Section CholModel.
  Context {V : Type} (O : FOps V) {P Y : Type} (p0 : P) (y0 : Y).
  Notation data := (Data P Y V).
  Notation cs := (Coresubset P Y V).

  (** ** RandomSample *)
  (** [choice n draws p replace] is [jr.choice(random_key, n, (draws,), p=p, replace=replace)] *)
  Record random_sample := mkRS {
    rs_size : nat; rs_weighted : bool; rs_unique : bool;
    rs_choice : nat -> nat -> option (list V) -> bool -> result (list nat) }.

  (** coresubset.py:96-112 [RandomSample.reduce].  The handler turns a ValueError into
      a ValueError with another message, so it is the identity here.
      [Data(random_indices)] has unit weights. *)
  Definition random_reduce (s : random_sample) (d : data) : result cs :=
    let selection_weights := if rs_weighted s then Some (d_w d) else None in
    do idx <- rs_choice s (d_len d) (rs_size s) selection_weights (negb (rs_unique s));
    cs_init O p0 y0 (IData (map Z.of_nat idx) (repeat (f1 O) (length idx))) (AData d).

  (** ** RPCholesky *)
  (** [c_pick i p] is [jr.choice(fold_in(random_key, i), n, (), p=p, replace=False)] *)
  Record rpcholesky := mkChol {
    ch_size : nat; ch_kernel : P -> P -> V; ch_unique : bool; ch_pick : nat -> list V -> nat }.

  (** loop state (line 617): residual diagonal, approximation matrix (one row per data
      point), coreset indices *)
  Record cstate := mkC { c_diag : list V; c_mat : list (list V); c_ind : list Z }.

  (** lines 620-623 [jnp.ones(n).at[coreset_indices].set(False)] *)
  Definition available (n : nat) (idx : list Z) : list bool :=
    fold_left (fun m j => jset m j false) idx (repeat true n).
  (** line 624: [available_mask / sum(available_mask)] *)
  Definition uniform_probs (mask : list bool) : list V :=
    let s := fofZ O (Z.of_nat (length (filter (fun b => b) mask))) in
    map (fun b : bool => fdiv O (if b then f1 O else f0 O) s) mask.
  (** lines 625-632 *)
  Definition valid_residuals (diag : list V) (mask : list bool) : list V :=
    if forallb (fun v => feqb O v (f0 O)) diag || existsb (fisnan O) diag
    then uniform_probs mask else diag.
  (** lines 639-642: the column of the Gramian minus the part explained so far *)
  Definition chol_column (k : P -> P -> V) (x : list P) (mat : list (list V)) (p : nat) : list V :=
    let row := nth p mat [] in
    map2 (fun a r => fsub O (k a (nth p x p0)) (fdot O r row)) x mat.
  (** lines 615-661 [_greedy_body] *)
  Definition chol_body (s : rpcholesky) (x : list P) (i : nat) (st : cstate) : cstate :=
    let n := length x in
    let probs := valid_residuals (c_diag st) (available n (c_ind st)) in
    let p := ch_pick s i probs in
    let idx' := upd i (Z.of_nat p) (c_ind st) in
    let g := chol_column (ch_kernel s) x (c_mat st) p in
    let col := map (fun v => fdiv O v (fsqrt O (nth p g (f0 O)))) g in
    let mat' := map2 (upd i) col (c_mat st) in
    let diag' := map2 (fun r c => fmax O (fsub O r (fmul O c c)) (f0 O)) (c_diag st) col in
    let diag'' := if ch_unique s then upd p (f0 O) diag' else diag' in
    mkC diag'' mat' idx'.

  (** coresubset.py:583-682 [RPCholesky.reduce]; the returned state is the first
      component of the loop state (line 676).  [dataset.data] ignores the weights and
      any supervision. *)
  Definition chol_reduce (s : rpcholesky) (d : data) (st : option (list V)) : result (cs * list V) :=
    let x := d_x d in
    let n := length x in
    let diag := match st with None => map (fun a => ch_kernel s a a) x | Some g => g end in
    do c <- initial_coresubset O p0 y0 (Z.of_nat n + 1) (ch_size s) d;
    let out := fori (ch_size s) (chol_body s x)
                 (mkC diag (repeat (repeat (f0 O) (ch_size s)) n) (c_idx c)) in
    do c' <- cs_build O p0 y0 (IArray (c_ind out)) (AData d);
    Ok (c', c_diag out).
End CholModel.
Arguments mkRS {V}. Arguments rs_size {V}. Arguments rs_weighted {V}. Arguments rs_unique {V}. Arguments rs_choice {V}.
Arguments mkChol {V P}. Arguments ch_size {V P}. Arguments ch_kernel {V P}. Arguments ch_unique {V P}. Arguments ch_pick {V P}.
Arguments mkC {V}. Arguments c_diag {V}. Arguments c_mat {V}. Arguments c_ind {V}.
