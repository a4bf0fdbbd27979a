(** * Model of GreedyKernelPoints (coreax/solvers/coresubset.py 685-1321) and of the
      exact least-squares solver (coreax/least_squares.py 99-160) *)
From Coq Require Import List ZArith Bool.
From Verif Require Import Num Jax DataModel GreedyModel UtilModel.
Import ListNotations.

Section GKPModel.
  Context {V : Type} (O : FOps V) {P K : Type} (p0 : P).
  (** responses have one column, as line 1104 [responses[loss_batch, 0]] and the class
      documentation (line 1120) require *)
  Notation data := (Data P V V).
  Notation cs := (Coresubset P V V).

  (** a RegularisedLeastSquaresSolver: [solve(array, regularisation, target, identity)] *)
  Definition ls_solver := list (list V) -> V -> list V -> list (list V) -> list V.
  (** least_squares.py:148-160 [MinimalEuclideanNormSolver.solve]; [lstsq] is
      [jnp.linalg.lstsq(_, _, rcond)[0]] *)
  Definition min_norm_solver (lstsq : list (list V) -> list V -> list V) : ls_solver :=
    fun array reg target identity =>
      lstsq (map2 (map2 (fun a e => fadd O a (fmul O (fabs O reg) e))) array identity) target.

  (** the solver object (lines 1175-1181); [gk_split], [gk_permutation] are [jr.split]
      and [jr.permutation] *)
  Record gkp := mkGKP {
    gk_size : nat; gk_kernel : P -> P -> V; gk_reg : V; gk_unique : bool;
    gk_candidates : option Z; gk_loss : option Z; gk_solve : ls_solver;
    gk_split : K -> nat -> list K; gk_permutation : K -> nat -> list nat; gk_key : K }.

  (** lines 816-833: pad with -1 or clip to [coreset_size] *)
  Definition initial_indices (m : nat) (idx : list Z) : list Z :=
    if (length idx <? m)%nat then idx ++ repeat (-1)%Z (m - length idx) else firstn m idx.

  (** lines 841-842, 946-947 *)
  Definition batch_size (b : option Z) (n : nat) : Z :=
    match b with
    | None => Z.of_nat n
    | Some k => if (Z.of_nat n <? k)%Z then Z.of_nat n else k
    end.

  Record setup := mkSetup {
    su_idx : list Z; su_cand : list (list Z); su_loss : list (list Z);
    su_coresets : list (list Z); su_identity : list (list V) }.

  (** [jnp.diag(v)] *)
  Definition diag (v : list V) : list (list V) :=
    map (fun i => upd i (nth i v (f0 O)) (repeat (f0 O) (length v))) (seq 0 (length v)).

  (** lines 756-963 [_setup_batch_solver] with [setup_identity] and
      [setup_loss_batch_indices] set, as its only caller does *)
  Definition setup_batch_solver (s : gkp) (idx : list Z) (n : nat) : result setup :=
    let idx0 := initial_indices (gk_size s) idx in
    let candidate_key := nth 0 (gk_split s (gk_key s) 2) (gk_key s) in
    let loss_key := nth 1 (gk_split s (gk_key s) 2) (gk_key s) in
    let cb := batch_size (gk_candidates s) n in
    do rows <- sample_batch_indices (gk_split s) (gk_permutation s) candidate_key (Z.of_nat n) cb (gk_size s);
    let rows := map (map Z.of_nat) rows in
    let rows := if (cb <? Z.of_nat n)%Z then map2 (fun r i => r ++ [i]) rows idx0 else rows in
    let coresets := map (fun b => upd 0 b idx0) (nth 0 rows []) in
    let identity := diag (gather (f0 O) (repeat (f1 O) n ++ [f0 O]) idx0) in
    do losses <- sample_batch_indices (gk_split s) (gk_permutation s) loss_key (Z.of_nat n)
                   (batch_size (gk_loss s) n) (gk_size s);
    Ok (mkSetup idx0 rows (map (map Z.of_nat) losses) coresets identity).

  (** [feature_gramian[i, j]] *)
  Definition gram_at (gram : list (list V)) (i j : Z) : V := jget (f0 O) (jget [] gram i) j.

  (** lines 1032-1105 [_greedy_kernel_points_loss] for one candidate coreset *)
  Definition gkp_loss (solve : ls_solver) (reg : V) (responses : list V) (gram : list (list V))
      (identity : list (list V)) (loss_batch : list Z) (c : list Z) : V :=
    let coreset_gramian := map (fun i => map (gram_at gram i) c) c in
    let coreset_responses := gather (f0 O) responses c in
    let coefficients := solve coreset_gramian (fabs O reg) coreset_responses identity in
    let prediction l := fdot O (map (fun i => gram_at gram i l) c) coefficients in
    fsum O (map (fun l => fmul O (fsub O (prediction l) (fmul O (fofZ O 2) (jget (f0 O) responses l))) (prediction l)) loss_batch).

  (** lines 1006-1011: infinite loss for candidates already in the coreset *)
  Definition mask_losses (unique : bool) (i : nat) (coresets : list (list Z)) (idx : list Z) (loss : list V) : list V :=
    if unique
    then map2 (fun c l => fadd O l (if existsb (Z.eqb (nth i c 0%Z)) (upd i (-1)%Z idx) then finf O else f0 O)) coresets loss
    else loss.

  (** lines 966-1029; the write to column [i+1] is dropped in the last iteration *)
  Definition update_candidates (i : nat) (unique : bool) (coresets : list (list Z)) (idx : list Z)
      (loss : list V) (cand : list (list Z)) : list (list Z) * list Z :=
    let chosen := nth i (nth (argmin O (mask_losses unique i coresets idx loss)) coresets []) 0%Z in
    (map2 (fun c b => upd (S i) b (upd i chosen c)) coresets (nth (S i) cand (last cand [])),
     upd i chosen idx).

  Record kstate := mkK { k_idx : list Z; k_identity : list (list V); k_coresets : list (list Z) }.

  (** lines 1258-1304 [_greedy_body] *)
  Definition gkp_body (s : gkp) (su : setup) (responses : list V) (gram : list (list V)) (i : nat) (st : kstate) : kstate :=
    let identity := upd i (upd i (f1 O) (nth i (k_identity st) [])) (k_identity st) in
    let loss := map (gkp_loss (gk_solve s) (gk_reg s) responses gram identity (nth i (su_loss su) []))
                    (k_coresets st) in
    let '(coresets, idx) := update_candidates i (gk_unique s) (k_coresets st) (k_idx st) loss (su_cand su) in
    mkK idx identity coresets.

  (** lines 1252-1254 [jnp.pad(kernel.compute(x, x), [(0, 1)])] *)
  Definition padded_gramian (k : P -> P -> V) (x : list P) : list (list V) :=
    map (fun a => map (k a) x ++ [f0 O]) x ++ [repeat (f0 O) (length x + 1)].

  (** lines 1192-1321 [GreedyKernelPoints.refine]; a [Data] without supervision has no
      attribute [supervision] (an AttributeError, modelled as TypeError) *)
  Definition gkp_refine (s : gkp) (c : cs) (st : option (list (list V))) : result (cs * list (list V)) :=
    let d := c_pre c in
    let x := d_x d in
    do su <- setup_batch_solver s (c_idx c) (length x);
    match d_y d with
    | None => Err TypeError
    | Some y =>
        let responses := y ++ [f0 O] in
        let gram := match st with None => padded_gramian (gk_kernel s) x | Some g => g end in
        let out := fori (gk_size s) (gkp_body s su responses gram)
                     (mkK (su_idx su) (su_identity su) (su_coresets su)) in
        do c' <- cs_build O p0 (f0 O) (IArray (k_idx out)) (AData d);
        Ok (c', gram)
    end.

  (** lines 1183-1190 [reduce] *)
  Definition gkp_reduce (s : gkp) (d : data) (st : option (list (list V))) : result (cs * list (list V)) :=
    do c <- initial_coresubset O p0 (f0 O) (-1) (gk_size s) d;
    gkp_refine s c st.
End GKPModel.
Arguments mkGKP {V P K}. Arguments gk_size {V P K}. Arguments gk_kernel {V P K}. Arguments gk_reg {V P K}.
Arguments gk_unique {V P K}. Arguments gk_candidates {V P K}. Arguments gk_loss {V P K}. Arguments gk_solve {V P K}.
Arguments gk_split {V P K}. Arguments gk_permutation {V P K}. Arguments gk_key {V P K}.
Arguments mkSetup {V}. Arguments su_idx {V}. Arguments su_cand {V}. Arguments su_loss {V}. Arguments su_coresets {V}. Arguments su_identity {V}.
Arguments mkK {V}. Arguments k_idx {V}. Arguments k_identity {V}. Arguments k_coresets {V}.
