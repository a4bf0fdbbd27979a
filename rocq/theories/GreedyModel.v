(** * Model of the greedy solvers: KernelHerding and SteinThinning
      (coreax/solvers/coresubset.py 59-78, 115-551) *)
From Coq Require Import List ZArith Bool.
From Verif Require Import Num Jax DataModel MeanModel.
Import ListNotations.

Section GreedyModel.
  Context {V : Type} (O : FOps V) {P Y : Type} (p0 : P) (y0 : Y).
  Notation data := (Data P Y V).
  Notation cs := (Coresubset P Y V).

  (** coresubset.py:59-78 [_initial_coresubset]: the handler re-raises ValueError
      (with a friendlier message) when the size is too large *)
  Definition initial_coresubset (fill : Z) (size : nat) (d : data) : result cs :=
    cs_init O p0 y0 (IData (repeat fill size) (repeat (f0 O) size)) (AData d).

  (** [sum(greater(weights, 0))] (line 159) *)
  Definition count_pos (w : list V) : nat := length (filter (fgt0 O) w).

  (** [kernel.compute(data, row)] raveled (line 181, 210) *)
  Definition kcol (k : P -> P -> V) (x : list P) (row : P) : list V := map (fun a => k a row) x.

  (** Loop state of lines 173-217 *)
  Record gstate := mkG { g_idx : list Z; g_pen : list V; g_size : Z }.

  (** lines 192-204: the penalty shown to the selection function.  [ord] is the
      order in which the scatter applies its updates. *)
  Definition valid_penalty (unique : bool) (ord : list nat) (dw cw : list V)
      (idx : list Z) (i : nat) (pen : list V) : list V :=
    let valid := map2 (fun w p => if fgt0 O w then p else fnan O) dw pen in
    if unique then
      let vals := map2 (fun j w => if negb (j =? nth i idx 0)%Z && fgt0 O w then finf O
                                   else jget (f0 O) valid j) idx cw in
      scatter ord (f0 O) valid idx vals
    else valid.

  (** lines 173-217 [_greedy_body] *)
  Definition greedy_body (k : P -> P -> V) (x : list P) (dw cw : list V)
      (sel : nat -> list V -> Z -> Z) (unique : bool) (ord : nat -> list nat)
      (i : nat) (s : gstate) : gstate :=
    let replacing := fgt0 O (nth i cw (f0 O)) in
    let upd_out := kcol k x (jget p0 x (nth i (g_idx s) 0%Z)) in
    let pen := if replacing then map2 (fsub O) (g_pen s) upd_out else g_pen s in
    let size := if replacing then g_size s else (g_size s + 1)%Z in
    let valid := valid_penalty unique (ord i) dw cw (g_idx s) i pen in
    let j := sel i valid size in
    let idx' := upd i j (g_idx s) in
    let pen' := map2 (fadd O) pen (kcol k x (jget p0 x j)) in
    let pen'' := if unique then jset pen' j (finf O) else pen' in
    mkG idx' pen'' size.

  (** coresubset.py:125-226 [_greedy_kernel_selection].  [data, data_weights =
      tree_leaves(...)] raises ValueError on supervised data (line 164). *)
  Definition greedy_selection (c : cs) (sel : nat -> list V -> Z -> Z) (output_size : nat)
      (k : P -> P -> V) (unique : bool) (bs : bsarg) (ord : nat -> list nat) : result cs :=
    let padding := (output_size - length (c_idx c))%nat in
    let idx := c_idx c ++ repeat 0%Z padding in
    let cw := c_w c ++ repeat (f0 O) padding in
    let init_size := Z.of_nat (count_pos cw) in
    do (x, dw) <- unpack2 (c_pre c);
    do m <- compute_mean O p0 y0 k (as_data O x) (points O p0 y0 (mkCS idx cw (c_pre c))) Axis1 bs;
    match m with
    | MScalar _ => Err ShapeError
    | MVec mean =>
        let pen := map (fun v => fmul O (fofZ O init_size) v) mean in
        let out := fori output_size (greedy_body k x dw cw sel unique ord) (mkG idx pen init_size) in
        let new_idx := firstn output_size (g_idx out) in
        Ok (mkCS new_idx (repeat (f1 O) (length new_idx)) (c_pre c))
    end.

  (** ** KernelHerding *)
  (** [jax.nn.softmax]; [ex] is the exponential on array entries *)
  Definition softmax (ex : V -> V) (l : list V) : list V :=
    let m := fold_left (fmax O) l (fninf O) in
    let e := map (fun v => ex (fsub O v m)) l in
    let s := fsum O e in
    map (fun v => fdiv O v s) e.

  (** Selection mode (fields [probabilistic], [temperature], [random_key] of
      KernelHerding).  [Prob ex temp choice]: [choice i probs] is
      [jr.choice(fold_in(random_key, i), n, (), p=probs, replace=False)]. *)
  Inductive hmode := Greedy | Prob (ex : V -> V) (temp : V) (choice : nat -> list V -> Z).

  (** coresubset.py:333-351 [selection_function] *)
  Definition herding_select (mode : hmode) (grm : list V) (i : nat) (pen : list V) (size : Z) : Z :=
    let residuals := map2 (fun g p => fsub O g (fdiv O p (fofZ O size))) grm pen in
    match mode with
    | Greedy => nanargmax O residuals
    | Prob ex temp choice => choice i (softmax ex (map (fun r => fdiv O r temp) residuals))
    end.

  (** The solver's fields *)
  Record herding := mkHerding {
    h_size : nat; h_kernel : P -> P -> V; h_unique : bool; h_bs : bsarg; h_mode : hmode }.

  (** coresubset.py:299-362 [KernelHerding.refine]; the state is the cached
      Gramian row-mean *)
  Definition herding_refine (h : herding) (ord : nat -> list nat) (c : cs) (st : option (list V))
    : result (cs * list V) :=
    do grm <- match st with
              | Some g => Ok g
              | None => do m <- gramian_row_mean O p0 y0 (h_kernel h) (c_pre c) (h_bs h);
                        match m with MVec g => Ok g | MScalar _ => Err ShapeError end
              end;
    do c' <- greedy_selection c (herding_select (h_mode h) grm) (h_size h) (h_kernel h)
               (h_unique h) (h_bs h) ord;
    Ok (c', grm).

  (** coresubset.py:290-297 [KernelHerding.reduce] *)
  Definition herding_reduce (h : herding) (ord : nat -> list nat) (d : data) (st : option (list V))
    : result (cs * list V) :=
    do c <- initial_coresubset 0 (h_size h) d;
    herding_refine h ord c st.

  (** coresubset.py:364-413 [reduce_iterative].  [modes i] is the selection mode of
      iteration i (key folded with i, temperature from the schedule); [ords i]
      the scatter orders of iteration i. *)
  Definition herding_reduce_iterative (h : herding) (modes : nat -> hmode)
      (ords : nat -> nat -> list nat) (d : data) (st : option (list V)) (iters : nat)
    : result (cs * list V) :=
    do c <- initial_coresubset 0 (h_size h) d;
    do grm <- match st with
              | Some g => Ok g
              | None => do m <- gramian_row_mean O p0 y0 (h_kernel h) (c_pre c) (h_bs h);
                        match m with MVec g => Ok g | MScalar _ => Err ShapeError end
              end;
    do c' <- fori iters (fun i r =>
               do c <- r;
               do (c', _) <- herding_refine (mkHerding (h_size h) (h_kernel h) (h_unique h) (h_bs h) (modes i))
                               (ords i) c (Some grm);
               Ok c') (Ok c);
    Ok (c', grm).

  (** ** SteinThinning *)
  (** What the solver obtains from its environment (coresubset.py:505-527):
      [s_kernel] is [self.kernel] (used for the diagonal and in the loop; it is
      used as it is, not the Stein kernel converted on line 506);
      [s_reg = None] models [regularise=False]; [Some (lam, logpdf, lap)] gives
      [regulariser_lambda], [kde.logpdf] and the positive Laplacian term of the
      converted kernel's score function, the last two as functions of the data. *)
  Record stein := mkStein {
    s_size : nat; s_kernel : P -> P -> V; s_unique : bool; s_bs : bsarg;
    s_reg : option (option V * (list P -> list V -> list V) * (list P -> list V)) }.

  (** coresubset.py:529-540 [selection_function] *)
  Definition stein_select (diag : list V) (reg : option (list V * list V)) (i : nat) (pen : list V)
      (size : Z) : Z :=
    let ksd := map2 (fun d p => fadd O d (fmul O (fofZ O 2) p)) diag pen in
    match reg with
    | None => nanargmin O (map (fun v => fsub O (fadd O v (f0 O)) (fmul O (fofZ O (Z.of_nat i + 1)) (f0 O))) ksd)
    | Some (lap, rlp) =>
        nanargmin O (map2 (fun v q => fsub O v (fmul O (fofZ O (Z.of_nat i + 1)) q))
                          (map2 (fadd O) ksd lap) rlp)
    end.

  (** coresubset.py:505-527: the regularisation terms.  [len(coresubset)] is the
      length of the coresubset being refined (line 513). *)
  Definition stein_terms (s : stein) (clen : nat) (x : list P) (w : list V) : option (list V * list V) :=
    match s_reg s with
    | None => None
    | Some (lam, logpdf, lap) =>
        let l := match lam with None => fdiv O (f1 O) (fofZ O (Z.of_nat clen)) | Some l => l end in
        Some (lap x, map (fmul O l) (logpdf x w))
    end.

  (** coresubset.py:481-551 [SteinThinning.refine] *)
  Definition stein_refine (s : stein) (ord : nat -> list nat) (c : cs) : result cs :=
    do (x, w) <- unpack2 (c_pre c);
    let diag := map (fun a => s_kernel s a a) x in
    greedy_selection c (stein_select diag (stein_terms s (length (c_idx c)) x w)) (s_size s)
      (s_kernel s) (s_unique s) (s_bs s) ord.

  (** coresubset.py:474-479 [SteinThinning.reduce] *)
  Definition stein_reduce (s : stein) (ord : nat -> list nat) (d : data) : result cs :=
    do c <- initial_coresubset 0 (s_size s) d;
    stein_refine s ord c.
End GreedyModel.
Arguments mkG {V}. Arguments g_idx {V}. Arguments g_pen {V}. Arguments g_size {V}.
Arguments mkHerding {V P}. Arguments h_size {V P}. Arguments h_kernel {V P}. Arguments h_unique {V P}.
Arguments h_bs {V P}. Arguments h_mode {V P}. Arguments Greedy {V}. Arguments Prob {V}.
Arguments mkStein {V P}. Arguments s_size {V P}. Arguments s_kernel {V P}. Arguments s_unique {V P}.
Arguments s_bs {V P}. Arguments s_reg {V P}.
