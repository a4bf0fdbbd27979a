(** * Model of the regularised least-squares solvers (coreax/least_squares.py) *)
From Coq Require Import List ZArith Bool.
From Verif Require Import Num Jax MetricModel.
Import ListNotations.

Section LsqModel.
  Context {V : Type} (O : FOps V).
  Notation mat := (list (list V)).
  (** [m.shape[1]]; 2-dimensional arrays only (the check of line 182 always passes) *)
  Definition width (m : mat) : nat := length (hd [] m).
  Definition tr (m : mat) : mat := transpose O (width m) m.
  Definition mm (a b : mat) : mat := matmul O (width b) a b.
  (** [jnp.max]: NaN if any entry is NaN *)
  Definition vmax (l : list V) : V :=
    match l with [] => fninf O | a :: t => fold_left (fmax O) t a end.

  (** least_squares.py:205-232 [_eigendecomposition_invert]; row [i] of [U] holds entry
      [i] of all eigenvectors.  [jnp.max] of an empty array raises. *)
  Definition eig_invert (eigenvalues : list V) (U : mat) (rcond : V) : result mat :=
    match eigenvalues with
    | [] => Err ValueError
    | _ =>
        let threshold := fmul O rcond (vmax eigenvalues) in
        let mask := map (fun e => fleb O threshold e) eigenvalues in
        let safe := map2 (fun (m : bool) e => if m then e else f1 O) mask eigenvalues in
        let inverse := map2 (fun (m : bool) e => if m then fdiv O (f1 O) e else f0 O) mask safe in
        Ok (mm U (map2 (fun v row => map (fmul O v) row) inverse (tr U)))
    end.

  (** external routines: standard normal draws of shape (n, r), the Q factor of
      [jnp.linalg.qr], [jnp.linalg.eigh] *)
  Context {K : Type}.
  Variable normal : K -> nat -> nat -> mat.
  Variable qr : mat -> mat.
  Variable eigh : mat -> list V * mat.

  (** 163-202 [_gaussian_range_finder] *)
  Definition range_finder (key : K) (array : mat) (oversampling power : nat) : result mat :=
    if negb (length array =? width array)%nat then Err ValueError
    else
      let draws := normal key (length array) oversampling in
      let q := qr (mm array draws) in
      Ok (fori power (fun _ q =>
            let q_ := qr (mm (tr array) q) in
            qr (mm array q_)) q).

  (** 266-269 fields; the integer-typed fields are integers here *)
  Record red_solver := mkRed {
    rs_key : K; rs_oversampling : Z; rs_power : Z; rs_rcond : option V }.
  (** 271-283 [__check_init__] *)
  Definition red_check (s : red_solver) : result red_solver :=
    if (rs_oversampling s <=? 0)%Z then Err ValueError
    else if (rs_power s <? 0)%Z then Err ValueError
    else match rs_rcond s with
         | Some r => if fltb O r (f0 O) && negb (feqb O r (fneg O (f1 O))) then Err ValueError else Ok s
         | None => Ok s
         end.
  (** 285-324 [randomised_eigendecomposition] *)
  Definition randomised_eig (s : red_solver) (array : mat) : result (list V * mat) :=
    do q <- range_finder (rs_key s) array (Z.to_nat (rs_oversampling s)) (Z.to_nat (rs_power s));
    let '(ev, W) := eigh (mm (mm (tr q) array) q) in
    Ok (ev, mm q W).

  (** [array + abs(regularisation_parameter) * identity] *)
  Definition regularised (array : mat) (reg : V) (identity : mat) : mat :=
    mat2 (fun a e => fadd O a (fmul O (fabs O reg) e)) array identity.
  (** 334-341; [eps] is [jnp.finfo(array.dtype).eps] *)
  Definition red_rcond (eps : V) (s : red_solver) (num_rows : nat) : V :=
    match rs_rcond s with
    | None => fmul O eps (fofZ O (Z.of_nat num_rows))
    | Some r => if feqb O r (fneg O (f1 O)) then eps else r
    end.
  (** 326-350 [RandomisedEigendecompositionSolver.solve] *)
  Definition red_solve (eps : V) (s : red_solver) (array : mat) (reg : V) (target identity : mat) : result mat :=
    let rcond := red_rcond eps s (length array) in
    do eu <- randomised_eig s (regularised array reg identity);
    do inv <- eig_invert (fst eu) (snd eu) rcond;
    Ok (mm inv target).

  (** 148-160 [MinimalEuclideanNormSolver.solve] with a matrix of targets; [lstsq] is
      [jnp.linalg.lstsq(_, _, rcond)[0]] *)
  Definition men_solve (lstsq : mat -> mat -> option V -> mat) (rcond : option V)
      (array : mat) (reg : V) (target identity : mat) : result mat :=
    Ok (lstsq (regularised array reg identity) target rcond).

  (** 99-122 [solve_stack] with the default [in_axes]; [jax.vmap] over stacks of unequal
      length raises *)
  Definition solve_stack (solve : mat -> V -> mat -> mat -> result mat)
      (arrays : list mat) (reg : V) (targets : list mat) (identity : mat) : result (list mat) :=
    if negb (length arrays =? length targets)%nat then Err ValueError
    else fold_right (fun at_ acc => do x <- solve (fst at_) (fabs O reg) (snd at_) identity; do l <- acc; Ok (x :: l))
           (Ok []) (combine arrays targets).
End LsqModel.
