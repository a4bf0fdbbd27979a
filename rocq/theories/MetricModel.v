(** * Model of coreax/metrics.py and coreax/weights.py *)
From Coq Require Import List ZArith Bool.
From Verif Require Import Num Jax DataModel MeanModel.
Import ListNotations.

Section MetricModel.
  Context {V : Type} (O : FOps V).

  (** ** dense linear algebra on lists of rows *)
  (** column [j] of a matrix *)
  Definition mcol (m : list (list V)) (j : nat) : list V := map (fun row => nth j row (f0 O)) m.
  (** [w @ m] for a vector and a matrix with [c] columns *)
  Definition vecmat (c : nat) (w : list V) (m : list (list V)) : list V :=
    map (fun j => fdot O w (mcol m j)) (seq 0 c).
  (** [m.T] for a matrix with [c] columns *)
  Definition transpose (c : nat) (m : list (list V)) : list (list V) := map (mcol m) (seq 0 c).
  (** [a @ b] for a matrix [b] with [c] columns *)
  Definition matmul (c : nat) (a b : list (list V)) : list (list V) := map (fun row => vecmat c row b) a.
  Definition matvec (m : list (list V)) (v : list V) : list V := map (fun row => fdot O row v) m.
  (** entrywise operation on matrices *)
  Definition mat2 (f : V -> V -> V) (a b : list (list V)) : list (list V) := map2 (map2 f) a b.
  Definition msum (m : list (list V)) : V := fsum O (map (fsum O) m).
  (** [e * jnp.eye(n)] *)
  Definition scaled_eye (n : nat) (e : V) : list (list V) :=
    map (fun i => map (fun j => if Nat.eqb i j then fmul O e (f1 O) else fmul O e (f0 O)) (seq 0 n)) (seq 0 n).

  Section Unsupervised.
    Context {P Y : Type} (p0 : P) (y0 : Y).
    Notation data := (Data P Y V).
    Definition mean_scalar (k : P -> P -> V) (x y : data) (bs : bsarg) : result V :=
      do m <- compute_mean O p0 y0 k x y AxisNone bs;
      match m with MScalar v => Ok v | MVec _ => Err ShapeError end.

    (** metrics.py:127-140 [MMD.compute].  [unroll] only affects compilation. *)
    Definition mmd_compute (k : P -> P -> V) (x y : data) (bs : bsarg) : result V :=
      let bl := leaves_repeat (bs_leaves bs) 2 in
      let b0 := nth 0 bl None in
      let b1 := nth 1 bl None in
      do xx <- mean_scalar k x x (BTwo b0 b0);
      do yy <- mean_scalar k y y (BTwo b1 b1);
      do xy <- mean_scalar k x y (BTwo b0 b1);
      let squared := fsub O (fadd O xx yy) (fmul O (fofZ O 2) xy) in
      Ok (fsqrt O (fmax O (f0 O) squared)).

    (** metrics.py:240-278 [KSD.compute].  [conv] is [convert_stein_kernel(x, kernel,
        score_matching)] (the induced Stein kernel), [logpdf x w y] is
        [gaussian_kde(x.T, weights=w, ...).logpdf(y.T)], [laplace x y] the positive
        Laplacian of the induced score at the points [y].  The field
        [precision_threshold] is never read. *)
    Definition ksd_compute (conv : list P -> P -> P -> V) (logpdf : list P -> list V -> list P -> list V)
        (laplace : list P -> list P -> list V)
        (laplace_correct regularise : bool) (bs : bsarg) (ref cmp : data) : result V :=
      do (x, wx) <- unpack2 ref;
      do sq <- mean_scalar (conv x) cmp cmp bs;
      let m := fofZ O (Z.of_nat (d_len cmp)) in
      let ent := if regularise
                 then fdiv O (fdiv O (fsum O (logpdf x wx (d_x cmp))) m) m
                 else f0 O in
      let lap := if laplace_correct
                 then fdiv O (fsum O (laplace x (d_x cmp))) (fofZ O (Z.of_nat (d_len cmp) ^ 2))
                 else f0 O in
      Ok (fsqrt O (fmax O (f0 O) (fsub O (fadd O sq lap) ent))).
  End Unsupervised.

  Section Supervised.
    Context {P Y : Type}.
    Notation data := (Data P Y V).
    (** metrics.py:493-530 [JMMD.compute]; the arguments are SupervisedData *)
    Definition joint_mean (k : P -> P -> V) (r : Y -> Y -> V) (x1 : list P) (y1 : list Y) (w1 : list V)
        (x2 : list P) (y2 : list Y) (w2 : list V) : V :=
      fdot O (vecmat (length x2) w1 (mat2 (fmul O) (pairwise k x1 x2) (pairwise r y1 y2))) w2.
    Definition jmmd_compute (k : P -> P -> V) (r : Y -> Y -> V) (d1 d2 : data) : result V :=
      let d1 := normalize O true d1 in
      let d2 := normalize O true d2 in
      match d_y d1, d_y d2 with
      | Some y1, Some y2 =>
          let m1 := joint_mean k r (d_x d1) y1 (d_w d1) (d_x d1) y1 (d_w d1) in
          let m2 := joint_mean k r (d_x d2) y2 (d_w d2) (d_x d2) y2 (d_w d2) in
          let m12 := joint_mean k r (d_x d1) y1 (d_w d1) (d_x d2) y2 (d_w d2) in
          Ok (fsqrt O (fmax O (f0 O) (fsub O (fadd O m1 m2) (fmul O (fofZ O 2) m12))))
      | _, _ => Err TypeError
      end.

    (** metrics.py:371-427 [AMCMD.compute].  [linsolve a b] is [jnp.linalg.solve(a, b)]
        with a matrix right-hand side; [reg] the regularisation parameter. *)
    Definition amcmd_term (x3n : nat) (sa : list (list V)) (r : list (list V)) (rc : nat)
        (sb : list (list V)) : V :=
      msum (mat2 (fmul O) (matmul rc (transpose x3n sa) r) (transpose x3n sb)).
    Definition amcmd_compute (linsolve : list (list V) -> list (list V) -> list (list V))
        (k : P -> P -> V) (r : Y -> Y -> V) (reg : V) (d1 d2 : data) (d3 : option (list P)) : result V :=
      match d_y d1, d_y d2 with
      | Some y1, Some y2 =>
          let x1 := d_x d1 in let x2 := d_x d2 in
          let x3 := match d3 with None => d_x d1 | Some x => x end in
          let n3 := length x3 in
          let g1 := mat2 (fadd O) (pairwise k x1 x1) (scaled_eye (length x1) reg) in
          let g2 := mat2 (fadd O) (pairwise k x2 x2) (scaled_eye (length x2) reg) in
          let s1 := linsolve g1 (pairwise k x1 x3) in
          let s2 := linsolve g2 (pairwise k x2 x3) in
          let t1 := amcmd_term n3 s1 (pairwise r y1 y1) (length y1) s1 in
          let t2 := amcmd_term n3 s2 (pairwise r y2 y2) (length y2) s2 in
          let t3 := amcmd_term n3 s1 (pairwise r y1 y2) (length y2) s2 in
          let sq := fmul O (fdiv O (f1 O) (fofZ O (Z.of_nat n3)))
                      (fsub O (fadd O t1 t2) (fmul O (fofZ O 2) t3)) in
          Ok (fsqrt O (fmax O (f0 O) sq))
      | _, _ => Err TypeError
      end.
    (** metrics.py:333-336 [AMCMD.__check_init__] *)
    Definition amcmd_init (reg : V) : result V :=
      if fltb O reg (f0 O) then Err ValueError else Ok reg.
  End Supervised.

  (** ** weights.py *)
  Section Weights.
    Context {P Y : Type} (p0 : P) (y0 : Y).
    Notation data := (Data P Y V).

    (** weights.py:54-101 [solve_qp]; [osqp q c a b g h] is the primal solution returned
        by [jaxopt.OSQP] for min 1/2 x.q.x + c.x subject to a x = b and g x <= h *)
    Definition qp_solver := list (list V) -> list V -> list (list V) -> list V -> list (list V) -> list V -> list V.
    Definition solve_qp (osqp : qp_solver) (kmm : list (list V)) (grm : list V) : list V :=
      let c := map (fun v => fneg O v) grm in
      let n := length kmm in
      let a := [repeat (f1 O) n] in
      let b := [f1 O] in
      let g := map (map (fun v => fmul O v (fofZ O (-1)))) (scaled_eye n (f1 O)) in
      let h := repeat (f0 O) n in
      let sol := map (fun v => fmax O (f0 O) v) (osqp kmm c a b g h) in
      let s := fsum O sol in
      map (fun v => fdiv O v s) sol.

    (** weights.py:108-147 [_prepare_kernel_system].  The data arrays are passed
        without their weights (line 138-141).  Supervised data is rejected. *)
    Definition prepare_kernel_system (k : P -> P -> V) (dataset coreset : data) (eps : V) (bs : bsarg)
      : result (list V * list (list V)) :=
      match d_y dataset, d_y coreset with
      | None, None =>
          let xd := d_x dataset in
          let xc := d_x coreset in
          do m <- compute_mean O p0 y0 k (as_data O xd) (as_data O xc) Axis0 bs;
          match m with
          | MVec kcd => Ok (kcd, mat2 (fadd O) (pairwise k xc xc) (scaled_eye (length xc) eps))
          | MScalar _ => Err ShapeError
          end
      | _, _ => Err ValueError
      end.

    (** weights.py:213-251 [SBQWeightsOptimiser.solve]; [linsolve] is
        [jnp.linalg.solve] with a vector right-hand side *)
    Definition sbq_solve (linsolve : list (list V) -> list V -> list V) (k : P -> P -> V)
        (dataset coreset : data) (eps : V) (bs : bsarg) : result (list V) :=
      do (kcd, kcc) <- prepare_kernel_system k dataset coreset eps bs;
      Ok (linsolve kcc kcd).
    (** weights.py:277-312 [MMDWeightsOptimiser.solve] *)
    Definition mmdw_solve (osqp : qp_solver) (k : P -> P -> V)
        (dataset coreset : data) (eps : V) (bs : bsarg) : result (list V) :=
      do (kcd, kcc) <- prepare_kernel_system k dataset coreset eps bs;
      Ok (solve_qp osqp kcc kcd).
  End Weights.
End MetricModel.
