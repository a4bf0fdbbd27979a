(** * Property theorems: regularised least squares (C37) *)
From Coq Require Import List ZArith Reals Lra Lia Bool QArith.
From Verif Require Import Num Jax RSum MetricModel MetricSpec MetricProofs2 KernelProofs4 KTProofs4 GKPSpec RecProofs3 RecProofs5 LsqModel LsqSpec LsqProofs LsqProofs2.
Import ListNotations.
Open Scope R_scope.
Ltac leq t := lazymatch goal with |- _ :: _ = _ :: _ => apply f_equal2; leq t | |- [] = [] => reflexivity | |- _ => t end.

(** ** C37: the eigenvalue-masked inverse.
    U has orthonormal columns u_j, the eigenvalues are l_j and the largest is [big].  The
    matrix returned divides by l_j on every retained eigenvector (l_j >= rcond * big), is
    zero on every discarded one, and zero on everything orthogonal to the eigenvectors.
    Partial: a retained eigenvalue must not be zero (see [C37_zero_matrix_refuted]). *)
Theorem C37_masked_inverse_partial n r U l rcond big :
  (0 < n)%nat -> (0 < r)%nat -> is_mat n r U -> ortho_cols r U -> length l = r -> largest big l ->
  (forall x, In x l -> rcond * big <= x -> x <> 0) ->
  exists M, eig_invert EROps (map Fin l) (map (map Fin) U) (Fin rcond) = Ok (map (map Fin) M) /\ is_mat n n M /\
    (forall j, (j < r)%nat -> rcond * big <= nth j l 0 -> Rmv M (Rcol U j) = vscal (/ nth j l 0) (Rcol U j)) /\
    (forall j, (j < r)%nat -> nth j l 0 < rcond * big -> Rmv M (Rcol U j) = zeros n) /\
    (forall v, length v = n -> (forall j, (j < r)%nat -> Rdot (Rcol U j) v = 0) -> Rmv M v = zeros n).
Proof.
  intros Hn Hr MU OU Ll HL NZ. destruct (eig_invert_fin n r U l rcond big) as (M & E & MM & HM); try assumption.
  exists M. split; [exact E|]. split; [exact MM|].
  assert (LC : forall j, length (Rcol U j) = n) by (intro; rewrite Rcol_len; apply MU).
  split; [|split].
  - intros j Hj R. rewrite HM by apply LC. rewrite (spec_col n) by assumption. unfold inv_at. destruct (Rle_dec _ _); [reflexivity|lra].
  - intros j Hj R. rewrite HM by apply LC. rewrite (spec_col n) by assumption. unfold inv_at. destruct (Rle_dec _ _); [lra|].
    unfold vscal, zeros. rewrite (map_ext _ (fun _ => 0)) by (intro; ring). rewrite <- (LC j). generalize (Rcol U j). intro w.
    induction w as [|a w IH]; cbn; [reflexivity|]. f_equal. exact IH.
  - intros v Lv P. rewrite HM by exact Lv. apply (spec_perp n); [exact MU|]. unfold tmv, zeros.
    rewrite (map_ext_in _ (fun _ => 0)) by (intros j Hj; apply in_seq in Hj; apply P; lia).
    rewrite <- (seq_length r 0) at 2. generalize (seq 0 r). intro w. induction w as [|a w IH]; cbn; [reflexivity|]. f_equal. exact IH.
Qed.
Print Assumptions C37_masked_inverse_partial.

Definition rot : list (list R) := [[3/5; 4/5]; [4/5; -(3/5)]; [0; 0]].
Example C37_masked_inverse_applies : exists M, eig_invert EROps (map Fin [4; 1/100]) (map (map Fin) rot) (Fin (1/10)) = Ok (map (map Fin) M) /\
  Rmv M [3/5; 4/5; 0] = [3/20; 1/5; 0] /\ Rmv M [4/5; -(3/5); 0] = [0; 0; 0] /\ Rmv M [0; 0; 7] = [0; 0; 0].
Proof.
  destruct (C37_masked_inverse_partial 3 2 rot [4; 1/100] (1/10) 4) as (M & E & _ & H1 & H2 & H3).
  - lia.
  - lia.
  - split; [reflexivity|]. intros row [<-|[<-|[<-|[]]]]; reflexivity.
  - intros i j Hi Hj. destruct i as [|[|i]]; try lia; destruct j as [|[|j]]; try lia; unfold Rdot, Rcol, rot; cbn; field.
  - reflexivity.
  - split; [now left|]. intros x [<-|[<-|[]]]; lra.
  - intros x [<-|[<-|[]]] ?; lra.
  - exists M. split; [exact E|]. split; [|split].
    + change [3/5; 4/5; 0] with (Rcol rot 0). rewrite H1 by (cbn; lia || lra). cbn. leq ltac:(field).
    + change [4/5; -(3/5); 0] with (Rcol rot 1). rewrite H2 by (cbn; lia || lra). reflexivity.
    + rewrite H3; [reflexivity|reflexivity|]. intros [|[|j]] Hj; try lia; unfold Rdot, Rcol, rot; cbn; lra.
Qed.

(** ** C37: the range finder, after any number of power iterations, returns orthonormal
    columns whose span contains the whole range of the array, provided the random draws
    see that range and QR factorisations are exact. *)
Theorem C37_range_finder {K} (normal : K -> nat -> nat -> list (list ER)) qr n A D key over power :
  (0 < n)%nat -> (0 < over)%nat -> is_mat n n A -> is_mat n over D -> normal key n over = map (map Fin) D ->
  qr_exact n qr -> sees_range n over A D ->
  exists r Q, range_finder EROps normal qr key (map (map Fin) A) over power = Ok (map (map Fin) Q) /\
    is_mat n r Q /\ ortho_cols r Q /\ forall y, length y = n -> col_proj r Q (Rmv A y) = Rmv A y.
Proof.
  intros. destruct (range_finder_ok normal qr n A D key over power) as (r & Q & E & _ & H'); try assumption. exists r, Q. auto.
Qed.
Print Assumptions C37_range_finder.

(** ** C37: [RandomisedEigendecompositionSolver.solve] returns, column by column, the
    minimal-norm least-squares solution of (A + |reg| I) X = B; it solves the equation
    exactly whenever it is solvable.  Assumed: symmetric A + |reg| I, draws that see its
    range, exact QR and eigendecomposition, and a cut-off that separates the zero
    eigenvalues from the others.
    Partial: without that separation the statement fails ([C37_zero_matrix_refuted],
    [C37_negative_eigenvalue_refuted]). *)
Theorem C37_solve_partial {K} (normal : K -> nat -> nat -> list (list ER)) qr eigh n m A reg I B D eps key over power rcond rc :
  let A' := Rridge A (Rabs reg) I in
  let s := mkRed key (Z.of_nat over) (Z.of_nat power) rcond in
  (0 < n)%nat -> (0 < over)%nat -> is_mat n n A -> is_mat n n I -> is_mat n m B -> symmetric A' ->
  is_mat n over D -> normal key n over = map (map Fin) D -> qr_exact n qr -> sees_range n over A' D ->
  match rcond with
  | None => rc = eps * INR n
  | Some r => r = Fin (-1) /\ rc = eps \/ r = Fin rc /\ rc <> -1
  end ->
  (forall r Q, is_mat n r Q -> range_finder EROps normal qr key (map (map Fin) A') over power = Ok (map (map Fin) Q) ->
     exists l W, eigh (map (map Fin) (compress r Q A')) = (map Fin l, map (map Fin) W) /\
       eigen_decomposition r (compress r Q A') l W /\ separates rc l) ->
  exists X, red_solve EROps normal qr eigh (Fin eps) s (map (map Fin) A) (Fin reg) (map (map Fin) B) (map (map Fin) I) = Ok (map (map Fin) X) /\
    is_mat n m X /\
    forall j, (j < m)%nat -> is_min_norm A' (Rcol B j) (Rcol X j) /\
      forall y, length y = n -> Rmv A' y = Rcol B j -> Rmv A' (Rcol X j) = Rcol B j.
Proof.
  intros A' s Hn Ho MA MI MB SY MD HD QR SR RC EH.
  destruct (red_solve_ok normal qr eigh n m A reg I B D (Fin eps) key over power rcond rc) as (X & E & MX & HX); try assumption.
  { unfold red_rcond. cbn [rs_rcond]. destruct rcond as [r|].
    - rewrite f1_fin, fneg_fin. destruct RC as [[-> ->]|[-> N]].
      + replace (feqb EROps (Fin (-1)) (Fin (- (1)))) with true; [reflexivity|].
        symmetry. unfold feqb. rewrite !(proj2 (fleb_fin _ _)) by lra. reflexivity.
      + replace (feqb EROps (Fin rc) (Fin (- (1)))) with false; [reflexivity|]. symmetry.
        destruct (feqb EROps (Fin rc) (Fin (- (1)))) eqn:F; [|reflexivity]. unfold feqb in F.
        apply andb_true_iff in F. destruct F as [F1 F2]. apply fleb_fin in F1, F2. lra.
    - rewrite fofZ_fin, fmul_fin, INR_Zof. congruence. }
  exists X. split; [exact E|]. split; [exact MX|]. intros j Hj. split; [now apply HX|]. intros y Ly Ey.
  apply (min_norm_exact n A' _ _ y); auto; [now apply ridge_mat|]. rewrite Rcol_len. apply MB.
Qed.
Print Assumptions C37_solve_partial.

(** a rank-one system: A = [[1,1],[1,1]], B = (1,0)^T, no regularisation *)
Definition onesA : list (list R) := [[1; 1]; [1; 1]].
Definition eye2 : list (list R) := [[1; 0]; [0; 1]].
Definition ex_normal (_ : unit) (_ _ : nat) : list (list ER) := map (map Fin) eye2.
Definition ex_qr (_ : list (list ER)) : list (list ER) := map (map Fin) eye2.
Definition ex_W : list (list R) := [[/ sqrt 2; / sqrt 2]; [- / sqrt 2; / sqrt 2]].
Definition ex_eigh (_ : list (list ER)) : list ER * list (list ER) := (map Fin [0; 2], map (map Fin) ex_W).
Lemma FF_inj (a b : list (list R)) : map (map (@Fin R)) a = map (map Fin) b -> a = b.
Proof.
  revert b. induction a as [|x a IH]; intros [|y b] E; try discriminate; [reflexivity|]. cbn in E. injection E as E1 E2.
  f_equal; [|now apply IH]. clear -E1. revert y E1. induction x as [|u x IH]; intros [|v y] E; try discriminate; [reflexivity|].
  cbn in E. injection E as E1 E2. f_equal; [exact E1|now apply IH].
Qed.
Lemma eye2_mat : is_mat 2 2 eye2.
Proof. split; [reflexivity|]. intros row [<-|[<-|[]]]; reflexivity. Qed.
Lemma eye2_cols : ortho_cols 2 eye2.
Proof. intros i j Hi Hj. destruct i as [|[|i]]; try lia; destruct j as [|[|j]]; try lia; unfold Rdot, Rcol, eye2; cbn; ring. Qed.
Lemma eye2_proj v : length v = 2%nat -> col_proj 2 eye2 v = v.
Proof.
  intro L. destruct v as [|a [|b [|]]]; try discriminate. unfold col_proj, Rmv, Rdot, Rcol, eye2. cbn. leq ltac:(ring).
Qed.
Lemma ex_qr_exact : qr_exact 2 ex_qr.
Proof.
  intros Y LY. exists eye2. split; [reflexivity|]. exists 2%nat. split; [lia|]. split; [exact eye2_mat|]. split; [exact eye2_cols|].
  intro j. apply eye2_proj. rewrite Rcol_len. exact LY.
Qed.
Lemma onesA_mat : is_mat 2 2 onesA.
Proof. split; [reflexivity|]. intros row [<-|[<-|[]]]; reflexivity. Qed.
Lemma ex_sees A : is_mat 2 2 A -> sees_range 2 2 A eye2.
Proof.
  intros _ y Ly. exists y. split; [exact Ly|]. f_equal. destruct y as [|a [|b [|]]]; try discriminate.
  unfold Rmv, Rdot, eye2. cbn. leq ltac:(ring).
Qed.
Example C37_range_finder_applies : exists r Q, range_finder EROps ex_normal ex_qr tt (map (map Fin) onesA) 2 3 = Ok (map (map Fin) Q) /\
    is_mat 2 r Q /\ ortho_cols r Q /\ forall y, length y = 2%nat -> col_proj r Q (Rmv onesA y) = Rmv onesA y.
Proof.
  apply (C37_range_finder ex_normal ex_qr 2 onesA eye2); try lia; auto using onesA_mat, eye2_mat, ex_qr_exact, ex_sees.
Qed.
Lemma ex_ridge : Rridge onesA (Rabs 0) eye2 = onesA.
Proof. unfold Rridge, onesA, eye2. rewrite Rabs_R0. cbn. leq ltac:(ring). Qed.
Lemma sqrt2_inv : / sqrt 2 * / sqrt 2 = / 2.
Proof. rewrite <- Rinv_mult. rewrite sqrt_sqrt by lra. reflexivity. Qed.
Lemma ex_compress : compress 2 eye2 onesA = onesA.
Proof. unfold compress, Rmv, Rdot, Rcol, eye2, onesA. cbn. leq ltac:(ring). Qed.
Lemma ex_eigen : eigen_decomposition 2 onesA [0; 2] ex_W.
Proof.
  pose proof sqrt2_inv as S. split; [reflexivity|]. split; [split; [reflexivity|intros row [<-|[<-|[]]]; reflexivity]|]. split; [|split].
  - intros i j Hi Hj. destruct i as [|[|i]]; try lia; destruct j as [|[|j]]; try lia; unfold Rdot, Rcol, ex_W; cbn; lra.
  - intros v L. destruct v as [|a [|b [|]]]; try discriminate. unfold col_proj, Rmv, Rdot, Rcol, ex_W. cbn.
    set (q := / sqrt 2) in *.
    apply f_equal2; [transitivity (2 * (q * q) * a); [ring|rewrite S; field]|].
    apply f_equal2; [transitivity (2 * (q * q) * b); [ring|rewrite S; field]|reflexivity].
  - intros j Hj. destruct j as [|[|j]]; try lia; unfold Rmv, vscal, Rdot, Rcol, ex_W, onesA; cbn; leq ltac:(ring).
Qed.
Example C37_solve_applies : exists X, red_solve EROps ex_normal ex_qr ex_eigh (Fin (1 / 1000)) (mkRed tt 2 1 None)
    (map (map Fin) onesA) (Fin 0) (map (map Fin) [[1]; [0]]) (map (map Fin) eye2) = Ok (map (map Fin) X) /\
    is_mat 2 1 X /\
    forall j, (j < 1)%nat -> is_min_norm onesA (Rcol [[1]; [0]] j) (Rcol X j) /\
      forall y, length y = 2%nat -> Rmv onesA y = Rcol [[1]; [0]] j -> Rmv onesA (Rcol X j) = Rcol [[1]; [0]] j.
Proof.
  pose proof (C37_solve_partial ex_normal ex_qr ex_eigh 2 1 onesA 0 eye2 [[1]; [0]] eye2 (1 / 1000) tt 2 1 None (1 / 1000 * INR 2)) as T.
  cbv zeta in T. rewrite ex_ridge in T.
  apply T; try lia; auto using onesA_mat, eye2_mat, ex_qr_exact, ex_sees; clear T.
  - split; [reflexivity|]. intros row [<-|[<-|[]]]; reflexivity.
  - intros i j. destruct i as [|[|[|i]]]; destruct j as [|[|[|j]]]; reflexivity.
  - intros r Q MQ E. assert (Q = eye2) as ->.
    { symmetry. apply FF_inj. exact (f_equal (fun r => match r with Ok q => q | Err _ => [] end) E). }
    assert (r = 2%nat) as -> by (symmetry; apply (proj2 MQ [1; 0]); now left).
    rewrite ex_compress. exists [0; 2], ex_W. split; [reflexivity|]. split; [exact ex_eigen|].
    exists 2. split; [split; [right; now left|intros x [<-|[<-|[]]]; lra]|].
    intros x [<-|[<-|[]]]; cbn [INR]; split; intros; lra.
Qed.

Lemma feqb_dec a b : feqb EROps (Fin a) (Fin b) = if Req_EM_T a b then true else false.
Proof.
  unfold feqb. rewrite !fleb_dec. destruct (Rle_dec a b), (Rle_dec b a), (Req_EM_T a b); cbn; auto; lra.
Qed.
(** ** C37: conventions of the constructor, the regularisation parameter and rcond *)
Theorem C37_conventions {K} (normal : K -> nat -> nat -> list (list ER)) qr eigh key (over power : Z) (eps : R) (array target identity : list (list ER)) :
  let solve rcond reg := red_solve EROps normal qr eigh (Fin eps) (mkRed key over power rcond) array reg target identity in
  (* the sign of the regularisation parameter is ignored *)
  (forall rcond reg, solve rcond (Fin (- reg)) = solve rcond (Fin reg)) /\
  (* None: machine precision times the number of rows; -1: machine precision *)
  (0 <= eps -> forall reg, solve None reg = solve (Some (Fin (eps * INR (length array)))) reg) /\
  (0 <= eps -> forall reg, solve (Some (Fin (-1))) reg = solve (Some (Fin eps)) reg) /\
  (* valid constructor arguments, and only those, are accepted *)
  (forall rcond, red_check EROps (mkRed key over power (option_map Fin rcond)) =
     if (0 <? over)%Z && (0 <=? power)%Z && match rcond with None => true | Some r => if Rle_dec 0 r then true else if Req_EM_T r (-1) then true else false end
     then Ok (mkRed key over power (option_map Fin rcond)) else Err ValueError).
Proof.
  intro solve. split; [|split; [|split]].
  - intros rcond reg. unfold solve, red_solve, regularised. rewrite !fabs_fin, Rabs_Ropp. reflexivity.
  - intros He reg. unfold solve, red_solve.
    replace (red_rcond EROps (Fin eps) (mkRed key over power None) (length array))
      with (red_rcond EROps (Fin eps) (mkRed key over power (Some (Fin (eps * INR (length array))))) (length array)); [reflexivity|].
    unfold red_rcond. cbn [rs_rcond]. rewrite fofZ_fin, fmul_fin, INR_Zof, f1_fin, fneg_fin, feqb_dec.
    pose proof (pos_INR (length array)). destruct (Req_EM_T _ _) as [E|E]; [nra|reflexivity].
  - intros He reg. unfold solve, red_solve.
    replace (red_rcond EROps (Fin eps) (mkRed key over power (Some (Fin (-1)))) (length array))
      with (red_rcond EROps (Fin eps) (mkRed key over power (Some (Fin eps))) (length array)); [reflexivity|].
    unfold red_rcond. cbn [rs_rcond]. rewrite f1_fin, fneg_fin, !feqb_dec.
    destruct (Req_EM_T eps _) as [E|E]; [lra|]. destruct (Req_EM_T (-1) _) as [E'|E']; [reflexivity|lra].
  - intro rcond. unfold red_check. cbn [rs_oversampling rs_power rs_rcond].
    destruct (over <=? 0)%Z eqn:E1, (0 <? over)%Z eqn:E1'; try lia; cbn [andb]; [reflexivity|].
    destruct (power <? 0)%Z eqn:E2, (0 <=? power)%Z eqn:E2'; try lia; cbn [andb]; [reflexivity|].
    destruct rcond as [r|]; cbn [option_map]; [|reflexivity]. rewrite f0_fin, f1_fin, fneg_fin, fltb_fin, feqb_dec.
    destruct (Rlt_dec r 0), (Rle_dec 0 r), (Req_EM_T r (- (1))), (Req_EM_T r (-1)); cbn; try lra; reflexivity.
Qed.
Print Assumptions C37_conventions.
(** e.g. oversampling -1 is rejected although the rest is valid; rcond = -1 is accepted, -0.5 is not *)
Example C37_conventions_applies :
  red_check EROps (mkRed tt (-1) 0 None) = Err ValueError /\
  red_check EROps (mkRed tt 3 0 (Some (Fin (-1)))) = Ok (mkRed tt 3 0 (Some (Fin (-1)))) /\
  red_check EROps (mkRed tt 3 0 (Some (Fin (- (1 / 2))))) = Err ValueError.
Proof.
  destruct (C37_conventions (fun _ : unit => fun _ _ => []) (fun m => m) (fun _ => ([], [])) tt (-1) 0 0 [] [] []) as (_ & _ & _ & H1).
  destruct (C37_conventions (fun _ : unit => fun _ _ => []) (fun m => m) (fun _ => ([], [])) tt 3 0 0 [] [] []) as (_ & _ & _ & H2).
  split; [exact (H1 None)|]. split.
  - refine (eq_trans (H2 (Some (-1))) _). cbn. destruct (Rle_dec 0 (-1)); [lra|]. destruct (Req_EM_T (-1) (-1)); [reflexivity|lra].
  - refine (eq_trans (H2 (Some (- (1 / 2)))) _). cbn. destruct (Rle_dec 0 (- (1 / 2))); [lra|]. destruct (Req_EM_T (- (1 / 2)) (-1)); [lra|reflexivity].
Qed.

(** ** C37: [solve_stack] solves each system of the stack on its own, with |reg| *)
Theorem C37_solve_stack {V} (O : FOps V) (solve : list (list V) -> V -> list (list V) -> list (list V) -> result (list (list V)))
    arrays reg targets identity xs :
  solve_stack O solve arrays reg targets identity = Ok xs ->
  length arrays = length targets /\ length xs = length arrays /\
  forall i, (i < length arrays)%nat -> solve (nth i arrays []) (fabs O reg) (nth i targets []) identity = Ok (nth i xs []).
Proof.
  unfold solve_stack. destruct (Nat.eqb_spec (length arrays) (length targets)) as [L|L]; [|discriminate]. cbn [negb].
  intro E. split; [exact L|]. revert targets xs L E. induction arrays as [|a arrays IH]; intros [|t targets] xs L E; try discriminate.
  - cbn in E. injection E as <-. split; [reflexivity|]. cbn. intros; lia.
  - cbn [combine fold_right fst snd] in E. destruct (solve a (fabs O reg) t identity) as [x|] eqn:S; [|discriminate]. cbn [bind] in E.
    destruct (fold_right _ (Ok []) (combine arrays targets)) as [l|] eqn:F; [|discriminate]. cbn [bind] in E. injection E as <-.
    destruct (IH targets l ltac:(cbn in L; lia) F) as [L' H]. split; [cbn; lia|]. intros [|i] Hi; [exact S|]. apply H. cbn in Hi. lia.
Qed.
Print Assumptions C37_solve_stack.
Example C37_solve_stack_applies : exists xs,
  solve_stack EQOps (fun a r t i => Ok (mm EQOps (regularised EQOps a r i) t)) [[[Fin 2%Q]]; [[Fin 3%Q]]] (Fin (- 1)%Q) [[[Fin 5%Q]]; [[Fin 7%Q]]] [[Fin 1%Q]] = Ok xs
  /\ length xs = 2%nat.
Proof. eexists. split; [vm_compute; reflexivity|reflexivity]. Qed.

(** ** Findings *)
(** the zero matrix: every eigenvalue passes the test 0 >= rcond * 0, is inverted, and the
    solution is NaN although the minimal-norm solution is zero *)
Theorem C37_zero_matrix_refuted :
  red_check EQOps (mkRed tt 1 1 None) = Ok (mkRed tt 1 1 None) /\
  red_solve EQOps (fun _ _ _ => [[Fin 1%Q]]) (fun _ => [[Fin 1%Q]]) (fun s => (hd [] s, [[Fin 1%Q]])) (Fin (1 # 1000)%Q)
    (mkRed tt 1 1 None) [[Fin 0%Q]] (Fin 0%Q) [[Fin 0%Q]] [[Fin 1%Q]] = Ok [[NaN]] /\
  qr_factor 1 [[0]] [[1]] /\ eigen_decomposition 1 [[0]] [0] [[1]] /\ is_min_norm [[0]] [0] [0].
Proof.
  split; [vm_compute; reflexivity|]. split; [vm_compute; reflexivity|]. 
  assert (M : is_mat 1 1 [[1]]) by (split; [reflexivity|intros row [<-|[]]; reflexivity]).
  assert (OC : ortho_cols 1 [[1]]) by (intros [|i] [|j] Hi Hj; try lia; unfold Rdot; cbn; ring).
  assert (P : forall v, length v = 1%nat -> col_proj 1 [[1]] v = v).
  { intros [|a [|]] L; try discriminate. unfold col_proj, Rmv, Rdot. cbn. f_equal. ring. }
  split; [|split].
  - exists 1%nat. split; [lia|]. split; [exact M|]. split; [exact OC|]. intro j. apply P. reflexivity.
  - split; [reflexivity|]. split; [exact M|]. split; [exact OC|]. split; [exact P|].
    intros [|j] Hj; [|lia]. unfold Rmv, vscal, Rdot. cbn. f_equal. ring.
  - split; [reflexivity|]. intros [|a [|]] L; try discriminate. unfold sq_residual, Rmv, Rdot. cbn. split; [lra|intros _]. nra.
Qed.
Print Assumptions C37_zero_matrix_refuted.

(** eigenvalues are compared with sign: for the Hermitian matrix diag(2, -1) the eigenvalue
    -1 is discarded although its singular value is half the largest one, and the returned
    solution does not solve the non-singular system *)
Theorem C37_negative_eigenvalue_refuted :
  let I := [[Fin 1; Fin 0]; [Fin 0; Fin 1]]%Q in
  red_solve EQOps (fun _ _ _ => I) (fun _ => I) (fun _ => ([Fin 2; Fin (-1)]%Q, I)) (Fin (1 # 1000)%Q)
    (mkRed tt 2 0 None) [[Fin 2; Fin 0]; [Fin 0; Fin (-1)]]%Q (Fin 0%Q) [[Fin 0]; [Fin 1]]%Q I = Ok [[Fin 0]; [Fin 0]]%Q /\
  eigen_decomposition 2 [[2; 0]; [0; -1]] [2; -1] eye2 /\
  Rmv [[2; 0]; [0; -1]] [0; -1] = [0; 1] /\ ~ is_min_norm [[2; 0]; [0; -1]] [0; 1] [0; 0].
Proof.
  split; [vm_compute; reflexivity|]. split; [|split].
  - split; [reflexivity|]. split; [exact eye2_mat|]. split; [exact eye2_cols|]. split; [exact eye2_proj|].
    intros j Hj. destruct j as [|[|j]]; try lia; unfold Rmv, vscal, Rdot, Rcol, eye2; cbn; leq ltac:(ring).
  - unfold Rmv, Rdot. cbn. leq ltac:(ring).
  - intros [_ H]. destruct (H [0; -1] eq_refl) as [H' _]. unfold sq_residual, Rmv, Rdot in H'. cbn in H'. lra.
Qed.
Print Assumptions C37_negative_eigenvalue_refuted.
