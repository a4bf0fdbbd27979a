(** * C94: the default least-squares solver, [MinimalEuclideanNormSolver] *)
From Coq Require Import List ZArith Reals Lra Lia Bool.
From Verif Require Import Num Jax RSum MetricModel MetricSpec MetricProofs2 KernelSpec KernelProofs4 KTProofs4 GKPSpec GKPProofs4 GKPProofs5 RecProofs3 RecProofs5
  LsqModel LsqSpec LsqProofs LsqProofs2 PropLsq PropGKP.
Import ListNotations.
Open Scope R_scope.

(** [jnp.linalg.lstsq] is exact on the system A X = B of [n] equations with [m] right-hand sides:
    every column of the result is the least-squares solution of minimal norm *)
Definition lstsq_exact (n m : nat) (rcond : option ER) (lstsq : list (list ER) -> list (list ER) -> option ER -> list (list ER))
    (A B : list (list R)) : Prop :=
  exists X, lstsq (map (map Fin) A) (map (map Fin) B) rcond = map (map Fin) X /\ is_mat n m X /\
    forall j, (j < m)%nat -> is_min_norm A (Rcol B j) (Rcol X j).
(** A + |reg| I *)
Notation plus_reg A reg I := (map2 (map2 (fun a e => a + Rabs reg * e)) A I).
(** the identity matrix *)
Definition is_identity (n : nat) (I : list (list R)) : Prop := is_mat n n I /\ forall v, length v = n -> Rmv I v = v.
(** a positive semi-definite matrix, by its quadratic form; symmetry is not needed *)
Definition psd_mat (n : nat) (A : list (list R)) : Prop := forall v, length v = n -> 0 <= Rdot v (Rmv A v).

Lemma row_ridge r a e v : length a = length e -> Rdot (map2 (fun a e => a + r * e) a e) v = Rdot a v + r * Rdot e v.
Proof.
  revert e v. induction a as [|x a IH]; intros [|y e] v L; try discriminate; [unfold Rdot; cbn; ring|].
  destruct v as [|z v]; [unfold Rdot; cbn; ring|]. cbn [map2]. rewrite !Rdot_cons, IH by (cbn in L; lia). ring.
Qed.
Lemma quad_ridge n A I r v u : is_mat n n A -> is_identity n I -> length v = n -> length u = n ->
  Rdot u (Rmv (Rridge A r I) v) = Rdot u (Rmv A v) + r * Rdot u v.
Proof.
  intros MA [MI HI] Lv Lu. rewrite <- (HI v Lv) at 3. destruct MA as [La Ra], MI as [Li Ri]. clear HI Lv.
  rewrite <- Li in La. clear Li. unfold Rridge, Rmv. revert I u La Lu Ri. induction A as [|a A IH]; intros [|e I] u La Lu Ri; try discriminate; cbn [map map2].
  - unfold Rdot. destruct u; cbn; ring.
  - destruct u as [|x u]; [unfold Rdot; cbn; ring|]. rewrite !Rdot_cons.
    assert (G : forall w, Rdot w (map (fun row => Rdot row v) (map2 (map2 (fun a e => a + r * e)) A I)) =
      Rdot w (map (fun row => Rdot row v) A) + r * Rdot w (map (fun row => Rdot row v) I)).
    { clear IH Lu. cbn in La. injection La as La. revert I La Ri. induction A as [|a' A IH]; intros [|e' I] La Ri w; try discriminate; cbn [map map2].
      - unfold Rdot. destruct w; cbn; ring.
      - destruct w as [|y w]; [unfold Rdot; cbn; ring|]. rewrite !Rdot_cons, row_ridge.
        + rewrite IH; [ring| |cbn in La; lia|].
          * intros row Hr. apply Ra. destruct Hr as [<-|Hr]; [now left|right; now right].
          * intros row Hr. apply Ri. destruct Hr as [<-|Hr]; [now left|right; now right].
        + rewrite (Ra a') by (right; now left). rewrite (Ri e') by (right; now left). reflexivity. }
    rewrite G, row_ridge; [ring|]. rewrite (Ra a) by now left. rewrite (Ri e) by now left. reflexivity.
Qed.
Lemma defect_zero A b z : length A = length b -> defect A b z = zeros (length (defect A b z)) -> Rmv A z = b.
Proof.
  unfold Rmv. revert b. induction A as [|row A IH]; intros [|c b] LD Z; try discriminate; [reflexivity|].
  unfold defect in Z. cbn [map2 length] in Z. unfold zeros in Z. cbn [repeat] in Z. injection Z as Z1 Z2. cbn [map]. f_equal; [lra|].
  apply IH; [cbn in LD; lia|exact Z2].
Qed.
Lemma mat_ext n m X Y : is_mat n m X -> is_mat n m Y -> (forall j, (j < m)%nat -> Rcol X j = Rcol Y j) -> X = Y.
Proof.
  intros [LX RX] [LY RY] H. apply nth_ext with (d := []) (d' := []); [congruence|]. intros i Hi.
  assert (I1 : In (nth i X []) X) by now apply nth_In. assert (I2 : In (nth i Y []) Y) by (apply nth_In; congruence).
  apply nth_ext with (d := 0) (d' := 0); [rewrite (RX _ I1), (RY _ I2); reflexivity|]. intros j Hj. rewrite (RX _ I1) in Hj.
  assert (N : forall Z, (i < length Z)%nat -> nth j (nth i Z []) 0 = nth i (Rcol Z j) 0).
  { intros Z Hz. unfold Rcol. rewrite (nth_indep (map (fun row => nth j row 0) Z) 0 (nth j [] 0)) by (rewrite map_length; exact Hz). now rewrite (map_nth (fun row => nth j row 0)). }
  rewrite !N by congruence. now rewrite H.
Qed.

(** ** It returns, column by column, the minimal-norm least-squares solution of
    (A + |reg| I) X = B; the sign of the regularisation parameter does not matter *)
Theorem C94_min_norm :
  forall lstsq n m rcond A reg B I,
    lstsq_exact n m rcond lstsq (plus_reg A reg I) B -> is_mat n n A -> is_mat n m B -> is_mat n n I ->
    exists X, men_solve EROps lstsq rcond (map (map Fin) A) (Fin reg) (map (map Fin) B) (map (map Fin) I) = Ok (map (map Fin) X) /\
      men_solve EROps lstsq rcond (map (map Fin) A) (Fin (- reg)) (map (map Fin) B) (map (map Fin) I) = Ok (map (map Fin) X) /\
      is_mat n m X /\
      forall j, (j < m)%nat -> is_min_norm (plus_reg A reg I) (Rcol B j) (Rcol X j).
Proof.
  intros lstsq n m rcond A reg B I HC MA MB MI. destruct HC as (X & E & MX & HX).
  exists X. unfold men_solve. rewrite !regularised_fin, Rabs_Ropp. unfold Rridge. rewrite E. auto.
Qed.
Print Assumptions C94_min_norm.

(** ** For a positive semi-definite array and a non-zero parameter the equation is solved
    exactly, by no other vector, and the solution is at most 1/|reg| times as long as the
    right-hand side *)
Theorem C94_regularised_exact :
  forall lstsq n m rcond A reg B I,
    lstsq_exact n m rcond lstsq (plus_reg A reg I) B -> is_mat n n A -> is_mat n m B -> is_identity n I -> psd_mat n A -> reg <> 0 ->
    exists X, men_solve EROps lstsq rcond (map (map Fin) A) (Fin reg) (map (map Fin) B) (map (map Fin) I) = Ok (map (map Fin) X) /\
      is_mat n m X /\
      let A' := plus_reg A reg I in
      forall j, (j < m)%nat ->
        Rmv A' (Rcol X j) = Rcol B j /\
        (forall x, length x = n -> Rmv A' x = Rcol B j -> x = Rcol X j) /\
        reg ^ 2 * Rdot (Rcol X j) (Rcol X j) <= Rdot (Rcol B j) (Rcol B j).
Proof.
  intros lstsq n m rcond A reg B I HC MA MB HI PA NR.
  destruct (C94_min_norm lstsq n m rcond A reg B I HC MA MB (proj1 HI)) as (X & E & _ & MX & HX).
  exists X. split; [exact E|]. split; [exact MX|]. intros A' j Hj. specialize (HX j Hj). fold A' in HX.
  change A' with (Rridge A (Rabs reg) I) in *. clear A'. set (A' := Rridge A (Rabs reg) I) in *.
  assert (MA' : is_mat n n A') by (apply ridge_mat; [exact MA|apply HI]).
  assert (PR : 0 < Rabs reg) by now apply Rabs_pos_lt.
  assert (LB : length (Rcol B j) = n) by (rewrite Rcol_len; apply MB). assert (LX : length (Rcol X j) = n) by (rewrite Rcol_len; apply MX).
  assert (LA : length A' = length (Rcol B j)) by (rewrite LB; apply MA').
  assert (SOL : Rmv A' (Rcol X j) = Rcol B j).
  { apply defect_zero; [exact LA|]. apply norm_zero. set (d := defect A' (Rcol B j) (Rcol X j)).
    assert (Ld : length d = n) by (unfold d, defect; rewrite map2_length; lia).
    pose proof (first_order A' (Rcol B j) (Rcol X j) d HX ltac:(lia) LA) as F. fold d in F.
    unfold A' in F. rewrite (quad_ridge n) in F by auto. pose proof (PA d Ld). pose proof (Rdot_self_nonneg d). nra. }
  split; [exact SOL|]. split.
  - intros x Lx Ex. apply (min_norm_unique A' (Rcol B j)); [|exact HX]. split; [congruence|]. intros z Lz.
    assert (Z : sq_residual A' (Rcol B j) x = 0).
    { unfold sq_residual. rewrite Ex. generalize (Rcol B j). intro b. induction b as [|b0 b IH]; cbn [map2 Rsum]; [reflexivity|]. rewrite IH. ring. }
    rewrite Z. split; [rewrite residual_defect; apply Rdot_self_nonneg|]. intros Hz. assert (z = x) as ->; [|lra].
    assert (Ez : Rmv A' z = Rcol B j).
    { apply defect_zero; [exact LA|]. apply norm_zero. rewrite residual_defect in Hz. pose proof (Rdot_self_nonneg (defect A' (Rcol B j) z)). lra. }
    (* the difference of two solutions vanishes *)
    assert (D : Rdot (vsub z x) (vsub z x) = 0).
    { assert (LD : length (vsub z x) = n) by (unfold vsub; rewrite map2_length; lia).
      pose proof (quad_ridge n A I (Rabs reg) (vsub z x) (vsub z x) MA HI LD LD) as Q. fold A' in Q.
      assert (Z0 : Rmv A' (vsub z x) = zeros n).
      { unfold Rmv. transitivity (map (fun row : list R => 0) A').
        - apply map_ext_in. intros row Hr. rewrite Rdot_sub_r by congruence.
          assert (R1 : forall w, Rmv A' w = Rcol B j -> exists i, (i < length A')%nat /\ nth i A' [] = row /\ Rdot row w = nth i (Rcol B j) 0).
          { intros w Ew. apply (In_nth _ _ []) in Hr as (i & Hi & Hn). exists i. repeat (split; auto). rewrite <- Ew, Rmv_nth by exact Hi. now rewrite Hn. }
          assert (R2 : Rmv A' z = Rmv A' x) by congruence. unfold Rmv in R2.
          assert (R3 : Rdot row z = Rdot row x). { clear - R2 Hr. induction A' as [|a l IH]; [destruct Hr|]. cbn in R2. injection R2 as R2 R3. destruct Hr as [->|Hr]; auto. }
          lra.
        - rewrite <- (proj1 MA'). clear. unfold zeros. induction A' as [|a l IH]; cbn; [reflexivity|]. now f_equal. }
      rewrite Z0, Rdot_zeros_r in Q. pose proof (PA _ LD). pose proof (Rdot_self_nonneg (vsub z x)). nra. }
    apply norm_zero in D. clear - D Lz Lx LB. assert (LL : length z = length x) by congruence. clear Lz Lx LB. revert x LL D.
    induction z as [|a z IH]; intros [|b x] LL D; try discriminate; [reflexivity|]. unfold vsub in D. cbn [map2 length] in D. unfold zeros in D. cbn [repeat] in D. injection D as D1 D2.
    f_equal; [lra|]. apply IH; [cbn in LL; lia|exact D2].
  - pose proof (quad_ridge n A I (Rabs reg) (Rcol X j) (Rcol X j) MA HI LX LX) as Q. fold A' in Q. rewrite SOL in Q. pose proof (PA _ LX) as P0.
    set (x := Rcol X j) in *. set (b := Rcol B j) in *.
    pose proof (sq_diff (map (Rmult (Rabs reg)) x) b ltac:(rewrite map_length; congruence)) as S.
    assert (E4 : forall w, Rdot (map (Rmult (Rabs reg)) x) w = Rabs reg * Rdot x w) by (intro w; exact (Rdot_scal (Rabs reg) x w)).
    assert (E2 : reg ^ 2 = Rabs reg * Rabs reg) by (rewrite <- Rabs_mult, Rabs_pos_eq; nra).
    assert (E3 : Rdot (map (Rmult (Rabs reg)) x) (map (Rmult (Rabs reg)) x) = Rabs reg * Rabs reg * Rdot x x).
    { rewrite E4, Rdot_comm, E4. ring. }
    rewrite E2. rewrite E3, E4 in S. pose proof (Rdot_comm x b). nra.
Qed.
Print Assumptions C94_regularised_exact.


(** ** Where both solvers meet their contracts they return the same matrix (the hypotheses are
    those of [C37_solve_partial] and that of [C94_min_norm]) *)
Theorem C94_solvers_agree :
  forall K (normal : K -> nat -> nat -> list (list ER)) qr eigh lstsq n m A reg I B D eps key over power rcond rcond' rc,
  let A' := plus_reg A reg I in
  let s := mkRed key (Z.of_nat over) (Z.of_nat power) rcond in
  (0 < n)%nat -> (0 < over)%nat -> is_mat n n A -> is_mat n n I -> is_mat n m B -> symmetric A' ->
  is_mat n over D -> normal key n over = map (map Fin) D -> qr_exact n qr -> sees_range n over A' D ->
  match rcond with
  | None => rc = eps * INR n
  | Some r => r = Fin (-1) /\ rc = eps \/ r = Fin rc /\ rc <> -1
  end ->
  (forall r Q, is_mat n r Q -> range_finder EROps normal qr key (map (map Fin) A') over power = Ok (map (map Fin) Q) ->
     exists l W, eigh (map (map Fin) (compress r Q A')) = (map Fin l, map (map Fin) W) /\
       eigen_decomposition r (compress r Q A') l W /\ separates rc l) ->
  lstsq_exact n m rcond' lstsq A' B ->
  red_solve EROps normal qr eigh (Fin eps) s (map (map Fin) A) (Fin reg) (map (map Fin) B) (map (map Fin) I)
  = men_solve EROps lstsq rcond' (map (map Fin) A) (Fin reg) (map (map Fin) B) (map (map Fin) I).
Proof.
  intros K normal qr eigh lstsq n m A reg I B D eps key over power rcond rcond' rc A' s Hn Ho MA MI MB SY MD HD QR SR RC EH HC.
  destruct (C37_solve_partial normal qr eigh n m A reg I B D eps key over power rcond rc Hn Ho MA MI MB SY MD HD QR SR RC EH) as (X & EX & MX & HX).
  destruct (C94_min_norm lstsq n m rcond' A reg B I HC MA MB MI) as (Y & EY & _ & MY & HY).
  unfold s. rewrite EX, EY. f_equal. f_equal. f_equal. apply (mat_ext n m); auto. intros j Hj.
  apply (min_norm_unique A' (Rcol B j)); [now apply HX|now apply HY].
Qed.
Print Assumptions C94_solvers_agree.

(** A = [[1,1],[1,1]] is singular; with the parameter -1 the matrix is [[2,1],[1,2]] *)
Definition c94_X : list (list R) := [[2; -1]; [-1; 2]].
Definition c94_B : list (list R) := [[3; 0]; [0; 3]].
Definition c94_lstsq (_ _ : list (list ER)) (_ : option ER) : list (list ER) := map (map Fin) c94_X.
Example C94_applies :
  lstsq_exact 2 2 None c94_lstsq (plus_reg onesA (-1) eye2) c94_B /\ is_identity 2 eye2 /\ psd_mat 2 onesA /\ -1 <> 0 /\
  symmetric (plus_reg onesA (-1) eye2).
Proof.
  assert (EA : plus_reg onesA (-1) eye2 = [[2; 1]; [1; 2]]).
  { unfold onesA, eye2. rewrite Rabs_left by lra. cbn. leq ltac:(ring). }
  split; [|split; [|split; [|split]]].
  - rewrite EA. exists c94_X. split; [reflexivity|]. split; [split; [reflexivity|intros row [<-|[<-|[]]]; reflexivity]|].
    intros j Hj. destruct j as [|[|j]]; [| |lia]; unfold Rcol, c94_B, c94_X; cbn [map nth]; apply min_norm_intro; try reflexivity;
      intros [|h1 [|h2 [|]]] L; try discriminate; unfold defect, Rmv, Rdot; cbn [map map2 Rsum]; try lra; intros H;
      assert (2 * h1 + h2 = 0) by (assert ((2 * h1 + h2) ^ 2 <= 0) by (pose proof (pow2_ge_0 (h1 + 2 * h2)); nra); nra);
      assert (h1 + 2 * h2 = 0) by (assert ((h1 + 2 * h2) ^ 2 <= 0) by (pose proof (pow2_ge_0 (2 * h1 + h2)); nra); nra); lra.
  - split; [apply eye2_mat|]. intros v L. destruct v as [|a [|b [|]]]; try discriminate. unfold Rmv, Rdot, eye2. cbn. leq ltac:(ring).
  - intros v L. destruct v as [|a [|b [|]]]; try discriminate. unfold Rmv, Rdot, onesA. cbn [map map2 Rsum]. pose proof (pow2_ge_0 (a + b)). lra.
  - lra.
  - rewrite EA. intros i j. destruct i as [|[|[|i]]]; destruct j as [|[|[|j]]]; reflexivity.
Qed.
