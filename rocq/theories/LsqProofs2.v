(** * The least-squares solver models over the reals *)
From Coq Require Import List ZArith Reals Lra Lia Bool.
From Verif Require Import Num Jax RSum JaxFacts MetricModel MetricSpec MetricProofs2 KernelSpec KernelProofs4 KTProofs4 GKPSpec GKPProofs5 LsqModel LsqSpec LsqProofs.
Import ListNotations.
Open Scope R_scope.

Lemma width_mat {V} n c (m : list (list V)) : (0 < n)%nat -> length m = n -> (forall row, In row m -> length row = c) -> width m = c.
Proof. intros H L R. destruct m as [|a m]; [cbn in L; lia|]. apply R. now left. Qed.
Lemma width_FF n c m : (0 < n)%nat -> is_mat n c m -> width (FF m) = c.
Proof.
  intros H [L R]. apply (width_mat n); [exact H|now rewrite map_length|]. intros row Hr. apply in_map_iff in Hr.
  destruct Hr as (r & <- & I). rewrite map_length. now apply R.
Qed.
Lemma mcol_fin (m : list (list R)) j : mcol EROps (FF m) j = map Fin (Rcol m j).
Proof.
  unfold mcol, Rcol. rewrite !map_map. apply map_ext. intro row. apply (map_nth (@Fin R)).
Qed.
Lemma mm_fin n c a b : (0 < n)%nat -> is_mat n c b -> mm EROps (FF a) (FF b) = FF (Rmm c a b).
Proof.
  intros H M. unfold mm. rewrite (width_FF n c) by assumption. unfold matmul, Rmm. rewrite !map_map. apply map_ext. intro row.
  unfold vecmat. rewrite map_map. apply map_ext. intro j. rewrite mcol_fin. apply fdot_fin.
Qed.
Lemma tr_fin n c m : (0 < n)%nat -> is_mat n c m -> tr EROps (FF m) = FF (Rtr c m).
Proof.
  intros H M. unfold tr. rewrite (width_FF n c) by assumption. unfold transpose, Rtr. rewrite map_map. apply map_ext. intro j. apply mcol_fin.
Qed.
Lemma map2_fin (f : ER -> ER -> ER) g a b : (forall x y, f (Fin x) (Fin y) = Fin (g x y)) -> map2 f (map Fin a) (map Fin b) = map Fin (map2 g a b).
Proof. intro H. rewrite map2_map, map_map2. apply map2_ext. intros; apply H. Qed.
Lemma regularised_fin A reg I : regularised EROps (FF A) (Fin reg) (FF I) = FF (Rridge A (Rabs reg) I).
Proof.
  unfold regularised, mat2, Rridge. rewrite map2_map, map_map2. apply map2_ext. intros a b _. apply map2_fin. intros x y. fin. reflexivity.
Qed.
Lemma ridge_mat n A reg I : is_mat n n A -> is_mat n n I -> is_mat n n (Rridge A reg I).
Proof.
  intros [La Ra] [Li Ri]. unfold Rridge. split; [rewrite map2_length; lia|]. rewrite map2_combine. intros row Hr.
  apply in_map_iff in Hr. destruct Hr as ((a, b) & <- & I'). cbn. rewrite map2_length.
  rewrite (Ra a) by (eapply in_combine_l; exact I'). rewrite (Ri b) by (eapply in_combine_r; exact I'). lia.
Qed.

Lemma fold_fmax_fin l a : fold_left (fmax EROps) (map Fin l) (Fin a) = Fin (fold_left Rmax l a).
Proof. revert a. induction l as [|x l IH]; intro a; cbn [map fold_left]; [reflexivity|]. rewrite fmax_fin. apply IH. Qed.
Lemma fold_Rmax_largest l a : largest (fold_left Rmax l a) (a :: l).
Proof.
  revert a. induction l as [|x l IH]; intro a; cbn [fold_left]; [split; [now left|intros y [->|[]]; lra]|].
  destruct (IH (Rmax a x)) as [I G]. split.
  - destruct I as [E|I]; [|now right; right]. rewrite <- E. unfold Rmax. destruct (Rle_dec a x); [right; now left|now left].
  - pose proof (G (Rmax a x) (or_introl eq_refl)). intros y [->|[->|Hy]].
    + pose proof (Rmax_l y x). lra.
    + pose proof (Rmax_r a y). lra.
    + apply G. now right.
Qed.
Lemma vmax_fin l big : largest big l -> vmax EROps (map Fin l) = Fin big.
Proof.
  intros [I G]. destruct l as [|a l]; [destruct I|]. cbn [map vmax]. rewrite fold_fmax_fin. f_equal.
  destruct (fold_Rmax_largest l a) as [I' G']. pose proof (G _ I'). pose proof (G' _ I). lra.
Qed.
Lemma fleb_dec a b : fleb EROps (Fin a) (Fin b) = if Rle_dec a b then true else false.
Proof.
  destruct (fleb EROps (Fin a) (Fin b)) eqn:E; destruct (Rle_dec a b) as [H|H]; auto.
  - apply fleb_fin in E. contradiction.
  - apply fleb_fin in H. congruence.
Qed.

(** what [_eigendecomposition_invert] multiplies coordinate [j] by *)
Definition inv_at (rc big : R) (l : list R) (j : nat) : R := if Rle_dec (rc * big) (nth j l 0) then / nth j l 0 else 0.
Lemma eig_invert_fin n r U l rc big : (0 < n)%nat -> (0 < r)%nat -> is_mat n r U -> length l = r -> largest big l ->
  (forall x, In x l -> rc * big <= x -> x <> 0) ->
  exists M, eig_invert EROps (map Fin l) (FF U) (Fin rc) = Ok (FF M) /\ is_mat n n M /\
    forall v, length v = n -> Rmv M v = spec r U (inv_at rc big l) v.
Proof.
  intros Hn Hr MU Ll HL NZ.
  set (B := map (fun j => map (Rmult (inv_at rc big l j)) (Rcol U j)) (seq 0 r)).
  assert (MB : is_mat r n B).
  { split; [unfold B; now rewrite map_length, seq_length|]. intros row H. unfold B in H. apply in_map_iff in H.
    destruct H as (j & <- & _). rewrite map_length, Rcol_len. apply MU. }
  exists (Rmm n U B). split; [|split].
  - unfold eig_invert. destruct l as [|a l']; [cbn in Ll; lia|]. remember (a :: l') as l eqn:El. replace (map Fin l) with (Fin a :: map Fin l') at 1 by (rewrite El; reflexivity).
    cbv iota. rewrite (vmax_fin l big HL), fmul_fin. rewrite (tr_fin n r) by assumption. cbv zeta.
    rewrite <- (mm_fin r n U B) by assumption. f_equal. f_equal.
    rewrite map_map. rewrite (map_ext _ (fun x => if Rle_dec (rc * big) x then true else false)) by (intro; apply fleb_dec).
    rewrite map2_map_same.
    rewrite map2_map_same. unfold Rtr, B. rewrite (list_seq l 0) at 1. rewrite Ll. rewrite !map_map, map2_map_same.
    apply map_ext_in. intros j Hj. apply in_seq in Hj. rewrite map_map.
    assert (IN : In (nth j l 0) l) by (apply nth_In; lia).
    unfold inv_at. specialize (NZ _ IN). destruct (Rle_dec (rc * big) (nth j l 0)) as [H|H]; rewrite ?map_map; apply map_ext; intro v.
    + rewrite f1_fin, fdiv_fin by auto. rewrite fmul_fin. f_equal. unfold Rdiv. ring.
    + reflexivity.
  - apply (Rmm_mat n r). exact MU.
  - intros v Lv. rewrite (Rmm_mv n r n) by assumption. unfold spec. f_equal. unfold B, Rmv. rewrite map_map. apply map_ext. intro j.
    apply (Rdot_scal (inv_at rc big l j)).
Qed.

(** ** range finder *)
Lemma span_comb n c r Y Q z : is_mat n c Y -> is_mat n r Q -> ortho_cols r Q -> length z = c ->
  (forall j, col_proj r Q (Rcol Y j) = Rcol Y j) -> col_proj r Q (Rmv Y z) = Rmv Y z.
Proof.
  intros MY MQ OQ Lz S. set (v := Rmv Y z). assert (Lv : length v = n) by (unfold v; rewrite Rmv_len; apply MY).
  assert (Lp : length (col_proj r Q v) = n) by (apply (proj_len n); assumption).
  set (w := vsub v (col_proj r Q v)). assert (Lw : length w = n) by (apply vsub_len'; assumption).
  assert (Z : tmv r Q w = zeros r) by (apply (tmv_residual n); assumption).
  assert (ZY : tmv c Y w = zeros c) by (apply (tmv_perp n r Q); try assumption; apply MY).
  symmetry. apply vsub_zero; [congruence|]. fold w. rewrite Lv, <- Lw. apply norm_zero.
  unfold w at 2. rewrite Rdot_sub_r by congruence. unfold v at 1. rewrite <- (adj n c) by assumption.
  rewrite col_proj_tmv, <- (adj n r) by (try assumption; apply tmv_len). rewrite ZY, Z, !Rdot_zero_l. ring.
Qed.

Section Solver.
  Context {K : Type} (normal : K -> nat -> nat -> list (list ER)) (qr : list (list ER) -> list (list ER)).
  Lemma range_finder_ok n A D key over power : (0 < n)%nat -> (0 < over)%nat -> is_mat n n A -> is_mat n over D ->
    normal key n over = FF D -> qr_exact n qr -> sees_range n over A D ->
    exists r Q, range_finder EROps normal qr key (FF A) over power = Ok (FF Q) /\ (0 < r)%nat /\
      is_mat n r Q /\ ortho_cols r Q /\ captures n r Q A.
  Proof.
    intros Hn Ho MA MD HD QR SR. unfold range_finder. rewrite (width_FF n n) by assumption. rewrite map_length, (proj1 MA), Nat.eqb_refl.
    cbn [negb]. rewrite HD. cbv zeta.
    assert (G : exists r Q, fori power (fun _ q => qr (mm EROps (FF A) (qr (mm EROps (tr EROps (FF A)) q)))) (qr (mm EROps (FF A) (FF D))) = FF Q /\
      (0 < r)%nat /\ is_mat n r Q /\ ortho_cols r Q /\ captures n r Q A).
    { apply (fori_ind (fun _ q => exists r Q, q = FF Q /\ (0 < r)%nat /\ is_mat n r Q /\ ortho_cols r Q /\ captures n r Q A)).
      - rewrite (mm_fin n over) by assumption.
        assert (MY : is_mat n over (Rmm over A D)) by (apply (Rmm_mat n n); exact MA).
        destruct (QR (Rmm over A D) (proj1 MY)) as (Q & E & r & Hr & MQ & OQ & S).
        exists r, Q. repeat split; try assumption; try apply MQ.
        intros y Ly. destruct (SR y Ly) as (z & Lz & ->). rewrite <- (Rmm_mv n n over) by assumption. now apply (span_comb n over).
      - intros i q _ (r & Q & -> & Hr & MQ & OQ & CQ). rewrite (tr_fin n n) by assumption.
        rewrite (mm_fin n r) by assumption.
        assert (M1 : is_mat n r (Rmm r (Rtr n A) Q)) by (apply (Rmm_mat n n), Rtr_mat; exact MA).
        destruct (QR _ (proj1 M1)) as (Q1 & E1 & r1 & Hr1 & MQ1 & OQ1 & S1). rewrite E1. rewrite (mm_fin n r1) by assumption.
        assert (M2 : is_mat n r1 (Rmm r1 A Q1)) by (apply (Rmm_mat n n); exact MA).
        destruct (QR _ (proj1 M2)) as (Q2 & E2 & r2 & Hr2 & MQ2 & OQ2 & S2). rewrite E2.
        exists r2, Q2. repeat split; try assumption; try apply MQ2.
        apply (power_step n A Q r Q1 r r1 r2 Q2); auto. }
    destruct G as (r & Q & E & G). exists r, Q. rewrite E. auto.
  Qed.

  (** the spectral expansion of a symmetric matrix from the compressed decomposition *)
  Lemma compress_mm n r Q A : is_mat n r Q -> is_mat n n A -> Rmm r (Rmm n (Rtr r Q) A) Q = compress r Q A.
  Proof.
    intros MQ MA. unfold Rmm at 1, compress. unfold Rmm, Rtr. rewrite !map_map. apply map_ext. intro i. apply map_ext. intro j.
    apply (dot_cols_mv n); rewrite ?Rcol_len; try apply MQ; assumption.
  Qed.
  Lemma spectral n r Q A l W : is_mat n r Q -> is_mat n n A -> symmetric A -> ortho_cols r Q -> captures n r Q A ->
    eigen_decomposition r (compress r Q A) l W ->
    is_mat n r (Rmm r Q W) /\ ortho_cols r (Rmm r Q W) /\
    forall y, length y = n -> Rmv A y = spec r (Rmm r Q W) (fun j => nth j l 0) y.
  Proof.
    intros MQ MA SY OQ CQ (Ll & MW & OW & CW & EV).
    assert (MU : is_mat n r (Rmm r Q W)) by (apply (Rmm_mat n r); exact MQ).
    assert (Lc : forall j, length (Rcol W j) = r) by (intro; rewrite Rcol_len; apply MW).
    assert (Lq : forall x, length (Rmv Q x) = n) by (intro; rewrite Rmv_len; apply MQ).
    assert (OU : ortho_cols r (Rmm r Q W)).
    { intros i j Hi Hj. rewrite !Rcol_mm by assumption. rewrite (dot_mv_mv n r) by auto. now apply OW. }
    assert (TA : forall u, tmv n A u = Rmv A u).
    { intro u. transitivity (Rmv (map (fun i => nth i A []) (seq 0 (length A))) u); [|now rewrite <- list_seq]. unfold tmv, Rmv. rewrite map_map, (proj1 MA). apply map_ext_in. intros j Hj. apply in_seq in Hj.
      f_equal. apply (list_ext _ _ 0); [rewrite Rcol_len, (proj1 MA); symmetry; apply (row_len n); [exact MA|lia]|].
      intros i Hi. rewrite Rcol_len in Hi. rewrite Rcol_nth by exact Hi. apply SY. }
    assert (AU : forall j, (j < r)%nat -> Rmv A (Rcol (Rmm r Q W) j) = vscal (nth j l 0) (Rcol (Rmm r Q W) j)).
    { intros j Hj. rewrite Rcol_mm by exact Hj. rewrite <- (CQ (Rmv Q (Rcol W j))) by apply Lq. rewrite col_proj_tmv.
      rewrite <- (compress_mm n) in EV by assumption. specialize (EV j Hj).
      rewrite (Rmm_mv r n r) in EV by (auto; apply (Rmm_mat r n), Rtr_mat; assumption).
      rewrite (Rmm_mv r n n) in EV by (auto; apply Rtr_mat; assumption). rewrite Rtr_mv in EV. rewrite EV.
      unfold Rmv, vscal. rewrite map_map. apply map_ext. intro row. rewrite Rdot_comm, (Rdot_scal (nth j l 0)), Rdot_comm. reflexivity. }
    split; [exact MU|]. split; [exact OU|]. intros y Ly. unfold spec. rewrite <- (CQ y Ly) at 1. rewrite col_proj_tmv.
    rewrite <- (CW (tmv r Q (Rmv A y))) by apply tmv_len. rewrite col_proj_tmv.
    rewrite <- (Rmm_mv n r r) by (try assumption; apply tmv_len). f_equal.
    rewrite <- (tmv_mm n r r) by (try assumption; rewrite Rmv_len; apply MA).
    unfold tmv. apply map_ext_in. intros j Hj. apply in_seq in Hj.
    rewrite <- (adj n n) by (try assumption; rewrite Rcol_len; apply MU). rewrite TA, AU by lia.
    apply (Rdot_scal (nth j l 0)).
  Qed.

  Lemma red_solve_ok (eigh : list (list ER) -> list ER * list (list ER)) n m A reg I B D eps key over power rcond rc :
    let A' := Rridge A (Rabs reg) I in
    let s := mkRed key (Z.of_nat over) (Z.of_nat power) rcond in
    (0 < n)%nat -> (0 < over)%nat -> is_mat n n A -> is_mat n n I -> is_mat n m B -> symmetric A' ->
    is_mat n over D -> normal key n over = FF D -> qr_exact n qr -> sees_range n over A' D ->
    red_rcond EROps eps s n = Fin rc ->
    (forall r Q, is_mat n r Q -> range_finder EROps normal qr key (FF A') over power = Ok (FF Q) ->
       exists l W, eigh (FF (compress r Q A')) = (map Fin l, FF W) /\ eigen_decomposition r (compress r Q A') l W /\ separates rc l) ->
    exists X, red_solve EROps normal qr eigh eps s (FF A) (Fin reg) (FF B) (FF I) = Ok (FF X) /\ is_mat n m X /\
      forall j, (j < m)%nat -> is_min_norm A' (Rcol B j) (Rcol X j).
  Proof.
    intros A' s Hn Ho MA MI MB SY MD HD QR SR RC EH.
    assert (MA' : is_mat n n A') by (now apply ridge_mat).
    destruct (range_finder_ok n A' D key over power) as (r & Q & RF & Hr & MQ & OQ & CQ); try assumption.
    destruct (EH r Q MQ RF) as (l & W & EE & ED & big & HL & SEP).
    destruct (spectral n r Q A' l W MQ MA' SY OQ CQ ED) as (MU & OU & SPEC). destruct ED as (Ll & MW & _).
    destruct (eig_invert_fin n r (Rmm r Q W) l rc big) as (M & EI & MM & HM); try assumption.
    { intros x Hx. apply SEP. exact Hx. }
    exists (Rmm m M B). unfold red_solve. rewrite map_length, (proj1 MA). cbv zeta. rewrite RC, regularised_fin. fold A'.
    unfold randomised_eig. cbn [rs_key rs_oversampling rs_power s]. rewrite !Nat2Z.id, RF. cbn [bind].
    rewrite (tr_fin n r) by assumption. rewrite (mm_fin n n) by assumption. rewrite (mm_fin n r) by assumption.
    rewrite (compress_mm n) by assumption. rewrite EE. rewrite (mm_fin r r) by assumption. cbn [bind fst snd]. rewrite EI. cbn [bind].
    rewrite (mm_fin n m) by assumption. split; [reflexivity|]. split; [now apply (Rmm_mat n n)|]. intros j Hj. rewrite Rcol_mm by exact Hj.
    assert (LB : length (Rcol B j) = n) by (rewrite Rcol_len; apply MB).
    rewrite HM by exact LB. apply (pinv_min_norm n r _ MU OU A' MA' (fun j => nth j l 0)); [exact SPEC| |exact LB].
    intros i Hi. assert (IN : In (nth i l 0) l) by (apply nth_In; lia). specialize (SEP _ IN). unfold inv_at.
    destruct (Rle_dec (rc * big) (nth i l 0)) as [H|H].
    - assert (nth i l 0 <> 0) by tauto. split; field; assumption.
    - assert (nth i l 0 = 0) by (destruct (Req_dec (nth i l 0) 0); tauto). rewrite H0. split; ring.
  Qed.
End Solver.

Lemma min_norm_exact n A b z y : is_mat n n A -> length b = n -> is_min_norm A b z -> length y = n -> b = Rmv A y -> Rmv A z = b.
Proof.
  intros MA Lb [Lz MN] Ly E. destruct (MN y) as [H _]; [congruence|].
  assert (R0 : sq_residual A b y = 0).
  { rewrite residual_defect, E. unfold defect, Rmv. clear. induction A as [|row A IH]; [reflexivity|]. cbn [map map2].
    unfold Rdot in *. cbn [map2 Rsum]. rewrite IH. ring. }
  rewrite R0, residual_defect in H. pose proof (Rdot_self_nonneg (defect A b z)) as P.
  assert (Z : defect A b z = zeros (length (defect A b z))) by (apply norm_zero; lra).
  assert (LD : length A = length b) by (rewrite (proj1 MA); congruence). clear -Z LD. unfold Rmv.
  revert b Z LD. induction A as [|row A IH]; intros [|c b] Z LD; try discriminate; [reflexivity|].
  unfold defect in Z. cbn [map2 length zeros repeat] in Z. unfold zeros in Z. cbn [repeat] in Z. injection Z as Z1 Z2. cbn [map]. f_equal; [lra|].
  apply IH; [exact Z2|cbn in LD; lia].
Qed.
