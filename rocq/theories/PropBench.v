(** * Property theorems: the benchmark utilities (C40, C59) *)
From Coq Require Import List ZArith Reals Lra Lia Bool.
From Verif Require Import Num Jax JaxFacts RSum DataModel MeanModel GreedyModel MetricModel CholModel MapReduceModel KTModel KTSpec KTProofs PropKT
  KernelProofs BenchModel.
Import ListNotations.
Open Scope R_scope.

(** [jnp.log] on the extended reals *)
Definition logE (v : ER) : ER :=
  match v with Fin x => if Rlt_dec 0 x then Fin (ln x) else if Req_EM_T x 0 then NInf else NaN | PInf => PInf | _ => NaN end.

(** numerical bounds *)
Lemma exp_lower x n : 0 <= x -> (1 + x) ^ n <= exp (INR n * x).
Proof.
  intro H. induction n as [|n IH]; [cbn [pow INR]; rewrite Rmult_0_l, exp_0; lra|]. rewrite S_INR. replace ((INR n + 1) * x) with (x + INR n * x) by ring.
  rewrite exp_plus. cbn [pow]. apply Rmult_le_compat; [lra|apply pow_le; lra| |exact IH].
  destruct (Req_dec x 0) as [->|N]; [rewrite exp_0; lra|]. left. apply exp_ineq1. exact N.
Qed.
Lemma exp_upper x n : 0 <= x < 1 -> exp (INR n * x) <= (/ (1 - x)) ^ n.
Proof.
  intro H. induction n as [|n IH]; [cbn [pow INR]; rewrite Rmult_0_l, exp_0; lra|]. rewrite S_INR. replace ((INR n + 1) * x) with (x + INR n * x) by ring.
  rewrite exp_plus. cbn [pow]. apply Rmult_le_compat; try (left; apply exp_pos); [|exact IH].
  apply Rmult_le_reg_l with (exp (- x)); [apply exp_pos|]. rewrite <- exp_plus. replace (- x + x) with 0 by ring. rewrite exp_0.
  apply Rmult_le_reg_r with (1 - x); [lra|]. replace (exp (- x) * / (1 - x) * (1 - x)) with (exp (- x)) by (field; lra). rewrite Rmult_1_l.
  destruct (Req_dec x 0) as [->|N]; [rewrite Ropp_0, exp_0; lra|]. left. replace (1 - x) with (1 + - x) by ring. apply exp_ineq1. lra.
Qed.
Lemma exp1_lt : exp 1 < 3.
Proof.
  replace 1 with (INR 16 * (1 / 16)) by (cbn [INR]; field). eapply Rle_lt_trans; [apply exp_upper; lra|]. lra.
Qed.
Lemma exp1_gt : 2 < exp 1. Proof. pose proof (exp_ineq1 1). lra. Qed.
Lemma ln_lt_of x y : 0 < x -> x < exp y -> ln x < y.
Proof. intros H L. rewrite <- (ln_exp y). now apply ln_increasing. Qed.
Lemma ln_gt_of x y : exp y < x -> y < ln x.
Proof. intros L. rewrite <- (ln_exp y). apply ln_increasing; [apply exp_pos|exact L]. Qed.
Lemma ln3 : 1 < ln 3 < 7 / 6.
Proof.
  split; [apply ln_gt_of, exp1_lt|]. apply ln_lt_of; [lra|].
  replace (7 / 6) with (INR 16 * (7 / 96)) by (cbn [INR]; field). eapply Rlt_le_trans; [|apply exp_lower; lra]. lra.
Qed.
Lemma lnln3 : 0 < ln (ln 3) < / 6.
Proof.
  destruct ln3 as [A B]. split; [rewrite <- ln_1; apply ln_increasing; lra|]. apply ln_lt_of; [lra|]. pose proof (exp_ineq1 (/ 6) ltac:(lra)). lra.
Qed.
Lemma ln4 : 64 / 49 < ln 4.
Proof.
  apply ln_gt_of. replace (64 / 49) with (INR 16 * (4 / 49)) by (cbn [INR]; field). eapply Rle_lt_trans; [apply exp_upper; lra|]. lra.
Qed.
Lemma lnln4 : / 4 < ln (ln 4).
Proof.
  apply ln_gt_of. eapply Rle_lt_trans; [|apply ln4]. replace (/ 4) with (INR 2 * (1 / 8)) by (cbn [INR]; field). eapply Rle_trans; [apply exp_upper; lra|]. lra.
Qed.
Lemma fgt0_R x : fgt0 EROps (Fin x) = if Rlt_dec 0 x then true else false.
Proof.
  unfold fgt0. cbn. unfold nltb, nleb, ROps, Rleb. destruct (Rlt_dec 0 x), (Rle_dec x 0); auto; lra.
Qed.
Lemma logE_pos x : 0 < x -> logE (Fin x) = Fin (ln x).
Proof. intro H. cbn. destruct (Rlt_dec 0 x); [reflexivity|contradiction]. Qed.

(** ** C40: the parameter delta of kernel thinning is documented to lie between 0 and 1 *)
Theorem C40_delta_in_unit_interval_partial :
  forall n, (1 <= n)%Z -> n <> 3%Z -> exists delta,
  calculate_delta EROps logE n = Ok (Fin delta) /\ 0 < delta <= 1 /\ ((2 <= n)%Z -> delta < 1).
Proof.
  intros n Hn N3. unfold calculate_delta. change (fofZ EROps n) with (Fin (IZR n) : ER).
  assert (Hp : 1 <= IZR n) by now apply IZR_le. rewrite logE_pos by lra.
  assert (inv : forall a, 1 < a -> 0 < 1 / a < 1).
  { intros a Ha. split; [apply Rdiv_lt_0_compat; lra|]. apply Rmult_lt_reg_r with a; [lra|]. unfold Rdiv. rewrite Rmult_assoc, Rinv_l; lra. }
  assert (fd : forall a, 1 < a -> fdiv EROps (f1 EROps) (Fin a) = Fin (1 / a)) by (intros a Ha; apply fdiv_fin; lra).
  destruct (Z.eq_dec n 1) as [->|N1].
  { cbv zeta. rewrite fgt0_R, ln_1. destruct (Rlt_dec 0 0); [lra|]. cbn [Z.eqb]. exists (1 / 1). split; [f_equal; apply fdiv_fin; lra|]. split; [lra|lia]. }
  destruct (Z.eq_dec n 2) as [->|N2].
  { cbv zeta. rewrite fgt0_R. pose proof ln_lt_2 as L. destruct (Rlt_dec 0 (ln 2)); [|lra]. rewrite logE_pos by lra.
    assert (U : ln 2 < 1) by (apply ln_lt_of; [lra|apply exp1_gt]).
    rewrite fgt0_R. destruct (Rlt_dec 0 (ln (ln 2))) as [B|_].
    { exfalso. pose proof (ln_increasing (ln 2) 1 ltac:(lra) U). rewrite ln_1 in *. lra. }
    exists (1 / (2 * ln 2)). destruct (inv (2 * ln 2) ltac:(lra)). split; [f_equal; apply (fd (2 * ln 2)); lra|]. split; [lra|auto]. }
  assert (H4 : 4 <= IZR n) by (apply (IZR_le 4); lia).
  assert (L : ln 4 <= ln (IZR n)). { destruct (Req_dec 4 (IZR n)) as [<-|]; [lra|]. left. apply ln_increasing; lra. }
  pose proof ln4. assert (LL : ln (ln 4) <= ln (ln (IZR n))). { destruct (Req_dec (ln 4) (ln (IZR n))) as [E|]; [rewrite E; lra|]. left. apply ln_increasing; lra. }
  pose proof lnln4. cbv zeta. rewrite fgt0_R. destruct (Rlt_dec 0 (ln (IZR n))); [|lra]. rewrite logE_pos by lra.
  rewrite fgt0_R. destruct (Rlt_dec 0 (ln (ln (IZR n)))); [|lra].
  assert (B : 1 < IZR n * ln (ln (IZR n))) by nra.
  exists (1 / (IZR n * ln (ln (IZR n)))). destruct (inv _ B). split; [f_equal; apply (fd (IZR n * ln (ln (IZR n)))); exact B|]. split; [lra|auto].
Qed.
Print Assumptions C40_delta_in_unit_interval_partial.
(** for three points it is larger than 2 *)
Theorem C40_delta_three_refuted :
  exists delta, calculate_delta EROps logE 3 = Ok (Fin delta) /\ 2 < delta.
Proof.
  unfold calculate_delta. change (fofZ EROps 3) with (Fin 3 : ER). rewrite logE_pos by lra. pose proof ln3. pose proof lnln3.
  cbv zeta. rewrite fgt0_R. destruct (Rlt_dec 0 (ln 3)); [|lra]. rewrite logE_pos by lra. rewrite fgt0_R.
  destruct (Rlt_dec 0 (ln (ln 3))); [|lra]. exists (1 / (3 * ln (ln 3))). split; [f_equal; apply (fdiv_fin 1 (3 * ln (ln 3))); lra|].
  apply Rmult_lt_reg_r with (3 * ln (ln 3)); [lra|]. unfold Rdiv. rewrite Rmult_assoc, Rinv_l; lra.
Qed.
Print Assumptions C40_delta_three_refuted.
Example C40_partial_applies : exists delta, calculate_delta EROps logE 1000 = Ok (Fin delta) /\ 0 < delta <= 1 /\ ((2 <= 1000)%Z -> delta < 1).
Proof. apply C40_delta_in_unit_interval_partial; lia. Qed.

(** ** C59: kernel thinning with the recommended delta *)
(** For every size but three, kernel halving with the recommended delta decides every pair
    of distinct points by the documented randomised rule. *)
Theorem C59_recommended_delta_partial :
  forall P K (p0 : P) (s : kthin ER P K) (k : P -> P -> R) (u : K -> R) (xs : list P) h (size : Z),
    (1 <= size)%Z -> size <> 3%Z -> calculate_delta EROps logE size = Ok (kt_delta s) -> kt_log s = logE ->
    kt_sqrt s = (fun a b => Fin (k a b)) -> (forall key, kt_uniform s key = Fin (u key)) -> length xs = (2 * h)%nat ->
    let x i := nth i xs p0 in
    (forall i, (i < h)%nat -> let y := x (2 * i)%nat in let z := x (2 * i + 1)%nat in 0 < k y y + k z z - 2 * k y z) ->
    exists delta swap first,
      kt_delta s = Fin delta /\ 0 < delta <= 1 /\
      h_first (kt_half_loop EROps p0 s xs) = map Z.of_nat first /\
      first = map (fun i => pair_first (swap i) i) (seq 0 h) /\
      forall i, (i < h)%nat ->
        let key := Nat.iter i (fun key => snd (kt_split s key)) (kt_key s) in
        let y := x (2 * i)%nat in let z := x (2 * i + 1)%nat in
        let alpha := imbalance k (firstn (2 * i) xs) (map x (firstn i first)) y z in
        let a := thresh delta (pair_b k y z) (sigma_at k delta x i) in
        (swap i = true <-> u (fst (kt_split s key)) <= 1 / 2 * (1 - alpha / a)).
Proof.
  intros P K p0 s k u xs h size H1 H3 Hd Hl Hk Hu Hx x Hp.
  destruct (C40_delta_in_unit_interval_partial size H1 H3) as (delta & E & B & _). rewrite Hd in E. injection E as E.
  destruct (C48_swap_rule_partial P K p0 s k delta u xs h Hk E ltac:(lra)) as (swap & first & A1 & A2 & A3); auto.
  { intros r Hr. rewrite Hl. now apply logE_pos. }
  exists delta, swap, first. auto.
Qed.
Print Assumptions C59_recommended_delta_partial.
(** with such a delta kernel thinning is not randomised at all: every threshold is NaN, no
    swap ever happens and halving keeps the even positions, whatever the data and key *)
Lemma build_idx {P Y} (p0 : P) (y0 : Y) i (d : Data P Y ER) c : cs_build EROps p0 y0 (IArray i) (AData d) = Ok c -> c_idx c = i.
Proof.
  unfold cs_build, conv_data. cbn [bind]. unfold cs_init. destruct (_ <? _)%nat; [discriminate|]. intro H. injection H as <-. reflexivity.
Qed.
Lemma never_swap {P K} (p0 : P) (s : kthin ER P K) delta orig i st :
  kt_log s = logE -> kt_delta s = Fin delta -> 2 < delta -> decision EROps p0 s orig i st = false.
Proof.
  intros Hl Hd D. unfold decision. cbv zeta. rewrite Hl, Hd. unfold a_and_sigma. cbn [fst]. cbv zeta.
  assert (E : fdiv EROps (fofZ EROps 2) (Fin delta) = Fin (2 / delta)) by (apply fdiv_fin; lra).
  assert (Q : 0 < 2 / delta < 1).
  { split; [apply Rdiv_lt_0_compat; lra|]. apply Rmult_lt_reg_r with delta; [lra|]. unfold Rdiv. rewrite Rmult_assoc, Rinv_l; lra. }
  assert (N : ln (2 / delta) < 0) by (rewrite <- ln_1; apply ln_increasing; lra).
  rewrite E, logE_pos by lra.
  assert (S : fsqrt EROps (fmul EROps (fofZ EROps 2) (Fin (ln (2 / delta)))) = NaN).
  { cbn. unfold nltb, nleb, ROps, Rleb. destruct (Rle_dec 0 (2 * ln (2 / delta))); [lra|reflexivity]. }
  rewrite S. set (b := kernel_distance _ _ _ _). set (t := fmul EROps b (h_sigma st)).
  assert (M : fmul EROps t NaN = NaN) by (destruct t; reflexivity). rewrite M.
  change (fmax EROps NaN (sqr EROps b)) with (NaN : ER). unfold should_swap. destruct (kt_split s (h_key st)) as [k1 k2]. cbn [fst].
  set (al := get_alpha _ _ _ _ _ _ _ _ _). assert (A : fdiv EROps al NaN = NaN) by (destruct al; reflexivity). rewrite A.
  assert (B : fsub EROps (f1 EROps) NaN = NaN) by reflexivity. rewrite B.
  set (q := fdiv EROps (f1 EROps) (fofZ EROps 2)). assert (C : fmul EROps q NaN = NaN) by (destruct q; reflexivity). rewrite C.
  unfold fleb. change (fisnan EROps NaN) with true. cbn [negb]. now rewrite andb_false_r.
Qed.
Lemma large_delta_never_swaps :
  forall P Y K (p0 : P) (y0 : Y) (s : kthin ER P K) (d : Data P Y ER) (delta : R) (h : nat),
  kt_log s = logE -> kt_delta s = Fin delta -> 2 < delta -> d_len d = (2 * h)%nat ->
  exists a b, kt_half EROps p0 y0 s d = Ok (a, b) /\
    c_idx a = map (fun i => Z.of_nat (2 * i)) (seq 0 h) /\ c_idx b = map (fun i => Z.of_nat (2 * i + 1)) (seq 0 h).
Proof.
  intros P Y K p0 y0 s d delta h Hl Hd D L.
  destruct (kt_half_ok EROps p0 y0 s d h L) as [fl [E _]]. cbv zeta in E.
  unfold kt_half in *. destruct (Nat.odd (d_len d)); [discriminate|]. cbv zeta in *.
  destruct (cs_build _ _ _ (IArray (h_first _)) _) as [c1|] eqn:E1; [|discriminate]. cbn [bind] in E.
  destruct (cs_build _ _ _ (IArray (h_second _)) _) as [c2|] eqn:E2; [|discriminate]. cbn [bind] in E.
  exists c1, c2. split; [reflexivity|]. apply build_idx in E1. apply build_idx in E2. rewrite E1, E2.
  destruct (half_loop_indices EROps p0 s (d_x d)) as [A B]. fold (d_len d) in A, B. rewrite L in A, B.
  replace (2 * h / 2)%nat with h in A, B by (rewrite Nat.mul_comm, Nat.div_mul; lia). rewrite A, B, !map_map.
  split; apply map_ext; intro i; unfold run_decision; rewrite (never_swap p0 s delta) by assumption; reflexivity.
Qed.
(** For a data set of three points the recommended delta switches the randomisation off. *)
Theorem C59_three_points_never_swap_refuted :
  forall P Y K (p0 : P) (y0 : Y) (s : kthin ER P K) (d : Data P Y ER) (h : nat),
  kt_log s = logE -> calculate_delta EROps logE 3 = Ok (kt_delta s) -> d_len d = (2 * h)%nat ->
  exists a b, kt_half EROps p0 y0 s d = Ok (a, b) /\
    c_idx a = map (fun i => Z.of_nat (2 * i)) (seq 0 h) /\ c_idx b = map (fun i => Z.of_nat (2 * i + 1)) (seq 0 h).
Proof.
  intros P Y K p0 y0 s d h Hl Hd L. destruct C40_delta_three_refuted as (delta & E & D). rewrite Hd in E. injection E as E.
  now apply (large_delta_never_swaps P Y K p0 y0 s d delta h).
Qed.
Print Assumptions C59_three_points_never_swap_refuted.
Example C59_applies : exists a b, kt_half EROps 0 tt
  (mkKT 1 (fun a b => Fin (cosk a b)) (fun a b => Fin (cosk a b)) (Fin 3) 7%nat logE (fun k => (k, k)) (fun k => Fin (/ 2))
     (kt_choice (ex_kt 1)) (kt_depth (ex_kt 1)) (kt_ord (ex_kt 1))) (unsup [3; 1; 4; 1] [1; 1; 1; 1]) = Ok (a, b) /\
  c_idx a = [0; 2]%Z /\ c_idx b = [1; 3]%Z.
Proof.
  apply (large_delta_never_swaps _ _ _ 0 tt _ (unsup [3; 1; 4; 1] [1; 1; 1; 1]) 3 2); try reflexivity. lra.
Qed.
