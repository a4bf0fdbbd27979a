(** * The median heuristic in floating point: C92 *)
From Coq Require Import List ZArith Bool Reals Permutation Lia Lra.
From Coq Require Import Floats.SpecFloat.
From Flocq Require Import Core.Core IEEE754.BinarySingleNaN.
From Verif Require Import Num Jax RSum Float MeanModel UtilModel UtilSpec UtilProofs FloatProofs FloatProofs2 FloatGreedy FloatErr FloatRate3 FloatKern FloatKern2 FloatKernSpec FloatKern3 FloatMed.
Import ListNotations.
Open Scope R_scope.

(** the data: at least two points with [d] finite coordinates each, whose squared distances
    are at most a quarter of the overflow threshold; the format has room for [d] coordinates *)
Record spread_data {prec emax} (d : nat) (xs : list (list (binary_float prec emax))) : Prop := mkSpread {
  sd_dim : (16 * (Z.of_nat d + 10) <= 2 ^ prec)%Z;
  sd_range : (2 * prec + 2 <= emax)%Z;
  sd_two : (2 <= length xs)%nat;
  sd_rows : forall x, In x xs -> length x = d /\ Forall (fun v => is_finite v = true) x;
  sd_dist : forall x y, In x xs -> In y xs -> sqdist (map B2R x) (map B2R y) <= bpow radix2 (emax - 2) }.

Section Med.
  Context (prec emax : Z) {Hprec : Prec_gt_0 prec} {Hmax : Prec_lt_emax prec emax} {Sm : SumOrder prec emax}.
  Notation flt := (binary_float prec emax).
  Notation O := (FOpsIEEE prec emax).
  Lemma spread_room d (xs : list (list flt)) : spread_data d xs -> kernel_room prec emax 0 d /\ Forall (row prec emax d) xs.
  Proof.
    intros [A B C D E]. split; [constructor; lia|]. apply Forall_forall. intros x Hx. destruct (D x Hx). split; auto.
  Qed.
  (** a permutation of the points permutes the distances *)
  Lemma dist_cons (x : list flt) xs : upper (pairwise (squared_distance O) (x :: xs) (x :: xs)) =
    map (squared_distance O x) xs ++ upper (pairwise (squared_distance O) xs xs).
  Proof. unfold pairwise. cbn [map]. rewrite upper_cons. cbn [skipn]. f_equal. f_equal. rewrite map_map. reflexivity. Qed.
  Lemma dist_perm (xs ys : list (list flt)) : Permutation xs ys ->
    Permutation (upper (pairwise (squared_distance O) xs xs)) (upper (pairwise (squared_distance O) ys ys)).
  Proof.
    induction 1 as [|x l m P IH|x y l|l m q P1 IH1 P2 IH2]; [reflexivity| | |now rewrite IH1].
    - rewrite !dist_cons. apply Permutation_app; auto. now apply Permutation_map.
    - rewrite !dist_cons. cbn [map app]. rewrite (sqd_swap prec emax y x). constructor. rewrite !app_assoc. apply Permutation_app_tail, Permutation_app_comm.
  Qed.
  Lemma plus_real (u v u' v' : flt) : is_finite u = true -> is_finite v = true -> is_finite u' = true -> is_finite v' = true ->
    B2R u = B2R u' -> B2R v = B2R v' -> is_finite (Bplus mode_NE u v) = true -> is_finite (Bplus mode_NE u' v') = true ->
    B2R (Bplus mode_NE u v) = B2R (Bplus mode_NE u' v').
  Proof.
    intros F1 F2 F3 F4 E1 E2 G1 G2. destruct (plus_cases prec emax u v F1 F2) as [[A _]|[A _]]; [|rewrite A in G1; discriminate].
    destruct (plus_cases prec emax u' v' F3 F4) as [[B _]|[B _]]; [|rewrite B in G2; discriminate]. now rewrite A, B, E1, E2.
  Qed.
  Lemma div_real (u u' w : flt) : is_finite u = true -> is_finite u' = true -> is_finite w = true -> 0 < B2R w -> B2R u = B2R u' ->
    is_finite (Bdiv mode_NE u w) = true -> is_finite (Bdiv mode_NE u' w) = true -> B2R (Bdiv mode_NE u w) = B2R (Bdiv mode_NE u' w).
  Proof.
    intros F1 F2 F3 P E G1 G2. destruct (div_cases prec emax u w F1) as [[A _]|[A _]]; [lra| |rewrite A in G1; discriminate].
    destruct (div_cases prec emax u' w F2) as [[B _]|[B _]]; [lra| |rewrite B in G2; discriminate]. now rewrite A, B, E.
  Qed.
  Lemma fin_div (u w : flt) : is_finite (Bdiv mode_NE u w) = true -> is_finite w = true -> is_finite u = true.
  Proof. destruct u as [[]|[]| |[] m e B], w as [[]|[]| |[] m' e' B']; cbn; auto; try discriminate. Qed.
End Med.

(** ** C92.  The computed bandwidth is finite, not negative, and close to the bandwidth of
    exact arithmetic, whose square is half a median of the squared distances *)
Theorem C92_median_accurate :
  forall prec emax (Hp : Prec_gt_0 prec) (Hm : Prec_lt_emax prec emax) (Sm : SumOrder prec emax) d (xs : list (list (binary_float prec emax))),
  spread_data d xs ->
  let tiny := sqrt (INR (d + 3) * bpow radix2 (prec + 1 - emax)) + bpow radix2 (2 - emax) in
  let v := median_heuristic (FOpsIEEE prec emax) xs in
  exists b, median_heuristic EROps (map (map (fun v => Fin (B2R v))) xs) = Fin b /\
    0 <= b /\ is_median (pair_distances (map (map B2R) xs)) (2 * b ^ 2) /\
    is_finite v = true /\ 0 <= B2R v /\ Rabs (B2R v - b) <= 2 * INR (d + 7) * bpow radix2 (- prec) * (b + tiny).
Proof.
  intros prec emax Hp Hm Sm d xs SD tiny v. destruct (spread_room prec emax d xs SD) as [HR RW].
  pose proof (heuristic_close prec emax d HR xs RW (sd_two _ _ SD) (sd_dist _ _ SD)) as A. cbv zeta in A. fold v in A.
  set (ds := pair_distances (map (map B2R) xs)) in *. set (b := sqrt (rmedian ds / 2)) in *.
  assert (L2 : (2 <= length (map (map B2R) xs))%nat) by (rewrite map_length; apply SD).
  pose proof (rmedian_nonneg ds (pair_distances_nonneg _)) as M0.
  exists b. split.
  - unfold b, ds. rewrite <- (median_heuristic_fin _ L2). f_equal. rewrite map_map. apply map_ext. intros x. now rewrite map_map.
  - split; [apply sqrt_pos|]. split.
    + unfold b. rewrite <- Rsqr_pow2, Rsqr_sqrt by lra. replace (2 * (rmedian ds / 2)) with (rmedian ds) by field.
      apply rmedian_is_median. now apply pair_distances_nil.
    + destruct A as (F & _ & B). split; [exact F|]. split.
      * unfold v, median_heuristic. change (fsqrt (FOpsIEEE prec emax) ?z) with (Bsqrt mode_NE z).
        rewrite (proj1 (Bsqrt_correct prec emax _ _ mode_NE _)). rewrite <- (rnd_0 prec emax). apply (rnd_mono prec emax). apply sqrt_pos.
      * destruct (gg_small prec emax 0 d HR (d + 7) ltac:(lia)) as [G _]. eapply Rle_trans; [exact B|]. unfold uu in G.
        assert (ET : (eta emax d / 2 + 3 / 2 * tau emax) / uu prec = INR (d + 3) * bpow radix2 (prec + 1 - emax)).
        { unfold eta, uu, Rdiv. rewrite <- bpow_opp. unfold tau.
          replace (prec + 1 - emax)%Z with ((2 - emax) + (-1) + - - prec)%Z by lia. rewrite !bpow_plus. change (bpow radix2 (-1)) with (/ 2).
          rewrite plus_INR. rewrite (INR_IZR_INZ 3). change (Z.of_nat 3) with 3%Z. field. }
        rewrite ET. fold (tau emax). unfold tiny. change (bpow radix2 (2 - emax)) with (tau emax). rewrite Rplus_assoc.
        pose proof (tau_pos emax). pose proof (sqrt_pos (INR (d + 3) * bpow radix2 (prec + 1 - emax))). pose proof (sqrt_pos (rmedian ds / 2)). fold b in H1.
        apply Rmult_le_compat_r; lra.
Qed.
Print Assumptions C92_median_accurate.

(** ** C92.  It does not depend on the order of the points *)
Theorem C92_order :
  forall prec emax (Hp : Prec_gt_0 prec) (Hm : Prec_lt_emax prec emax) (Sm : SumOrder prec emax) d (xs ys : list (list (binary_float prec emax))),
  spread_data d xs -> Permutation xs ys ->
  let value zs := B2R (median_heuristic (FOpsIEEE prec emax) zs) in value ys = value xs.
Proof.
  intros prec emax Hp Hm Sm d xs ys SX P value. unfold value.
  assert (SY : spread_data d ys).
  { destruct SX as [A B C D E]. constructor; auto.
    - now rewrite <- (Permutation_length P).
    - intros x Hx. apply D. eapply Permutation_in; [symmetry; exact P|exact Hx].
    - intros x y Hx Hy. apply E; (eapply Permutation_in; [symmetry; exact P|assumption]). }
  destruct (spread_room prec emax d xs SX) as [HR RX]. destruct (spread_room prec emax d ys SY) as [_ RY].
  pose proof (pairs_close prec emax d HR xs RX (sd_dist _ _ SX)) as CX. pose proof (pairs_close prec emax d HR ys RY (sd_dist _ _ SY)) as CY.
  pose proof (dist_perm prec emax xs ys P) as PD.
  set (lx := upper (pairwise (squared_distance (FOpsIEEE prec emax)) xs xs)) in *. set (ly := upper (pairwise (squared_distance (FOpsIEEE prec emax)) ys ys)) in *.
  assert (NX : lx <> []).
  { intros Q. rewrite Q in CX. inversion CX as [E0|]. apply (pair_distances_nil (map (map B2R) xs)); [rewrite map_length; apply SX|auto]. }
  assert (NY : ly <> []) by (intros Q; apply NX; rewrite Q in PD; now apply Permutation_nil, Permutation_sym).
  destruct (median_close prec emax d HR lx _ CX NX) as (N1 & (F1 & _) & _). destruct (median_close prec emax d HR ly _ CY NY) as (N2 & (F2 & _) & _).
  assert (FX : Forall (fun v => is_finite v = true) lx) by (clear - CX; induction CX as [|? ? ? ? (_ & (F & _) & _)]; constructor; auto).
  assert (FY : Forall (fun v => is_finite v = true) ly) by (clear - CY; induction CY as [|? ? ? ? (_ & (F & _) & _)]; constructor; auto).
  destruct (sort_float prec emax lx FX) as [EX GX]. destruct (sort_float prec emax ly FY) as [EY GY].
  assert (ES : map B2R (fsort (FOpsIEEE prec emax) ly) = map B2R (fsort (FOpsIEEE prec emax) lx)).
  { rewrite EX, EY. apply rsort_ext. apply Permutation_map. now symmetry. }
  assert (MU : forall l : list (binary_float prec emax), l <> [] -> Forall (fun v => is_finite v = true) l ->
    median (FOpsIEEE prec emax) l = Bdiv mode_NE (Bplus mode_NE (nth ((length l - 1) / 2) (fsort (FOpsIEEE prec emax) l) (f0 (FOpsIEEE prec emax)))
      (nth (length l / 2) (fsort (FOpsIEEE prec emax) l) (f0 (FOpsIEEE prec emax)))) (fofZ (FOpsIEEE prec emax) 2)).
  { intros l HN HF. assert (NN : existsb (fisnan (FOpsIEEE prec emax)) l = false).
    { apply not_true_is_false. intros X. apply existsb_exists in X as [v [Hv Nv]]. rewrite Forall_forall in HF. specialize (HF v Hv). destruct v; cbn in *; discriminate. }
    unfold median. destruct l as [|v l]; [congruence|]. rewrite NN. reflexivity. }
  assert (FN : forall (l : list (binary_float prec emax)) i, Forall (fun v => is_finite v = true) l -> is_finite (nth i l (f0 (FOpsIEEE prec emax))) = true).
  { intros l i HF. destruct (nth_in_or_default i l (f0 (FOpsIEEE prec emax))) as [I|E]; [rewrite Forall_forall in HF; now apply HF|rewrite E; reflexivity]. }
  assert (EN : forall i, B2R (nth i (fsort (FOpsIEEE prec emax) ly) (f0 (FOpsIEEE prec emax))) = B2R (nth i (fsort (FOpsIEEE prec emax) lx) (f0 (FOpsIEEE prec emax)))).
  { intros i. rewrite <- !(map_nth B2R). now rewrite ES. }
  destruct (two_ok prec emax d HR) as [T1 T2].
  assert (EM : B2R (median (FOpsIEEE prec emax) ly) = B2R (median (FOpsIEEE prec emax) lx)).
  { rewrite (MU lx), (MU ly) in * by auto. rewrite <- (Permutation_length PD) in *.
    apply (div_real prec emax); try lra; auto.
    - exact (fin_div prec emax _ _ F2 T1).
    - exact (fin_div prec emax _ _ F1 T1).
    - apply (plus_real prec emax); auto; try apply EN; [exact (fin_div prec emax _ _ F2 T1)|exact (fin_div prec emax _ _ F1 T1)]. }
  unfold median_heuristic. fold lx ly. change (fsqrt (FOpsIEEE prec emax) ?z) with (Bsqrt mode_NE z).
  rewrite !(proj1 (Bsqrt_correct prec emax _ _ mode_NE _)).
  change (fdiv (FOpsIEEE prec emax) ?z ?w) with (Bdiv mode_NE z w).
  assert (HD : B2R (Bdiv mode_NE (median (FOpsIEEE prec emax) ly) (fofZ (FOpsIEEE prec emax) 2)) = B2R (Bdiv mode_NE (median (FOpsIEEE prec emax) lx) (fofZ (FOpsIEEE prec emax) 2))).
  { destruct (div_cases prec emax (median (FOpsIEEE prec emax) ly) (fofZ (FOpsIEEE prec emax) 2) F2) as [[A _]|[A B]]; [lra| |];
    destruct (div_cases prec emax (median (FOpsIEEE prec emax) lx) (fofZ (FOpsIEEE prec emax) 2) F1) as [[C _]|[C D]]; try lra.
    - rewrite A, C, EM. reflexivity.
    - pose proof (B2R_big prec emax (Bdiv mode_NE (median (FOpsIEEE prec emax) ly) (fofZ (FOpsIEEE prec emax) 2))) as Q. rewrite A, EM in Q. lra.
    - pose proof (B2R_big prec emax (Bdiv mode_NE (median (FOpsIEEE prec emax) lx) (fofZ (FOpsIEEE prec emax) 2))) as Q. rewrite C, <- EM in Q. lra.
    - rewrite A, C. destruct (xorb _ _), (xorb _ _); reflexivity. }
  now rewrite HD.
Qed.
Print Assumptions C92_order.

(** binary32: three points on a line, 0, 2 and 6: the squared distances are 4, 36 and 16 *)
Definition med_points : list (list F32) := [[f32 0 0]; [f32 1 1]; [f32 3 1]].
Example C92_applies : spread_data 1 med_points /\
  median_heuristic EROps (map (map (fun v => Fin (B2R v))) med_points) = Fin (sqrt 8) /\
  Permutation med_points (rev med_points).
Proof.
  assert (V0 : B2R (f32 0 0) = 0) by reflexivity.
  assert (V1 : B2R (f32 1 1) = 2).
  { rewrite <- SF2R_B2SF. replace (B2SF (f32 1 1)) with (S754_finite false 8388608 (-22)) by (vm_compute; reflexivity).
    change (F2R (Float radix2 (1 * radix2 ^ (1 - -22)) (-22)) = 2). rewrite <- F2R_change_exp by lia. unfold F2R. cbn. lra. }
  assert (V3 : B2R (f32 3 1) = 6).
  { rewrite <- SF2R_B2SF. replace (B2SF (f32 3 1)) with (S754_finite false 12582912 (-21)) by (vm_compute; reflexivity).
    change (F2R (Float radix2 (3 * radix2 ^ (1 - -21)) (-21)) = 6). rewrite <- F2R_change_exp by lia. unfold F2R. cbn. lra. }
  split; [|split].
  - constructor.
    + vm_compute. discriminate.
    + vm_compute. discriminate.
    + cbn. lia.
    + intros x [<-|[<-|[<-|[]]]]; (split; [reflexivity|constructor; [vm_compute; reflexivity|constructor]]).
    + assert (B : 36 <= bpow radix2 (128 - 2)).
      { apply Rle_trans with (bpow radix2 6); [cbn; lra|apply bpow_le; lia]. }
      intros x y [<-|[<-|[<-|[]]]] [<-|[<-|[<-|[]]]]; cbn [map]; rewrite ?V0, ?V1, ?V3; unfold sqdist; cbn; lra.
  - replace (map (map (fun v => Fin (B2R v))) med_points) with (map (map Fin) [[0]; [2]; [6]]) by (unfold med_points; cbn [map]; now rewrite V0, V1, V3).
    rewrite median_heuristic_fin by (cbn; lia). f_equal. f_equal.
    assert (E : pair_distances [[0]; [2]; [6]] = [4; 36; 16]).
    { unfold pair_distances, sqdist. cbn. f_equal; [ring|]. f_equal; [ring|]. f_equal. ring. }
    rewrite E. unfold rmedian, rsort, rinsert. cbn [fold_right]. destruct (Rlt_dec 16 36); [|lra]. destruct (Rlt_dec 16 4); [lra|]. cbn. lra.
  - apply Permutation_rev.
Qed.
Print Assumptions C92_applies.
