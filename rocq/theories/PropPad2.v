(** * Stein thinning with a default Stein kernel in floating point arithmetic: C100 *)
From Coq Require Import List ZArith Bool Reals Permutation Lia Lra.
From Coq Require Import Floats.SpecFloat.
From Flocq Require Import Core.Core IEEE754.BinarySingleNaN.
From Verif Require Import Num Jax RSum DataModel MeanModel MetricModel UtilModel KernelModel ApproxModel GreedyModel ScoreModel ThinModel
  SumSpec SumProofs GreedyProofs5 Float FloatProofs2 FloatIdxSpec FloatErrSpec InvSpec PropInv PropFloat PropFloatIdx FloatScore PropFloatScore FloatSteinK PropSteinDefault
  FloatPad PropPad FloatPad2.
Import ListNotations.
Open Scope nat_scope.

(** kernels that are bounded on the data only: if the block sizes divide the number of rows and
    the size of the coreset, Stein thinning returns valid indices *)
Theorem C100_stein_thinning_partial :
  forall prec emax (Hp : Prec_gt_0 prec) (Hm : Prec_lt_emax prec emax) (Sm : SumOrder prec emax) a e, room prec emax a e ->
  forall {P Y} (p0 : P) (y0 : Y) (k : P -> P -> binary_float prec emax) m unique b0 b1 ord xs dw,
  (forall x y, In x xs -> In y xs -> at_most e (k x y)) ->
  length dw = length xs -> 1 <= m <= length xs -> (forall i, Permutation (ord i) (seq 0 m)) ->
  (Z.of_nat (length xs) <= 2 ^ a)%Z -> Forall weight_ok dw -> 1 <= positives dw -> (unique = true -> m <= positives dw) ->
  length xs mod block_used (length xs) b0 = 0 -> m mod block_used m b1 = 0 ->
  exists l c, stein_reduce (FOpsIEEE prec emax) p0 y0 (mkStein m k unique (BTwo b0 b1) None) ord (mkData xs dw None : Data P Y _) = Ok c /\
    selected c = (map Z.of_nat l, repeat Bone m) /\ valid_indices dw m unique l.
Proof.
  intros prec emax Hp Hm Sm a e HR P Y p0 y0 k m unique b0 b1 ord xs dw Hk Hdw Hm1 Hord Hn Wd C1 C2 M0 M1.
  assert (HQ : exists q, In q xs) by (destruct xs as [|q xs]; [cbn in Hm1; lia|exists q; now left]). destruct HQ as [q Hq].
  rewrite (stein_reduce_pad (FOpsIEEE prec emax) p0 q y0) by auto.
  set (row := fun i => nth i (q :: xs) q). set (k2 := fun i j => k (row i) (row j)).
  assert (RI : forall i, In (row i) xs).
  { intros i. unfold row. destruct (nth_in_or_default i (q :: xs) q) as [[<-|H]|H]; auto. now rewrite H. }
  set (d2 := mkData (seq 1 (length xs)) dw None : Data nat Y (binary_float prec emax)).
  assert (RS : map row (0 :: seq 1 (length xs)) = q :: xs).
  { change (0 :: seq 1 (length xs)) with (seq 0 (length (q :: xs))). apply (nth_ext _ _ q q); [now rewrite map_length, seq_length|].
    intros i Hi. rewrite map_length, seq_length in Hi. rewrite (nth_indep _ q (row 0)) by now rewrite map_length, seq_length.
    rewrite map_nth, seq_nth by exact Hi. reflexivity. }
  assert (SG : same_gramian k (q :: xs) k2 (0 :: seq 1 (length xs))).
  { unfold same_gramian. rewrite <- RS. rewrite map_map. apply map_ext. intros i. rewrite map_map. apply map_ext. intros j. reflexivity. }
  pose proof (C74_stein_reduce _ (FOpsIEEE prec emax) P nat Y q 0 y0 (mkData xs dw None) d2 k k2 m unique (BTwo b0 b1) None None ord (conj eq_refl eq_refl) SG eq_refl) as E74.
  destruct (C70_stein_reduce prec emax Hp Hm Sm a e HR 0 y0 k2 m unique (BTwo b0 b1) None ord (seq 1 (length xs)) dw) as (l & E & V); auto; rewrite ?seq_length; try (apply Hm1); auto.
  { intros i j. apply Hk; apply RI. } { exact I. }
  change (mkData (seq 1 (length xs)) dw None) with d2 in E. rewrite E in E74. cbn [rmap] in E74.
  destruct (stein_reduce (FOpsIEEE prec emax) q y0 (mkStein m k unique (BTwo b0 b1) None) ord (mkData xs dw None)) as [c|e']; [|discriminate].
  exists l, c. cbn [rmap] in E74. injection E74 as E1 E2. split; [reflexivity|]. split; [unfold selected; now rewrite E1, E2|exact V].
Qed.
Print Assumptions C100_stein_thinning_partial.

(** SteinThinning with the Stein kernel that [convert_stein_kernel] makes from a squared
    exponential kernel and the data, without regularisation *)
Theorem C100_default_stein_thinning_partial :
  forall prec emax (Hp : Prec_gt_0 prec) (Hm : Prec_lt_emax prec emax) (Sm : SumOrder prec emax) T jgrad keq jac kde c l t p r u a len s0 s
      (X : list (list (binary_float prec emax))) dw d stein {Y} p0 (y0 : Y) m unique lam b0 b1 ord,
    elementary T -> kdm_init (FOpsIEEE prec emax) T len = Ok (KSE len s0) -> score_range c l t p len s0 X ->
    (0 <= c)%Z -> (l <= 0)%Z -> (0 <= u)%Z -> is_finite s = true -> (0 < B2R s <= bpow radix2 u)%R ->
    (forall y, In y X -> length y = d) -> (1 <= r <= prec)%Z -> (Z.of_nat d < 2 ^ r)%Z ->
    let e := (r + u + 2 * (c + 2 - l + p) + 3)%Z in room prec emax a e ->
    convert_stein_kernel (FOpsIEEE prec emax) T jgrad keq X (KSE len s) None = Ok stein ->
    length dw = length X -> 1 <= m <= length X -> (forall i, Permutation (ord i) (seq 0 m)) ->
    (Z.of_nat (length X) <= 2 ^ a)%Z -> Forall weight_ok dw -> 1 <= positives dw -> (unique = true -> m <= positives dw) ->
    length X mod block_used (length X) b0 = 0 -> m mod block_used m b1 = 0 ->
    exists l c, thin_reduce (FOpsIEEE prec emax) T jgrad keq jac kde p0 y0 (mkThin m stein None unique false lam (BTwo b0 b1)) ord (mkData X dw None) = Ok c /\
      selected c = (map Z.of_nat l, repeat Bone m) /\ valid_indices dw m unique l.
Proof.
  intros prec emax Hp Hm Sm T jgrad keq jac kde c l t p r u a len s0 s X dw d stein Y p0 y0 m unique lam b0 b1 ord
    E I R Hc Hl Hu Fs Bs HL Hr Hd e HR CV Hdw Hm1 Hord Hn Wd C1 C2 M0 M1.
  set (k := fun x y => unsc (FOpsIEEE prec emax) (m_val (methods (FOpsIEEE prec emax) T jgrad keq stein) x y)).
  assert (K : forall x y, In x X -> In y X -> at_most e (k x y)).
  { intros x y Hx Hy.
    destruct (C98_default_stein_kernel prec emax Hp Hm Sm T jgrad keq c l t p r u len s0 s X d stein E I R Hc Hl Hu Fs Bs HL Hr Hd) with (x := x) (y := y) as (w & W & A); auto.
    { destruct HR as [R1 R2 R3]. unfold e in R2. lia. }
    unfold k. rewrite W. exact A. }
  destruct (C100_stein_thinning_partial prec emax Hp Hm Sm a e HR p0 y0 k m unique b0 b1 ord X dw K Hdw Hm1 Hord Hn Wd C1 C2 M0 M1) as (li & cs & E1 & E2 & E3).
  exists li, cs. split; [|auto]. rewrite <- E1. unfold thin_reduce, stein_reduce. cbn [t_size s_size].
  rewrite !initial_fine by (unfold d_len; cbn [d_x]; lia). cbn [bind]. unfold thin_refine. cbn [c_pre unpack2 d_y d_x d_w bind t_kernel t_score].
  assert (CS : convert_stein_kernel (FOpsIEEE prec emax) T jgrad keq X stein None = Ok stein).
  { unfold convert_stein_kernel in CV. cbn [length_scale_of] in CV. rewrite I in CV. cbn [bind] in CV. injection CV as <-. reflexivity. }
  rewrite CS. reflexivity.
Qed.
Print Assumptions C100_default_stein_thinning_partial.

(** if the size of the coreset is not a multiple of the block size and the data are so far from
    the origin that the kernel values there underflow, every penalty is NaN: the first index is
    -1, and without [unique] every index is *)
Theorem C100_far_origin :
  forall prec emax (Hp : Prec_gt_0 prec) (Hm : Prec_lt_emax prec emax) (Sm : SumOrder prec emax) T jgrad keq jac kde len s0 s
      (X : list (list (binary_float prec emax))) dw d stein {Y} (y0 : Y) m unique lam b0 b1 ord,
    kdm_init (FOpsIEEE prec emax) T len = Ok (KSE len s0) ->
    1 <= d -> (forall y, In y X -> length y = d) ->
    let origin := repeat (f0 (FOpsIEEE prec emax)) d in
    (forall y, In y X -> exists w, m_val (methods (FOpsIEEE prec emax) T jgrad keq (KSE len s0)) origin y = Sc w /\ is_finite w = true /\ B2R w = 0%R) ->
    convert_stein_kernel (FOpsIEEE prec emax) T jgrad keq X (KSE len s) None = Ok stein ->
    length dw = length X -> 1 <= m <= length X -> (forall i, Permutation (ord i) (seq 0 m)) ->
    m mod block_used m b1 <> 0 ->
    exists c, thin_reduce (FOpsIEEE prec emax) T jgrad keq jac kde origin y0 (mkThin m stein None unique false lam (BTwo b0 b1)) ord (mkData X dw None) = Ok c /\
      nth 0 (c_idx c) 0%Z = (-1)%Z /\ (unique = false -> c_idx c = repeat (-1)%Z m).
Proof.
  intros prec emax Hp Hm Sm T jgrad keq jac kde len s0 s X dw d stein Y y0 m unique lam b0 b1 ord I Hd HL origin HZ CV Hdw Hm1 Hord M.
  assert (HX : X <> []) by (intros ->; cbn in Hm1; lia).
  assert (LO : length origin = d) by apply repeat_length.
  assert (SC : kdm_match (FOpsIEEE prec emax) T jgrad keq (KSE len s0) X origin = repeat B754_nan d).
  { unfold kdm_match. rewrite (C97_underflow_is_nan prec emax Hp Hm Sm T jgrad keq len s0 X origin HX); [now rewrite LO|intros y Hy; now rewrite LO, HL|exact HZ]. }
  unfold convert_stein_kernel in CV. cbn [length_scale_of] in CV. rewrite I in CV. cbn [bind] in CV. injection CV as <-.
  set (score := kdm_match (FOpsIEEE prec emax) T jgrad keq (KSE len s0) X) in *.
  set (k := fun x y => unsc (FOpsIEEE prec emax) (m_val (methods (FOpsIEEE prec emax) T jgrad keq (KStein (KSE len s) score)) x y)).
  assert (KN : forall x, In x X -> k x origin = B754_nan).
  { intros x Hx. unfold k. cbn [methods m_val auto_meth]. unfold stein_val. cbn [methods m_val m_gx m_gy m_div se_meth]. rewrite !SC.
    assert (GL : length (map (fneg (FOpsIEEE prec emax)) (se_gy (FOpsIEEE prec emax) T len s x origin)) = d).
    { unfold se_gy, difference. rewrite !map_length, map2_length, LO, (HL x Hx). apply Nat.min_id. }
    assert (IN : In B754_nan (repeat (B754_nan : binary_float prec emax) d)) by (destruct d; [lia|now left]).
    unfold tmatmul at 1. rewrite GL, repeat_length, Nat.eqb_refl.
    rewrite (nan_dot_r prec emax _ (repeat B754_nan d) IN) by (now rewrite GL, repeat_length).
    unfold tadd, tmap2, tmatmul, tmul, tmap2. cbn [fadd FOpsIEEE].
    repeat match goal with |- context [if ?b then _ else _] => destruct b end; cbn [unsc]; try reflexivity.
    do 2 (apply (nan_plus prec emax); left). apply (nan_plus prec emax). right. reflexivity. }
  unfold thin_reduce. cbn [t_size]. rewrite !initial_fine by (unfold d_len; cbn [d_x]; lia). cbn [bind]. unfold thin_refine. cbn [c_pre unpack2 d_y d_x d_w bind t_kernel t_score].
  cbn [convert_stein_kernel bind]. unfold stein_refine, thin_env. cbn [c_pre unpack2 d_y d_x d_w bind t_size t_kernel t_unique t_bs t_regularise s_kernel s_size s_unique s_bs c_idx]. fold k.
  unfold greedy_selection. cbn [c_idx c_w c_pre]. rewrite !repeat_length, Nat.sub_diag. cbn [repeat]. rewrite !app_nil_r. cbn [unpack2 d_y d_x d_w bind].
  set (pts := points _ origin y0 _).
  assert (PL : length (d_x pts) = m) by (unfold pts, points, d_getitem; cbn [d_x c_idx]; unfold gather; now rewrite map_length, repeat_length).
  assert (PW : length (d_w pts) = length (d_x pts)) by (rewrite PL; unfold pts, points; cbn [d_w c_w]; apply repeat_length).
  rewrite (mean1_nan prec emax origin y0 k X pts b0 b1 HX); [|intros Z; rewrite Z in PL; cbn in PL; lia|exact PW|now rewrite PL|exact KN].
  cbn [bind]. set (n0 := fofZ (FOpsIEEE prec emax) _).
  replace (map (fun v => fmul (FOpsIEEE prec emax) n0 v) (repeat B754_nan (length X))) with (repeat (B754_nan : binary_float prec emax) (length X)).
  2:{ generalize (length X) as n. clearbody n0. clear. induction n as [|n IH]; [reflexivity|]. cbn [repeat map]. rewrite <- IH. f_equal. symmetry. now apply nan_mult_r. }
  eexists. split; [reflexivity|]. cbn [c_idx]. set (diag := map _ X). set (reg := stein_terms _ _ _ _ _). set (z := Z.of_nat _).
  pose proof (loop_first prec emax origin k X dw diag reg m ord Hdw HX Hord unique (repeat 0%Z m) z (proj1 Hm1) (repeat_length _ _)) as LF. split.
  - rewrite <- LF. set (g := g_idx _). destruct m as [|m']; [lia|]. destruct g; reflexivity.
  - intros ->. rewrite (loop_all prec emax origin k X dw diag reg m ord Hdw HX Hord (repeat 0%Z m) z (repeat_length _ _)).
    apply firstn_all2. now rewrite repeat_length.
Qed.
Print Assumptions C100_far_origin.

(** three points near 100 in binary32, bandwidth 1, all three to be selected: a permutation of
    the rows with blocks of one row, the index -1 with blocks of two *)
Lemma far_underflow (T : TOps F32) jgrad keq : (forall v, Bltb v (f32 (-104) 0) = true -> fexp T v = B754_zero false) ->
  forall y, In y far_rows -> exists w, m_val (methods F32Ops T jgrad keq (KSE (f32 1 0) scale32)) (repeat (f0 F32Ops) 1) y = Sc w /\ is_finite w = true /\ B2R w = 0%R.
Proof.
  intros U.
  assert (K : forall a : F32, Bltb (fdiv F32Ops (fneg F32Ops (squared_distance F32Ops [f0 F32Ops] [a])) (fmul F32Ops (fofZ F32Ops 2) (sq F32Ops (f32 1 0)))) (f32 (-104) 0) = true ->
      exists w, m_val (methods F32Ops T jgrad keq (KSE (f32 1 0) scale32)) (repeat (f0 F32Ops) 1) [a] = Sc w /\ is_finite w = true /\ B2R w = 0%R).
  { intros a H. exists (B754_zero false). split; [|split; reflexivity]. cbn [methods m_val se_meth]. unfold se_val. f_equal.
    set (q := fdiv F32Ops _ _). rewrite (U q H). apply B2SF_inj. vm_compute. reflexivity. }
  intros y Hy. repeat destruct Hy as [<-|Hy]; [| | |destruct Hy]; apply K; vm_compute; reflexivity.
Qed.
Theorem C100_stein_thinning_refuted :
  forall (T : TOps F32) jgrad keq jac kde, elementary T -> fpi T = pi32 ->
    (forall v, Bltb v (f32 (-104) 0) = true -> fexp T v = B754_zero false) ->
    exists stein, convert_stein_kernel F32Ops T jgrad keq far_rows (KSE (f32 1 0) (f32 1 0)) None = Ok stein /\
      let run unique b := thin_reduce F32Ops T jgrad keq jac kde [f0 F32Ops] tt (mkThin 3 stein None unique false None (BTwo b b)) (fun _ => seq 0 3)
        (mkData far_rows (repeat Bone 3) None) in
      (exists c l, run true (Some 1%Z) = Ok c /\ c_idx c = map Z.of_nat l /\ Permutation l [0; 1; 2]) /\
      (exists c, run true (Some 2%Z) = Ok c /\ nth 0 (c_idx c) 0%Z = (-1)%Z) /\
      (exists c, run false (Some 2%Z) = Ok c /\ c_idx c = [-1; -1; -1]%Z).
Proof.
  intros T jgrad keq jac kde E P U.
  assert (I : kdm_init F32Ops T (f32 1 0) = Ok (KSE (f32 1 0) scale32)) by (unfold kdm_init; rewrite P; fold scale32; exact scale32_ok).
  destruct (f32_exact 1%Z 0%Z ltac:(lia) ltac:(lia) ltac:(lia)) as [F1 V1].
  assert (B1 : (0 < B2R (f32 1 0) <= bpow radix2 0)%R) by (rewrite V1; cbn; lra).
  exists (KStein (KSE (f32 1 0) (f32 1 0)) (kdm_match F32Ops T jgrad keq (KSE (f32 1 0) scale32) far_rows)).
  set (stein := KStein _ _).
  assert (CV : convert_stein_kernel F32Ops T jgrad keq far_rows (KSE (f32 1 0) (f32 1 0)) None = Ok stein).
  { unfold convert_stein_kernel. cbn [length_scale_of]. rewrite I. reflexivity. }
  split; [exact CV|]. intros run.
  assert (PS : positives (repeat (Bone : F32) 3) = 3).
  { unfold positives. cbn [repeat filter]. rewrite Bone_correct. rewrite Rlt_bool_true by lra. reflexivity. }
  assert (RM : room 24 128 2 26) by (constructor; lia).
  assert (WO : Forall weight_ok (repeat (Bone : F32) 3)) by (apply Forall_forall; intros v Hv; apply repeat_spec in Hv; subst v; apply f32_weight).
  assert (LN : 1 <= 3 <= length far_rows) by (unfold far_rows; cbn [length]; lia).
  assert (LZ : (Z.of_nat (length far_rows) <= 2 ^ 2)%Z) by (unfold far_rows; cbn [length]; lia).
  assert (P1 : 1 <= positives (repeat (Bone : F32) 3)) by (rewrite PS; lia).
  assert (P3 : true = true -> 3 <= positives (repeat (Bone : F32) 3)) by (intros _; rewrite PS; lia).
  clearbody stein.
  split; [|split].
  - destruct (C100_default_stein_thinning_partial 24 128 _ _ _ T jgrad keq jac kde 7 0 (-1) 2 1 0 2 (f32 1 0) scale32 (f32 1 0) far_rows (repeat Bone 3) 1 stein
      [f0 F32Ops] tt 3 true None (Some 1%Z) (Some 1%Z) (fun _ => seq 0 3) E I far_range ltac:(lia) ltac:(lia) ltac:(lia) F1 B1 far_len ltac:(lia) ltac:(lia)
      RM CV eq_refl LN (fun _ => Permutation_refl _) LZ WO P1 P3 eq_refl eq_refl) as (l & c & R1 & R2 & (L & R & N)).
    exists c, l. split; [exact R1|]. split; [unfold selected in R2; injection R2 as R3 _; exact R3|].
    symmetry. apply NoDup_Permutation_bis; [repeat constructor; cbn; intuition lia|cbn; lia|].
    intros i Hi. assert (IN : incl l [0; 1; 2]).
    { intros j Hj. destruct (R j Hj) as [Q _]. cbn in Q. cbn. lia. }
    apply (NoDup_length_incl (N eq_refl) (l' := [0; 1; 2])); [cbn; lia|exact IN|exact Hi].
  - destruct (C100_far_origin 24 128 _ _ _ T jgrad keq jac kde (f32 1 0) scale32 (f32 1 0) far_rows (repeat Bone 3) 1 stein tt 3 true None (Some 2%Z) (Some 2%Z)
      (fun _ => seq 0 3) I (le_n 1) far_len (far_underflow T jgrad keq U) CV eq_refl) as (c & C1 & C2 & _); [exact LN|reflexivity|discriminate|]. exists c. split; [exact C1|exact C2].
  - destruct (C100_far_origin 24 128 _ _ _ T jgrad keq jac kde (f32 1 0) scale32 (f32 1 0) far_rows (repeat Bone 3) 1 stein tt 3 false None (Some 2%Z) (Some 2%Z)
      (fun _ => seq 0 3) I (le_n 1) far_len (far_underflow T jgrad keq U) CV eq_refl) as (c & C1 & _ & C2); [exact LN|reflexivity|discriminate|]. exists c. split; [exact C1|exact (C2 eq_refl)].
Qed.
Print Assumptions C100_stein_thinning_refuted.
(** the assumptions on [exp] are those of C99 *)
Example C100_stein_thinning_refuted_applies : elementary far_tops /\ fpi far_tops = pi32 /\ (forall v, Bltb v (f32 (-104) 0) = true -> fexp far_tops v = B754_zero false).
Proof. exact C99_ksd_refuted_applies. Qed.
