(** * Kernel herding with a default Stein kernel in floating point arithmetic: C101 *)
From Coq Require Import List ZArith Bool Reals Permutation Lia Lra.
From Coq Require Import Floats.SpecFloat.
From Flocq Require Import Core.Core IEEE754.BinarySingleNaN.
From Verif Require Import Num Jax RSum DataModel MeanModel MeanGeneric MetricModel UtilModel KernelModel ApproxModel GreedyModel ScoreModel ThinModel
  SumSpec SumProofs GreedyProofs5 Float FloatProofs2 FloatIdxSpec FloatErrSpec InvSpec PropInv PropFloat PropFloatIdx FloatScore PropFloatScore FloatSteinK PropSteinDefault
  FloatPad PropPad FloatPad2 PropPad2 FloatPad3.
Import ListNotations.
Open Scope nat_scope.

(** coreax/kernels/scalar_valued.py:53-: [kernel.compute_elementwise] of a kernel expression
    (kernels/base.py:158-), as a number: [methods] models it with its shape *)
Definition elementwise {prec emax} {Hp : Prec_gt_0 prec} {Hm : Prec_lt_emax prec emax} {Sm : SumOrder prec emax} T jgrad keq (k : kern (binary_float prec emax))
    (x y : list (binary_float prec emax)) : binary_float prec emax :=
  unsc (FOpsIEEE prec emax) (m_val (methods (FOpsIEEE prec emax) T jgrad keq k) x y).

(** kernels that are bounded on the data only: if the block sizes divide the number of rows, and
    the second one the size of the coreset, herding returns valid indices *)
Theorem C101_herding_partial :
  forall prec emax (Hp : Prec_gt_0 prec) (Hm : Prec_lt_emax prec emax) (Sm : SumOrder prec emax) a e, room prec emax a e ->
  forall {P Y} (p0 : P) (y0 : Y) (k : P -> P -> binary_float prec emax) m unique b0 b1 ord xs dw,
  (forall x y, In x xs -> In y xs -> at_most e (k x y)) ->
  length dw = length xs -> 1 <= m <= length xs -> (forall i, Permutation (ord i) (seq 0 m)) ->
  (Z.of_nat (length xs) <= 2 ^ a)%Z -> Forall weight_ok dw -> 1 <= positives dw -> (unique = true -> m <= positives dw) ->
  length xs mod block_used (length xs) b0 = 0 -> length xs mod block_used (length xs) b1 = 0 -> m mod block_used m b1 = 0 ->
  exists l c g, herding_reduce (FOpsIEEE prec emax) p0 y0 (mkHerding m k unique (BTwo b0 b1) Greedy) ord (mkData xs dw None : Data P Y _) None = Ok (c, g) /\
    selected c = (map Z.of_nat l, repeat Bone m) /\ valid_indices dw m unique l /\ length g = length xs /\ Forall (at_most (e + a + 1)) g.
Proof.
  intros prec emax Hp Hm Sm a e HR P Y p0 y0 k m unique b0 b1 ord xs dw Hk Hdw Hm1 Hord Hn Wd C1 C2 M0 M1 M2.
  assert (HQ : exists q, In q xs) by (destruct xs as [|q xs]; [cbn in Hm1; lia|exists q; now left]). destruct HQ as [q Hq].
  rewrite (herding_reduce_pad (FOpsIEEE prec emax) p0 q y0) by auto.
  set (row := fun i => nth i (q :: xs) q). set (k2 := fun i j => k (row i) (row j)).
  assert (RI : forall i, In (row i) xs).
  { intros i. unfold row. destruct (nth_in_or_default i (q :: xs) q) as [[<-|H]|H]; auto. now rewrite H. }
  set (d2 := mkData (seq 1 (length xs)) dw None : Data nat Y (binary_float prec emax)).
  assert (RS : map row (0 :: seq 1 (length xs)) = q :: xs).
  { change (0 :: seq 1 (length xs)) with (seq 0 (length (q :: xs))). apply (nth_ext _ _ q q); [now rewrite map_length, seq_length|].
    intros i Hi. rewrite map_length, seq_length in Hi. rewrite (nth_indep _ q (row 0)) by now rewrite map_length, seq_length.
    rewrite map_nth, seq_nth by exact Hi. reflexivity. }
  assert (SG : same_gramian k (q :: xs) k2 (0 :: seq 1 (length xs))).
  { unfold same_gramian. rewrite <- RS. rewrite map_map. apply map_ext. intros i. rewrite map_map. apply map_ext. intros j. reflexivity. }
  pose proof (C74_herding_reduce _ (FOpsIEEE prec emax) P nat Y q 0 y0 (mkData xs dw None) d2 k k2 m unique (BTwo b0 b1) Greedy ord None (conj eq_refl eq_refl) SG) as E74.
  destruct (C70_herding_reduce prec emax Hp Hm Sm a e HR 0 y0 k2 m unique (BTwo b0 b1) ord (seq 1 (length xs)) dw None) as (l & g & E & V & LG & BG); auto; rewrite ?seq_length; try (apply Hm1); auto.
  { intros i j. apply Hk; apply RI. } { discriminate. }
  change (mkData (seq 1 (length xs)) dw None) with d2 in E. rewrite E in E74. cbn [rmap] in E74.
  destruct (herding_reduce (FOpsIEEE prec emax) q y0 (mkHerding m k unique (BTwo b0 b1) Greedy) ord (mkData xs dw None) None) as [[c g']|e']; [|discriminate].
  exists l, c, g'. cbn [rmap on_fst fst snd] in E74. unfold on_fst in E74. cbn [fst snd] in E74. injection E74 as E1 E2 E3. rewrite E3. rewrite seq_length in LG.
  split; [reflexivity|]. split; [unfold selected; now rewrite E1, E2|]. auto.
Qed.
Print Assumptions C101_herding_partial.

(** with the Stein kernel that [convert_stein_kernel] makes from a squared exponential kernel
    and the data *)
Theorem C101_default_stein_herding_partial :
  forall prec emax (Hp : Prec_gt_0 prec) (Hm : Prec_lt_emax prec emax) (Sm : SumOrder prec emax) T jgrad keq c l t p r u a len s0 s
      (X : list (list (binary_float prec emax))) dw d stein {Y} p0 (y0 : Y) m unique b0 b1 ord,
    elementary T -> kdm_init (FOpsIEEE prec emax) T len = Ok (KSE len s0) -> score_range c l t p len s0 X ->
    (0 <= c)%Z -> (l <= 0)%Z -> (0 <= u)%Z -> is_finite s = true -> (0 < B2R s <= bpow radix2 u)%R ->
    (forall y, In y X -> length y = d) -> (1 <= r <= prec)%Z -> (Z.of_nat d < 2 ^ r)%Z ->
    let e := (r + u + 2 * (c + 2 - l + p) + 3)%Z in room prec emax a e ->
    convert_stein_kernel (FOpsIEEE prec emax) T jgrad keq X (KSE len s) None = Ok stein ->
    length dw = length X -> 1 <= m <= length X -> (forall i, Permutation (ord i) (seq 0 m)) ->
    (Z.of_nat (length X) <= 2 ^ a)%Z -> Forall weight_ok dw -> 1 <= positives dw -> (unique = true -> m <= positives dw) ->
    length X mod block_used (length X) b0 = 0 -> length X mod block_used (length X) b1 = 0 -> m mod block_used m b1 = 0 ->
    exists l c g, herding_reduce (FOpsIEEE prec emax) p0 y0 (mkHerding m (elementwise T jgrad keq stein) unique (BTwo b0 b1) Greedy) ord (mkData X dw None : Data _ Y _) None = Ok (c, g) /\
      selected c = (map Z.of_nat l, repeat Bone m) /\ valid_indices dw m unique l.
Proof.
  intros prec emax Hp Hm Sm T jgrad keq c l t p r u a len s0 s X dw d stein Y p0 y0 m unique b0 b1 ord
    E I R Hc Hl Hu Fs Bs HL Hr Hd e HR CV Hdw Hm1 Hord Hn Wd C1 C2 M0 M1 M2.
  assert (K : forall x y, In x X -> In y X -> at_most e (elementwise T jgrad keq stein x y)).
  { intros x y Hx Hy.
    destruct (C98_default_stein_kernel prec emax Hp Hm Sm T jgrad keq c l t p r u len s0 s X d stein E I R Hc Hl Hu Fs Bs HL Hr Hd) with (x := x) (y := y) as (w & W & A); auto.
    { destruct HR as [R1 R2 R3]. unfold e in R2. lia. }
    unfold elementwise. rewrite W. exact A. }
  destruct (C101_herding_partial prec emax Hp Hm Sm a e HR p0 y0 (elementwise T jgrad keq stein) m unique b0 b1 ord X dw K Hdw Hm1 Hord Hn Wd C1 C2 M0 M1 M2)
    as (li & cs & g & E1 & E2 & E3 & _).
  exists li, cs, g. auto.
Qed.
Print Assumptions C101_default_stein_herding_partial.

(** if the number of rows is not a multiple of the block size and the data are so far from the
    origin that the kernel values there underflow, the Gramian row means are NaN and every
    selected index is -1, with or without [unique] *)
Theorem C101_far_origin :
  forall prec emax (Hp : Prec_gt_0 prec) (Hm : Prec_lt_emax prec emax) (Sm : SumOrder prec emax) T jgrad keq len s0 s
      (X : list (list (binary_float prec emax))) dw d stein {Y} (y0 : Y) m unique b0 b1 ord,
    kdm_init (FOpsIEEE prec emax) T len = Ok (KSE len s0) ->
    1 <= d -> (forall y, In y X -> length y = d) ->
    let origin := repeat (f0 (FOpsIEEE prec emax)) d in
    (forall y, In y X -> exists w, m_val (methods (FOpsIEEE prec emax) T jgrad keq (KSE len s0)) origin y = Sc w /\ is_finite w = true /\ B2R w = 0%R) ->
    convert_stein_kernel (FOpsIEEE prec emax) T jgrad keq X (KSE len s) None = Ok stein ->
    length dw = length X -> 1 <= m <= length X ->
    length X mod block_used (length X) b0 <> 0 ->
    exists c g, herding_reduce (FOpsIEEE prec emax) origin y0 (mkHerding m (elementwise T jgrad keq stein) unique (BTwo b0 b1) Greedy) ord (mkData X dw None : Data _ Y _) None = Ok (c, g) /\
      c_idx c = repeat (-1)%Z m.
Proof.
  intros prec emax Hp Hm Sm T jgrad keq len s0 s X dw d stein Y y0 m unique b0 b1 ord I Hd HL origin HZ CV Hdw Hm1 M.
  assert (HX : X <> []) by (intros ->; cbn in Hm1; lia).
  unfold convert_stein_kernel in CV. cbn [length_scale_of] in CV. rewrite I in CV. cbn [bind] in CV. injection CV as <-.
  set (k := elementwise T jgrad keq (KStein (KSE len s) (kdm_match (FOpsIEEE prec emax) T jgrad keq (KSE len s0) X))).
  assert (KN : forall x, In x X -> k x origin = B754_nan).
  { intros x Hx. apply (stein_origin_nan prec emax Hp Hm Sm T jgrad keq len s0 s X d x HX Hd HL (HL x Hx) HZ). }
  unfold herding_reduce. cbn [h_size]. rewrite !initial_fine by (unfold d_len; cbn [d_x]; lia). cbn [bind].
  unfold herding_refine. cbn [h_kernel h_size h_unique h_bs h_mode c_pre].
  rewrite (row_mean_nan prec emax origin y0 k (mkData X dw None : Data _ Y _) b0 b1 HX Hdw M KN). cbn [bind].
  unfold greedy_selection. cbn [c_idx c_w c_pre]. rewrite !repeat_length, Nat.sub_diag. cbn [repeat]. rewrite !app_nil_r. cbn [unpack2 d_y d_x d_w bind].
  set (pts := points _ origin y0 _).
  assert (PL : length (d_x pts) = m) by (unfold pts, points, d_getitem; cbn [d_x c_idx]; unfold gather; now rewrite map_length, repeat_length).
  assert (PN : d_x pts <> []) by (intros Z; rewrite Z in PL; cbn in PL; lia).
  destruct (mean_axis1_gen (FOpsIEEE prec emax) origin y0 k (as_data (Y := Y) (FOpsIEEE prec emax) X) pts (BTwo b0 b1) HX PN) as (b & _ & ->); [unfold as_data; cbn [d_w d_x]; apply repeat_length|].
  cbn [bind]. eexists. eexists. split; [reflexivity|]. cbn [c_idx d_x].
  rewrite (herding_loop prec emax origin k) by (cbn [g_idx]; apply repeat_length). apply firstn_all2. now rewrite repeat_length.
Qed.
Print Assumptions C101_far_origin.

(** three points near 100 in binary32, bandwidth 1, all three to be selected: a permutation of
    the rows with blocks of one row, three times the index -1 with blocks of two *)
Theorem C101_herding_refuted :
  forall (T : TOps F32) jgrad keq, elementary T -> fpi T = pi32 ->
    (forall v, Bltb v (f32 (-104) 0) = true -> fexp T v = B754_zero false) ->
    exists stein, convert_stein_kernel F32Ops T jgrad keq far_rows (KSE (f32 1 0) (f32 1 0)) None = Ok stein /\
      let run b := herding_reduce F32Ops [f0 F32Ops] tt (mkHerding 3 (elementwise T jgrad keq stein) true (BTwo b b) Greedy) (fun _ => seq 0 3)
        (mkData far_rows (repeat Bone 3) None) None in
      (exists c g l, run (Some 1%Z) = Ok (c, g) /\ c_idx c = map Z.of_nat l /\ Permutation l [0; 1; 2]) /\
      (exists c g, run (Some 2%Z) = Ok (c, g) /\ c_idx c = [-1; -1; -1]%Z).
Proof.
  intros T jgrad keq E P U.
  assert (I : kdm_init F32Ops T (f32 1 0) = Ok (KSE (f32 1 0) scale32)) by (unfold kdm_init; rewrite P; fold scale32; exact scale32_ok).
  destruct (f32_exact 1%Z 0%Z ltac:(lia) ltac:(lia) ltac:(lia)) as [F1 V1].
  assert (B1 : (0 < B2R (f32 1 0) <= bpow radix2 0)%R) by (rewrite V1; cbn; lra).
  exists (KStein (KSE (f32 1 0) (f32 1 0)) (kdm_match F32Ops T jgrad keq (KSE (f32 1 0) scale32) far_rows)).
  set (stein := KStein _ _).
  assert (CV : convert_stein_kernel F32Ops T jgrad keq far_rows (KSE (f32 1 0) (f32 1 0)) None = Ok stein).
  { unfold convert_stein_kernel. cbn [length_scale_of]. rewrite I. reflexivity. }
  split; [exact CV|]. intros run.
  assert (PS : positives (repeat (Bone : F32) 3) = 3).
  { unfold positives. cbn [repeat filter]. rewrite Bone_correct. rewrite Rlt_bool_true by lra. reflexivity. }
  assert (RM : room 24 128 2 26) by (constructor; lia).
  assert (WO : Forall weight_ok (repeat (Bone : F32) 3)) by (apply Forall_forall; intros v Hv; apply repeat_spec in Hv; subst v; apply f32_weight).
  assert (LN : 1 <= 3 <= length far_rows) by (unfold far_rows; cbn [length]; lia).
  assert (LZ : (Z.of_nat (length far_rows) <= 2 ^ 2)%Z) by (unfold far_rows; cbn [length]; lia).
  assert (P1 : 1 <= positives (repeat (Bone : F32) 3)) by (rewrite PS; lia).
  assert (P3 : true = true -> 3 <= positives (repeat (Bone : F32) 3)) by (intros _; rewrite PS; lia).
  clearbody stein. split.
  - destruct (C101_default_stein_herding_partial 24 128 _ _ _ T jgrad keq 7 0 (-1) 2 1 0 2 (f32 1 0) scale32 (f32 1 0) far_rows (repeat Bone 3) 1 stein
      [f0 F32Ops] tt 3 true (Some 1%Z) (Some 1%Z) (fun _ => seq 0 3) E I far_range ltac:(lia) ltac:(lia) ltac:(lia) F1 B1 far_len ltac:(lia) ltac:(lia)
      RM CV eq_refl LN (fun _ => Permutation_refl _) LZ WO P1 P3 eq_refl eq_refl eq_refl) as (l & c & g & R1 & R2 & (L & R & N)).
    exists c, g, l. split; [exact R1|]. split; [unfold selected in R2; injection R2 as R3 _; exact R3|].
    symmetry. apply NoDup_Permutation_bis; [repeat constructor; cbn; intuition lia|cbn; lia|].
    intros i Hi. assert (IN : incl l [0; 1; 2]).
    { intros j Hj. destruct (R j Hj) as [Q _]. cbn in Q. cbn. lia. }
    apply (NoDup_length_incl (N eq_refl) (l' := [0; 1; 2])); [cbn; lia|exact IN|exact Hi].
  - destruct (C101_far_origin 24 128 _ _ _ T jgrad keq (f32 1 0) scale32 (f32 1 0) far_rows (repeat Bone 3) 1 stein tt 3 true (Some 2%Z) (Some 2%Z)
      (fun _ => seq 0 3) I (le_n 1) far_len (far_underflow T jgrad keq U) CV eq_refl LN) as (c & g & C1 & C2); [discriminate|]. exists c, g. split; [exact C1|exact C2].
Qed.
Print Assumptions C101_herding_refuted.
(** the assumptions on [exp] are those of C99; the proof above applies
    C101_default_stein_herding_partial and C101_far_origin to the concrete data *)
Example C101_herding_refuted_applies : elementary far_tops /\ fpi far_tops = pi32 /\ (forall v, Bltb v (f32 (-104) 0) = true -> fexp far_tops v = B754_zero false).
Proof. exact C99_ksd_refuted_applies. Qed.
