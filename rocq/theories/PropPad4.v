(** * Every block size, when the kernel is bounded at the zero row too: C100, C101 continued *)
From Coq Require Import List ZArith Bool Reals Permutation Lia Lra.
From Coq Require Import Floats.SpecFloat.
From Flocq Require Import Core.Core IEEE754.BinarySingleNaN.
From Verif Require Import Num Jax RSum DataModel MeanModel MeanGeneric MetricModel UtilModel KernelModel ApproxModel GreedyModel ScoreModel ThinModel
  SumSpec SumProofs GreedyProofs5 Float FloatProofs2 FloatIdxSpec FloatErrSpec InvSpec PropInv PropFloat PropFloatIdx FloatScore PropFloatScore FloatSteinK PropSteinDefault
  FloatPad PropPad FloatPad2 PropPad2 FloatPad3 PropPad3.
Import ListNotations.
Open Scope nat_scope.

(** replacing the rows by their numbers *)
Lemma rows_numbered {P V} (k : P -> P -> V) (q : P) xs : let row := fun i => nth i (q :: xs) q in
  same_gramian k (q :: xs) (fun i j => k (row i) (row j)) (0 :: seq 1 (length xs)) /\ forall i, In (row i) (q :: xs).
Proof.
  intros row. split.
  - assert (RS : map row (0 :: seq 1 (length xs)) = q :: xs).
    { change (0 :: seq 1 (length xs)) with (seq 0 (length (q :: xs))). apply (nth_ext _ _ q q); [now rewrite map_length, seq_length|].
      intros i Hi. rewrite map_length, seq_length in Hi. rewrite (nth_indep _ q (row 0)) by now rewrite map_length, seq_length.
      rewrite map_nth, seq_nth by exact Hi. reflexivity. }
    unfold same_gramian. rewrite <- RS. rewrite map_map. apply map_ext. intros i. rewrite map_map. apply map_ext. intros j. reflexivity.
  - intros i. unfold row. destruct (nth_in_or_default i (q :: xs) q) as [H|H]; [exact H|]. rewrite H. now left.
Qed.

(** the kernel is bounded on the rows and at the zero row [p0]: any block sizes *)
Theorem C100_any_block_partial :
  forall prec emax (Hp : Prec_gt_0 prec) (Hm : Prec_lt_emax prec emax) (Sm : SumOrder prec emax) a e, room prec emax a e ->
  forall {P Y} (p0 : P) (y0 : Y) (k : P -> P -> binary_float prec emax) m unique bs ord xs dw,
  (forall x y, In x (p0 :: xs) -> In y (p0 :: xs) -> at_most e (k x y)) ->
  length dw = length xs -> 1 <= m <= length xs -> (forall i, Permutation (ord i) (seq 0 m)) ->
  (Z.of_nat (length xs) <= 2 ^ a)%Z -> Forall weight_ok dw -> 1 <= positives dw -> (unique = true -> m <= positives dw) ->
  exists l c, stein_reduce (FOpsIEEE prec emax) p0 y0 (mkStein m k unique bs None) ord (mkData xs dw None : Data P Y _) = Ok c /\
    selected c = (map Z.of_nat l, repeat Bone m) /\ valid_indices dw m unique l.
Proof.
  intros prec emax Hp Hm Sm a e HR P Y p0 y0 k m unique bs ord xs dw Hk Hdw Hm1 Hord Hn Wd C1 C2.
  destruct (rows_numbered k p0 xs) as [SG RI]. set (row := fun i => nth i (p0 :: xs) p0) in *. set (k2 := fun i j => k (row i) (row j)) in *.
  set (d2 := mkData (seq 1 (length xs)) dw None : Data nat Y (binary_float prec emax)).
  pose proof (C74_stein_reduce _ (FOpsIEEE prec emax) P nat Y p0 0 y0 (mkData xs dw None) d2 k k2 m unique bs None None ord (conj eq_refl eq_refl) SG eq_refl) as E74.
  destruct (C70_stein_reduce prec emax Hp Hm Sm a e HR 0 y0 k2 m unique bs None ord (seq 1 (length xs)) dw) as (l & E & V); auto; rewrite ?seq_length; try (apply Hm1); auto.
  { intros i j. apply Hk; apply RI. } { exact I. }
  change (mkData (seq 1 (length xs)) dw None) with d2 in E. rewrite E in E74. cbn [rmap] in E74.
  destruct (stein_reduce (FOpsIEEE prec emax) p0 y0 (mkStein m k unique bs None) ord (mkData xs dw None)) as [c|e']; [|discriminate].
  exists l, c. cbn [rmap] in E74. injection E74 as E1 E2. split; [reflexivity|]. split; [unfold selected; now rewrite E1, E2|exact V].
Qed.
Print Assumptions C100_any_block_partial.

Theorem C101_any_block_partial :
  forall prec emax (Hp : Prec_gt_0 prec) (Hm : Prec_lt_emax prec emax) (Sm : SumOrder prec emax) a e, room prec emax a e ->
  forall {P Y} (p0 : P) (y0 : Y) (k : P -> P -> binary_float prec emax) m unique bs ord xs dw,
  (forall x y, In x (p0 :: xs) -> In y (p0 :: xs) -> at_most e (k x y)) ->
  length dw = length xs -> 1 <= m <= length xs -> (forall i, Permutation (ord i) (seq 0 m)) ->
  (Z.of_nat (length xs) <= 2 ^ a)%Z -> Forall weight_ok dw -> 1 <= positives dw -> (unique = true -> m <= positives dw) ->
  exists l c g, herding_reduce (FOpsIEEE prec emax) p0 y0 (mkHerding m k unique bs Greedy) ord (mkData xs dw None : Data P Y _) None = Ok (c, g) /\
    selected c = (map Z.of_nat l, repeat Bone m) /\ valid_indices dw m unique l /\ length g = length xs /\ Forall (at_most (e + a + 1)) g.
Proof.
  intros prec emax Hp Hm Sm a e HR P Y p0 y0 k m unique bs ord xs dw Hk Hdw Hm1 Hord Hn Wd C1 C2.
  destruct (rows_numbered k p0 xs) as [SG RI]. set (row := fun i => nth i (p0 :: xs) p0) in *. set (k2 := fun i j => k (row i) (row j)) in *.
  set (d2 := mkData (seq 1 (length xs)) dw None : Data nat Y (binary_float prec emax)).
  pose proof (C74_herding_reduce _ (FOpsIEEE prec emax) P nat Y p0 0 y0 (mkData xs dw None) d2 k k2 m unique bs Greedy ord None (conj eq_refl eq_refl) SG) as E74.
  destruct (C70_herding_reduce prec emax Hp Hm Sm a e HR 0 y0 k2 m unique bs ord (seq 1 (length xs)) dw None) as (l & g & E & V & LG & BG); auto; rewrite ?seq_length; try (apply Hm1); auto.
  { intros i j. apply Hk; apply RI. } { discriminate. }
  change (mkData (seq 1 (length xs)) dw None) with d2 in E. rewrite E in E74. cbn [rmap] in E74.
  destruct (herding_reduce (FOpsIEEE prec emax) p0 y0 (mkHerding m k unique bs Greedy) ord (mkData xs dw None) None) as [[c g']|e']; [|discriminate].
  exists l, c, g'. cbn [rmap] in E74. unfold on_fst in E74. cbn [fst snd] in E74. injection E74 as E1 E2 E3. rewrite E3. rewrite seq_length in LG.
  split; [reflexivity|]. split; [unfold selected; now rewrite E1, E2|]. auto.
Qed.
Print Assumptions C101_any_block_partial.

(** the default Stein kernel: any block sizes if the zero row is one of the data points *)
Theorem C100_origin_row_partial :
  forall prec emax (Hp : Prec_gt_0 prec) (Hm : Prec_lt_emax prec emax) (Sm : SumOrder prec emax) T jgrad keq c l t p r u a len s0 s
      (X : list (list (binary_float prec emax))) dw d stein {Y} (y0 : Y) m unique bs ord,
    elementary T -> kdm_init (FOpsIEEE prec emax) T len = Ok (KSE len s0) -> score_range c l t p len s0 X ->
    (0 <= c)%Z -> (l <= 0)%Z -> (0 <= u)%Z -> is_finite s = true -> (0 < B2R s <= bpow radix2 u)%R ->
    (forall y, In y X -> length y = d) -> (1 <= r <= prec)%Z -> (Z.of_nat d < 2 ^ r)%Z ->
    let e := (r + u + 2 * (c + 2 - l + p) + 3)%Z in room prec emax a e ->
    convert_stein_kernel (FOpsIEEE prec emax) T jgrad keq X (KSE len s) None = Ok stein ->
    length dw = length X -> 1 <= m <= length X -> (forall i, Permutation (ord i) (seq 0 m)) ->
    (Z.of_nat (length X) <= 2 ^ a)%Z -> Forall weight_ok dw -> 1 <= positives dw -> (unique = true -> m <= positives dw) ->
    let origin := repeat (f0 (FOpsIEEE prec emax)) d in In origin X ->
    let k := elementwise T jgrad keq stein in
    (exists l c, stein_reduce (FOpsIEEE prec emax) origin y0 (mkStein m k unique bs None) ord (mkData X dw None : Data _ Y _) = Ok c /\
      selected c = (map Z.of_nat l, repeat Bone m) /\ valid_indices dw m unique l).
Proof.
  intros prec emax Hp Hm Sm T jgrad keq c l t p r u a len s0 s X dw d stein Y y0 m unique bs ord
    E I R Hc Hl Hu Fs Bs HL Hr Hd e HR CV Hdw Hm1 Hord Hn Wd C1 C2 origin HO k.
  assert (K : forall x y, In x (origin :: X) -> In y (origin :: X) -> at_most e (k x y)).
  { assert (Q : forall x, In x (origin :: X) -> In x X) by (intros x [<-|Hx]; auto). intros x y Hx Hy.
    destruct (C98_default_stein_kernel prec emax Hp Hm Sm T jgrad keq c l t p r u len s0 s X d stein E I R Hc Hl Hu Fs Bs HL Hr Hd) with (x := x) (y := y) as (w & W & A); auto.
    { destruct HR as [R1 R2 R3]. unfold e in R2. lia. }
    unfold k, elementwise. rewrite W. exact A. }
  exact (C100_any_block_partial prec emax Hp Hm Sm a e HR origin y0 k m unique bs ord X dw K Hdw Hm1 Hord Hn Wd C1 C2).
Qed.
Print Assumptions C100_origin_row_partial.

Theorem C101_origin_row_partial :
  forall prec emax (Hp : Prec_gt_0 prec) (Hm : Prec_lt_emax prec emax) (Sm : SumOrder prec emax) T jgrad keq c l t p r u a len s0 s
      (X : list (list (binary_float prec emax))) dw d stein {Y} (y0 : Y) m unique bs ord,
    elementary T -> kdm_init (FOpsIEEE prec emax) T len = Ok (KSE len s0) -> score_range c l t p len s0 X ->
    (0 <= c)%Z -> (l <= 0)%Z -> (0 <= u)%Z -> is_finite s = true -> (0 < B2R s <= bpow radix2 u)%R ->
    (forall y, In y X -> length y = d) -> (1 <= r <= prec)%Z -> (Z.of_nat d < 2 ^ r)%Z ->
    let e := (r + u + 2 * (c + 2 - l + p) + 3)%Z in room prec emax a e ->
    convert_stein_kernel (FOpsIEEE prec emax) T jgrad keq X (KSE len s) None = Ok stein ->
    length dw = length X -> 1 <= m <= length X -> (forall i, Permutation (ord i) (seq 0 m)) ->
    (Z.of_nat (length X) <= 2 ^ a)%Z -> Forall weight_ok dw -> 1 <= positives dw -> (unique = true -> m <= positives dw) ->
    let origin := repeat (f0 (FOpsIEEE prec emax)) d in In origin X ->
    let k := elementwise T jgrad keq stein in
    (exists l c g, herding_reduce (FOpsIEEE prec emax) origin y0 (mkHerding m k unique bs Greedy) ord (mkData X dw None : Data _ Y _) None = Ok (c, g) /\
      selected c = (map Z.of_nat l, repeat Bone m) /\ valid_indices dw m unique l).
Proof.
  intros prec emax Hp Hm Sm T jgrad keq c l t p r u a len s0 s X dw d stein Y y0 m unique bs ord
    E I R Hc Hl Hu Fs Bs HL Hr Hd e HR CV Hdw Hm1 Hord Hn Wd C1 C2 origin HO k.
  assert (K : forall x y, In x (origin :: X) -> In y (origin :: X) -> at_most e (k x y)).
  { assert (Q : forall x, In x (origin :: X) -> In x X) by (intros x [<-|Hx]; auto). intros x y Hx Hy.
    destruct (C98_default_stein_kernel prec emax Hp Hm Sm T jgrad keq c l t p r u len s0 s X d stein E I R Hc Hl Hu Fs Bs HL Hr Hd) with (x := x) (y := y) as (w & W & A); auto.
    { destruct HR as [R1 R2 R3]. unfold e in R2. lia. }
    unfold k, elementwise. rewrite W. exact A. }
  destruct (C101_any_block_partial prec emax Hp Hm Sm a e HR origin y0 k m unique bs ord X dw K Hdw Hm1 Hord Hn Wd C1 C2) as (li & cs & g & E1 & E2 & E3 & _).
  exists li, cs, g. auto.
Qed.
Print Assumptions C101_origin_row_partial.

(** a kernel that is NaN outside the rows 1 to 4: four rows and the zero row 1, blocks of three *)
Example C101_any_block_applies :
  let k := fun i j : nat => if (Nat.eqb i 0 || Nat.eqb j 0)%bool then B754_nan else (Bone : F32) in
  exists l c g, herding_reduce F32Ops 1 tt (mkHerding 2 k true (BOne (Some 3%Z)) Greedy) (fun _ => seq 0 2)
    (mkData [1; 2; 3; 4] (repeat Bone 4) None : Data nat unit F32) None = Ok (c, g) /\
    selected c = (map Z.of_nat l, repeat Bone 2) /\ valid_indices (repeat (Bone : F32) 4) 2 true l.
Proof.
  intros k.
  assert (K : forall x y, In x [1; 1; 2; 3; 4] -> In y [1; 1; 2; 3; 4] -> at_most 0 (k x y)).
  { assert (B : at_most 0 (Bone : F32)) by (split; [reflexivity|]; rewrite Bone_correct, Rabs_R1; cbn; lra).
    intros x y Hx Hy. unfold k. destruct (Nat.eqb_spec x 0) as [->|_]; [cbn in Hx; intuition discriminate|].
    destruct (Nat.eqb_spec y 0) as [->|_]; [cbn in Hy; intuition discriminate|]. exact B. }
  assert (PS : positives (repeat (Bone : F32) 4) = 4).
  { unfold positives. cbn [repeat filter]. rewrite Bone_correct. rewrite Rlt_bool_true by lra. reflexivity. }
  assert (RM : room 24 128 2 0) by (constructor; lia).
  assert (WO : Forall weight_ok (repeat (Bone : F32) 4)) by (apply Forall_forall; intros v Hv; apply repeat_spec in Hv; subst v; apply f32_weight).
  assert (P1 : 1 <= positives (repeat (Bone : F32) 4)) by (rewrite PS; lia).
  assert (P3 : true = true -> 2 <= positives (repeat (Bone : F32) 4)) by (intros _; rewrite PS; lia).
  assert (LN : 1 <= 2 <= length [1; 2; 3; 4]) by (cbn; lia).
  assert (LZ : (Z.of_nat (length [1; 2; 3; 4]) <= 2 ^ 2)%Z) by (cbn; lia).
  clearbody k.
  destruct (C101_any_block_partial 24 128 _ _ _ 2 0 RM 1 tt k 2 true (BOne (Some 3%Z)) (fun _ => seq 0 2) [1; 2; 3; 4] (repeat Bone 4) K eq_refl LN
    (fun _ => Permutation_refl _) LZ WO P1 P3) as (l & c & g & E1 & E2 & E3 & _).
  exists l, c, g. split; [exact E1|]. split; [exact E2|exact E3].
Qed.

(** the zero row and two points near 100, bandwidth 1, blocks of two: distinct rows are selected,
    in contrast to C101_herding_refuted *)
Definition origin_rows : list (list F32) := [[f0 F32Ops]; [f32 100 0]; [f32 101 0]].
Lemma origin_range : score_range 7 0 (-1) 2 (f32 1 0) scale32 origin_rows.
Proof.
  destruct ex_range as [_ A2 A3 A4 _ A6 _ _ _ _ _]. constructor; auto; try lia.
  - intros y Hy. assert (AM : forall n e, (Z.abs n < 2 ^ 24)%Z -> (-149 <= e)%Z -> (e <= 100)%Z -> (Rabs (IZR n * bpow radix2 e) <= 128)%R -> at_most 7 (f32 n e)).
    { intros n e H1 H2 H3 H4. destruct (f32_exact n e H1 H2 H3) as [F R]. split; [exact F|]. rewrite R. exact H4. }
    assert (A0 : at_most 7 (f0 F32Ops)) by (split; [reflexivity|]; cbn [f0 F32Ops FOpsIEEE B2R]; rewrite Rabs_R0; apply bpow_ge_0).
    revert y Hy. apply Forall_forall. unfold origin_rows. repeat (apply Forall_cons || apply Forall_nil); try exact A0; apply AM; try lia; apply Rabs_le; cbn; lra.
  - unfold origin_rows. cbn [length]. lia.
Qed.
Example C101_origin_row_applies : forall (T : TOps F32) jgrad keq, elementary T -> fpi T = pi32 ->
  exists stein, convert_stein_kernel F32Ops T jgrad keq origin_rows (KSE (f32 1 0) (f32 1 0)) None = Ok stein /\
    exists l c g, herding_reduce F32Ops [f0 F32Ops] tt (mkHerding 3 (elementwise T jgrad keq stein) true (BOne (Some 2%Z)) Greedy) (fun _ => seq 0 3)
      (mkData origin_rows (repeat Bone 3) None) None = Ok (c, g) /\ selected c = (map Z.of_nat l, repeat Bone 3) /\ valid_indices (repeat (Bone : F32) 3) 3 true l.
Proof.
  intros T jgrad keq E P.
  assert (I : kdm_init F32Ops T (f32 1 0) = Ok (KSE (f32 1 0) scale32)) by (unfold kdm_init; rewrite P; fold scale32; exact scale32_ok).
  destruct (f32_exact 1%Z 0%Z ltac:(lia) ltac:(lia) ltac:(lia)) as [F1 V1].
  assert (B1 : (0 < B2R (f32 1 0) <= bpow radix2 0)%R) by (rewrite V1; cbn; lra).
  exists (KStein (KSE (f32 1 0) (f32 1 0)) (kdm_match F32Ops T jgrad keq (KSE (f32 1 0) scale32) origin_rows)).
  set (stein := KStein _ _).
  assert (CV : convert_stein_kernel F32Ops T jgrad keq origin_rows (KSE (f32 1 0) (f32 1 0)) None = Ok stein).
  { unfold convert_stein_kernel. cbn [length_scale_of]. rewrite I. reflexivity. }
  split; [exact CV|].
  assert (PS : positives (repeat (Bone : F32) 3) = 3).
  { unfold positives. cbn [repeat filter]. rewrite Bone_correct. rewrite Rlt_bool_true by lra. reflexivity. }
  assert (RM : room 24 128 2 26) by (constructor; lia).
  assert (WO : Forall weight_ok (repeat (Bone : F32) 3)) by (apply Forall_forall; intros v Hv; apply repeat_spec in Hv; subst v; apply f32_weight).
  assert (LN : 1 <= 3 <= length origin_rows) by (unfold origin_rows; cbn [length]; lia).
  assert (LZ : (Z.of_nat (length origin_rows) <= 2 ^ 2)%Z) by (unfold origin_rows; cbn [length]; lia).
  assert (P1 : 1 <= positives (repeat (Bone : F32) 3)) by (rewrite PS; lia).
  assert (P3 : true = true -> 3 <= positives (repeat (Bone : F32) 3)) by (intros _; rewrite PS; lia).
  assert (OL : forall y, In y origin_rows -> length y = 1) by (intros y Hy; repeat destruct Hy as [<-|Hy]; try destruct Hy; reflexivity).
  clearbody stein.
  pose proof (C101_origin_row_partial 24 128 _ _ _ T jgrad keq 7 0 (-1) 2 1 0 2 (f32 1 0) scale32 (f32 1 0) origin_rows (repeat Bone 3) 1 stein
      tt 3 true (BOne (Some 2%Z)) (fun _ => seq 0 3) E I origin_range ltac:(lia) ltac:(lia) ltac:(lia) F1 B1 OL ltac:(lia) ltac:(lia)
      RM CV eq_refl LN (fun _ => Permutation_refl _) LZ WO P1 P3 (or_introl eq_refl)) as H. exact H.
Qed.
