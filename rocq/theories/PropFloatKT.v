(** * KernelThinning and CompressPlusPlus in floating point arithmetic: C90 *)
From Coq Require Import List ZArith Bool Reals Permutation Lia Lra.
From Coq Require Import Floats.SpecFloat.
From Flocq Require Import Core.Core IEEE754.BinarySingleNaN.
From Verif Require Import Num Jax RSum JaxFacts DataModel MeanModel GreedyModel GreedySpec MetricModel MetricSpec CholModel CholSpec PropChol
  MapReduceModel MapReduceProofs2 KTModel KTSpec KTProofs KTProofs2 KTProofs3 UtilModel KernelModel
  Float FloatProofs FloatProofs2 FloatErrSpec FloatErr FloatIdxSpec PropFloatIdx PropFloat PropFloatMMD PropFloatRec FloatRate3 FloatKT.
Import ListNotations.
Open Scope nat_scope.

(** what is assumed of the external functions: the sampler draws distinct row numbers, the
    depth of the recursion fits the data, and a scatter writes every entry once.  Nothing is
    assumed of the logarithm, of the uniform random numbers or of the random keys. *)
Record thinning_ok {V P K} (s : kthin V P K) : Prop := mkThinOk {
  to_size : 1 <= kt_size s;
  to_choice : choice_ok (kt_choice s);
  to_depth : forall n size, 1 <= size <= n -> size * 2 ^ (kt_depth s n size) <= n;
  to_order : forall size i, Permutation (kt_ord s size i) (seq 0 size) }.
(** a positive number, not infinite *)
Definition positive_weight {prec emax} (v : binary_float prec emax) : Prop := is_finite v = true /\ (0 < B2R v)%R.

Section Refine.
  Context (prec emax : Z) {Hp : Prec_gt_0 prec} {Hm : Prec_lt_emax prec emax} {Sm : SumOrder prec emax} (a e : Z) (HR : room prec emax a e).
  Notation flt := (binary_float prec emax).
  Notation O := (FOpsIEEE prec emax).
  Context {P Y K : Type} (p0 : P) (y0 : Y) (s : kthin flt P K).
  Hypothesis Hk : forall x y, at_most e (kt_kernel s x y).
  Hypothesis Ho : forall size i, Permutation (kt_ord s size i) (seq 0 size).
  Lemma positives_all (dw : list flt) : Forall positive_weight dw -> positives dw = length dw.
  Proof.
    induction 1 as [|v l [_ Hv] _ IH]; [reflexivity|]. unfold positives in *. cbn [filter]. rewrite Rlt_bool_true by exact Hv. cbn [length]. now rewrite IH.
  Qed.
  Lemma two_a_nat : exists N, Z.of_nat N = (2 ^ a)%Z.
  Proof. exists (Z.to_nat (2 ^ a)). apply Z2Nat.id. pose proof (room_size _ _ _ _ HR). apply Z.pow_nonneg. lia. Qed.
  Lemma float_refine N : (Z.of_nat N <= 2 ^ a)%Z ->
    forall size best xs dw, 1 <= size -> length best = size -> size <= length xs -> length xs <= N ->
    length dw = length xs -> Forall positive_weight dw ->
    exists l, kt_refine O p0 y0 (with_size s size) (mkCS best (repeat (f1 O) size) (mkData xs dw None : Data P Y flt))
                = Ok (mkCS (map Z.of_nat l) (repeat (f1 O) size) (mkData xs dw None)) /\
      length l = size /\ NoDup l /\ forall i, In i l -> i < length xs.
  Proof.
    intros HN size best xs dw H1 H2 H3 H4 H5 H6. unfold kt_refine. cbn [with_size kt_size kt_kernel kt_ord].
    pose proof (positives_all dw H6) as PA.
    destruct (C70_herding_refine prec emax Hp Hm Sm a e HR p0 y0 (kt_kernel s) size true (BOne None) (kt_ord s size) best
      (repeat Bone size) xs dw None) as [l [g [E [[V1 [V2 V3]] _]]]]; auto; try lia.
    - now rewrite repeat_length.
    - intros i. rewrite H2, Nat.max_id. apply Ho.
    - apply Forall_forall. intros v Hv. rewrite Forall_forall in H6. destruct (H6 v Hv) as [A B]. split; [exact A|lra].
    - apply Forall_forall. intros v Hv. apply repeat_spec in Hv. subst v. split; [apply is_finite_Bone|]. rewrite Bone_correct. lra.
    - discriminate.
    - change (f1 O) with (Bone : flt). rewrite E. cbn [bind fst]. exists l. split; [reflexivity|]. split; [exact V1|]. split; [auto|].
      intros i Hi. rewrite <- H5. now apply V2.
  Qed.
End Refine.

(** ** C90.  Kernel thinning: size, range and distinctness.  The square root kernel, delta,
    the logarithm and the random numbers are arbitrary: they may be NaN or infinite. *)
Theorem C90_thinning_valid :
  forall prec emax (Hp : Prec_gt_0 prec) (Hm : Prec_lt_emax prec emax) (Sm : SumOrder prec emax) a e, room prec emax a e ->
  forall {P Y K} (p0 : P) (y0 : Y) (s : kthin (binary_float prec emax) P K) (xs : list P) (w : list (binary_float prec emax)),
  thinning_ok s -> (forall x y, at_most e (kt_kernel s x y)) ->
  length w = length xs -> Forall positive_weight w -> (Z.of_nat (length xs) <= 2 ^ a)%Z ->
  let d : Data P Y _ := mkData xs w None in
  (length xs < kt_size s -> kt_reduce (FOpsIEEE prec emax) p0 y0 s d = Err ValueError) /\
  (kt_size s <= length xs ->
    exists l, kt_reduce (FOpsIEEE prec emax) p0 y0 s d = Ok (mkCS (map Z.of_nat l) (repeat Bone (kt_size s)) d) /\
      length l = kt_size s /\ NoDup l /\ forall i, In i l -> i < length xs).
Proof.
  intros prec emax Hp Hm Sm a e HR P Y K p0 y0 s xs w [T1 T2 T3 T4] Hk HL Hw Ha d. split; intros H.
  - unfold kt_reduce. change (d_len d) with (length xs). now rewrite (proj2 (Nat.ltb_lt _ _)).
  - destruct (reduce_ok (FOpsIEEE prec emax) p0 y0 positive_weight (length xs) s
      (float_refine prec emax a e HR p0 y0 s Hk T4 (length xs) Ha) T2 T3 (kt_size s) xs w T1 H (le_n _) HL Hw) as [l [E R]].
    exists l. split; [|exact R]. destruct s. exact E.
Qed.
Print Assumptions C90_thinning_valid.

(** ** C90.  Compress++: exactly the configurations accepted in exact arithmetic (C30) are
    accepted, and the result has the requested number of distinct row numbers. *)
Theorem C90_compress_valid :
  forall prec emax (Hp : Prec_gt_0 prec) (Hm : Prec_lt_emax prec emax) (Sm : SumOrder prec emax) a e, room prec emax a e ->
  forall {P Y K} (p0 : P) (y0 : Y) (c : compress (binary_float prec emax) P K) (xs : list P) w fuel,
  let size := kt_size (cp_kt c) in
  let n := length xs in
  let p := cp_log4 c n in
  let d : Data P Y _ := mkData xs w None in
  thinning_ok (cp_kt c) -> (forall x y, at_most e (kt_kernel (cp_kt c) x y)) ->
  length w = n -> Forall positive_weight w -> (Z.of_nat n <= 2 ^ a)%Z -> xs <> [] -> log4_is n p -> p <= fuel ->
  (size <= n /\ (0 <= cp_g c <= Z.of_nat p)%Z /\ size <= 2 ^ (Z.to_nat (cp_g c) + p) ->
     exists l, compress_reduce (FOpsIEEE prec emax) p0 y0 c fuel d = Ok (mkCS (map Z.of_nat l) (repeat Bone size) d) /\
       length l = size /\ NoDup l /\ forall i, In i l -> i < n) /\
  (~ (size <= n /\ (0 <= cp_g c <= Z.of_nat p)%Z /\ size <= 2 ^ (Z.to_nat (cp_g c) + p)) ->
     compress_reduce (FOpsIEEE prec emax) p0 y0 c fuel d = Err ValueError).
Proof.
  intros prec emax Hp Hm Sm a e HR P Y K p0 y0 c xs w fuel size n p d [T1 T2 T3 T4] Hk HL Hw Ha Hne [Hp1 Hp2] Hf. split.
  - intros [A [B C]].
    apply (compress_any (FOpsIEEE prec emax) p0 y0 positive_weight n (cp_kt c)
      (float_refine prec emax a e HR p0 y0 (cp_kt c) Hk T4 n Ha) T2 T3 c xs w p fuel); auto.
  - intros H. unfold compress_reduce. change (d_len d) with n. cbv zeta. fold size.
    destruct (Nat.ltb_spec n size); [reflexivity|].
    destruct (Nat.eqb_spec n 0); [reflexivity|]. fold p.
    destruct (Z.leb_spec 0 (cp_g c)); cbn [andb negb]; [|reflexivity].
    destruct (Z.leb_spec (cp_g c) (Z.of_nat p)); cbn [negb]; [|reflexivity].
    rewrite <- Nat.pow_add_r. destruct (Nat.leb_spec size (2 ^ (Z.to_nat (cp_g c) + p))); cbn [negb]; [|reflexivity].
    exfalso. apply H. repeat split; auto.
Qed.
Print Assumptions C90_compress_valid.

(** ** C90.  The candidate kept by kernel thinning is nearly the best one *)
Section Best.
  Context (prec emax : Z) {Hp : Prec_gt_0 prec} {Hm : Prec_lt_emax prec emax} {Sm : SumOrder prec emax}.
  Notation flt := (binary_float prec emax).
  Lemma mapM_nth {A B} (f : A -> result B) l r : mapM f l = Ok r -> forall i da db, i < length l -> f (nth i l da) = Ok (nth i r db).
  Proof.
    revert r. induction l as [|a l IH]; intros r E i da db Hi; [cbn in Hi; lia|]. cbn [mapM] in E.
    destruct (f a) as [b|] eqn:Ea; [|discriminate]. cbn [bind] in E. destruct (mapM f l) as [t|] eqn:El; [|discriminate].
    cbn [bind] in E. injection E as <-. destruct i as [|i]; [exact Ea|]. cbn [nth]. apply IH; [reflexivity|cbn in Hi; lia].
  Qed.
  Lemma mapM_len {A B} (f : A -> result B) l r : mapM f l = Ok r -> length r = length l.
  Proof.
    revert r. induction l as [|a l IH]; intros r E; cbn [mapM] in E; [injection E as <-; reflexivity|].
    destruct (f a) as [b|]; [|discriminate]. cbn [bind] in E. destruct (mapM f l) as [t|]; [|discriminate].
    cbn [bind] in E. injection E as <-. cbn. now rewrite (IH t).
  Qed.
  Lemma ones_total m : total (repeat (Bone : flt) m) = INR m.
  Proof.
    unfold total. induction m as [|m IH]; [reflexivity|]. rewrite S_INR. cbn [repeat map Rsum]. rewrite IH, Bone_correct. ring.
  Qed.
  Lemma ones_ok (a : Z) {P} (xs : list P) : (0 <= a /\ a + 7 <= emax)%Z -> xs <> [] -> (Z.of_nat (length xs) <= 2 ^ a)%Z ->
    weighted_data (prec := prec) (emax := emax) a xs (repeat Bone (length xs)).
  Proof.
    intros Ha Hx HL. constructor; auto.
    - apply repeat_length.
    - apply Forall_forall. intros v Hv. apply repeat_spec in Hv. subst v. split; [apply is_finite_Bone|]. rewrite Bone_correct. lra.
    - rewrite ones_total. apply lt_0_INR. destruct xs; [congruence|cbn; lia].
    - rewrite ones_total, INR_IZR_INZ. apply Rle_trans with (bpow radix2 a); [|apply bpow_le; lia].
      rewrite <- IZR_Zpower by lia. apply IZR_le. exact HL.
  Qed.
  Lemma one_block n : 1 <= n -> block_count n n = 1.
  Proof. intros H. unfold block_count. symmetry. apply Nat.div_unique with (n - 1); lia. Qed.
End Best.

Theorem C90_best_candidate :
  forall prec emax (Hp : Prec_gt_0 prec) (Hm : Prec_lt_emax prec emax) (Sm : SumOrder prec emax) a e
    {P Y K} (p0 : P) (y0 : Y) (s : kthin (binary_float prec emax) P K) (xs : list P) (w : list (binary_float prec emax)),
  let n := length xs in
  mean_room prec emax a e (4 * n + 7) ->
  thinning_ok s -> kt_size s <= n -> weighted_data a xs w ->
  (forall x y, In x (p0 :: xs) -> In y (p0 :: xs) -> at_most e (kt_kernel s x y)) ->
  let d : Data P Y _ := mkData xs w None in
  let depth := kt_depth s n (kt_size s) in
  (* the exact discrepancy of a list of rows from the data, and its rounding error *)
  let mmd l := sqrt (mmd2 (fun x y => B2R (kt_kernel s x y)) (map (fun j => nth j xs p0) l) (repeat 1%R (kt_size s)) xs (map B2R w)) in
  let D := (14 * INR (4 * n + 7) * bpow radix2 (e - prec))%R in
  exists halves base cands best,
    kt_candidates (FOpsIEEE prec emax) p0 y0 s d = Ok cands /\
    map c_idx cands = map (map Z.of_nat) (halves ++ [base]) /\
    splits halves (2 ^ depth) (kt_size s) (seq 0 (kt_size s * 2 ^ depth)) /\
    kt_choice s n (kt_size s) None false = Ok base /\
    kt_choose (FOpsIEEE prec emax) p0 y0 s cands d = Ok (map Z.of_nat best) /\ In best (halves ++ [base]) /\
    forall c, In c (halves ++ [base]) -> (mmd best <= mmd c + 4 * sqrt D)%R.
Proof.
  intros prec emax Hp Hm Sm a e P Y K p0 y0 s xs w n MR [T1 T2 T3 T4] Hn WD Hk d depth mmd D.
  destruct (cands_ok (FOpsIEEE prec emax) p0 y0 s T2 T3 (kt_size s) xs w T1 Hn) as [cands [cl [base [E [Q [M [S [Eb Hl]]]]]]]].
  assert (Hxs : xs <> []) by (destruct xs; [cbn in Hn; unfold n in Hn; cbn in Hn; lia|discriminate]).
  destruct (chosen_ok (FOpsIEEE prec emax) p0 y0 s (kt_size s) xs w cands (cl ++ [base]) T1) as [mm [EM [LM [LB Ec]]]]; auto.
  { destruct cl; discriminate. }
  { intros l Hin. split; apply Hl; assumption. }
  exists cl, base, cands, (nth (argmin (FOpsIEEE prec emax) mm) (cl ++ [base]) []).
  assert (WS : with_size s (kt_size s) = s) by (destruct s; reflexivity). rewrite WS in *.
  split; [exact E|]. split; [exact M|]. split; [exact S|]. split; [exact Eb|]. split; [exact Ec|]. split; [now apply nth_In|].
  assert (ACC : forall c, In c (cl ++ [base]) -> exists z, cand_mmd (Y := Y) (FOpsIEEE prec emax) p0 y0 s xs w c = Ok z /\
     is_finite z = true /\ (Rabs (B2R z - mmd c) <= 2 * sqrt D)%R).
  { intros c Hc. destruct (Hl c Hc) as [Lc [_ Rc]]. set (ps := map (fun j => nth j xs p0) c).
    assert (Lp : length ps = kt_size s) by (unfold ps; now rewrite map_length).
    assert (Ip : incl ps xs) by (intros x Hx; apply in_map_iff in Hx as [j [<- Hj]]; apply nth_In; auto).
    assert (W1 : weighted_data (prec := prec) (emax := emax) a ps (repeat Bone (kt_size s))).
    { rewrite <- Lp. apply ones_ok; [apply (mr_size _ _ _ _ _ MR)|intros Z; rewrite Z in Lp; cbn in Lp; lia|].
      rewrite Lp. apply Z.le_trans with (Z.of_nat n); [lia|apply (wd_size _ _ _ WD)]. }
    assert (R : forall u v, 1 <= u <= n -> 1 <= v <= n -> roundings u v u v <= 4 * n + 5).
    { intros u v Hu Hv. unfold roundings. rewrite !one_block by lia. lia. }
    destruct (C71_mmd_accurate prec emax Hp Hm Sm a e (4 * n + 5)
      ltac:(replace (4 * n + 5 + 2) with (4 * n + 7) by lia; exact MR) p0 y0 (kt_kernel s) ps (repeat Bone (kt_size s)) None xs w None (BOne None) None None W1 WD)
      as [z [Ez [Fz [_ [Az _]]]]].
    - intros x y Hx Hy. apply Hk.
      + destruct Hx as [<-|Hx]; [now left|right]. apply in_app_iff in Hx as [Hx|Hx]; auto.
      + destruct Hy as [<-|Hy]; [now left|right]. apply in_app_iff in Hy as [Hy|Hy]; auto.
    - right. split; reflexivity.
    - cbn [block_used]. rewrite Lp. apply R; lia.
    - cbn [block_used]. apply R; fold n; lia.
    - cbn [block_used]. rewrite Lp. apply R; fold n; lia.
    - exists z. split; [|split; [exact Fz|]].
      + unfold cand_mmd, as_data. fold ps. rewrite Lp. exact Ez.
      + replace (4 * n + 5 + 2) with (4 * n + 7) in Az by lia. fold D in Az. unfold mmd. fold ps.
        replace (map B2R (repeat (Bone : binary_float prec emax) (kt_size s))) with (repeat 1%R (kt_size s)) in Az; [exact Az|].
        clear. induction (kt_size s); cbn; [reflexivity|]. now rewrite Bone_correct, IHn. }
  assert (NE : mm <> []) by (intros Z; rewrite Z in LM; destruct cl; discriminate).
  assert (AT : forall i, i < length (cl ++ [base]) -> is_finite (nth i mm B754_nan) = true /\ (Rabs (B2R (nth i mm B754_nan) - mmd (nth i (cl ++ [base]) [])) <= 2 * sqrt D)%R).
  { intros i Hi. destruct (ACC (nth i (cl ++ [base]) []) (nth_In _ _ Hi)) as [z [Ez R]].
    pose proof (mapM_nth _ _ _ EM i [] B754_nan Hi) as Eq. rewrite Ez in Eq. injection Eq as <-. exact R. }
  assert (FF : Forall (fun v => is_finite v = true) mm).
  { apply Forall_forall. intros v Hv. apply (In_nth _ _ B754_nan) in Hv as [i [Hi <-]]. apply AT. lia. }
  destruct (argmin_least prec emax mm NE FF) as [AL AM].
  intros c Hc. apply (In_nth _ _ []) in Hc as [i [Hi <-]].
  destruct (AT i Hi) as [_ A1]. destruct (AT _ LB) as [_ A2].
  assert (Li : i < length mm) by lia. assert (A3 := AM (nth i mm B754_nan) (nth_In _ _ Li)).
  apply Rabs_le_inv in A1, A2. lra.
Qed.
Print Assumptions C90_best_candidate.

(** ** C90.  Pairs that rounding makes coincide switch the random swaps off *)
Section Freeze.
  Context (prec emax : Z) {Hp : Prec_gt_0 prec} {Hm : Prec_lt_emax prec emax} {Sm : SumOrder prec emax}.
  Notation flt := (binary_float prec emax).
  Notation O := (FOpsIEEE prec emax).
  Notation nan := (B754_nan : flt).
  (** a zero or NaN *)
  Definition zn (v : flt) : Prop := v = nan \/ exists b, v = B754_zero b.
  Lemma sqrt_np (v : flt) : Bltb (B754_zero false) v = false -> zn (Bsqrt mode_NE v).
  Proof.
    destruct v as [b|b| |b m x B]; intros H; cbn in H.
    - right. exists b. reflexivity.
    - destruct b; [left; reflexivity|discriminate].
    - left; reflexivity.
    - destruct b; [left; reflexivity|discriminate].
  Qed.
  Lemma zn_mul (u v : flt) : zn u -> zn (Bmult mode_NE u v).
  Proof. intros [->|[b ->]]; [left; reflexivity|]. destruct v as [c|c| |c m x B]; cbn; [right|left|left|right]; eauto. Qed.
  Lemma zn_max (u v : flt) : zn u -> zn v -> zn (fmax O u v).
  Proof.
    intros Hu Hv. unfold fmax. destruct (fisnan O u); [exact Hu|]. destruct (fisnan O v); [exact Hv|]. destruct (fltb O u v); assumption.
  Qed.
  Lemma zn_sub (u v : flt) : zn u -> zn v -> zn (Bminus mode_NE u v).
  Proof.
    intros [->|[b ->]] Hv; [left; destruct v; reflexivity|]. destruct Hv as [->|[c ->]]; [left; reflexivity|].
    right. destruct b, c; cbn; eauto.
  Qed.
  Lemma zn_mul_r (u v : flt) : zn v -> zn (Bmult mode_NE u v).
  Proof.
    intros [->|[b ->]]; [left; destruct u; reflexivity|]. destruct u as [c|c| |c m x B]; cbn; [right|left|left|right]; eauto.
  Qed.
  Lemma zn_div (u v : flt) : zn u -> zn v -> Bdiv mode_NE u v = nan.
  Proof. intros [->|[b ->]] [->|[c ->]]; reflexivity. Qed.
  Lemma nan_plus_r (u : flt) : Bplus mode_NE u nan = nan. Proof. destruct u; reflexivity. Qed.
  Lemma nan_minus_r (u : flt) : Bminus mode_NE u nan = nan. Proof. destruct u; reflexivity. Qed.
  Lemma nan_mult_r (u : flt) : Bmult mode_NE u nan = nan. Proof. destruct u; reflexivity. Qed.
  Lemma nan_div_r (u : flt) : Bdiv mode_NE u nan = nan. Proof. destruct u; reflexivity. Qed.
  Lemma flat_sigma log delta b sigma : zn b -> snd (a_and_sigma O log delta b sigma) = nan.
  Proof.
    intros Hb. unfold a_and_sigma, sqr. cbv zeta. cbn [snd]. cbn [fmul fsub fadd fdiv fsqrt f1 f0 fofZ FOpsIEEE].
    set (a := fmax O (Bmult mode_NE (Bmult mode_NE b sigma) _) (Bmult mode_NE b b)).
    assert (Ha : zn a) by (apply zn_max; repeat apply zn_mul; exact Hb).
    rewrite (zn_div _ _ (zn_mul _ _ (zn_sub _ _ (zn_mul b b Hb) (zn_mul_r _ _ Ha))) (zn_mul a a Ha)).
    rewrite nan_plus_r, nan_mult_r. change (fmax O nan _) with nan. rewrite nan_plus_r. reflexivity.
  Qed.
  Lemma nan_sigma_float log delta b : a_and_sigma O log delta b nan = (nan, nan).
  Proof.
    unfold a_and_sigma, sqr. cbv zeta. cbn [fmul fsub fadd fdiv fsqrt f1 f0 fofZ FOpsIEEE]. rewrite nan_mult_r.
    change (Bmult mode_NE nan ?v) with nan. change (fmax O nan ?v) with nan. rewrite !nan_mult_r. 
    change (Bplus mode_NE nan ?v) with nan. reflexivity.
  Qed.
  Context {P K : Type} (p0 : P) (s : kthin flt P K) (xs : list P) (n : nat) (Hn : length xs = 2 * n).
  Let ST i := fori i (kt_body O p0 s xs) (start O s n).
  Lemma body_sigma_float i st : h_sigma (kt_body O p0 s xs i st)
    = snd (a_and_sigma O (kt_log s) (kt_delta s)
            (kernel_distance O (kt_sqrt s) (jget p0 xs (2 * Z.of_nat i)) (jget p0 xs (2 * Z.of_nat i + 1))) (h_sigma st)).
  Proof.
    unfold kt_body. cbv zeta. destruct (a_and_sigma _ _ _ _ _) as [a sg]. destruct (should_swap _ _ _ _ _) as [sw key].
    destruct sw; reflexivity.
  Qed.
  Lemma frozen_float i j : zn (kernel_distance O (kt_sqrt s) (nth (2 * i) xs p0) (nth (2 * i + 1) xs p0)) -> i < j < n ->
    run_decision O p0 s xs n j = false.
  Proof.
    intros Hi Hj.
    assert (NS : forall t, h_sigma (ST (S i + t)) = nan).
    { induction t as [|t IH].
      - rewrite Nat.add_0_r. unfold ST. rewrite fori_S. rewrite body_sigma_float.
        replace (2 * Z.of_nat i + 1)%Z with (Z.of_nat (2 * i + 1)) by lia.
        replace (2 * Z.of_nat i)%Z with (Z.of_nat (2 * i)) by lia.
        rewrite !(jget_nat p0 xs) by lia. now apply flat_sigma.
      - rewrite Nat.add_succ_r. unfold ST. rewrite fori_S. fold (ST (S i + t)). rewrite body_sigma_float, IH, nan_sigma_float. reflexivity. }
    unfold run_decision, decision. cbv zeta. fold (ST j). specialize (NS (j - S i)). replace (S i + (j - S i)) with j in NS by lia.
    rewrite NS, nan_sigma_float. cbn [fst]. unfold should_swap. destruct (kt_split s (h_key (ST j))) as [k1 k2]. cbn [fst].
    cbn [fdiv fsub fmul FOpsIEEE]. rewrite nan_div_r. rewrite nan_minus_r, nan_mult_r.
    unfold fleb. cbn. now rewrite andb_false_r.
  Qed.
End Freeze.

(** If the squared distance [k(x,x) + k(y,y) - 2 k(x,y)] of one pair is computed as zero, as
    a negative number or as NaN, then in every later pair the first point goes to the first
    half, whatever the random numbers are. *)
Theorem C90_flat_pair_freezes_refuted :
  forall prec emax (Hp : Prec_gt_0 prec) (Hm : Prec_lt_emax prec emax) (Sm : SumOrder prec emax)
    {P Y K} (p0 : P) (y0 : Y) (s : kthin (binary_float prec emax) P K) (d : Data P Y (binary_float prec emax)) h i,
  let O := FOpsIEEE prec emax in
  let k := kt_sqrt s in
  let x := nth (2 * i) (d_x d) p0 in let y := nth (2 * i + 1) (d_x d) p0 in
  d_len d = 2 * h -> i < h ->
  fltb O (f0 O) (fsub O (fadd O (k x x) (k y y)) (fmul O (fofZ O 2) (k x y))) = false ->
  exists a b, kt_half O p0 y0 s d = Ok (a, b) /\
    forall j, i < j < h -> nth j (c_idx a) 0%Z = Z.of_nat (2 * j) /\ nth j (c_idx b) 0%Z = Z.of_nat (2 * j + 1).
Proof.
  intros prec emax Hp Hm Sm P Y K p0 y0 s d h i O k x y HL Hi HD.
  pose proof (kt_half_run O p0 y0 s d h HL) as E. cbv zeta in E. do 2 eexists. split; [exact E|]. cbn [c_idx].
  intros j Hj.
  assert (F : run_decision O p0 s (d_x d) h j = false).
  { apply (frozen_float prec emax p0 s (d_x d) h HL i j); [|exact Hj]. apply sqrt_np. exact HD. }
  rewrite !map_map.
  rewrite (nth_indep _ 0%Z (Z.of_nat (pair_first (run_decision O p0 s (d_x d) h 0) 0))) by (rewrite map_length, seq_length; lia).
  rewrite (map_nth (fun j => Z.of_nat (pair_first (run_decision O p0 s (d_x d) h j) j))), seq_nth by lia.
  rewrite (nth_indep (map (fun j => Z.of_nat (pair_second _ j)) _) 0%Z (Z.of_nat (pair_second (run_decision O p0 s (d_x d) h 0) 0)))
    by (rewrite map_length, seq_length; lia).
  rewrite (map_nth (fun j => Z.of_nat (pair_second (run_decision O p0 s (d_x d) h j) j))), seq_nth by lia.
  cbn [Nat.add]. rewrite F. auto.
Qed.
Print Assumptions C90_flat_pair_freezes_refuted.

(** For the squared exponential kernel this happens to all pairs of nearby points: if exp is
    rounded to nearest and the exponent [-|x - y|^2 / (2 l^2)] of a pair is computed as a
    number between [-2^-(prec+1)] and zero, in single precision for distances up to 0.0002
    length scales, the kernel of the pair is the output scale, as if the points were equal. *)
Section Close.
  Context (prec emax : Z) {Hp : Prec_gt_0 prec} {Hm : Prec_lt_emax prec emax} {Sm : SumOrder prec emax}.
  Notation flt := (binary_float prec emax).
  Notation O := (FOpsIEEE prec emax).
  Notation rnd := (round radix2 (SpecFloat.fexp prec emax) (round_mode mode_NE)).
  Lemma below_one v : (3 <= emax)%Z -> (1 - bpow radix2 (- prec - 1) < v <= 1)%R -> rnd v = 1%R.
  Proof.
    intros H3 [L U].
    assert (F1 : generic_format radix2 (SpecFloat.fexp prec emax) 1).
    { rewrite <- (Bone_correct prec emax _ _). apply generic_format_B2R. }
    assert (V : Valid_exp (SpecFloat.fexp prec emax)) by (apply fexp_correct; exact Hp).
    destruct (round_N_pt radix2 (SpecFloat.fexp prec emax) (fun x => negb (Z.even x)) v) as [FR NR].
    change (round radix2 (SpecFloat.fexp prec emax) (Znearest (fun x => negb (Z.even x))) v) with (rnd v) in *.
    assert (LE : (rnd v <= 1)%R) by (rewrite <- (rnd_1 prec emax); now apply rnd_mono).
    destruct (Rle_lt_or_eq_dec _ _ LE) as [LT|EQ]; [exfalso|exact EQ].
    assert (PR : (rnd v <= pred radix2 (SpecFloat.fexp prec emax) 1)%R) by (apply pred_ge_gt; auto).
    change 1%R with (bpow radix2 0) in PR at 1. rewrite pred_bpow in PR.
    assert (E0 : SpecFloat.fexp prec emax 0 = (- prec)%Z).
    { unfold SpecFloat.fexp, SpecFloat.emin. assert (0 < prec)%Z by exact Hp. lia. }
    rewrite E0 in PR. change (bpow radix2 0) with 1%R in PR.
    replace (- prec)%Z with (- prec - 1 + 1)%Z in PR by lia. rewrite bpow_plus in PR. change (bpow radix2 1) with 2%R in PR.
    pose proof (bpow_gt_0 radix2 (- prec - 1)) as BP.
    specialize (NR 1%R F1). rewrite (Rabs_left1 (rnd v - v)), (Rabs_pos_eq (1 - v)) in NR by lra. lra.
  Qed.
  Lemma twice (s : flt) : (2 <= prec)%Z -> is_finite s = true -> (0 < B2R s)%R ->
    Bltb (B754_zero false) (Bminus mode_NE (Bplus mode_NE s s) (Bmult mode_NE (fofZ O 2) s)) = false.
  Proof.
    intros H2 F Ps.
    assert (T2 : (2 < 2 ^ prec)%Z) by (apply Z.lt_le_trans with (2 ^ 2)%Z; [reflexivity|apply Z.pow_le_mono_r; lia]).
    destruct (ofZ_exact prec emax 2 ltac:(lia)) as [F2 R2].
    assert (E : (B2R s + B2R s = B2R (fofZ O 2) * B2R s)%R) by (rewrite R2; lra).
    assert (Eq : Bplus mode_NE s s = Bmult mode_NE (fofZ O 2) s \/
      (is_finite (Bplus mode_NE s s) = true /\ is_finite (Bmult mode_NE (fofZ O 2) s) = true /\ B2R (Bplus mode_NE s s) = B2R (Bmult mode_NE (fofZ O 2) s))).
    { destruct (plus_cases prec emax s s F F) as [[A1 A2]|[A1 [_ A2]]], (mult_cases prec emax (fofZ O 2) s F2 F) as [[B1 B2]|[B1 B2]].
      - right. repeat split; auto. rewrite A1, B1. now rewrite E.
      - exfalso. pose proof (B2R_big prec emax (Bplus mode_NE s s)) as Q. rewrite A1, E in Q. lra.
      - exfalso. pose proof (B2R_big prec emax (Bmult mode_NE (fofZ O 2) s)) as Q. rewrite B1, <- E in Q. lra.
      - left. rewrite A1, B1. assert (Bsign s = false /\ Bsign (fofZ O 2) = false) as [-> ->].
        { assert (SG : forall v : flt, is_finite v = true -> (0 < B2R v)%R -> Bsign v = false).
          { intros v Fv Pv. destruct v as [b|b| |b m x B]; try discriminate; [cbn in Pv; lra|]. destruct b; [|reflexivity].
            exfalso. pose proof (F2R_lt_0 radix2 (Float radix2 (Z.neg m) x) eq_refl). cbn in Pv. lra. }
          split; apply SG; auto. rewrite R2. lra. }
        reflexivity. }
    set (u := Bplus mode_NE s s) in *. set (v := Bmult mode_NE (fofZ O 2) s) in *.
    assert (C : is_finite u = true -> is_finite v = true -> B2R u = B2R v -> Bltb (B754_zero false) (Bminus mode_NE u v) = false).
    { intros Fu Fv Ev. pose proof (Bminus_correct prec emax _ _ mode_NE u v Fu Fv) as Q. rewrite Ev, Rminus_eq_0, rnd_0 in Q; auto.
      rewrite Rlt_bool_true in Q by (rewrite Rabs_R0; apply bpow_gt_0). destruct Q as [Q1 [Q2 _]].
      rewrite (Bltb_correct prec emax) by auto. rewrite Q1. apply Rlt_bool_false. cbn. lra. }
    destruct Eq as [Eq|[A [B E2]]]; [|now apply C]. rewrite <- Eq in *.
    destruct (is_finite u) eqn:Fu; [now apply C|].
    clear - Fu. clearbody u. destruct u as [b|[]| |b m x B]; try discriminate; reflexivity.
  Qed.
End Close.

Theorem C90_close_points_freeze_refuted :
  forall prec emax (Hp : Prec_gt_0 prec) (Hm : Prec_lt_emax prec emax) (Sm : SumOrder prec emax) T jgrad keq,
  (2 <= prec)%Z -> (3 <= emax)%Z -> elementary T ->
  (forall v, is_finite v = true -> (B2R v <= 0)%R ->
     is_finite (fexp T v) = true /\ B2R (fexp T v) = round radix2 (SpecFloat.fexp prec emax) (round_mode mode_NE) (exp (B2R v))) ->
  forall {Y K} (y0 : Y) (s : kthin (binary_float prec emax) (list (binary_float prec emax)) K) (d : Data _ Y (binary_float prec emax)) h i len scale,
  let O := FOpsIEEE prec emax in
  let x := nth (2 * i) (d_x d) [] in let y := nth (2 * i + 1) (d_x d) [] in
  let divisor := fmul O (fofZ O 2) (sq O len) in
  let exponent := fdiv O (fneg O (squared_distance O x y)) divisor in
  kt_sqrt s = (fun x y => sc_value (m_val (methods O T jgrad keq (KSE len scale)) x y)) ->
  is_finite scale = true -> (0 < B2R scale)%R -> is_finite divisor = true -> (0 < B2R divisor)%R ->
  all_finite prec emax x -> all_finite prec emax y ->
  is_finite exponent = true -> (- bpow radix2 (- prec - 1) <= B2R exponent <= 0)%R ->
  d_len d = 2 * h -> i < h ->
  exists a b, kt_half O [] y0 s d = Ok (a, b) /\
    forall j, i < j < h -> nth j (c_idx a) 0%Z = Z.of_nat (2 * j) /\ nth j (c_idx b) 0%Z = Z.of_nat (2 * j + 1).
Proof.
  intros prec emax Hp Hm Sm T jgrad keq H2 H3 ET HT Y K y0 s d h i len scale O x y divisor ex Hk Fs Ps Fd Pd Fx Fy Fe Re HL Hi.
  apply (C90_flat_pair_freezes_refuted prec emax Hp Hm Sm [] y0 s d h i HL Hi). fold x y O. rewrite Hk.
  destruct (C69_bounds prec emax Hp Hm Sm T jgrad keq (KSE len scale) scale divisor ET eq_refl Fs Ps Fd Pd) as [D _]; [discriminate|].
  rewrite !D by assumption. cbn [sc_value methods se_meth m_val]. unfold se_val. fold O. fold divisor. fold ex.
  assert (E1 : fexp T ex = Bone).
  { destruct (HT ex Fe (proj2 Re)) as [F R].
    assert (R1 : B2R (fexp T ex) = 1%R).
    { rewrite R. destruct (Req_dec (B2R ex) 0) as [Z|NZ]; [rewrite Z, exp_0; apply (rnd_1 prec emax)|].
      apply (below_one prec emax); [exact H3|]. split.
      - pose proof (exp_ineq1 (B2R ex) NZ). lra.
      - rewrite <- exp_0. destruct (Rle_lt_or_eq_dec _ _ (proj2 Re)) as [L|E]; [left; now apply exp_increasing|rewrite E; lra]. }
    apply B2R_inj.
    - destruct (fexp T ex) as [b|b| |b m z B]; try discriminate; [cbn in R1; lra|reflexivity].
    - destruct (Bone : binary_float prec emax) as [b|b| |b m z B] eqn:EB; try reflexivity; exfalso;
        pose proof (Bone_correct prec emax _ _) as Q; rewrite EB in Q; cbn in Q; lra.
    - now rewrite Bone_correct. }
  rewrite E1. change (fmul O scale Bone) with (Bmult mode_NE scale Bone). rewrite (mult_one prec emax) by (apply pos_spec; auto).
  now apply (twice prec emax).
Qed.
Print Assumptions C90_close_points_freeze_refuted.

(** single precision: twelve points, three are kept; the random keys and the logarithm are
    arbitrary functions *)
Definition kt32 (size : nat) (log : F32 -> F32) (split : nat -> nat * nat) (uniform : nat -> F32) : kthin F32 nat nat :=
  mkKT size (fun x y => if Nat.eqb x y then Bone else B754_zero false) (fun x y => if Nat.eqb x y then Bone else B754_zero false)
    (f32 1 (-4)) 7 log split uniform (first_choice F32) (fun n size => Nat.log2 (n / size)) (fun size _ => seq 0 size).
Lemma kt32_ok size log split uniform : 1 <= size -> thinning_ok (kt32 size log split uniform).
Proof.
  intros H. constructor; cbn [kt32 kt_size kt_choice kt_depth kt_ord]; auto.
  - apply first_choice_ok.
  - intros n s' [A B]. assert (1 <= n / s') by (apply Nat.div_le_lower_bound; lia).
    destruct (Nat.log2_spec (n / s')) as [L _]; [lia|]. apply Nat.le_trans with (s' * (n / s')); [apply Nat.mul_le_mono_l; exact L|].
    apply Nat.mul_div_le. lia.
Qed.
Lemma kt32_kernel size log split uniform x y : at_most 60 (kt_kernel (kt32 size log split uniform) x y).
Proof.
  cbn [kt32 kt_kernel]. destruct (Nat.eqb x y); [apply f32_one|]. split; [reflexivity|]. change (B2R _) with 0%R. rewrite Rabs_R0. apply bpow_ge_0.
Qed.
Example C90_thinning_applies : forall log split uniform, exists l,
  kt_reduce F32Ops 0 tt (kt32 3 log split uniform) (mkData (seq 5 12) (repeat Bone 12) None)
    = Ok (mkCS (map Z.of_nat l) (repeat Bone 3) (mkData (seq 5 12) (repeat Bone 12) None)) /\
  length l = 3 /\ NoDup l /\ forall i, In i l -> i < 12.
Proof.
  intros log split uniform.
  destruct (C90_thinning_valid 24 128 _ _ _ 21 60 C70_room 0 tt (kt32 3 log split uniform) (seq 5 12) (repeat Bone 12)) as [_ H].
  - apply kt32_ok. lia.
  - apply kt32_kernel.
  - reflexivity.
  - apply Forall_forall. intros v Hv. apply repeat_spec in Hv. subst v. split; [apply is_finite_Bone|]. rewrite Bone_correct. lra.
  - cbn. lia.
  - apply H. cbn. lia.
Qed.
(** sixteen points, oversampling 1, four are kept *)
Example C90_compress_applies : forall log split uniform, exists l,
  compress_reduce F32Ops 0 tt (mkCP 1 (kt32 4 log split uniform) (fun _ => 2)) 2 (mkData (seq 5 16) (repeat Bone 16) None)
    = Ok (mkCS (map Z.of_nat l) (repeat Bone 4) (mkData (seq 5 16) (repeat Bone 16) None)) /\
  length l = 4 /\ NoDup l /\ forall i, In i l -> i < 16.
Proof.
  intros log split uniform.
  destruct (C90_compress_valid 24 128 _ _ _ 21 60 C70_room 0 tt (mkCP 1 (kt32 4 log split uniform) (fun _ => 2)) (seq 5 16) (repeat Bone 16) 2) as [H _].
  - apply kt32_ok. lia.
  - apply kt32_kernel.
  - reflexivity.
  - apply Forall_forall. intros v Hv. apply repeat_spec in Hv. subst v. split; [apply is_finite_Bone|]. rewrite Bone_correct. lra.
  - cbn. lia.
  - discriminate.
  - split; cbn; lia.
  - cbn. lia.
  - apply H. split; [apply Nat.leb_le; reflexivity|]. split; [split; discriminate|apply Nat.leb_le; reflexivity].
Qed.
(** the candidates of a thousand points: 1000 + 7 terms in four sums *)
Example C90_best_applies : forall log split uniform (xs : list nat), length xs = 1000 -> exists cands best,
  kt_candidates F32Ops 0 tt (kt32 30 log split uniform) (mkData xs (repeat Bone 1000) None) = Ok cands /\
  kt_choose F32Ops 0 tt (kt32 30 log split uniform) cands (mkData xs (repeat Bone 1000) None) = Ok (map Z.of_nat best).
Proof.
  intros log split uniform xs HL.
  destruct (C90_best_candidate 24 128 _ _ _ 10 0 0 tt (kt32 30 log split uniform) xs (repeat Bone 1000)) as (h & b & c & t & E1 & _ & _ & _ & E2 & _).
  - rewrite HL. apply C71_room. change (2 ^ 23)%Z with 8388608%Z. lia.
  - apply kt32_ok. lia.
  - rewrite HL. cbn [kt_size kt32]. lia.
  - rewrite <- HL. apply ones_data; [intros ->; discriminate|]. rewrite HL. cbn. lia.
  - intros x y _ _. cbn [kt32 kt_kernel]. destruct (Nat.eqb x y).
    + split; [apply is_finite_Bone|]. rewrite Bone_correct, Rabs_R1. apply Rle_refl.
    + split; [reflexivity|]. change (B2R _) with 0%R. rewrite Rabs_R0. apply bpow_ge_0.
  - exists c, t. auto.
Qed.
(** the correctly rounded exponential of binary32, and powers as in [ex_tops] *)
Definition exp_nearest (v : F32) : F32 :=
  match v with
  | B754_zero _ => Bone
  | B754_infinity true => B754_zero false
  | B754_finite true _ _ _ =>
      let z := exp (B2R v) in
      binary_normalize 24 128 _ _ mode_NE (ZnearestE (scaled_mantissa radix2 (SpecFloat.fexp 24 128) z)) (cexp radix2 (SpecFloat.fexp 24 128) z) false
  | _ => B754_nan
  end.
Definition nearest_tops : TOps F32 := mkTOps F32 exp_nearest (fun v => v) (fun v => v) Bone (fpow ex_tops).
Lemma exp_nearest_ok (v : F32) : is_finite v = true -> (B2R v <= 0)%R ->
  is_finite (exp_nearest v) = true /\ B2R (exp_nearest v) = round radix2 (SpecFloat.fexp 24 128) (round_mode mode_NE) (exp (B2R v)).
Proof.
  intros F L. destruct v as [b|b| |b m x B]; try discriminate.
  - cbn [exp_nearest B2R]. rewrite exp_0, (rnd_1 24 128), Bone_correct. split; [apply is_finite_Bone|reflexivity].
  - destruct b.
    2:{ exfalso. pose proof (F2R_gt_0 radix2 (Float radix2 (Z.pos m) x) eq_refl). cbn in L. lra. }
    unfold exp_nearest. set (v := B754_finite true m x B) in *. set (z := exp (B2R v)).
    assert (Z0 : (0 < z)%R) by apply exp_pos.
    assert (Z1 : (z <= 1)%R).
    { unfold z. rewrite <- exp_0. destruct (Rle_lt_or_eq_dec _ _ L) as [Q|Q]; [left; now apply exp_increasing|rewrite Q; lra]. }
    assert (V : Valid_exp (SpecFloat.fexp 24 128)) by (apply fexp_correct; reflexivity).
    set (w := round radix2 (SpecFloat.fexp 24 128) ZnearestE z).
    set (mz := ZnearestE (scaled_mantissa radix2 (SpecFloat.fexp 24 128) z)). set (ez := cexp radix2 (SpecFloat.fexp 24 128) z).
    assert (EF : F2R (Float radix2 mz ez) = w) by reflexivity.
    assert (W : round radix2 (SpecFloat.fexp 24 128) (round_mode mode_NE) w = w).
    { apply round_generic; [apply valid_rnd_N|]. apply generic_format_round; [exact V|apply valid_rnd_N]. }
    pose proof (binary_normalize_correct 24 128 _ _ mode_NE mz ez false) as Q. cbv zeta in Q.
    clearbody mz ez. rewrite EF, W in Q. unfold w in *. clear w.
    assert (R0 : (0 <= round radix2 (SpecFloat.fexp 24 128) ZnearestE z)%R).
    { rewrite <- (rnd_0 24 128). apply (rnd_mono 24 128). lra. }
    assert (R1 : (round radix2 (SpecFloat.fexp 24 128) ZnearestE z <= 1)%R).
    { rewrite <- (rnd_1 24 128). apply (rnd_mono 24 128). lra. }
    rewrite Rlt_bool_true in Q.
    2:{ rewrite Rabs_pos_eq by exact R0. apply Rle_lt_trans with (1 := R1). apply (bpow_lt radix2 0 128). reflexivity. }
    destruct Q as [Q1 [Q2 _]]. split; [exact Q2|exact Q1].
Qed.
Lemma nearest_elementary : elementary nearest_tops.
Proof.
  destruct ex_elementary as [E1 E2 E3 E4]. constructor; cbn [nearest_tops fexp fpow]; auto.
  intros v Hv. destruct v as [b|b| |b m x B]; [| |contradiction|].
  - change (exp_nearest (B754_zero b)) with (Bone : F32). split; [apply is_finite_Bone|]. rewrite Bone_correct. lra.
  - cbn in Hv. subst b. split; [reflexivity|]. change (B2R (exp_nearest (B754_infinity true))) with 0%R. lra.
  - set (v := B754_finite b m x B) in *. assert (L : (B2R v <= 0)%R) by (apply (np_finite 24 128); auto).
    destruct (exp_nearest_ok v eq_refl L) as [F R]. split; [exact F|]. rewrite R. split.
    + rewrite <- (rnd_0 24 128). apply (rnd_mono 24 128). left. apply exp_pos.
    + rewrite <- (rnd_1 24 128). apply (rnd_mono 24 128). rewrite <- exp_0.
      destruct (Rle_lt_or_eq_dec _ _ L) as [Q|Q]; [left; now apply exp_increasing|rewrite Q; lra].
Qed.
(** length scale one, the points 0 and 2^-13: every later pair keeps its order *)
Example C90_close_points_applies : forall jgrad keq log split uniform (xs : list (list F32)) h,
  length xs = 2 * h -> 1 <= h -> nth 0 xs [] = [f32 0 0] -> nth 1 xs [] = [f32 1 (-13)] ->
  let k x y := sc_value (m_val (methods F32Ops nearest_tops jgrad keq (KSE Bone Bone)) x y) in
  let s := mkKT 1 k k (f32 1 (-4)) 7 log split uniform (first_choice F32) (fun n size => Nat.log2 (n / size)) (fun size _ => seq 0 size) in
  exists a b, kt_half F32Ops [] tt s (mkData xs (repeat Bone (2 * h)) None) = Ok (a, b) /\
    forall j, 0 < j < h -> nth j (c_idx a) 0%Z = Z.of_nat (2 * j) /\ nth j (c_idx b) 0%Z = Z.of_nat (2 * j + 1).
Proof.
  intros jgrad keq log split uniform xs h HL Hh X0 X1 k s.
  assert (ED : forall u v : list F32, u = [f32 0 0] -> v = [f32 1 (-13)] ->
    B2SF (fdiv F32Ops (fneg F32Ops (squared_distance F32Ops u v)) (fmul F32Ops (fofZ F32Ops 2) (sq F32Ops Bone))) = S754_finite true 8388608 (-50)).
  { intros u v -> ->. vm_compute. reflexivity. }
  assert (DD : B2SF (fmul F32Ops (fofZ F32Ops 2) (sq F32Ops (Bone : F32))) = S754_finite false 8388608 (-22)) by (vm_compute; reflexivity).
  assert (RR : forall v : F32, B2R v = SF2R radix2 (B2SF v)) by (intros [ | | |]; reflexivity).
  assert (FS : forall v : F32, is_finite v = is_finite_SF (B2SF v)) by (intros [ | | |]; reflexivity).
  apply (C90_close_points_freeze_refuted 24 128 _ _ _ nearest_tops jgrad keq) with (i := 0) (len := Bone) (scale := Bone); try lia.
  - apply nearest_elementary.
  - apply exp_nearest_ok.
  - reflexivity.
  - apply is_finite_Bone.
  - rewrite Bone_correct. lra.
  - change (FOpsIEEE 24 128) with F32Ops. rewrite FS, DD. reflexivity.
  - change (FOpsIEEE 24 128) with F32Ops. rewrite RR, DD. apply F2R_gt_0. reflexivity.
  - change (all_finite 24 128 (nth 0 xs [])). rewrite X0. repeat constructor.
  - change (all_finite 24 128 (nth 1 xs [])). rewrite X1. repeat constructor.
  - change (FOpsIEEE 24 128) with F32Ops. rewrite FS, ED; auto.
  - change (FOpsIEEE 24 128) with F32Ops. rewrite RR, ED; auto. cbn [SF2R]. unfold F2R. cbn [Fnum Fexp cond_Zopp].
    change (-8388608)%Z with (- (2 ^ 23))%Z. rewrite opp_IZR.
    replace 8388608%R with (bpow radix2 23) by (rewrite <- IZR_Zpower by lia; reflexivity).
    rewrite Ropp_mult_distr_l_reverse, <- bpow_plus. change (23 + -50)%Z with (-27)%Z. change (- (24) - 1)%Z with (-25)%Z.
    pose proof (bpow_le radix2 (-27) (-25) ltac:(lia)). pose proof (bpow_gt_0 radix2 (-27)). lra.
  - unfold d_len. cbn [d_x]. exact HL.
Qed.
