(** * MapReduce in floating point arithmetic: C88

    The solvers are run in IEEE arithmetic (any binary format, round to nearest even, sums
    in any order).  The data set is split into leaves, and every leaf but the last round's
    may contain padding rows of weight zero. *)
From Coq Require Import List ZArith Bool Reals Permutation Lia Lra.
From Coq Require Import Floats.SpecFloat.
From Flocq Require Import Core.Core IEEE754.BinarySingleNaN.
From Verif Require Import Num Jax RSum JaxFacts DataModel MeanModel GreedyModel MapReduceModel MapReduceSpec MapReduceProofs MapReduceProofs2 MapReduceProofs3
  Float FloatProofs2 FloatIdxSpec PropFloatIdx FloatMR.
Import ListNotations.
Open Scope nat_scope.

(** on at most [leaf] weighted points, at least [m] of them of positive weight, the base
    solver picks [m] distinct points of positive weight and gives each the weight one *)
Definition float_picks {prec emax} {Hp : Prec_gt_0 prec} {Hm : Prec_lt_emax prec emax} {P Y} (leaf m : nat)
    (base : Data P Y (binary_float prec emax) -> result (Coresubset P Y (binary_float prec emax))) : Prop :=
  forall xs w, length w = length xs -> length xs <= leaf -> Forall weight_ok w -> m <= positives w ->
    exists l, base (mkData xs w None) = Ok (mkCS (map Z.of_nat l) (repeat Bone m) (mkData xs w None)) /\ valid_indices w m true l.

Section Bridge.
  Context (prec emax : Z) {Hp : Prec_gt_0 prec} {Hm : Prec_lt_emax prec emax} {Sm : SumOrder prec emax}.
  Notation flt := (binary_float prec emax).
  Notation O := (FOpsIEEE prec emax).
  Definition posb (v : flt) : bool := Rlt_bool 0 (B2R v).
  Lemma posb_zero : posb (f0 O) = false. Proof. unfold posb. cbn. apply Rlt_bool_false. lra. Qed.
  Lemma ok_zero : weight_ok (f0 O). Proof. split; [reflexivity|]. cbn. lra. Qed.
  Lemma pw_one v : v = Bone -> pw posb weight_ok v.
  Proof.
    intros ->. split; [|split]; [unfold posb; rewrite Bone_correct; apply Rlt_bool_true; lra|apply is_finite_Bone|rewrite Bone_correct; lra].
  Qed.
  Lemma picks_V {P Y} leaf m (base : Data P Y flt -> _) : float_picks leaf m base ->
    picksV O posb weight_ok (fun v => v = Bone) leaf m base.
  Proof.
    intros H xs w L N W C. destruct (H xs w L N W C) as [l [E [V1 [V2 V3]]]]. exists l, (repeat Bone m).
    split; [exact E|]. split; [exact V1|]. split; [apply repeat_length|]. split; [|split; [auto|]].
    - apply Forall_forall. intros v Hv. now apply repeat_spec in Hv.
    - intros i Hi. destruct (V2 i Hi) as [A B]. split; [lia|]. rewrite nth_indep with (d' := B754_nan) by assumption.
      now apply Rlt_bool_true.
  Qed.
  Lemma all_one (ws : list flt) m : length ws = m -> Forall (fun v => v = Bone) ws -> ws = repeat Bone m.
  Proof. intros <-. induction 1 as [|v ws -> _ IH]; cbn; congruence. Qed.
  Lemma positives_le (v : list flt) : positives v <= length v.
  Proof. unfold positives. induction v as [|a v IH]; cbn [filter]; [lia|]. destruct (Rlt_bool _ _); cbn [length]; lia. Qed.
End Bridge.

(** ** C88 *)
(** Whatever the base solver: if it picks distinct points of positive weight on every
    leaf, and no leaf can consist of so much padding that too few data points are left,
    then MapReduce reports [m] distinct rows of the data set, each of weight one; the
    padding is never reported.  The condition is on data sets of at most [leaf] rows, the
    data set itself may have any number of rows. *)
Theorem C88_mapreduce_float :
  forall prec emax (Hp : Prec_gt_0 prec) (Hm : Prec_lt_emax prec emax) (Sm : SumOrder prec emax) {P Y} (p0 : P) (y0 : Y)
    m base tree leaf fuel (xs : list P) (w : list (binary_float prec emax)) r,
  float_picks leaf m base -> tree_perm tree -> 1 <= m -> mr_init leaf m = Ok tt ->
  length w = length xs -> (forall v, In v w -> is_finite v = true /\ (0 < B2R v)%R) -> m <= length xs ->
  never_starves leaf m fuel (length xs) = true ->
  map_reduce (FOpsIEEE prec emax) p0 y0 base tree leaf fuel (mkData xs w None : Data P Y _) = Ok r ->
  exists t, r = mkCS (map Z.of_nat t) (repeat Bone m) (mkData xs w None) /\
    NoDup t /\ length t = m /\ (forall i, In i t -> i < length xs).
Proof.
  intros prec emax Hp Hm Sm P Y p0 y0 m base tree leaf fuel xs w r HB HT Hm1 Hi HL Hw Hn Hns E.
  assert (Hl : 2 <= leaf) by (unfold mr_init in *; destruct (Nat.leb_spec leaf m); [discriminate|lia]).
  destruct (picks_map_reduce (FOpsIEEE prec emax) (posb prec emax) weight_ok (posb_zero prec emax) (ok_zero prec emax) p0 y0
     (fun v => v = Bone) (pw_one prec emax) m base tree leaf fuel xs w r (picks_V prec emax leaf m base HB) HT Hm1 Hl HL)
    as [t [ws [E1 [E2 [E3 [E4 [E5 E6]]]]]]]; auto.
  - apply Forall_forall. intros v Hv. destruct (Hw v Hv) as [A B]. split; [now apply Rlt_bool_true|split; [exact A|lra]].
  - exists t. rewrite E1, (all_one prec emax ws m E5 E6). auto.
Qed.
Print Assumptions C88_mapreduce_float.

(** KernelHerding with [unique=True] on data of any size: only the leaves have to fit into
    the number format. *)
Theorem C88_herding :
  forall prec emax (Hp : Prec_gt_0 prec) (Hm : Prec_lt_emax prec emax) (Sm : SumOrder prec emax) a e, room prec emax a e ->
  forall {P Y} (p0 : P) (y0 : Y) (k : P -> P -> binary_float prec emax) m bs ord tree leaf fuel (xs : list P) w,
  (forall x y, at_most e (k x y)) ->
  (forall i, Permutation (ord i) (seq 0 m)) -> tree_perm tree -> 1 <= m -> 2 * m <= leaf ->
  (Z.of_nat leaf <= 2 ^ a)%Z ->
  length w = length xs -> (forall v, In v w -> is_finite v = true /\ (0 < B2R v)%R) -> m <= length xs -> length xs < fuel ->
  never_starves leaf m fuel (length xs) = true ->
  exists t, map_reduce (FOpsIEEE prec emax) p0 y0 (herding_base (FOpsIEEE prec emax) p0 y0 (mkHerding m k true bs Greedy) ord)
      tree leaf fuel (mkData xs w None : Data P Y _) = Ok (mkCS (map Z.of_nat t) (repeat Bone m) (mkData xs w None)) /\
    NoDup t /\ length t = m /\ (forall i, In i t -> i < length xs).
Proof.
  intros prec emax Hp Hm Sm a e HR P Y p0 y0 k m bs ord tree leaf fuel xs w Hk Ho HT Hm1 Hl Ha HL Hw Hn Hf Hns.
  destruct (map_reduce_terminates (FOpsIEEE prec emax) p0 y0 false m
    (herding_base (FOpsIEEE prec emax) p0 y0 (mkHerding m k true bs Greedy) ord) tree leaf fuel (mkData xs w None : Data P Y _))
    as [c [E _]]; auto.
  - apply (herding_sized (FOpsIEEE prec emax) p0 y0 (mkHerding m k true bs Greedy)). assumption.
  - intros x v l. rewrite (Permutation_length (HT x v l)). apply seq_length.
  - split; [exact HL|discriminate].
  - rewrite E.
    destruct (fun A B => C88_mapreduce_float prec emax Hp Hm Sm p0 y0 m (herding_base (FOpsIEEE prec emax) p0 y0 (mkHerding m k true bs Greedy) ord) tree leaf fuel xs w c A HT Hm1 B HL Hw Hn Hns E) as [t [E1 T]].
    + intros ys v Lv Nv Wv Cv.
      assert (PL : positives v <= length v) by apply positives_le.
      destruct (C70_herding_reduce prec emax Hp Hm Sm a e HR p0 y0 k m true bs ord ys v None) as [l [g [E2 [V _]]]]; auto; try lia; try discriminate.
      exists l. split; [|exact V]. unfold herding_base. rewrite E2. reflexivity.
    + unfold mr_init. destruct (Nat.leb_spec leaf m); [lia|reflexivity].
    + exists t. rewrite E1. auto.
Qed.
Print Assumptions C88_herding.

(** SteinThinning with [unique=True], regularised or not. *)
Theorem C88_stein :
  forall prec emax (Hp : Prec_gt_0 prec) (Hm : Prec_lt_emax prec emax) (Sm : SumOrder prec emax) a e, room prec emax a e ->
  forall {P Y} (p0 : P) (y0 : Y) (k : P -> P -> binary_float prec emax) m bs reg ord tree leaf fuel (xs : list P) w,
  (forall x y, at_most e (k x y)) ->
  (forall ys v, length v = length ys -> length ys <= leaf -> Forall weight_ok v -> regulariser_ok (e + a + 1) ys v m reg) ->
  (forall i, Permutation (ord i) (seq 0 m)) -> tree_perm tree -> 1 <= m -> 2 * m <= leaf ->
  (Z.of_nat leaf <= 2 ^ a)%Z ->
  length w = length xs -> (forall v, In v w -> is_finite v = true /\ (0 < B2R v)%R) -> m <= length xs -> length xs < fuel ->
  never_starves leaf m fuel (length xs) = true ->
  exists t, map_reduce (FOpsIEEE prec emax) p0 y0 (stein_reduce (FOpsIEEE prec emax) p0 y0 (mkStein m k true bs reg) ord)
      tree leaf fuel (mkData xs w None : Data P Y _) = Ok (mkCS (map Z.of_nat t) (repeat Bone m) (mkData xs w None)) /\
    NoDup t /\ length t = m /\ (forall i, In i t -> i < length xs).
Proof.
  intros prec emax Hp Hm Sm a e HR P Y p0 y0 k m bs reg ord tree leaf fuel xs w Hk Hreg Ho HT Hm1 Hl Ha HL Hw Hn Hf Hns.
  destruct (map_reduce_terminates (FOpsIEEE prec emax) p0 y0 false m
    (stein_reduce (FOpsIEEE prec emax) p0 y0 (mkStein m k true bs reg) ord) tree leaf fuel (mkData xs w None : Data P Y _))
    as [c [E _]]; auto.
  - apply (stein_sized (FOpsIEEE prec emax) p0 y0 (mkStein m k true bs reg)). assumption.
  - intros x v l. rewrite (Permutation_length (HT x v l)). apply seq_length.
  - split; [exact HL|discriminate].
  - rewrite E.
    destruct (fun A B => C88_mapreduce_float prec emax Hp Hm Sm p0 y0 m (stein_reduce (FOpsIEEE prec emax) p0 y0 (mkStein m k true bs reg) ord) tree leaf fuel xs w c A HT Hm1 B HL Hw Hn Hns E) as [t [E1 T]].
    + intros ys v Lv Nv Wv Cv.
      assert (PL : positives v <= length v) by apply positives_le.
      destruct (C70_stein_reduce prec emax Hp Hm Sm a e HR p0 y0 k m true bs reg ord ys v) as [l [E2 V]]; auto; try lia; try discriminate.
      exists l. auto.
    + unfold mr_init. destruct (Nat.leb_spec leaf m); [lia|reflexivity].
    + exists t. rewrite E1. auto.
Qed.
Print Assumptions C88_stein.

(** single precision: fifteen points of weight one in leaves of eight, two are kept; there
    is one padding row *)
Example C88_herding_applies : padded_rows 8 15 = 1 /\ exists t,
  map_reduce F32Ops 0%nat tt
    (herding_base F32Ops 0%nat tt (mkHerding 2 (fun x y => if Nat.eqb x y then Bone else B754_zero false) true (BOne None) Greedy) (fun _ => seq 0 2))
    (fun xs _ _ => seq 0 (length xs)) 8 20 (mkData (seq 3 15) (repeat Bone 15) None)
  = Ok (mkCS (map Z.of_nat t) (repeat Bone 2) (mkData (seq 3 15) (repeat Bone 15) None)) /\
  NoDup t /\ length t = 2 /\ (forall i, In i t -> i < 15).
Proof.
  split; [reflexivity|]. apply (C88_herding 24 128 _ _ _ 21 60 C70_room 0 tt).
  - intros x y. destruct (Nat.eqb x y); [apply f32_one|]. split; [reflexivity|]. change (B2R _) with 0%R. rewrite Rabs_R0. apply bpow_ge_0.
  - intros; reflexivity.
  - intros x v l; reflexivity.
  - lia.
  - lia.
  - lia.
  - reflexivity.
  - intros v Hv. apply repeat_spec in Hv. subst v. split; [apply is_finite_Bone|]. rewrite Bone_correct. lra.
  - cbn. lia.
  - cbn. lia.
  - reflexivity.
Qed.
Example C88_stein_applies : exists t,
  map_reduce F32Ops 0%nat tt
    (stein_reduce F32Ops 0%nat tt (mkStein 2 (fun x y => if Nat.eqb x y then Bone else B754_zero false) true (BOne None) None) (fun _ => seq 0 2))
    (fun xs _ _ => seq 0 (length xs)) 8 20 (mkData (seq 3 15) (repeat Bone 15) None)
  = Ok (mkCS (map Z.of_nat t) (repeat Bone 2) (mkData (seq 3 15) (repeat Bone 15) None)) /\
  NoDup t /\ length t = 2 /\ (forall i, In i t -> i < 15).
Proof.
  apply (C88_stein 24 128 _ _ _ 21 60 C70_room 0 tt).
  - intros x y. destruct (Nat.eqb x y); [apply f32_one|]. split; [reflexivity|]. change (B2R _) with 0%R. rewrite Rabs_R0. apply bpow_ge_0.
  - intros; exact I.
  - intros; reflexivity.
  - intros x v l; reflexivity.
  - lia.
  - lia.
  - lia.
  - reflexivity.
  - intros v Hv. apply repeat_spec in Hv. subst v. split; [apply is_finite_Bone|]. rewrite Bone_correct. lra.
  - cbn. lia.
  - cbn. lia.
  - reflexivity.
Qed.
