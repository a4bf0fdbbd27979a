(** * Coreset indices in floating point arithmetic: C70

    The solvers are run in IEEE arithmetic (any binary format, round to nearest even), where
    sums are rounded, may overflow and may absorb small terms.  The indices are
    nevertheless valid and distinct, as long as the format has room for sums over the
    data set. *)
From Coq Require Import List ZArith Bool Reals Permutation Lia Lra.
From Coq Require Import Floats.SpecFloat.
From Flocq Require Import Core.Core IEEE754.BinarySingleNaN.
From Verif Require Import Num Jax RSum JaxFacts DataModel MeanModel GreedyModel GreedyProofs5 CholModel CholSpec CholProofs
  Float FloatProofs2 FloatGreedy FloatGreedy2 FloatCholSpec FloatChol FloatIdxSpec.
Import ListNotations.
Open Scope nat_scope.

Section Bridge.
  Context (prec emax : Z) {Hp : Prec_gt_0 prec} {Hm : Prec_lt_emax prec emax} {Sm : SumOrder prec emax}.
  Notation flt := (binary_float prec emax).
  Notation O := (FOpsIEEE prec emax).
  Lemma at_most_bd e v : at_most e v <-> bd prec emax e 1 v.
  Proof. unfold at_most, bd. change (IZR (Z.of_nat 1)) with 1%R. rewrite Rmult_1_l. tauto. Qed.
  Lemma fgt0_spec (v : flt) : weight_ok v -> fgt0 O v = Rlt_bool 0 (B2R v).
  Proof.
    intros [F _]. unfold fgt0. cbn [fltb f0 FOpsIEEE].
    rewrite (Bltb_correct prec emax (B754_zero false) v eq_refl F). reflexivity.
  Qed.
  Lemma positives_spec (w : list flt) : Forall weight_ok w -> count_pos O w = positives w.
  Proof.
    unfold count_pos, positives. induction 1 as [|v w H _ IH]; [reflexivity|]. cbn [filter]. rewrite (fgt0_spec v H).
    destruct (Rlt_bool 0 (B2R v)); cbn [length]; congruence.
  Qed.
  Lemma valid_intro (dw : list flt) n m unique l : Forall weight_ok dw -> length dw = n -> length l = m ->
    (forall i, In i l -> i < n /\ fgt0 O (nth i dw B754_nan) = true) -> (unique = true -> NoDup l) -> valid_indices dw m unique l.
  Proof.
    intros W L Ll R U. split; [|split]; auto. intros i Hi. destruct (R i Hi) as [R1 R2]. split; [lia|].
    rewrite fgt0_spec in R2. { revert R2. case Rlt_bool_spec; auto; discriminate. }
    rewrite Forall_forall in W. apply W, nth_In. lia.
  Qed.
End Bridge.

(** ** C70: RPCholesky *)
(** No condition on the size of the kernel values: every pivot sets its own residual entry
    to zero, whatever rounding and overflow did to the rest, and once no positive entry is
    left the draw is uniform over the points not yet drawn. *)
Theorem C70_rpcholesky :
  forall prec emax (Hp : Prec_gt_0 prec) (Hm : Prec_lt_emax prec emax) (Sm : SumOrder prec emax) {P Y} (p0 : P) (y0 : Y)
    (s : @rpcholesky (binary_float prec emax) P) (d : Data P Y (binary_float prec emax)) st,
  float_pick_ok (ch_pick s) ->
  (Z.of_nat (d_len d) <= 2 ^ (emax - 2))%Z ->
  (forall a, In a (d_x d) -> float_diag_ok (ch_kernel s a a)) ->
  (forall g, st = Some g -> length g = d_len d /\ Forall float_diag_ok g) ->
  (ch_size s > d_len d -> chol_reduce (FOpsIEEE prec emax) p0 y0 s d st = Err ValueError) /\
  (ch_size s <= d_len d -> exists l g,
    chol_reduce (FOpsIEEE prec emax) p0 y0 s d st = Ok (mkCS (map Z.of_nat l) (repeat Bone (ch_size s)) d, g) /\
    length l = ch_size s /\ (forall i, In i l -> i < d_len d) /\ (ch_unique s = true -> NoDup l) /\
    length g = d_len d /\ Forall float_diag_ok g).
Proof.
  intros prec emax Hp Hm Sm P Y p0 y0 s d st Hpick Hn Hk Hs. split; intros H.
  - unfold chol_reduce. rewrite initial_too_large by lia. reflexivity.
  - exact (fchol_outcome prec emax p0 y0 s d st Hpick H Hn Hk Hs).
Qed.
Print Assumptions C70_rpcholesky.

(** a draw meeting the contract: the first index of positive weight *)
Fixpoint float_first (p : list F32) : nat :=
  match p with
  | [] => 0
  | v :: p' => if fgt0 F32Ops v then 0 else if existsb (fgt0 F32Ops) p' then S (float_first p') else 0
  end.
Lemma float_first_ok : float_pick_ok (fun _ => float_first).
Proof.
  intros _ p Hp. split.
  - induction p as [|v p IH]; [congruence|]. cbn [float_first]. destruct (fgt0 F32Ops v); [cbn; lia|].
    destruct (existsb _ p) eqn:E; [|cbn; lia]. destruct p as [|u p]; [discriminate|]. assert (u :: p <> []) by discriminate. specialize (IH H). cbn [length] in *. lia.
  - intros Hn Hx. assert (S : forall v, In v p -> fgt0 F32Ops v = Rlt_bool 0 (B2R v)) by (intros v Hv; apply fgt0_spec; auto; now apply Hn).
    assert (E : existsb (fgt0 F32Ops) p = true).
    { destruct Hx as [v [I Hv]]. apply existsb_exists. exists v. split; auto. rewrite S by auto. now apply Rlt_bool_true. }
    clear Hp Hx Hn. induction p as [|v p IH]; [discriminate|]. cbn [existsb float_first] in *.
    destruct (fgt0 F32Ops v) eqn:Ev.
    + rewrite S in Ev by now left. cbn [nth]. revert Ev. case Rlt_bool_spec; auto; discriminate.
    + cbn [orb] in E. rewrite E. cbn [nth]. apply IH; auto. intros w Hw. apply S. now right.
Qed.
(** a constant kernel: the residual vanishes after the first pivot *)
Example C70_rpcholesky_applies : exists l g,
  chol_reduce F32Ops 0 tt (mkChol 3 (fun _ _ => Bone) true (fun _ => float_first)) (mkData [7; 8; 9] (repeat Bone 3) (Some [tt; tt; tt])) None
    = Ok (mkCS (map Z.of_nat l) (repeat Bone 3) (mkData [7; 8; 9] (repeat Bone 3) (Some [tt; tt; tt])), g) /\ NoDup l.
Proof.
  destruct (C70_rpcholesky 24 128 _ _ _ 0 tt (mkChol 3 (fun _ _ => Bone) true (fun _ => float_first))
     (mkData [7; 8; 9] (repeat Bone 3) (Some [tt; tt; tt])) None float_first_ok) as [_ H].
  - vm_compute. discriminate.
  - intros. right. cbn [ch_kernel]. split; [apply is_finite_Bone|]. rewrite Bone_correct. lra.
  - discriminate.
  - destruct H as [l [g [E [_ [_ [U _]]]]]]; [cbn; lia|]. exists l, g. split; [exact E|exact (U eq_refl)].
Qed.

(** ** C70: KernelHerding *)
Theorem C70_herding_refine :
  forall prec emax (Hp : Prec_gt_0 prec) (Hm : Prec_lt_emax prec emax) (Sm : SumOrder prec emax) a e, room prec emax a e ->
  forall {P Y} (p0 : P) (y0 : Y) (k : P -> P -> binary_float prec emax) m unique bs ord idx cw xs dw st,
  (forall x y, at_most e (k x y)) ->
  length dw = length xs -> length cw = length idx -> 1 <= m ->
  (forall i, Permutation (ord i) (seq 0 (Nat.max (length idx) m))) ->
  (Z.of_nat (length xs) <= 2 ^ a)%Z -> (Z.of_nat (Nat.max (length idx) m) <= 2 ^ a)%Z ->
  Forall weight_ok dw -> Forall weight_ok cw ->
  1 <= positives dw -> (unique = true -> Nat.max (length idx) m <= positives dw) ->
  (forall g, st = Some g -> length g = length xs /\ Forall (at_most (e + a + 1)) g) ->
  exists l g, herding_refine (FOpsIEEE prec emax) p0 y0 (mkHerding m k unique bs Greedy) ord (mkCS idx cw (mkData xs dw None : Data P Y _)) st
      = Ok (mkCS (map Z.of_nat l) (repeat Bone m) (mkData xs dw None), g) /\
    valid_indices dw m unique l /\ length g = length xs /\ Forall (at_most (e + a + 1)) g.
Proof.
  intros prec emax Hp Hm Sm a e [[R1 R2] R3 R4] P Y p0 y0 k m unique bs ord idx cw xs dw st Hk Hdw Hcw Hm1 Hord Hn HM Wd Wc C1 C2 Hst.
  rewrite <- (positives_spec prec emax) in C1, C2 by assumption.
  destruct (fherding_refine prec emax a e R1 R2 R3 R4 p0 y0 k (fun x y => proj1 (at_most_bd _ _ _ _) (Hk x y)) m unique bs ord idx cw xs dw
     Hdw Hcw Hm1 Hord Hn HM Wd Wc C1 C2 st) as [l [g [E [L [V [U [GL GB]]]]]]].
  - intros g Eg. destruct (Hst g Eg) as [A B]. split; auto. eapply Forall_impl; [|exact B]. intros v. apply at_most_bd.
  - exists l, g. split; [exact E|]. split; [eapply valid_intro; eauto|]. split; auto. eapply Forall_impl; [|exact GB]. intros v. apply at_most_bd.
Qed.
Print Assumptions C70_herding_refine.

Theorem C70_herding_reduce :
  forall prec emax (Hp : Prec_gt_0 prec) (Hm : Prec_lt_emax prec emax) (Sm : SumOrder prec emax) a e, room prec emax a e ->
  forall {P Y} (p0 : P) (y0 : Y) (k : P -> P -> binary_float prec emax) m unique bs ord xs dw st,
  (forall x y, at_most e (k x y)) ->
  length dw = length xs -> 1 <= m ->
  (forall i, Permutation (ord i) (seq 0 m)) ->
  (Z.of_nat (length xs) <= 2 ^ a)%Z ->
  Forall weight_ok dw ->
  1 <= positives dw -> m <= length xs -> (unique = true -> m <= positives dw) ->
  (forall g, st = Some g -> length g = length xs /\ Forall (at_most (e + a + 1)) g) ->
  exists l g, herding_reduce (FOpsIEEE prec emax) p0 y0 (mkHerding m k unique bs Greedy) ord (mkData xs dw None : Data P Y _) st
      = Ok (mkCS (map Z.of_nat l) (repeat Bone m) (mkData xs dw None), g) /\
    valid_indices dw m unique l /\ length g = length xs /\ Forall (at_most (e + a + 1)) g.
Proof.
  intros prec emax Hp Hm Sm a e R P Y p0 y0 k m unique bs ord xs dw st Hk Hdw Hm1 Hord Hn Wd C1 C2 C3 Hst.
  unfold herding_reduce. cbn [h_size]. rewrite initial_fine by (unfold d_len; cbn; exact C2). cbn [bind].
  apply C70_herding_refine; auto; rewrite ?repeat_length; auto; rewrite ?Nat.max_id; auto; try lia.
  apply Forall_forall. intros v Hv. apply repeat_spec in Hv. subst v. split; [reflexivity|]. cbn. lra.
Qed.
Print Assumptions C70_herding_reduce.

(** ** C70: SteinThinning *)
(** the regularisation terms, when there are any: the Laplacian correction and the log
    density have an entry per point, and the parameter is at most one in size (the
    default is one over the length of the coreset being refined) *)
Definition regulariser_ok {prec emax P} (b : Z) (xs : list P) (dw : list (binary_float prec emax)) (clen : nat)
    (reg : option (option (binary_float prec emax) * (list P -> list (binary_float prec emax) -> list (binary_float prec emax))
                   * (list P -> list (binary_float prec emax)))) : Prop :=
  match reg with
  | None => True
  | Some (lam, logpdf, lap) =>
      length (lap xs) = length xs /\ Forall (at_most b) (lap xs) /\
      length (logpdf xs dw) = length xs /\ Forall (at_most b) (logpdf xs dw) /\
      match lam with Some l => at_most 0 l | None => 1 <= clen end
  end.

Theorem C70_stein_refine :
  forall prec emax (Hp : Prec_gt_0 prec) (Hm : Prec_lt_emax prec emax) (Sm : SumOrder prec emax) a e, room prec emax a e ->
  forall {P Y} (p0 : P) (y0 : Y) (k : P -> P -> binary_float prec emax) m unique bs reg ord idx cw xs dw,
  (forall x y, at_most e (k x y)) ->
  length dw = length xs -> length cw = length idx -> 1 <= m ->
  (forall i, Permutation (ord i) (seq 0 (Nat.max (length idx) m))) ->
  (Z.of_nat (length xs) <= 2 ^ a)%Z -> (Z.of_nat (Nat.max (length idx) m) <= 2 ^ a)%Z ->
  Forall weight_ok dw -> Forall weight_ok cw ->
  1 <= positives dw -> (unique = true -> Nat.max (length idx) m <= positives dw) ->
  regulariser_ok (e + a + 1) xs dw (length idx) reg ->
  exists l, stein_refine (FOpsIEEE prec emax) p0 y0 (mkStein m k unique bs reg) ord (mkCS idx cw (mkData xs dw None : Data P Y _))
      = Ok (mkCS (map Z.of_nat l) (repeat Bone m) (mkData xs dw None)) /\ valid_indices dw m unique l.
Proof.
  intros prec emax Hp Hm Sm a e [[R1 R2] R3 R4] P Y p0 y0 k m unique bs reg ord idx cw xs dw Hk Hdw Hcw Hm1 Hord Hn HM Wd Wc C1 C2 Hreg.
  rewrite <- (positives_spec prec emax) in C1, C2 by assumption.
  destruct (fstein_refine prec emax a e R1 R2 R3 R4 p0 y0 k (fun x y => proj1 (at_most_bd _ _ _ _) (Hk x y)) m unique bs ord idx cw xs dw
     Hdw Hcw Hm1 Hord Hn HM Wd Wc C1 C2 reg) as [l [E [L [V U]]]].
  - assert (PE : (prec < emax)%Z) by assumption. unfold stein_terms. cbn [s_reg]. destruct reg as [[[lam logpdf] lap]|]; [|exact I]. unfold regulariser_ok in Hreg. unfold small_terms.
    destruct Hreg as (L1 & B1 & L2 & B2 & Hl). rewrite map_length. repeat (split; [assumption|]).
    split; [eapply Forall_impl; [|exact B1]; intros v; apply at_most_bd|].
    assert (HL : exists l, is_finite l = true /\ (Rabs (B2R l) <= bpow radix2 0)%R /\
       match lam with None => fdiv (FOpsIEEE prec emax) (f1 (FOpsIEEE prec emax)) (fofZ (FOpsIEEE prec emax) (Z.of_nat (length idx))) | Some l => l end = l).
    { destruct lam as [l|]; [exists l; destruct Hl; auto|]. eexists. split; [|split; [|reflexivity]].
      all: destruct (ofZ_bound prec emax (Z.of_nat (length idx)) a) as (Z1 & Z2 & Z3); [lia|lia|].
      all: destruct (bd_div prec emax 0 1 ltac:(lia) ltac:(lia) ltac:(lia) 1 Bone (fofZ (FOpsIEEE prec emax) (Z.of_nat (length idx)))) as [F1 F2];
        [split; [apply is_finite_Bone|rewrite Bone_correct; rewrite Rabs_R1; cbn; lra]|exact Z1|apply Z3; lia|lia|].
      - exact F1.
      - eapply Rle_trans; [exact F2|]. cbn. lra. }
    destruct HL as [l [FL [BL ->]]]. apply Forall_forall. intros v Hv. apply in_map_iff in Hv as [q [<- Hq]].
    apply (bd_mult prec emax (e + a + 1) (a + 3) ltac:(lia) ltac:(lia) ltac:(lia) 0); auto.
    + replace (e + a + 1 - 0)%Z with (e + a + 1)%Z by lia. apply at_most_bd. rewrite Forall_forall in B2. auto.
    + change (Z.of_nat 1) with (2 ^ 0)%Z. apply Z.pow_lt_mono_r; lia.
  - exists l. split; [exact E|]. eapply valid_intro; eauto.
Qed.
Print Assumptions C70_stein_refine.

Theorem C70_stein_reduce :
  forall prec emax (Hp : Prec_gt_0 prec) (Hm : Prec_lt_emax prec emax) (Sm : SumOrder prec emax) a e, room prec emax a e ->
  forall {P Y} (p0 : P) (y0 : Y) (k : P -> P -> binary_float prec emax) m unique bs reg ord xs dw,
  (forall x y, at_most e (k x y)) ->
  length dw = length xs -> 1 <= m ->
  (forall i, Permutation (ord i) (seq 0 m)) ->
  (Z.of_nat (length xs) <= 2 ^ a)%Z ->
  Forall weight_ok dw ->
  1 <= positives dw -> m <= length xs -> (unique = true -> m <= positives dw) ->
  regulariser_ok (e + a + 1) xs dw m reg ->
  exists l, stein_reduce (FOpsIEEE prec emax) p0 y0 (mkStein m k unique bs reg) ord (mkData xs dw None : Data P Y _)
      = Ok (mkCS (map Z.of_nat l) (repeat Bone m) (mkData xs dw None)) /\ valid_indices dw m unique l.
Proof.
  intros prec emax Hp Hm Sm a e R P Y p0 y0 k m unique bs reg ord xs dw Hk Hdw Hm1 Hord Hn Wd C1 C2 C3 Hreg.
  unfold stein_reduce. cbn [s_size]. rewrite initial_fine by (unfold d_len; cbn; exact C2). cbn [bind].
  apply (C70_stein_refine prec emax Hp Hm Sm a e R); auto; rewrite ?repeat_length; auto; rewrite ?Nat.max_id; auto; try lia.
  apply Forall_forall. intros v Hv. apply repeat_spec in Hv. subst v. split; [reflexivity|]. cbn. lra.
Qed.
Print Assumptions C70_stein_reduce.

(** ** The conditions are met, and the one on the kernel values is needed *)
(** binary32: two million points and kernel values up to [2^60] *)
Example C70_room : room 24 128 21 60.
Proof. constructor; lia. Qed.
(** binary64: a thousand million points, kernel values up to [2^900] *)
Example C70_room64 : room 53 1024 30 900.
Proof. constructor; lia. Qed.
Lemma f32_one : at_most 60 (Bone : F32).
Proof.
  split; [apply is_finite_Bone|]. rewrite Bone_correct, Rabs_R1. change 1%R with (bpow radix2 0). apply bpow_le. lia.
Qed.
Lemma f32_weight : weight_ok (Bone : F32).
Proof. split; [apply is_finite_Bone|]. rewrite Bone_correct. lra. Qed.
Example C70_herding_applies : exists l g,
  herding_reduce F32Ops 0 tt (mkHerding 3 (fun _ _ => Bone) true (BOne None) Greedy) (fun _ => seq 0 3) (mkData [7; 8; 9] (repeat Bone 3) None) None
    = Ok (mkCS (map Z.of_nat l) (repeat Bone 3) (mkData [7; 8; 9] (repeat Bone 3) None), g) /\ NoDup l.
Proof.
  assert (PS : positives (repeat (Bone : F32) 3) = 3).
  { unfold positives. cbn [repeat filter]. rewrite Bone_correct. rewrite Rlt_bool_true by lra. reflexivity. }
  destruct (C70_herding_reduce 24 128 _ _ _ 21 60 C70_room 0 tt (fun _ _ => Bone) 3 true (BOne None) (fun _ => seq 0 3) [7; 8; 9] (repeat Bone 3) None)
    as [l [g [E [(_ & _ & U) _]]]]; try (rewrite PS; lia); try discriminate; try reflexivity.
  - intros. apply f32_one.
  - lia.
  - apply Forall_forall. intros v Hv. apply repeat_spec in Hv. subst v. apply f32_weight.
  - exists l, g. split; [exact E|exact (U eq_refl)].
Qed.
Example C70_regulariser_applies :
  regulariser_ok (P := nat) (prec := 24) (emax := 128) 60 [7; 8; 9] (repeat Bone 3) 3 (Some (None, fun x _ => map (fun _ => Bone) x, map (fun _ => Bone))).
Proof.
  assert (F : Forall (at_most 60) [Bone; Bone; Bone : F32]) by (do 3 (apply Forall_cons; [apply f32_one|]); apply Forall_nil).
  unfold regulariser_ok. split; [reflexivity|]. split; [exact F|]. split; [reflexivity|]. split; [exact F|]. lia.
Qed.
(** a constant kernel of value [2^127]: the sums overflow to infinity after two picks, the
    mark on the points already taken is lost, and the first point is picked again *)
Theorem C70_large_kernel_values_refuted :
  is_finite (f32 1 127) = true /\
  exists c g, herding_reduce F32Ops 0 tt (mkHerding 3 (fun _ _ => f32 1 127) true (BOne None) Greedy) (fun _ => seq 0 3)
    (mkData [7; 8; 9] (repeat Bone 3) None) None = Ok (c, g) /\ c_idx c = [0; 1; 0]%Z.
Proof.
  split; [reflexivity|].
  set (r := herding_reduce _ _ _ _ _ _ _).
  assert (E : match r with Ok (c, _) => c_idx c | Err _ => [] end = [0; 1; 0]%Z) by (vm_compute; reflexivity).
  destruct r as [[c g]|]; [eauto|discriminate].
Qed.
Print Assumptions C70_large_kernel_values_refuted.
