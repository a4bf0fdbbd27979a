(** * The median heuristic in floating point: sorting and order statistics *)
From Coq Require Import List ZArith Bool Reals Sorting.Sorted Permutation Lia Lra.
From Coq Require Import Floats.SpecFloat.
From Flocq Require Import Core.Core IEEE754.BinarySingleNaN.
From Verif Require Import Num Jax RSum Float MeanModel UtilModel UtilSpec UtilProofs KernelProofs FloatProofs2 FloatGreedy FloatErr FloatRate3 FloatKern FloatKern2 FloatKernSpec FloatKern3.
Import ListNotations.
Open Scope R_scope.

(** ** sorting preserves a relation that allows exchanges *)
Section Exchange.
  Variable P : R -> R -> Prop.
  Hypothesis HX : forall b a b' a', P b a -> P b' a' -> b' <= b -> a <= a' -> P b' a /\ P b a'.
  Lemma insert_head a l : StronglySorted Rle (a :: l) -> rinsert a l = a :: l.
  Proof.
    intros S. destruct l as [|b l]; [reflexivity|]. cbn. apply StronglySorted_inv in S as [_ F]. inversion F; subst. destruct (Rlt_dec b a); [lra|reflexivity].
  Qed.
  Lemma insert_rel l m : StronglySorted Rle l -> StronglySorted Rle m -> Forall2 P l m ->
    forall b a, P b a -> Forall2 P (rinsert b l) (rinsert a m).
  Proof.
    intros SL SM H. revert SL SM. induction H as [|b' a' l m Q H IH]; intros SL SM b a PB; [repeat constructor; auto|].
    pose proof (StronglySorted_inv SL) as [SL' _]. pose proof (StronglySorted_inv SM) as [SM' _]. specialize (IH SL' SM').
    cbn [rinsert]. destruct (Rlt_dec b' b) as [B|B], (Rlt_dec a' a) as [A|A].
    - constructor; auto.
    - destruct (HX b a b' a' PB Q) as [X1 X2]; [lra|lra|]. constructor; [exact X1|]. rewrite <- (insert_head a' m SM). now apply IH.
    - destruct (HX b' a' b a Q PB) as [X1 X2]; [lra|lra|]. constructor; [exact X1|]. rewrite <- (insert_head b' l SL). now apply IH.
    - repeat constructor; auto.
  Qed.
  Lemma sort_rel l m : Forall2 P l m -> Forall2 P (rsort l) (rsort m).
  Proof.
    induction 1; [constructor|]. cbn. apply insert_rel; auto; apply rsort_sorted.
  Qed.
End Exchange.
Lemma Forall2_at {A B} (P : A -> B -> Prop) l m i da db : Forall2 P l m -> (i < length l)%nat -> P (nth i l da) (nth i m db).
Proof. intros H. revert i. induction H; intros i Hi; [cbn in Hi; lia|]. destruct i; [assumption|]. apply IHForall2. cbn in Hi. lia. Qed.

Section Med.
  Context (prec emax : Z) {Hprec : Prec_gt_0 prec} {Hmax : Prec_lt_emax prec emax} {Sm : SumOrder prec emax}.
  Notation flt := (binary_float prec emax).
  Notation O := (FOpsIEEE prec emax).
  Notation rnd := (round radix2 (SpecFloat.fexp prec emax) (round_mode mode_NE)).
  Notation big := (bpow radix2 emax).
  Notation uu := (uu prec).
  Notation tau := (tau emax).
  Notation gg := (gg prec).
  Notation apx := (apx prec emax).
  Notation fin := (fun v : flt => is_finite v = true).

  Lemma insert_float (a : flt) l : fin a -> Forall fin l ->
    map B2R (finsert O a l) = rinsert (B2R a) (map B2R l) /\ Forall fin (finsert O a l).
  Proof.
    intros Fa. induction 1 as [|b l Fb Fl [E F]]; [cbn; auto|]. cbn [finsert map rinsert].
    change (fltb O b a) with (Bltb b a). rewrite (Bltb_correct prec emax) by auto.
    destruct (Rlt_bool_spec (B2R b) (B2R a)) as [L|L], (Rlt_dec (B2R b) (B2R a)); try lra; cbn [map].
    - rewrite E. split; [reflexivity|constructor; auto].
    - split; [reflexivity|repeat constructor; auto].
  Qed.
  Lemma sort_float l : Forall fin l -> map B2R (fsort O l) = rsort (map B2R l) /\ Forall fin (fsort O l).
  Proof.
    induction 1 as [|a l Fa Fl [E F]]; [cbn; auto|]. cbn [fsort fold_right map rsort]. change (fold_right (finsert O) [] l) with (fsort O l).
    destruct (insert_float a (fsort O l) Fa F) as [E2 F2]. rewrite E2, E. auto.
  Qed.
  Lemma nn_sort l : Forall (nn prec emax) l -> Forall (nn prec emax) (fsort O l).
  Proof.
    induction 1 as [|a l Fa Fl IH]; [constructor|]. cbn [fsort fold_right]. change (fold_right (finsert O) [] l) with (fsort O l).
    clear Fl. induction IH as [|b m Fb Fm IH]; [repeat constructor; auto|]. cbn [finsert]. destruct (fltb O b a); repeat constructor; auto.
  Qed.

  Variable d : nat.
  Hypothesis HR : kernel_room prec emax 0 d.
  Lemma two_ok : is_finite (fofZ O 2) = true /\ B2R (fofZ O 2) = 2.
  Proof using HR Hprec Hmax.
    pose proof (prec_ge prec emax 0 d HR). assert (2 < 2 ^ prec)%Z by (apply Z.lt_le_trans with (2 ^ 2)%Z; [reflexivity|apply Z.pow_le_mono_r; lia]).
    apply ofZ_exact. lia.
  Qed.
  Lemma two_pos : pos prec emax (fofZ O 2).
  Proof using HR Hprec Hmax. apply pos_spec. destruct two_ok as [A B]. split; [exact A|]. rewrite B. lra. Qed.
  Lemma apx_half N a x S : apx N a x S -> gg (Datatypes.S N) * (S / 2 + tau) < big ->
    apx (Datatypes.S N) (Bdiv mode_NE a (fofZ O 2)) (x / 2) (S / 2 + tau).
  Proof using HR Hprec Hmax.
    intros A L. destruct two_ok as [F2 R2].
    assert (RL : rel prec emax 0 (fofZ O 2) 2).
    { unfold rel. cbn [FloatErr.gg pow]. rewrite R2. repeat split; auto; lra. }
    destruct (div_apxo prec emax N 0 a (fofZ O 2) x S 2 A ltac:(lra) RL) as [B|(_ & _ & B)].
    - replace (N + 0 + 1)%nat with (Datatypes.S N) in B by lia. exact B.
    - replace (N + 0 + 1)%nat with (Datatypes.S N) in B by lia. lra.
  Qed.

  Definition eta : R := INR d * tau.
  Lemma eta_small : 0 <= eta <= / 4.
  Proof using HR Hprec Hmax.
    assert (BL : bpow radix2 (- 0) <= B2R (Bone : flt) <= bpow radix2 0) by (rewrite Bone_correct; cbn; lra).
    pose proof (eta2_small prec emax 0 d HR Bone (repeat Bone d) (repeat Bone d) BL (repeat_length _ _)) as (A & _ & B).
    unfold eta2 in *. rewrite combine_length, !repeat_length, Nat.min_id in *. unfold eta. lra.
  Qed.
  (** what a computed squared distance satisfies *)
  Definition close (v : flt) (a : R) : Prop := nn prec emax v /\ apx (d + 3) v a (a + eta) /\ 0 <= a <= bpow radix2 (emax - 2).
  Definition row (x : list flt) : Prop := all_finite prec emax x /\ length x = d.
  Lemma sqd_close x y : row x -> row y -> sqdist (map B2R x) (map B2R y) <= bpow radix2 (emax - 2) ->
    close (squared_distance O x y) (sqdist (map B2R x) (map B2R y)).
  Proof using HR Hprec Hmax.
    intros [Fx Lx] [Fy Ly] B. split; [now apply nn_sqd|]. pose proof (UtilProofs.sqdist_nonneg (map B2R x) (map B2R y)) as S0.
    assert (BL : bpow radix2 (- 0) <= B2R (Bone : flt) <= bpow radix2 0) by (rewrite Bone_correct; cbn; lra).
    pose proof (sqd_over prec emax 0 d HR Bone x y BL Fx Fy Lx) as Q. rewrite sqdist_map2 in Q. fold (sqdist (map B2R x) (map B2R y)) in Q.
    unfold eta2 in Q. rewrite combine_length, Lx, Ly, Nat.min_id in Q. fold eta in Q. split; [|lra].
    destruct Q as [Q|[_ Q]]; [exact Q|]. exfalso.
    assert (bpow radix2 (emax - 2) < bpow radix2 (emax - 1)) by (apply bpow_lt; lia). lra.
  Qed.
  Lemma pairs_close xs : Forall row xs ->
    (forall x y, In x xs -> In y xs -> sqdist (map B2R x) (map B2R y) <= bpow radix2 (emax - 2)) ->
    Forall2 close (upper (pairwise (squared_distance O) xs xs)) (pair_distances (map (map B2R) xs)).
  Proof using HR Hprec Hmax.
    induction xs as [|x xs IH]; intros HF HB; [constructor|]. unfold pairwise in *. cbn [map pair_distances]. rewrite upper_cons. cbn [skipn].
    inversion HF as [|? ? Hx HF']; subst. apply Forall2_app.
    - rewrite map_map. assert (G : forall ys, incl ys xs -> Forall2 close (map (fun y => squared_distance O x y) ys) (map (fun y => sqdist (map B2R x) (map B2R y)) ys)).
      { induction ys as [|y ys IHy]; intros Hi; [constructor|]. cbn. constructor.
        - assert (In y xs) by (apply Hi; now left). apply sqd_close; auto; [rewrite Forall_forall in HF'; now apply HF'|apply HB; [now left|now right]].
        - apply IHy. intros z Hz. apply Hi. now right. }
      apply G. apply incl_refl.
    - rewrite map_map. cbn. apply IH; auto. intros; apply HB; now right.
  Qed.
  Lemma close_exchange b a b' a' : let P u v := Rabs (u - v) <= (gg (d + 3) - 1) * (v + eta) /\ 0 <= v <= bpow radix2 (emax - 2) in
    P b a -> P b' a' -> b' <= b -> a <= a' -> P b' a /\ P b a'.
  Proof using HR Hprec Hmax.
    intros P [A1 A2] [B1 B2] H1 H2. unfold P. destruct (gg_small prec emax 0 d HR (d + 3) ltac:(lia)) as [_ G]. pose proof (gg_ge1 prec (d + 3)).
    apply Rabs_le_inv in A1, B1. set (dl := gg (d + 3) - 1) in *. assert (0 <= dl <= 1) by (unfold dl; lra).
    assert (dl * (a' - a) <= a' - a) by nra. assert (0 <= dl * (a' - a)) by nra.
    split; (split; [apply Rabs_le|]; lra).
  Qed.
  (** the order statistics are as accurate as the entries *)
  Lemma order_close l m i : Forall2 close l m -> (i < length l)%nat ->
    nn prec emax (nth i (fsort O l) (f0 O)) /\ apx (d + 3) (nth i (fsort O l) (f0 O)) (nth i (rsort m) 0) (nth i (rsort m) 0 + eta) /\
    0 <= nth i (rsort m) 0 <= bpow radix2 (emax - 2).
  Proof using HR Hprec Hmax.
    intros H Hi. pose proof eta_small as E.
    assert (FL : Forall fin l) by (clear - H; induction H as [|? ? ? ? (_ & (F & _) & _)]; constructor; auto).
    assert (NL : Forall (nn prec emax) l) by (clear - H; induction H as [|? ? ? ? (N & _ & _)]; constructor; auto).
    destruct (sort_float l FL) as [ES FS]. pose proof (nn_sort l NL) as NS.
    assert (LS : length (fsort O l) = length l).
    { rewrite <- (map_length B2R (fsort O l)), ES. rewrite (Permutation_length (rsort_perm _)). apply map_length. }
    assert (R2 : Forall2 (fun u v => Rabs (u - v) <= (gg (d + 3) - 1) * (v + eta) /\ 0 <= v <= bpow radix2 (emax - 2)) (map B2R l) m).
    { clear - H. induction H as [|v a l m (_ & (_ & _ & B) & C) H IH]; cbn; constructor; auto. }
    apply (sort_rel _ close_exchange) in R2. rewrite <- ES in R2.
    assert (Hi2 : (i < length (map B2R (fsort O l)))%nat) by (rewrite map_length; lia).
    pose proof (Forall2_at _ _ _ i 0 0 R2 Hi2) as [Q1 Q2]. change 0 with (B2R (f0 O)) in Q1 at 1. rewrite (map_nth B2R) in Q1.
    assert (Hi3 : (i < length (fsort O l))%nat) by lia.
    split; [|split; [|exact Q2]].
    - rewrite Forall_forall in NS. apply NS, nth_In. exact Hi3.
    - split; [rewrite Forall_forall in FS; apply FS, nth_In; exact Hi3|]. split; [rewrite Rabs_pos_eq; lra|exact Q1].
  Qed.
  Lemma median_close l m : Forall2 close l m -> l <> [] ->
    nn prec emax (median O l) /\ apx (d + 5) (median O l) (rmedian m) (rmedian m + eta + tau) /\ 0 <= rmedian m <= bpow radix2 (emax - 2).
  Proof using HR Hprec Hmax.
    intros H HN. pose proof eta_small as E. pose proof (tau_pos emax) as TP. pose proof (tau_small prec emax 0 d HR) as TS. pose proof (uu_tiny prec emax 0 d HR) as UT.
    assert (LM : length l = length m) by (clear - H; induction H; cbn; congruence).
    assert (NN : existsb (fisnan O) l = false).
    { apply not_true_is_false. intros X. apply existsb_exists in X as [v [Hv Nv]].
      assert (FL : Forall fin l) by (clear - H; induction H as [|? ? ? ? (_ & (F & _) & _)]; constructor; auto).
      rewrite Forall_forall in FL. specialize (FL v Hv). destruct v; cbn in *; discriminate. }
    assert (UM : median O l = Bdiv mode_NE (Bplus mode_NE (nth ((length l - 1) / 2) (fsort O l) (f0 O)) (nth (length l / 2) (fsort O l) (f0 O))) (fofZ O 2)).
    { unfold median. destruct l as [|v l]; [congruence|]. rewrite NN. reflexivity. }
    assert (LP : (0 < length l)%nat) by (destruct l; [congruence|cbn; lia]).
    assert (I1 : ((length l - 1) / 2 < length l)%nat) by (apply Nat.div_lt_upper_bound; lia).
    assert (I2 : (length l / 2 < length l)%nat) by (apply Nat.div_lt_upper_bound; lia).
    destruct (order_close l m _ H I1) as (N1 & A1 & B1). destruct (order_close l m _ H I2) as (N2 & A2 & B2).
    rewrite UM. unfold rmedian. rewrite <- LM. clear UM NN I1 I2.
    set (u := nth ((length l - 1) / 2) (fsort O l) (f0 O)) in *. set (v := nth (length l / 2) (fsort O l) (f0 O)) in *.
    set (a := nth ((length l - 1) / 2) (rsort m) 0) in *. set (b := nth (length l / 2) (rsort m) 0) in *. clearbody u v a b.
    destruct (gg_small prec emax 0 d HR (S (d + 3)) ltac:(lia)) as [_ G1]. destruct (gg_small prec emax 0 d HR (S (S (d + 3))) ltac:(lia)) as [_ G2].
    assert (BE : bpow radix2 emax = 4 * bpow radix2 (emax - 2)).
    { replace emax with (2 + (emax - 2))%Z at 1 by lia. rewrite bpow_plus. reflexivity. }
    assert (BB : 4 <= bpow radix2 (emax - 2)).
    { change 4 with (bpow radix2 2). apply bpow_le. destruct HR as [[_ Q] _]. pose proof (prec_ge prec emax 0 d HR). lia. }
    pose proof (gg_ge1 prec (S (d + 3))). pose proof (gg_ge1 prec (S (S (d + 3)))).
    assert (AP : apx (S (d + 3)) (Bplus mode_NE u v) (a + b) (a + eta + (b + eta))).
    { apply apx_add; auto. assert (a + eta + (b + eta) <= 2 * bpow radix2 (emax - 2) + / 2) by lra. nra. }
    split; [|split; [|lra]].
    - apply nn_div; [now apply nn_plus|exact two_pos].
    - replace (d + 5)%nat with (S (S (d + 3))) by lia. replace ((a + b) / 2 + eta + tau) with ((a + eta + (b + eta)) / 2 + tau) by field.
      apply apx_half; auto. assert ((a + eta + (b + eta)) / 2 + tau <= bpow radix2 (emax - 2) + 1) by lra. nra.
  Qed.
  Lemma heuristic_close xs : Forall row xs -> (2 <= length xs)%nat ->
    (forall x y, In x xs -> In y xs -> sqdist (map B2R x) (map B2R y) <= bpow radix2 (emax - 2)) ->
    let b := sqrt (rmedian (pair_distances (map (map B2R) xs)) / 2) in
    apx (d + 7) (median_heuristic O xs) b (b + sqrt ((eta / 2 + 3 / 2 * tau) / uu) + tau).
  Proof using HR Hprec Hmax.
    intros HF HL HB b. pose proof eta_small as E. pose proof (tau_pos emax) as TP. pose proof (tau_small prec emax 0 d HR) as TS. pose proof (uu_tiny prec emax 0 d HR) as UT.
    pose proof (pairs_close xs HF HB) as PC.
    assert (NE : upper (pairwise (squared_distance O) xs xs) <> []).
    { intros Q. rewrite Q in PC. inversion PC as [E0|]. apply (pair_distances_nil (map (map B2R) xs)); [now rewrite map_length|auto]. }
    destruct (median_close _ _ PC NE) as (N & A & B). unfold median_heuristic, b.
    set (r := rmedian (pair_distances (map (map B2R) xs))) in *. set (v := median O (upper (pairwise (squared_distance O) xs xs))) in *. clearbody r v.
    change (fsqrt O (fdiv O v (fofZ O 2))) with (Bsqrt mode_NE (Bdiv mode_NE v (fofZ O 2))).
    destruct (gg_small prec emax 0 d HR (S (d + 5)) ltac:(lia)) as [_ G1]. pose proof (gg_ge1 prec (S (d + 5))).
    assert (BE : bpow radix2 emax = 4 * bpow radix2 (emax - 2)).
    { replace emax with (2 + (emax - 2))%Z at 1 by lia. rewrite bpow_plus. reflexivity. }
    assert (BB : 4 <= bpow radix2 (emax - 2)).
    { change 4 with (bpow radix2 2). apply bpow_le. destruct HR as [[_ Q] _]. pose proof (prec_ge prec emax 0 d HR). lia. }
    replace (d + 7)%nat with (S (S (d + 5))) by lia.
    apply sqrt_apx; try lia; try lra.
    - apply nn_div; [exact N|exact two_pos].
    - replace (r / 2 + (eta / 2 + 3 / 2 * tau)) with ((r + eta + tau) / 2 + tau) by field. apply apx_half; auto.
      assert ((r + eta + tau) / 2 + tau <= bpow radix2 (emax - 2) + 1) by lra. nra.
  Qed.
End Med.
