(** * KernelHerding / SteinThinning: greedy rule and monotone refinement *)
From Coq Require Import List ZArith Reals Lra Lia Bool Permutation.
From Verif Require Import Num Jax RSum JaxFacts ArgFacts DataModel MeanModel MeanProofs DataMeanLemmas DataProofs
  MeanSpec GreedySpec GreedyModel GreedyProofs GreedyProofs2.
Import ListNotations.
Open Scope R_scope.

Lemma nth_repeat0 n i : nth i (repeat 0 n) 0 = 0.
Proof. revert i; induction n; destruct i; simpl; auto. Qed.
Lemma npos_zero n : npos (repeat 0 n) = 0%nat.
Proof. unfold npos. induction n; simpl; auto. destruct (Rlt_dec 0 0); [lra|assumption]. Qed.
Lemma filter_all {A} (f : A -> bool) l : (forall a, In a l -> f a = true) -> filter f l = l.
Proof. induction l; simpl; intros H; auto. rewrite (H a) by auto. f_equal. auto. Qed.
Lemma filter_none {A} (f : A -> bool) l : (forall a, In a l -> f a = false) -> filter f l = [].
Proof. induction l; simpl; intros H; auto. rewrite (H a) by auto. auto. Qed.
Lemma npos_const c n : 0 < c -> npos (repeat c n) = n.
Proof.
  intros Hc. unfold npos. rewrite filter_all; [apply repeat_length|].
  intros a Ha. apply repeat_spec in Ha. subst. now destruct (Rlt_dec 0 c).
Qed.
Lemma firstn_map_nth {A} (l : list A) t d : (t <= length l)%nat ->
  firstn t l = map (fun i => nth i l d) (seq 0 t).
Proof.
  intros H. apply (list_ext _ _ d).
  - rewrite firstn_length, map_length, seq_length. lia.
  - intros i Hi. rewrite firstn_length in Hi. rewrite nth_firstn by lia.
    rewrite (nth_map_lt _ _ _ 0%nat) by (rewrite seq_length; lia). now rewrite seq_nth by lia.
Qed.

(** ** reduce: start from nothing *)
Section Reduce.
  Context {P : Type} (p0 : P) (k : P -> P -> R).
  Variables (xs : list P) (dw : list R) (sel : nat -> list ER -> Z -> Z)
    (m : nat) (unique : bool) (ord : nat -> list nat).
  Hypothesis Hdw : length dw = length xs.
  Hypothesis Hm : (1 <= m)%nat.
  Hypothesis Hord : forall i, Permutation (ord i) (seq 0 m).
  Hypothesis Hpos1 : (1 <= npos dw)%nat.
  Hypothesis Hpos : unique = true -> (m <= npos dw)%nat.
  Notation idx := (repeat 0%Z m).
  Notation cw := (repeat 0 m).
  Hypothesis Hsel : sel_ok xs dw (pidx idx m) sel.
  Notation RES := (res p0 k idx cw xs dw sel m unique ord).

  Lemma cwl : length cw = length idx. Proof. now rewrite !repeat_length. Qed.
  Lemma maxm : Nat.max (length idx) m = m. Proof. rewrite repeat_length. lia. Qed.
  Lemma Hordm : forall i, Permutation (ord i) (seq 0 (Nat.max (length idx) m)).
  Proof. intros. rewrite maxm. apply Hord. Qed.
  Lemma Hposm : unique = true -> (Nat.max (length idx) m <= npos dw)%nat.
  Proof. intros. rewrite maxm. now apply Hpos. Qed.
  Lemma W0_zero : pcw cw idx m = repeat 0 m.
  Proof. unfold pcw. rewrite repeat_length, Nat.sub_diag. simpl. apply app_nil_r. Qed.
  Lemma I0_zero : pidx idx m = repeat 0%Z m.
  Proof. unfold pidx. rewrite repeat_length, Nat.sub_diag. simpl. apply app_nil_r. Qed.

  Notation ST := (gst p0 k xs dw (pcw cw idx m) (pidx idx m) (ipen p0 k xs (pcw cw idx m) (pidx idx m))
                   sel unique ord (Z.of_nat (npos (pcw cw idx m)))).

  Lemma reduce_penS t j : (t < m)%nat -> (j < length xs)%nat ->
    penS p0 k xs (pcw cw idx m) (pidx idx m) (ipen p0 k xs (pcw cw idx m) (pidx idx m)) (g_idx (ST t)) t j
    = Rsum (map (fun c => k (nth j xs p0) (nth c xs p0)) (firstn t RES)).
  Proof.
    intros Ht Hj. unfold penS, penR, outR, ipen. rewrite W0_zero, npos_zero.
    rewrite (nth_map_lt _ _ _ p0) by assumption. rewrite nth_repeat0.
    destruct (Rlt_dec 0 0); [lra|]. cbn [INR].
    rewrite (firstn_map_nth _ t 0%nat) by (rewrite res_len; auto using cwl, Hordm, Hposm; lia).
    rewrite map_map.
    transitivity (Rsum (map (fun i => k (nth j xs p0)
       (jget p0 xs (nth i (g_idx (ST t)) 0%Z)) - 0) (seq 0 t))).
    - rewrite W0_zero, npos_zero.
      rewrite (map_seq_ext _ (fun i => k (nth j xs p0) (jget p0 xs (nth i (g_idx
         (gst p0 k xs dw (repeat 0 m) (pidx idx m) (ipen p0 k xs (repeat 0 m) (pidx idx m)) sel unique ord (Z.of_nat 0) t)) 0%Z)) - 0)).
      + unfold ipen. rewrite npos_zero. lra.
      + intros i Hi. rewrite nth_repeat0. destruct (Rlt_dec 0 0); [lra|].
        unfold ipen. rewrite npos_zero. reflexivity.
    - rewrite <- (map_seq_ext (fun i => k (nth j xs p0) (nth (nth i RES 0%nat) xs p0))); [reflexivity|].
      intros i Hi. rewrite st_prefix by (auto using cwl, Hordm, Hposm; lia).
      rewrite jget_nat by (apply res_range; auto using cwl, Hordm, Hposm; lia). lra.
  Qed.
  Lemma reduce_size t : (t < m)%nat -> size1 (pcw cw idx m) t (ST t) = Z.of_nat (t + 1).
  Proof.
    intros Ht.
    assert (HI : (t <= length (pidx idx m))%nat) by (rewrite I0_zero, repeat_length; lia).
    destruct (run_inv p0 k idx cw xs dw sel m unique ord Hdw cwl Hm Hordm Hpos1 Hposm Hsel t HI)
      as [_ [_ [_ [_ [Hs _]]]]].
    erewrite (size1_eq (pcw cw idx m) (pidx idx m)); try exact Hs; auto.
    - unfold sizeR. rewrite W0_zero, npos_zero, filter_all; [rewrite seq_length; lia|].
      intros i Hi. rewrite nth_repeat0. destruct (Rlt_dec 0 0); [lra|reflexivity].
    - now rewrite ?W0_zero, ?I0_zero, ?repeat_length.
    - rewrite ?W0_zero, ?I0_zero, ?repeat_length. lia.
  Qed.
  (** entries offered to the selection function at step t *)
  Lemma reduce_values t : (t < m)%nat ->
    let v := gvalid p0 k xs dw (pcw cw idx m) unique ord t (ST t) in
    length v = length xs /\
    (forall j, (j < length xs)%nat -> nth j v NaN <> NInf) /\
    (exists j q, (j < length xs)%nat /\ nth j v NaN = Fin q) /\
    (forall j q, (j < length xs)%nat -> nth j v NaN = Fin q ->
       candidate dw unique (firstn t RES) j /\
       q = Rsum (map (fun c => k (nth j xs p0) (nth c xs p0)) (firstn t RES))) /\
    (forall j, candidate dw unique (firstn t RES) j ->
       nth j v NaN = Fin (Rsum (map (fun c => k (nth j xs p0) (nth c xs p0)) (firstn t RES)))).
  Proof.
    intros Ht v.
    assert (HI : (t <= length (pidx idx m))%nat) by (rewrite I0_zero, repeat_length; lia).
    pose proof (run_inv p0 k idx cw xs dw sel m unique ord Hdw cwl Hm Hordm Hpos1 Hposm Hsel t HI) as Hinv.
    destruct (step_values p0 k xs dw (pcw cw idx m) (pidx idx m)
       (ipen p0 k xs (pcw cw idx m) (pidx idx m)) unique ord (Z.of_nat (npos (pcw cw idx m)))
       Hdw ltac:(rewrite W0_zero, I0_zero, !repeat_length; reflexivity) (map_length _ _)
       ltac:(intros; rewrite I0_zero, repeat_length; apply Hord)
       (Henough' idx cw xs dw m unique Hdw cwl Hm Hpos1 Hposm) t (ST t)
       ltac:(rewrite I0_zero, repeat_length; lia) Hinv) as [H1 [H2 [H3 [H4 [H5 H6]]]]].
    fold v in H1, H2, H3, H4, H5, H6.
    assert (Htk : forall j, taken (g_idx (ST t)) t j <-> In j (firstn t RES)).
    { intros j. apply st_taken; auto using cwl, Hordm, Hposm. lia. }
    repeat split; auto.
    - destruct (H4 j q H H0) as [A [B C]]. lia.
    - destruct (H4 j q H H0) as [A [B C]]. assumption.
    - destruct (H4 j q H H0) as [A [B C]]. intros Hu Hin. apply (B Hu). now apply Htk.
    - destruct (H4 j q H H0) as [A [B C]]. rewrite C. now apply reduce_penS.
    - intros j [Hj [Hw Hu]]. rewrite H5; try assumption.
      + f_equal. apply reduce_penS; [assumption|lia].
      + lia.
      + intros Hu' Hin. apply (Hu Hu'). now apply Htk.
      + intros _ p Hp _. right. rewrite W0_zero, nth_repeat0. lra.
  Qed.
  Lemma reduce_choice t : (t < m)%nat ->
    Z.of_nat (nth t RES 0%nat)
    = sel t (gvalid p0 k xs dw (pcw cw idx m) unique ord t (ST t)) (Z.of_nat (t + 1)).
  Proof.
    intros Ht. rewrite <- reduce_size by assumption.
    apply st_choice; auto using cwl, Hordm, Hposm.
  Qed.
  Lemma reduce_res_len : length RES = m.
  Proof. apply res_len; auto using cwl, Hordm, Hposm. Qed.
End Reduce.

Section HerdingReduce.
  Context {P : Type} (p0 : P) (k : P -> P -> R).
  Variables (xs : list P) (dw : list R) (m : nat) (unique : bool) (ord : nat -> list nat).
  Hypothesis Hdw : length dw = length xs.
  Hypothesis Hm : (1 <= m)%nat.
  Hypothesis Hord : forall i, Permutation (ord i) (seq 0 m).
  Hypothesis Hpos1 : (1 <= npos dw)%nat.
  Hypothesis Hpos : unique = true -> (m <= npos dw)%nat.

  Lemma herding_rule grm : length grm = length xs ->
    greedy_argmax (candidate dw unique)
      (herding_score k (fun j => nth j grm 0) (fun j => nth j xs p0))
      (res p0 k (repeat 0%Z m) (repeat 0 m) xs dw (herding_select EROps Greedy (map Fin grm)) m unique ord).
  Proof.
    intros Hg.
    assert (Hsel : sel_ok xs dw (pidx (repeat 0%Z m) m) (herding_select EROps Greedy (map Fin grm)))
      by now apply herding_sel_ok.
    intros t Ht. rewrite reduce_res_len in Ht by assumption. cbv zeta.
    set (RES := res _ _ _ _ _ _ _ _ _ _) in *.
    destruct (reduce_values p0 k xs dw _ m unique ord Hdw Hm Hord Hpos1 Hpos Hsel t Ht)
      as [H1 [H2 [H3 [H4 H5]]]]. fold RES in H4, H5.
    pose proof (reduce_choice p0 k xs dw _ m unique ord Hdw Hm Hord Hpos1 Hpos Hsel t Ht) as Hc.
    fold RES in Hc.
    set (v := gvalid _ _ _ _ _ _ _ _ _) in *.
    destruct (herding_select_spec xs grm t v (Z.of_nat (t + 1)) Hg H1 ltac:(lia) H2 H3)
      as [r [q [E [Hr [Eq Hmax]]]]].
    rewrite E in Hc. apply Nat2Z.inj in Hc. rewrite Hc.
    destruct (H4 r q Hr Eq) as [Hcand Hq]. split; [assumption|].
    intros j Hj. specialize (Hmax j _ ltac:(destruct Hj; lia) (H5 j Hj)).
    assert (HL : length (firstn t RES) = t).
    { rewrite firstn_length. unfold RES. rewrite reduce_res_len by assumption. lia. }
    unfold herding_score. rewrite HL. rewrite <- INR_IZR_INZ in Hmax. rewrite <- Hq. exact Hmax.
  Qed.

  Lemma stein_rule (reg : option (list R * list R)) :
    (forall lap rlp, reg = Some (lap, rlp) -> length lap = length xs /\ length rlp = length xs) ->
    greedy_argmax (candidate dw unique)
      (stein_score k (fun j => match reg with Some (lap, _) => nth j lap 0 | None => 0 end)
         (fun j => match reg with Some (_, rlp) => nth j rlp 0 | None => 0 end) (fun j => nth j xs p0))
      (res p0 k (repeat 0%Z m) (repeat 0 m) xs dw
         (stein_select EROps (map Fin (map (fun a => k a a) xs))
            (option_map (fun p => (map Fin (fst p), map Fin (snd p))) reg)) m unique ord).
  Proof.
    intros Hreg.
    assert (Hg : length (map (fun a => k a a) xs) = length xs) by apply map_length.
    pose proof (stein_sel_ok xs dw (pidx (repeat 0%Z m) m) _ reg Hg Hreg) as Hsel.
    intros t Ht. rewrite reduce_res_len in Ht by assumption. cbv zeta.
    set (RES := res _ _ _ _ _ _ _ _ _ _) in *.
    destruct (reduce_values p0 k xs dw _ m unique ord Hdw Hm Hord Hpos1 Hpos Hsel t Ht)
      as [H1 [H2 [H3 [H4 H5]]]]. fold RES in H4, H5.
    pose proof (reduce_choice p0 k xs dw _ m unique ord Hdw Hm Hord Hpos1 Hpos Hsel t Ht) as Hc.
    fold RES in Hc.
    set (v := gvalid _ _ _ _ _ _ _ _ _) in *.
    destruct (stein_select_spec xs _ reg t v (Z.of_nat (t + 1)) Hg H1 Hreg H2 H3)
      as [r [q [E [Hr [Eq Hmax]]]]].
    rewrite E in Hc. apply Nat2Z.inj in Hc. rewrite Hc.
    destruct (H4 r q Hr Eq) as [Hcand Hq]. split; [assumption|].
    intros j Hj. assert (Hj' : (j < length xs)%nat) by (destruct Hj; lia).
    specialize (Hmax j _ Hj' (H5 j Hj)).
    assert (HL : length (firstn t RES) = t).
    { rewrite firstn_length. unfold RES. rewrite reduce_res_len by assumption. lia. }
    unfold stein_score. rewrite HL. rewrite <- Hq.
    rewrite !(nth_map_lt _ _ _ p0) in Hmax by assumption.
    destruct Hmax as [Ha Hb]. split; [lra|]. intros He. apply Hb. lra.
  Qed.
End HerdingReduce.

(** ** refine: exchange steps *)
Section Refine.
  Context {P : Type} (p0 : P) (k : P -> P -> R).
  Variables (l0 : list nat) (c : R) (xs : list P) (dw : list R) (sel : nat -> list ER -> Z -> Z)
    (unique : bool) (ord : nat -> list nat).
  Notation m := (length l0).
  Hypothesis Hdw : length dw = length xs.
  Hypothesis Hm : (1 <= m)%nat.
  Hypothesis Hc : 0 < c.
  Hypothesis Hord : forall i, Permutation (ord i) (seq 0 m).
  Hypothesis Hl0 : forall i, In i l0 -> (i < length xs)%nat /\ 0 < nth i dw 0.
  Hypothesis Hnd0 : unique = true -> NoDup l0.
  Notation idx := (map Z.of_nat l0).
  Notation cw := (repeat c m).
  Hypothesis Hsel : sel_ok xs dw idx sel.
  Notation RES := (res p0 k idx cw xs dw sel m unique ord).
  Notation pen0 := (ipen p0 k xs cw idx).
  Notation ST := (gst p0 k xs dw cw idx pen0 sel unique ord (Z.of_nat m)).

  Lemma r_pos : (1 <= npos dw)%nat.
  Proof.
    destruct l0 as [|a l] eqn:E; [simpl in Hm; lia|].
    destruct (Hl0 a ltac:(now left)) as [A B]. pose proof (npos_pos dw a ltac:(lia) B). lia.
  Qed.
  Lemma r_posm : unique = true -> (m <= npos dw)%nat.
  Proof.
    intros Hu. rewrite <- (pos_idx_npos xs) by assumption. apply NoDup_incl_length; [auto|].
    intros i Hi. apply pos_idx_spec. now apply Hl0.
  Qed.
  Lemma r_idx : pidx idx m = idx.
  Proof. unfold pidx. rewrite map_length, Nat.sub_diag. simpl. apply app_nil_r. Qed.
  Lemma r_cw : pcw cw idx m = cw.
  Proof. unfold pcw. rewrite map_length, Nat.sub_diag. simpl. apply app_nil_r. Qed.
  Lemma r_cwl : length cw = length idx. Proof. now rewrite map_length, repeat_length. Qed.
  Lemma r_max : Nat.max (length idx) m = m. Proof. rewrite map_length. lia. Qed.
  Lemma r_ord : forall i, Permutation (ord i) (seq 0 (Nat.max (length idx) m)).
  Proof. intros. rewrite r_max. apply Hord. Qed.
  Lemma r_ord' : forall i, Permutation (ord i) (seq 0 (length idx)).
  Proof. intros. rewrite map_length. apply Hord. Qed.
  Lemma r_posm' : unique = true -> (Nat.max (length idx) m <= npos dw)%nat.
  Proof. rewrite r_max. exact r_posm. Qed.
  Lemma r_sel' : sel_ok xs dw (pidx idx m) sel. Proof. now rewrite r_idx. Qed.
  Lemma r_npos : npos cw = m. Proof. now apply npos_const. Qed.
  Lemma r_ST t : gst p0 k xs dw (pcw cw idx m) (pidx idx m)
          (ipen p0 k xs (pcw cw idx m) (pidx idx m)) sel unique ord
          (Z.of_nat (npos (pcw cw idx m))) t = ST t.
  Proof. now rewrite r_idx, r_cw, r_npos. Qed.
  Lemma r_inv t : (t <= m)%nat -> ginv p0 k xs dw cw idx pen0 unique (Z.of_nat m) t (ST t).
  Proof.
    intros Ht. pose proof (run_inv p0 k idx cw xs dw sel m unique ord Hdw r_cwl Hm r_ord r_pos r_posm' r_sel' t) as H.
    rewrite r_ST, r_idx, r_cw, r_npos in H. apply H. rewrite map_length. lia.
  Qed.
  Lemma r_enough : enough xs dw idx unique.
  Proof. unfold enough. rewrite pos_idx_npos, map_length by assumption. split; [apply r_pos|apply r_posm]. Qed.
  Lemma r_reslen : length RES = m.
  Proof. apply res_len; auto using r_cwl, r_ord, r_pos, r_posm', r_sel'. Qed.

  (** the current coreset after t exchanges *)
  Definition cur (t : nat) : list nat := firstn t RES ++ skipn t l0.
  Lemma cur_len t : (t <= m)%nat -> length (cur t) = m.
  Proof. intros. unfold cur. rewrite app_length, firstn_length, skipn_length, r_reslen. lia. Qed.
  Lemma nth_skipn {A} (l : list A) i t d : nth i (skipn t l) d = nth (t + i) l d.
  Proof. revert l; induction t; intros l; simpl; auto. destruct l; simpl; auto. now destruct i. Qed.
  Lemma cur_nth_lt t i : (i < t)%nat -> (t <= m)%nat -> nth i (cur t) 0%nat = nth i RES 0%nat.
  Proof.
    intros. unfold cur. rewrite app_nth1 by (rewrite firstn_length, r_reslen; lia). now apply nth_firstn.
  Qed.
  Lemma cur_nth_ge t i : (t <= i)%nat -> (t <= m)%nat -> nth i (cur t) 0%nat = nth i l0 0%nat.
  Proof.
    intros. unfold cur. assert (HL : length (firstn t RES) = t) by (rewrite firstn_length, r_reslen; lia).
    rewrite app_nth2 by lia. rewrite HL, nth_skipn. f_equal. lia.
  Qed.
  Lemma cur_idx t : (t <= m)%nat -> g_idx (ST t) = map Z.of_nat (cur t).
  Proof.
    intros Ht. destruct (r_inv t Ht) as [HL [Hsuf _]]. rewrite map_length in HL.
    apply (list_ext _ _ 0%Z).
    - now rewrite map_length, cur_len.
    - intros i Hi. rewrite HL in Hi.
      rewrite (nth_map_lt Z.of_nat _ _ 0%nat) by (rewrite cur_len; lia).
      destruct (Nat.lt_ge_cases i t) as [H|H].
      + rewrite cur_nth_lt by assumption. rewrite <- r_ST.
        apply st_prefix; auto using r_cwl, r_ord, r_pos, r_posm', r_sel'.
      + rewrite cur_nth_ge by assumption. rewrite Hsuf by assumption.
        now rewrite (nth_map_lt Z.of_nat _ _ 0%nat) by lia.
  Qed.
  Lemma cur_range t i : (t <= m)%nat -> In i (cur t) -> (i < length xs)%nat /\ 0 < nth i dw 0.
  Proof.
    intros Ht H. unfold cur in H. apply in_app_iff in H. destruct H as [H|H].
    - apply (In_nth _ _ 0%nat) in H. destruct H as [a [Ha E]]. rewrite firstn_length, r_reslen in Ha.
      rewrite nth_firstn in E by lia. subst i.
      apply res_range; auto using r_cwl, r_ord, r_pos, r_posm', r_sel'. lia.
    - apply Hl0. rewrite <- (firstn_skipn t l0). apply in_app_iff. now right.
  Qed.
  Lemma cur_step t : (t < m)%nat ->
    exists pre y r post, cur t = pre ++ y :: post /\ cur (S t) = pre ++ r :: post /\
      length pre = t /\ y = nth t l0 0%nat /\ r = nth t RES 0%nat /\ y = nth t (cur t) 0%nat.
  Proof.
    intros Ht. exists (firstn t RES), (nth t l0 0%nat), (nth t RES 0%nat), (skipn (S t) l0).
    assert (E1 : skipn t l0 = nth t l0 0%nat :: skipn (S t) l0).
    { clear - Ht. revert t Ht; induction l0; simpl; intros t Ht; [lia|]. destruct t; auto. apply IHl. lia. }
    assert (E2 : firstn (S t) RES = firstn t RES ++ [nth t RES 0%nat]).
    { pose proof r_reslen as HL. assert (HtR : (t < length RES)%nat) by lia. clear - HtR. revert t HtR; generalize RES.
      induction l; simpl; intros t Ht; [lia|]. destruct t; auto. simpl. f_equal. apply IHl. lia. }
    repeat split.
    - unfold cur. now rewrite E1.
    - unfold cur. rewrite E2. now rewrite <- app_assoc.
    - rewrite firstn_length, r_reslen. lia.
    - symmetry. apply cur_nth_ge; lia.
  Qed.
  Lemma ipen_refine j : (j < length xs)%nat ->
    nth j pen0 0 = Rsum (map (fun i => k (nth j xs p0) (nth i xs p0)) l0).
  Proof.
    intros Hj. unfold ipen. rewrite (nth_map_lt _ _ _ p0) by assumption. rewrite r_npos.
    assert (Hs : Rsum cw = INR m * c) by apply Rsum_repeat.
    assert (HmR : 0 < INR m) by (apply lt_0_INR; lia).
    rewrite norm_w_nonzero by (rewrite Hs; nra).
    rewrite map_repeat, Hs.
    replace (c / (INR m * c)) with (/ INR m) by (field; lra).
    unfold gather. rewrite !map_map.
    assert (G : forall (f : nat -> R) (l : list nat), Rdot (map f l) (repeat (/ INR m) (length l)) = / INR m * Rsum (map f l)).
    { intros f l. unfold Rdot. induction l; simpl; [lra|]. rewrite IHl. lra. }
    rewrite G. rewrite <- Rmult_assoc, Rinv_r, Rmult_1_l by lra.
    apply Rsum_map_ext. intros i Hi. rewrite jget_nat; [reflexivity|]. now apply Hl0.
  Qed.
  Lemma refine_penS t j : (t < m)%nat -> (j < length xs)%nat ->
    penS p0 k xs cw idx pen0 (g_idx (ST t)) t j
    = Rsum (map (fun i => k (nth j xs p0) (nth i xs p0)) (firstn t RES ++ skipn (S t) l0)).
  Proof.
    intros Ht Hj. unfold penS, penR. rewrite ipen_refine by assumption.
    assert (Hout : forall i, (i < m)%nat -> outR p0 k xs cw idx i j = k (nth j xs p0) (nth (nth i l0 0%nat) xs p0)).
    { intros i Hi. unfold outR. rewrite nth_repeat_lt by assumption.
      destruct (Rlt_dec 0 c); [|contradiction]. rewrite (nth_map_lt Z.of_nat _ _ 0%nat) by assumption.
      rewrite jget_nat; [reflexivity|]. apply Hl0. now apply nth_In. }
    rewrite Hout by assumption.
    rewrite (map_seq_ext _ (fun i => k (nth j xs p0) (nth (nth i RES 0%nat) xs p0)
                                     - k (nth j xs p0) (nth (nth i l0 0%nat) xs p0))).
    2:{ intros i Hi. rewrite Hout by lia. rewrite cur_idx by lia.
        rewrite (nth_map_lt Z.of_nat _ _ 0%nat) by (rewrite cur_len; lia).
        rewrite cur_nth_lt by lia. rewrite jget_nat; [reflexivity|].
        apply res_range; auto using r_cwl, r_ord, r_pos, r_posm', r_sel'. lia. }
    rewrite Rsum_map_sub, map_app, Rsum_app.
    rewrite (firstn_map_nth RES t 0%nat) by (rewrite r_reslen; lia). rewrite map_map.
    assert (E : l0 = firstn t l0 ++ nth t l0 0%nat :: skipn (S t) l0).
    { destruct (upd_split l0 t 0%nat 0%nat Ht) as [_ E]. exact E. }
    replace (Rsum (map (fun i => k (nth j xs p0) (nth i xs p0)) l0))
      with (Rsum (map (fun i => k (nth j xs p0) (nth i xs p0)) (firstn t l0 ++ nth t l0 0%nat :: skipn (S t) l0)))
      by now rewrite <- E.
    rewrite map_app, Rsum_app. cbn [map Rsum].
    rewrite (firstn_map_nth l0 t 0%nat) by lia. rewrite map_map. lra.
  Qed.
  Lemma cur_nodup t : unique = true -> (t <= m)%nat -> NoDup (cur t).
  Proof.
    intros Hu. induction t; intros Ht.
    - unfold cur. simpl. auto.
    - specialize (IHt ltac:(lia)).
      destruct (cur_step t ltac:(lia)) as [pre [y [r [post [E1 [E2 [HL [Ey [Er Ey']]]]]]]]].
      rewrite E2. rewrite E1 in IHt.
      assert (Hout : ~ In r (pre ++ post) \/ r = y).
      { destruct (Nat.eq_dec r y) as [|Hne]; [now right|]. left. intros Hin.
        destruct (step_choice p0 k xs dw cw idx pen0 sel unique ord (Z.of_nat m) Hdw r_cwl (map_length _ _)
                   r_ord' Hsel r_enough ltac:(lia) ltac:(intros; lia) t (ST t) ltac:(rewrite map_length; lia)
                   (r_inv t ltac:(lia))) as [r' [q [Ec [Hr' [Ev [Hw _]]]]]].
        assert (r' = r).
        { pose proof (st_choice p0 k idx cw xs dw sel m unique ord Hdw r_cwl Hm r_ord r_pos r_posm' r_sel' t ltac:(lia)) as Hch.
          rewrite r_ST, r_cw in Hch. rewrite Ec in Hch. subst r. lia. }
        subst r'.
        assert (Hp1 : length (pen1 p0 k xs cw t (ST t)) = length xs).
        { apply (pen1_ok p0 k xs dw cw idx pen0 unique (Z.of_nat m)); auto using r_cwl.
          - apply map_length.
          - rewrite map_length. lia.
          - apply r_inv. lia. }
        destruct (valid_facts xs dw cw idx pen0 unique ord Hdw r_cwl (map_length _ _) r_ord' (pen1 p0 k xs cw t (ST t)) (g_idx (ST t)) t Hp1)
          as [_ Hv].
        { rewrite cur_idx by lia. rewrite !map_length. rewrite cur_len; lia. }
        destruct (Hv r Hr') as [_ [_ H3]].
        unfold gvalid in Ev. rewrite H3 in Ev; [discriminate|assumption| |].
        - assert (Hin2 : In r (cur t)).
          { rewrite E1. apply in_app_iff in Hin. apply in_app_iff. simpl. tauto. }
          apply (In_nth _ _ 0%nat) in Hin2. destruct Hin2 as [p [Hp E]]. exists p. rewrite cur_len in Hp by lia.
          rewrite map_length. split; [assumption|]. rewrite cur_idx by lia.
          rewrite (nth_map_lt Z.of_nat _ _ 0%nat) by (rewrite cur_len; lia). rewrite E. apply wrap_in_range. lia.
        - intros qq Hq Hwq. rewrite map_length in Hq. rewrite nth_repeat_lt by assumption. split; [|assumption].
          rewrite cur_idx in * by lia.
          rewrite (nth_map_lt Z.of_nat _ qq 0%nat) in * by (rewrite cur_len; lia).
          rewrite (nth_map_lt Z.of_nat _ t 0%nat) by (rewrite cur_len; lia).
          rewrite wrap_in_range in Hwq by lia. rewrite <- Ey'. lia. }
      destruct Hout as [Hout| ->]; [|assumption].
      apply NoDup_remove_1 in IHt. apply NoDup_Add with (a := r) (l := pre ++ post); [apply Add_app|]. auto.
  Qed.
  (** one exchange: both the removed and the added element were offered, with
      the sum of kernel similarities to the other members as penalty *)
  Lemma exchange t : (t < m)%nat ->
    exists pre y r post v,
      cur t = pre ++ y :: post /\ cur (S t) = pre ++ r :: post /\
      let others j := Rsum (map (fun i => k (nth j xs p0) (nth i xs p0)) (pre ++ post)) in
      (y < length xs)%nat /\ (r < length xs)%nat /\
      nth y v NaN = Fin (others y) /\ nth r v NaN = Fin (others r) /\
      Z.of_nat r = sel t v (Z.of_nat m) /\ length v = length xs /\
      (forall j, (j < length xs)%nat -> nth j v NaN <> NInf).
  Proof.
    intros Ht. destruct (cur_step t Ht) as [pre [y [r [post [E1 [E2 [HL [Ey [Er Ey']]]]]]]]].
    exists pre, y, r, post, (gvalid p0 k xs dw cw unique ord t (ST t)).
    split; [assumption|]. split; [assumption|]. cbv zeta.
    pose proof (r_inv t ltac:(lia)) as Hinv.
    destruct (step_values p0 k xs dw cw idx pen0 unique ord (Z.of_nat m) Hdw r_cwl (map_length _ _)
                   r_ord' r_enough t (ST t) ltac:(rewrite map_length; lia) Hinv)
      as [H1 [H2 [_ [H4 [H5 _]]]]].
    destruct (step_choice p0 k xs dw cw idx pen0 sel unique ord (Z.of_nat m) Hdw r_cwl (map_length _ _)
                   r_ord' Hsel r_enough ltac:(lia) ltac:(intros; lia) t (ST t) ltac:(rewrite map_length; lia)
                   Hinv) as [r' [q [Ec [Hr' [Ev [Hw Hntk]]]]]].
    pose proof (st_choice p0 k idx cw xs dw sel m unique ord Hdw r_cwl Hm r_ord r_pos r_posm' r_sel' t ltac:(lia)) as Hch.
    rewrite r_ST, r_cw in Hch.
    assert (r' = r) by (rewrite Ec in Hch; subst r; lia). subst r'.
    assert (Hpre : forall j, (j < length xs)%nat -> penS p0 k xs cw idx pen0 (g_idx (ST t)) t j
       = Rsum (map (fun i => k (nth j xs p0) (nth i xs p0)) (pre ++ post))).
    { intros j Hj. rewrite refine_penS by assumption. f_equal. f_equal.
      assert (pre = firstn t RES).
      { transitivity (firstn t (cur t)).
        - rewrite E1, <- HL. symmetry. apply firstn_app_exact.
        - unfold cur. rewrite firstn_app. replace (t - length (firstn t RES))%nat with 0%nat.
          + simpl. rewrite app_nil_r, firstn_firstn. f_equal. lia.
          + rewrite firstn_length, r_reslen. lia. }
      assert (y :: post = skipn t l0).
      { unfold cur in E1. rewrite H in E1. apply app_inv_head in E1. now symmetry. }
      f_equal; [now symmetry|].
      assert (Hsk : skipn (S t) l0 = skipn 1 (skipn t l0)).
      { clear. revert l0; induction t as [|t IH]; intros [|a l]; try reflexivity. exact (IH l). }
      rewrite Hsk, <- H0. reflexivity. }
    assert (Hy : (y < length xs)%nat /\ 0 < nth y dw 0) by (subst y; apply Hl0, nth_In; assumption).
    destruct Hy as [Hy Hyw].
    split; [assumption|]. split; [assumption|]. split; [|split; [|split; [|split]]]; auto.
    - rewrite H5; auto.
      + f_equal. now apply Hpre.
      + intros Hu Htk. pose proof (cur_nodup t Hu ltac:(lia)) as Hnd. rewrite E1 in Hnd.
        apply NoDup_remove_2 in Hnd. apply Hnd. apply in_app_iff. left.
        destruct Htk as [i [Hi E]]. rewrite cur_idx in E by lia.
        rewrite (nth_map_lt Z.of_nat _ _ 0%nat) in E by (rewrite cur_len; lia). apply Nat2Z.inj in E.
        rewrite E1, app_nth1 in E by lia. subst y. rewrite <- E. apply nth_In. lia.
      + intros Hu p Hp Hwp. left. rewrite map_length in Hp. rewrite cur_idx in * by lia.
        rewrite (nth_map_lt Z.of_nat _ p 0%nat) in * by (rewrite cur_len; lia).
        rewrite (nth_map_lt Z.of_nat _ t 0%nat) by (rewrite cur_len; lia).
        rewrite wrap_in_range in Hwp by lia. rewrite <- Ey'. lia.
    - destruct (H4 r q Hr' Ev) as [_ [_ Eq]]. rewrite Ev, Eq. f_equal. now apply Hpre.
    - subst r. rewrite Hch. unfold gchoice. f_equal.
      destruct Hinv as [_ [_ [_ [_ [Hs _]]]]].
      erewrite (size1_eq cw idx); try exact Hs; auto using r_cwl.
      + unfold sizeR. rewrite filter_none; [simpl; lia|].
        intros i Hi. apply in_seq in Hi. rewrite nth_repeat_lt by lia. now destruct (Rlt_dec 0 c).
      + rewrite map_length. lia.
  Qed.
  Lemma cur_0 : cur 0 = l0. Proof. reflexivity. Qed.
  Lemma cur_m : cur m = RES.
  Proof. unfold cur. rewrite skipn_all, app_nil_r. rewrite <- r_reslen at 1. apply firstn_all. Qed.
End Refine.

(** ** Quadratic objective under an exchange *)
Section Obj.
  Context (K : nat -> nat -> R).
  Hypothesis Ksym : forall a b, K a b = K b a.
  Definition quad (l : list nat) : R := Rsum (map (fun a => Rsum (map (K a) l)) l).
  Lemma quad_split pre y post :
    quad (pre ++ y :: post)
    = quad (pre ++ post) + 2 * Rsum (map (K y) (pre ++ post)) + K y y.
  Proof.
    unfold quad. rewrite !map_app. cbn [map]. rewrite !Rsum_app. cbn [Rsum].
    rewrite !map_app, !Rsum_app. cbn [map Rsum].
    rewrite (Rsum_map_ext (fun a => Rsum (map (K a) (pre ++ y :: post)))
               (fun a => Rsum (map (K a) (pre ++ post)) + K y a) pre).
    2:{ intros a _. rewrite !map_app, !Rsum_app. cbn [map Rsum]. rewrite (Ksym y a). lra. }
    rewrite (Rsum_map_ext (fun a => Rsum (map (K a) (pre ++ y :: post)))
               (fun a => Rsum (map (K a) (pre ++ post)) + K y a) post).
    2:{ intros a _. rewrite !map_app, !Rsum_app. cbn [map Rsum]. rewrite (Ksym y a). lra. }
    rewrite !Rsum_map_add. change (fun a : nat => K y a) with (K y). lra.
  Qed.
End Obj.

Lemma wavg_const {A} (f : A -> R) ys c : c <> 0 -> ys <> [] ->
  wavg f ys (repeat c (length ys)) = Rsum (map f ys) / INR (length ys).
Proof.
  intros Hc Hy. unfold wavg, wsum. rewrite Rsum_repeat.
  assert (E : forall l, Rsum (map (fun p => snd p * f (fst p)) (combine l (repeat c (length l)))) = c * Rsum (map f l)).
  { induction l; simpl; [lra|]. rewrite IHl. lra. }
  assert (HR : INR (length ys) <> 0) by (apply not_0_INR; destruct ys; [congruence|discriminate]).
  rewrite E. field. auto.
Qed.
Lemma wavg_lin {A} (f g : A -> R) ys ws : wavg (fun a => f a + g a) ys ws = wavg f ys ws + wavg g ys ws.
Proof.
  unfold wavg, wsum. rewrite (Rsum_map_ext _ (fun p => snd p * f (fst p) + snd p * g (fst p))).
  - rewrite Rsum_map_add. lra.
  - intros. lra.
Qed.
Lemma wavg_scal {A} c (f : A -> R) ys ws : wavg (fun a => c * f a) ys ws = c * wavg f ys ws.
Proof.
  unfold wavg, wsum. rewrite (Rsum_map_ext _ (fun p => c * (snd p * f (fst p)))).
  - rewrite Rsum_map_scal. lra.
  - intros. lra.
Qed.
Lemma wavg_sum {A B} (f : A -> B -> R) (ys : list A) ws (l : list B) :
  wavg (fun a => Rsum (map (fun b => f a b) l)) ys ws = Rsum (map (fun b => wavg (fun a => f a b) ys ws) l).
Proof.
  induction l as [|b l IH].
  - cbn [map Rsum]. unfold wavg, wsum. rewrite (Rsum_map_ext _ (fun _ => 0)) by (intros; lra).
    rewrite Rsum_map_const0. lra.
  - cbn [map Rsum]. rewrite <- IH, <- wavg_lin. reflexivity.
Qed.
Lemma mmd2_uniform {P} (k : P -> P -> R) (x : nat -> P) xs w c l :
  c <> 0 -> l <> [] ->
  mmd2 k xs w (map x l) (repeat c (length l))
  = wavg (fun a => wavg (fun b => k a b) xs w) xs w
    + quad (fun a b => k (x a) (x b)) l / (INR (length l) * INR (length l))
    - 2 * (Rsum (map (fun a => wavg (fun b => k b (x a)) xs w) l) / INR (length l)).
Proof.
  intros Hc Hl. unfold mmd2.
  assert (HL : length (map x l) = length l) by apply map_length.
  assert (Hl' : map x l <> []) by (destruct l; [congruence|discriminate]).
  assert (E : forall f, wavg f (map x l) (repeat c (length l)) = Rsum (map (fun a => f (x a)) l) / INR (length l)).
  { intros f. pose proof (wavg_const f (map x l) c Hc Hl') as Ef.
    rewrite HL, map_map in Ef. exact Ef. }
  rewrite E. f_equal; [f_equal|f_equal].
  - unfold quad. rewrite (Rsum_map_ext _ (fun a => Rsum (map (fun b => k (x a) (x b)) l) / INR (length l))).
    + rewrite Rsum_map_div. field. apply not_0_INR. destruct l; [congruence|discriminate].
    + intros a _. apply E.
  - rewrite (wavg_ext _ (fun a => / INR (length l) * Rsum (map (fun b => k a (x b)) l))).
    + rewrite wavg_scal, wavg_sum. unfold Rdiv. lra.
    + intros a. rewrite E. unfold Rdiv. lra.
Qed.
