(** * Greedy selection and the padding row: lemmas *)
From Coq Require Import List ZArith Bool Reals Permutation Lia Lra.
From Coq Require Import Floats.SpecFloat.
From Flocq Require Import Core.Core IEEE754.BinarySingleNaN.
From Verif Require Import Num Jax RSum JaxFacts DataModel MeanModel MeanGeneric MetricModel GreedyModel GreedyProofs5
  SumSpec SumProofs Float FloatErrSpec FloatPad.
Import ListNotations.

Lemma jget_default {A} (d d' : A) l i : l <> [] -> jget d l i = jget d' l i.
Proof. intros H. unfold jget. apply nth_indep. unfold clamp. destruct l; [congruence|]. cbn [length]. lia. Qed.
Lemma fori_ext {S} n (f g : nat -> S -> S) s : (forall i s, f i s = g i s) -> fori n f s = fori n g s.
Proof.
  intros H. unfold fori. revert s. induction (seq 0 n) as [|i l IH]; intros s; cbn [fold_left]; [reflexivity|]. now rewrite H, IH.
Qed.

Section Same.
  Context {V : Type} (O : FOps V) {P Y : Type} (p0 p1 : P) (y0 : Y).
  Lemma body_pad (k : P -> P -> V) x dw cw sel u ord i s : x <> [] ->
    greedy_body O p0 k x dw cw sel u ord i s = greedy_body O p1 k x dw cw sel u ord i s.
  Proof. intros H. unfold greedy_body. rewrite !(jget_default p0 p1) by exact H. reflexivity. Qed.
  Lemma points_pad idx cw (d : Data P Y V) : d_x d <> [] -> points O p0 y0 (mkCS idx cw d) = points O p1 y0 (mkCS idx cw d).
  Proof.
    intros H. unfold points, d_getitem. cbn [c_pre c_idx c_w d_x d_y]. f_equal. unfold gather. apply map_ext. intros i. now apply jget_default.
  Qed.
  Lemma selection_pad (xs : list P) dw idx cw sel m (k : P -> P -> V) u b0 b1 ord : xs <> [] -> idx <> [] -> (m <= length idx)%nat -> length cw = length idx ->
    (length xs mod block_used (length xs) b0 = 0)%nat -> (length idx mod block_used (length idx) b1 = 0)%nat ->
    greedy_selection O p0 y0 (mkCS idx cw (mkData xs dw None)) sel m k u (BTwo b0 b1) ord
    = greedy_selection O p1 y0 (mkCS idx cw (mkData xs dw None)) sel m k u (BTwo b0 b1) ord.
  Proof.
    intros HX HI Hm HL M0 M1. unfold greedy_selection. cbn [c_idx c_w c_pre]. replace (m - length idx)%nat with 0%nat by lia. cbn [repeat]. rewrite !app_nil_r.
    cbn [unpack2 d_y d_x d_w bind]. rewrite points_pad by exact HX. set (pts := points O p1 y0 _).
    assert (PL : length (d_x pts) = length idx) by (unfold pts, points, d_getitem; cbn [d_x c_idx]; unfold gather; apply map_length).
    assert (PN : d_x pts <> []) by (intros Z; rewrite Z in PL; destruct idx; [congruence|discriminate]).
    replace (compute_mean O p0 y0 k (as_data O xs) pts Axis1 (BTwo b0 b1)) with (compute_mean O p1 y0 k (as_data O xs) pts Axis1 (BTwo b0 b1)).
    2:{ unfold compute_mean. cbn [bs_leaves leaves_repeat app rev length Nat.sub repeat nth].
        rewrite (block_convert_pad O p0 p1 y0 (as_data O xs) b0 HX M0), (block_convert_pad O p0 p1 y0 pts b1 PN); [reflexivity|now rewrite PL]. }
    destruct (compute_mean O p1 y0 k (as_data O xs) pts Axis1 (BTwo b0 b1)) as [[v|mean]|e]; cbn [bind]; try reflexivity.
    rewrite (fori_ext m (greedy_body O p0 k xs dw cw sel u ord) (greedy_body O p1 k xs dw cw sel u ord)); [reflexivity|].
    intros i s. now apply body_pad.
  Qed.
  Lemma stein_reduce_pad (xs : list P) (dw : list V) m (k : P -> P -> V) u b0 b1 reg ord : (1 <= m <= length xs)%nat ->
    (length xs mod block_used (length xs) b0 = 0)%nat -> (m mod block_used m b1 = 0)%nat ->
    stein_reduce O p0 y0 (mkStein m k u (BTwo b0 b1) reg) ord (mkData xs dw None)
    = stein_reduce O p1 y0 (mkStein m k u (BTwo b0 b1) reg) ord (mkData xs dw None).
  Proof.
    intros Hm M0 M1. unfold stein_reduce. cbn [s_size]. rewrite !initial_fine by (unfold d_len; cbn [d_x]; lia). cbn [bind].
    unfold stein_refine. cbn [s_kernel s_size s_unique s_bs c_pre c_idx unpack2 d_y d_x d_w bind].
    assert (HX : xs <> []) by (intros ->; cbn in Hm; lia).
    apply selection_pad; rewrite ?repeat_length; auto. intros E. apply (f_equal (@length _)) in E. rewrite repeat_length in E. cbn in E. lia.
  Qed.
End Same.

Section Nan.
  Context (prec emax : Z) {Hprec : Prec_gt_0 prec} {Hmax : Prec_lt_emax prec emax} {Sm : SumOrder prec emax}.
  Notation flt := (binary_float prec emax).
  Notation O := (FOpsIEEE prec emax).
  Context {P Y : Type} (p0 : P) (y0 : Y) (k : P -> P -> flt).
  Notation nans n := (repeat (B754_nan : flt) n).

  Lemma all_nan (l : list flt) : Forall (isn prec emax) l -> l = nans (length l).
  Proof. induction 1 as [|v l H F IH]; cbn [repeat length]; [reflexivity|]. unfold isn in H. congruence. Qed.
  Lemma row_nan (d : Data P Y flt) b x : d_x d <> [] -> length (d_w d) = length (d_x d) -> isn prec emax (k x p0) ->
    (length (d_x d) mod block_used (length (d_x d)) b <> 0)%nat -> isn prec emax (browsum O k (gblocks O p0 d (eff_block (length (d_x d)) b)) x).
  Proof.
    intros H L N M. destruct (block_convert_gen O p0 y0 d b H) as [E _].
    destruct (pad_block prec emax p0 d _ p0 L (proj1 E) (visited_in prec emax p0 y0 d b p0 H (or_intror (conj eq_refl M)))) as (blk & B1 & B2 & B3).
    apply nan_sum. apply in_map_iff. exists blk. split; [|exact B1]. unfold bdot. apply nan_dot_l; [|now rewrite map_length].
    apply in_map_iff. exists p0. split; [exact N|exact B2].
  Qed.
  Lemma mean1_nan (xs : list P) (d : Data P Y flt) b0 b1 : xs <> [] -> d_x d <> [] -> length (d_w d) = length (d_x d) ->
    (length (d_x d) mod block_used (length (d_x d)) b1 <> 0)%nat -> (forall x, In x xs -> k x p0 = B754_nan) ->
    compute_mean O p0 y0 k (as_data O xs) d Axis1 (BTwo b0 b1) = Ok (MVec (nans (length xs))).
  Proof.
    intros HX HD L M N. unfold compute_mean. cbn [bs_leaves leaves_repeat app rev length Nat.sub repeat nth].
    destruct (block_convert_gen O p0 y0 (as_data O xs) b0 HX) as [Ex ->]. destruct (block_convert_gen O p0 y0 d b1 HD) as [Ey ->]. cbn [bind].
    rewrite block_scan_gen. do 2 f_equal.
    assert (LW : length (d_w (as_data (Y := Y) O xs)) = length (d_x (as_data (Y := Y) O xs))) by (unfold as_data; cbn [d_w d_x]; apply repeat_length).
    destruct (gblocks_facts O p0 (as_data (Y := Y) O xs) (eff_block (length (d_x (as_data (Y := Y) O xs))) b0) LW ltac:(lia)) as [F _].
    set (g := browsum O k (gblocks O p0 d (eff_block (length (d_x d)) b1))).
    rewrite <- (map_map fst (map g)). rewrite <- concat_map, F, map_app. cbn [as_data d_x].
    rewrite <- (map_length g xs) at 1. rewrite firstn_app, Nat.sub_diag, firstn_all. cbn [firstn]. rewrite app_nil_r.
    rewrite <- (map_length g xs). apply all_nan. apply Forall_forall. intros v Hv. apply in_map_iff in Hv as [x [<- Hx]].
    apply row_nan; auto. unfold isn. auto.
  Qed.

  (** ** the greedy loop with penalties that are not numbers *)
  Lemma nans_all n : Forall (isn prec emax) (nans n).
  Proof. apply Forall_forall. intros v Hv. apply repeat_spec in Hv. exact Hv. Qed.
  Lemma jset_nan (l : list flt) j : Forall (isn prec emax) l -> Forall (isn prec emax) (jset l j B754_nan).
  Proof.
    intros F. unfold jset. destruct (_ && _); [|exact F]. generalize (Z.to_nat (wrap (length l) j)) as i.
    induction F as [|v l H F IH]; intros i; cbn [upd]; [constructor|]. destruct i; constructor; auto. reflexivity.
  Qed.
  Lemma map2_nth {A B C} (f : A -> B -> C) (l : list A) (m : list B) a b c i : length l = length m -> (i < length l)%nat ->
    nth i (map2 f l m) c = f (nth i l a) (nth i m b).
  Proof. revert m i. induction l as [|x l IH]; intros [|y m] [|i] H L; cbn in *; try lia; auto. apply IH; lia. Qed.
  Lemma valid_nan u ord dw (cw : list flt) idx i : dw <> [] -> Forall (fun w => fgt0 O w = false) cw -> length cw = length idx ->
    Forall (fun p => (p < length idx)%nat) ord ->
    Forall (isn prec emax) (valid_penalty O u ord dw cw idx i (nans (length dw))).
  Proof.
    intros HD Hcw HL Ho. assert (V : map2 (fun w p => if fgt0 O w then p else fnan O) dw (nans (length dw)) = nans (length dw)).
    { clear. induction dw as [|w dw IH]; [reflexivity|]. cbn [length repeat map2]. rewrite IH. destruct (fgt0 O w); reflexivity. }
    unfold valid_penalty. rewrite V. destruct u; [|apply nans_all]. unfold scatter.
    assert (G : forall l acc, Forall (fun p => (p < length idx)%nat) l -> Forall (isn prec emax) acc ->
      Forall (isn prec emax) (fold_left (fun acc p => jset acc (nth p idx 0%Z) (nth p (map2 (fun (j : Z) w =>
        if negb (j =? nth i idx 0)%Z && fgt0 O w then finf O else jget (f0 O) (nans (length dw)) j) idx cw) (f0 O))) l acc)).
    { induction l as [|p l IH]; intros acc Hl Ha; cbn [fold_left]; [exact Ha|]. inversion Hl as [|? ? Hp Hl']; subst.
      apply IH; auto. rewrite (map2_nth _ idx cw 0%Z (f0 O)) by auto.
      assert (W : fgt0 O (nth p cw (f0 O)) = false) by (rewrite Forall_forall in Hcw; apply Hcw, nth_In; now rewrite HL).
      rewrite W, andb_false_r. replace (jget (f0 O) (nans (length dw)) (nth p idx 0%Z)) with (B754_nan : flt); [now apply jset_nan|].
      unfold jget. symmetry. assert (N : (clamp (length (nans (length dw))) (nth p idx 0%Z) < length (nans (length dw)))%nat).
      { rewrite repeat_length. unfold clamp. destruct dw; [congruence|]. cbn [length]. lia. }
      pose proof (nth_In (nans (length dw)) (f0 O) N) as I. now apply repeat_spec in I. }
    apply G; [exact Ho|apply nans_all].
  Qed.
  Lemma select_nan (diag pen : list flt) reg i size : Forall (isn prec emax) pen -> stein_select O diag reg i pen size = (-1)%Z.
  Proof.
    intros F. assert (A : forall l : list flt, Forall (isn prec emax) l -> nanargmin O l = (-1)%Z).
    { intros l Fl. unfold nanargmin. replace (forallb (fisnan O) l) with true; [reflexivity|]. symmetry. apply forallb_forall.
      intros v Hv. rewrite Forall_forall in Fl. rewrite (Fl v Hv). reflexivity. }
    assert (B : forall f : flt -> flt -> flt, (forall a b, isn prec emax b -> isn prec emax (f a b)) -> forall l m, Forall (isn prec emax) m -> Forall (isn prec emax) (map2 f l m)).
    { intros f Hf l m Fm. revert l. induction Fm as [|v m H Fm IH]; intros [|x l]; cbn [map2]; constructor; auto. }
    assert (B' : forall f : flt -> flt -> flt, (forall a b, isn prec emax a -> isn prec emax (f a b)) -> forall l m, Forall (isn prec emax) l -> Forall (isn prec emax) (map2 f l m)).
    { intros f Hf l m Fm. revert m. induction Fm as [|v l H Fm IH]; intros [|x m]; cbn [map2]; constructor; auto. }
    assert (C : Forall (isn prec emax) (map2 (fun d p => fadd O d (fmul O (fofZ O 2) p)) diag pen)).
    { apply B; [|exact F]. intros a b H. apply nan_plus. right. now apply nan_mult_r. }
    assert (S1 : forall a b : flt, isn prec emax a -> isn prec emax (fsub O a b)) by (intros a b ->; reflexivity).
    unfold stein_select. destruct reg as [[lap rlp]|]; apply A.
    - apply B'; [intros a b H; now apply S1|]. apply B'; [|exact C]. intros a b H. apply nan_plus. now left.
    - apply Forall_forall. intros v Hv. apply in_map_iff in Hv as [w [<- Hw]]. apply S1. apply nan_plus. left. rewrite Forall_forall in C. now apply C.
  Qed.
  Lemma upd_nth_ne {A} (l : list A) n v i d : i <> n -> nth i (upd n v l) d = nth i l d.
  Proof. revert n i. induction l as [|a l IH]; intros [|n] [|i] H; cbn; auto; try congruence. Qed.
  Lemma upd_len {A} (l : list A) n v : length (upd n v l) = length l.
  Proof. revert n. induction l as [|a l IH]; intros [|n]; cbn; auto. Qed.
  Lemma upd_nth_eq {A} (l : list A) n v d : (n < length l)%nat -> nth n (upd n v l) d = v.
  Proof. revert n. induction l as [|a l IH]; intros [|n] H; cbn in *; try lia; auto. apply IH. lia. Qed.

  Context (xs : list P) (dw : list flt) (diag : list flt) (reg : option (list flt * list flt)) (m : nat) (ord : nat -> list nat).
  Hypothesis Hdw : length dw = length xs.
  Hypothesis Hxs : xs <> [].
  Hypothesis Hord : forall i, Permutation (ord i) (seq 0 m).
  Notation cw := (repeat (f0 O) m).
  Lemma cw_zero : Forall (fun w => fgt0 O w = false) cw.
  Proof. apply Forall_forall. intros v Hv. apply repeat_spec in Hv. now subst v. Qed.
  Lemma ord_lt i : Forall (fun p => (p < m)%nat) (ord i).
  Proof. apply Forall_forall. intros p Hp. apply (Permutation_in _ (Hord i)) in Hp. apply in_seq in Hp. lia. Qed.
  Lemma body_nan u i idx sz : length idx = m ->
    exists pen sz', greedy_body O p0 k xs dw cw (stein_select O diag reg) u ord i (mkG idx (nans (length xs)) sz) = mkG (upd i (-1)%Z idx) pen sz' /\
      (u = false -> pen = nans (length xs)).
  Proof.
    intros HI. unfold greedy_body. cbn [g_idx g_pen g_size]. replace (fgt0 O (nth i cw (f0 O))) with false.
    2:{ destruct (nth_in_or_default i cw (f0 O)) as [Q|Q]; [apply repeat_spec in Q|]; now rewrite Q. }
    rewrite select_nan.
    2:{ rewrite <- Hdw. apply valid_nan; [intros E; rewrite E in Hdw; destruct xs; [congruence|discriminate]|apply cw_zero|now rewrite repeat_length|rewrite HI; apply ord_lt]. }
    eexists. eexists. split; [reflexivity|]. intros ->. unfold kcol. generalize (jget p0 xs (-1)%Z) as r. clear. intros r. induction xs as [|x l IH]; [reflexivity|].
    cbn [length repeat map map2]. rewrite IH. reflexivity.
  Qed.
  Lemma body_len s i u : length (g_idx (greedy_body O p0 k xs dw cw (stein_select O diag reg) u ord i s)) = length (g_idx s).
  Proof. unfold greedy_body. cbn [g_idx]. apply upd_len. Qed.
  Lemma loop_first u idx sz : (1 <= m)%nat -> length idx = m ->
    nth 0 (g_idx (fori m (greedy_body O p0 k xs dw cw (stein_select O diag reg) u ord) (mkG idx (nans (length xs)) sz))) 0%Z = (-1)%Z.
  Proof.
    intros Hm HI. unfold fori. destruct m as [|m'] eqn:Em; [lia|]. rewrite <- Em in *. replace (seq 0 m) with (0%nat :: seq 1 m') by (rewrite Em; reflexivity).
    cbn [fold_left]. destruct (body_nan u 0 idx sz HI) as (pen & sz' & -> & _).
    assert (G : forall l s, ~ In 0%nat l -> nth 0 (g_idx (fold_left (fun s i => greedy_body O p0 k xs dw cw (stein_select O diag reg) u ord i s) l s)) 0%Z = nth 0 (g_idx s) 0%Z).
    { induction l as [|i l IH]; intros s Hl; cbn [fold_left]; [reflexivity|]. rewrite IH by (intros Q; apply Hl; now right).
      unfold greedy_body. cbn [g_idx]. apply upd_nth_ne. intros <-. apply Hl. now left. }
    rewrite G by (rewrite in_seq; lia). cbn [g_idx]. apply upd_nth_eq. lia.
  Qed.
  Lemma loop_all idx sz : length idx = m ->
    g_idx (fori m (greedy_body O p0 k xs dw cw (stein_select O diag reg) false ord) (mkG idx (nans (length xs)) sz)) = repeat (-1)%Z m.
  Proof.
    intros HI.
    assert (G : forall n, (n <= m)%nat -> exists idx' sz', fori n (greedy_body O p0 k xs dw cw (stein_select O diag reg) false ord) (mkG idx (nans (length xs)) sz)
        = mkG idx' (nans (length xs)) sz' /\ length idx' = m /\ (forall i, (i < n)%nat -> nth i idx' 0%Z = (-1)%Z)).
    { induction n as [|n IH]; intros Hn; [exists idx, sz; repeat split; auto; lia|]. destruct IH as (i1 & s1 & E & L & N); [lia|].
      unfold fori in *. rewrite seq_S, fold_left_app, E. cbn [fold_left Nat.add].
      destruct (body_nan false n i1 s1 L) as (pen & sz' & EB & PN). rewrite EB. rewrite (PN eq_refl). eexists. eexists. split; [reflexivity|].
      split; [now rewrite upd_len|]. intros i Hi. destruct (Nat.eq_dec i n) as [->|Ne]; [apply upd_nth_eq; lia|rewrite upd_nth_ne by exact Ne; apply N; lia]. }
    destruct (G m (le_n m)) as (i1 & s1 & -> & L & N). cbn [g_idx]. apply (nth_ext _ _ 0%Z 0%Z); [now rewrite repeat_length|].
    intros i Hi. rewrite N by lia. symmetry. pose proof (nth_In (repeat (-1)%Z m) 0%Z (n := i)) as I. rewrite repeat_length in I.
    specialize (I ltac:(lia)). now apply repeat_spec in I.
  Qed.
End Nan.
