(** * Results about KernelHerding and SteinThinning *)
From Coq Require Import List ZArith Reals Lra Lia Bool Permutation.
From Verif Require Import Num Jax RSum JaxFacts ArgFacts DataModel MeanModel MeanProofs DataMeanLemmas DataProofs
  MeanSpec GreedySpec GreedyModel GreedyProofs.
Import ListNotations.
Open Scope R_scope.

Lemma map_nth_seq {A} (l : list A) d : map (fun i => nth i l d) (seq 0 (length l)) = l.
Proof.
  apply (list_ext _ _ d).
  - now rewrite map_length, seq_length.
  - intros i Hi. rewrite map_length, seq_length in Hi.
    rewrite (nth_map_lt _ _ _ 0%nat) by (now rewrite seq_length). now rewrite seq_nth.
Qed.
Lemma filter_map_len {A B} (f : B -> bool) (g : A -> B) l :
  length (filter f (map g l)) = length (filter (fun a => f (g a)) l).
Proof. induction l; simpl; auto. destruct (f (g a)); simpl; auto. Qed.
Lemma pos_idx_npos {P} (xs : list P) dw : length dw = length xs -> length (pos_idx xs dw) = npos dw.
Proof.
  intros H. unfold pos_idx, npos.
  pose proof (filter_map_len (fun a => if Rlt_dec 0 a then true else false) (fun i => nth i dw 0)
                (seq 0 (length dw))) as E.
  rewrite map_nth_seq in E. rewrite E. now rewrite H.
Qed.
Lemma count_pos_fin w : count_pos EROps (map Fin w) = npos w.
Proof.
  unfold count_pos, npos. rewrite filter_map_len. f_equal. apply filter_ext. intros a.
  destruct (Rlt_dec 0 a) as [H|H]; [now apply fgt0_fin|now apply fgt0_fin_false].
Qed.
Lemma npos_pos w i : (i < length w)%nat -> 0 < nth i w 0 -> (0 < npos w)%nat.
Proof.
  intros Hi H. unfold npos.
  assert (Hin : In (nth i w 0) (filter (fun a => if Rlt_dec 0 a then true else false) w)).
  { apply filter_In. split; [now apply nth_In|]. now destruct (Rlt_dec 0 (nth i w 0)). }
  destruct (filter _ w); [destruct Hin|simpl; lia].
Qed.

Lemma nth_firstn {A} (l : list A) i t d : (i < t)%nat -> nth i (firstn t l) d = nth i l d.
Proof.
  revert i t; induction l; intros [|i] [|t] H; simpl; auto; try lia. apply IHl. lia.
Qed.

(** ** Selection functions *)
Section Sel.
  Context {P : Type} (xs : list P) (dw : list R).
  Notation n := (length xs).

  Lemma IZR_pos_ne z : (0 < z)%Z -> IZR z <> 0.
  Proof. intros H. apply IZR_lt in H. lra. Qed.
  Lemma eltb_fin_false a b : eltb ROps (Fin a) (Fin b) = false -> b <= a.
  Proof. simpl. intros. now apply Rltb_false. Qed.
  Lemma eltb_fin_true a b : eltb ROps (Fin a) (Fin b) = true -> a < b.
  Proof. simpl. intros. now apply Rltb_true. Qed.

  Lemma herding_select_spec grm i v size :
    length grm = n -> length v = n -> (0 < size)%Z ->
    (forall j, (j < n)%nat -> nth j v NaN <> NInf) ->
    (exists j r, (j < n)%nat /\ nth j v NaN = Fin r) ->
    exists r q, herding_select EROps Greedy (map Fin grm) i v size = Z.of_nat r /\ (r < n)%nat /\
      nth r v NaN = Fin q /\
      forall j q', (j < n)%nat -> nth j v NaN = Fin q' ->
        nth j grm 0 - q' / IZR size <= nth r grm 0 - q / IZR size /\
        (nth j grm 0 - q' / IZR size = nth r grm 0 - q / IZR size -> (r <= j)%nat).
  Proof.
    intros HgL HvL Hs Hni [j0 [r0 [Hj0 E0]]]. unfold herding_select.
    set (res := map2 _ (map Fin grm) v).
    assert (HrL : length res = n) by (unfold res; rewrite map2_length, map_length; lia).
    assert (Hres : forall j, (j < n)%nat -> nth j res NaN =
       fsub EROps (Fin (nth j grm 0)) (fdiv EROps (nth j v NaN) (Fin (IZR size)))).
    { intros j Hj. unfold res. rewrite (nth_map2 _ _ _ _ NaN NaN) by (rewrite ?map_length; lia).
      rewrite nth_map_Fin by lia. reflexivity. }
    pose proof (IZR_pos_ne size Hs) as Hne.
    assert (Hfin : forall j q, (j < n)%nat -> nth j v NaN = Fin q ->
       nth j res NaN = Fin (nth j grm 0 - q / IZR size)).
    { intros j q Hj E. rewrite Hres, E, fdiv_fin by assumption. reflexivity. }
    destruct (nanargmax_spec ROps ROps_laws res j0) as [r [E [Hr [Hn1 [Hn2 [Hmax Hfst]]]]]].
    - lia.
    - rewrite (Hfin j0 r0) by assumption. discriminate.
    - rewrite (Hfin j0 r0) by assumption. discriminate.
    - rewrite HrL in *.
      destruct (nth r v NaN) as [q| | |] eqn:Ev.
      2:{ exfalso. apply Hn2. rewrite Hres, Ev by assumption. simpl. rewrite nsign_R.
          apply IZR_lt in Hs. destruct (Rlt_dec 0 (IZR size)); [|lra]. reflexivity. }
      2:{ exfalso. now apply (Hni r). }
      2:{ exfalso. apply Hn1. rewrite Hres, Ev by assumption. reflexivity. }
      exists r, q. split; [exact E|]. split; [assumption|]. split; [assumption|].
      intros j q' Hj Ej. specialize (Hmax j Hj). rewrite (Hfin r q), (Hfin j q') in Hmax by assumption.
      apply eltb_fin_false in Hmax. split; [assumption|]. intros Heq.
      destruct (Nat.le_gt_cases r j) as [|Hlt]; auto. destruct (Hfst j Hlt) as [F|F].
      + rewrite (Hfin j q') in F by assumption. discriminate.
      + rewrite (Hfin r q), (Hfin j q') in F by assumption. apply eltb_fin_true in F. lra.
  Qed.

  Lemma stein_select_spec diag (reg : option (list R * list R)) i v size :
    length diag = n -> length v = n ->
    (forall lap rlp, reg = Some (lap, rlp) -> length lap = n /\ length rlp = n) ->
    let lapf j := match reg with Some (lap, _) => nth j lap 0 | None => 0 end in
    let rlpf j := match reg with Some (_, rlp) => nth j rlp 0 | None => 0 end in
    let crit j q := nth j diag 0 + 2 * q + lapf j - INR (i + 1) * rlpf j in
    (forall j, (j < n)%nat -> nth j v NaN <> NInf) ->
    (exists j r, (j < n)%nat /\ nth j v NaN = Fin r) ->
    exists r q, stein_select EROps (map Fin diag)
                  (option_map (fun p => (map Fin (fst p), map Fin (snd p))) reg) i v size = Z.of_nat r /\
      (r < n)%nat /\ nth r v NaN = Fin q /\
      forall j q', (j < n)%nat -> nth j v NaN = Fin q' ->
        crit r q <= crit j q' /\ (crit j q' = crit r q -> (r <= j)%nat).
  Proof.
    intros HgL HvL Hreg lapf rlpf crit Hni [j0 [r0 [Hj0 E0]]].
    set (f := fun j (u : ER) => fsub EROps (fadd EROps (fadd EROps (Fin (nth j diag 0)) (fmul EROps (Fin 2) u)) (Fin (lapf j)))
                 (fmul EROps (Fin (IZR (Z.of_nat i + 1))) (Fin (rlpf j)))).
    assert (exists res, length res = n /\
       stein_select EROps (map Fin diag) (option_map (fun p => (map Fin (fst p), map Fin (snd p))) reg) i v size
       = nanargmin EROps res /\ forall j, (j < n)%nat -> nth j res NaN = f j (nth j v NaN)) as [res [HrL [-> Hres]]].
    { unfold stein_select. destruct reg as [[lap rlp]|]; cbn [option_map fst snd].
      - destruct (Hreg lap rlp eq_refl) as [H1 H2].
        eexists. split; [|split; [reflexivity|]].
        + rewrite !map2_length, !map_length. lia.
        + intros j Hj. rewrite (nth_map2 _ _ _ _ NaN NaN) by (rewrite ?map2_length, ?map_length; lia).
          rewrite (nth_map2 (fadd EROps) _ _ _ NaN NaN) by (rewrite ?map2_length, ?map_length; lia).
          rewrite (nth_map2 _ _ _ _ NaN NaN) by (rewrite ?map2_length, ?map_length; lia).
          rewrite !nth_map_Fin by lia. reflexivity.
      - eexists. split; [|split; [reflexivity|]].
        + rewrite map_length, !map2_length, !map_length. lia.
        + intros j Hj. rewrite (nth_map_lt _ _ _ NaN) by (rewrite ?map2_length, ?map_length; lia).
          rewrite (nth_map2 _ _ _ _ NaN NaN) by (rewrite ?map2_length, ?map_length; lia).
          rewrite !nth_map_Fin by lia. reflexivity. }
    assert (Hfin : forall j q, (j < n)%nat -> nth j v NaN = Fin q -> nth j res NaN = Fin (crit j q)).
    { intros j q Hj E. rewrite Hres, E by assumption. unfold f, crit. simpl. f_equal.
      f_equal. f_equal. rewrite plus_INR, plus_IZR, <- INR_IZR_INZ. simpl. reflexivity. }
    destruct (nanargmin_spec ROps ROps_laws res j0) as [r [E [Hr [Hn1 [Hn2 [Hmax Hfst]]]]]].
    - lia.
    - rewrite (Hfin j0 r0) by assumption. discriminate.
    - rewrite (Hfin j0 r0) by assumption. discriminate.
    - rewrite HrL in *.
      destruct (nth r v NaN) as [q| | |] eqn:Ev.
      2:{ exfalso. apply Hn2. rewrite Hres, Ev by assumption. unfold f. simpl.
          unfold inf_times. rewrite nsign_R. destruct (Rlt_dec 0 2); [|lra]. reflexivity. }
      2:{ exfalso. now apply (Hni r). }
      2:{ exfalso. apply Hn1. rewrite Hres, Ev by assumption. reflexivity. }
      exists r, q. split; [exact E|]. split; [assumption|]. split; [assumption|].
      intros j q' Hj Ej. specialize (Hmax j Hj). rewrite (Hfin r q), (Hfin j q') in Hmax by assumption.
      apply eltb_fin_false in Hmax. split; [assumption|]. intros Heq.
      destruct (Nat.le_gt_cases r j) as [|Hlt]; auto. destruct (Hfst j Hlt) as [F|F].
      + rewrite (Hfin j q') in F by assumption. discriminate.
      + rewrite (Hfin r q), (Hfin j q') in F by assumption. apply eltb_fin_true in F. lra.
  Qed.
  Lemma herding_sel_ok (idx0 : list Z) grm : length grm = n ->
    sel_ok xs dw idx0 (herding_select EROps Greedy (map Fin grm)).
  Proof.
    intros Hg i v size Hi HvL Hs Hni Hnan Hex.
    destruct (herding_select_spec grm i v size Hg HvL Hs Hni Hex) as [r [q [A [B [C _]]]]]. eauto.
  Qed.
  Lemma stein_sel_ok (idx0 : list Z) diag reg : length diag = n ->
    (forall lap rlp, reg = Some (lap, rlp) -> length lap = n /\ length rlp = n) ->
    sel_ok xs dw idx0 (stein_select EROps (map Fin diag)
                  (option_map (fun p => (map Fin (fst p), map Fin (snd p))) reg)).
  Proof.
    intros Hg Hreg i v size Hi HvL Hs Hni Hnan Hex.
    destruct (stein_select_spec diag reg i v size Hg HvL Hreg Hni Hex) as [r [q [A [B [C _]]]]]. eauto.
  Qed.
End Sel.

(** ** The whole selection *)
Section Whole.
  Context {P Y : Type} (p0 : P) (y0 : Y) (k : P -> P -> R).
  Notation kE := (fun a b => Fin (k a b) : ER).

  Definition pidx (idx : list Z) (m : nat) : list Z := idx ++ repeat 0%Z (m - length idx).
  Definition pcw (cw : list R) (idx : list Z) (m : nat) : list R := cw ++ repeat 0 (m - length idx).
  Definition ipen (xs : list P) (cw : list R) (idx : list Z) : list R :=
    map (fun x => INR (npos cw) * Rdot (map (k x) (gather p0 xs idx)) (norm_w cw)) xs.

  Lemma greedy_selection_unfold idx cw xs dw sel m unique bs ord :
    xs <> [] -> length dw = length xs -> length cw = length idx -> (1 <= m)%nat ->
    greedy_selection EROps p0 y0 (mkCS idx (map Fin cw) (mkData xs (map Fin dw) None)) sel m kE unique bs ord
    = Ok (let new := firstn m (g_idx (gst p0 k xs dw (pcw cw idx m) (pidx idx m)
                             (ipen xs (pcw cw idx m) (pidx idx m)) sel unique ord
                             (Z.of_nat (npos (pcw cw idx m))) m)) in
          mkCS new (repeat (Fin 1) (length new)) (mkData xs (map Fin dw) (@None (list Y)))).
  Proof.
    intros Hx Hdw Hcw Hm. unfold greedy_selection. cbn [c_idx c_w c_pre unpack2 d_y d_x d_w bind].
    change (f0 EROps) with (Fin 0 : ER). rewrite <- (map_Fin_repeat 0), <- map_app.
    fold (pidx idx m) (pcw cw idx m). rewrite count_pos_fin.
    unfold as_data, points. cbn [d_x d_y d_getitem c_pre c_idx c_w option_map].
    change (f1 EROps) with (Fin 1 : ER). rewrite <- (map_Fin_repeat 1).
    rewrite compute_mean_axis1.
    - cbn [bind]. unfold gst, gs0, gbody, ipen.
      rewrite !map_map.
      replace (map (fun x => fmul EROps (fofZ EROps (Z.of_nat (npos (pcw cw idx m))))
                 (Fin (Rdot (map (k x) (gather p0 xs (pidx idx m))) (norm_w (pcw cw idx m))))) xs)
        with (map (fun x => Fin (INR (npos (pcw cw idx m)) *
               Rdot (map (k x) (gather p0 xs (pidx idx m))) (norm_w (pcw cw idx m))) : ER) xs).
      + reflexivity.
      + apply map_ext. intros x. simpl. now rewrite INR_IZR_INZ.
    - assumption.
    - intros E. apply (f_equal (@length P)) in E. rewrite gather_length in E. unfold pidx in E.
      rewrite app_length, repeat_length in E. simpl in E. lia.
    - now rewrite repeat_length.
    - rewrite gather_length. unfold pidx, pcw. rewrite !app_length, !repeat_length. lia.
  Qed.

  Section Run.
    Variables (idx : list Z) (cw : list R) (xs : list P) (dw : list R) (sel : nat -> list ER -> Z -> Z)
      (m : nat) (unique : bool) (ord : nat -> list nat).
    Hypothesis Hdw : length dw = length xs.
    Hypothesis Hcw : length cw = length idx.
    Hypothesis Hm : (1 <= m)%nat.
    Hypothesis Hord : forall i, Permutation (ord i) (seq 0 (Nat.max (length idx) m)).
    Hypothesis Hpos1 : (1 <= npos dw)%nat.
    Hypothesis Hpos : unique = true -> (Nat.max (length idx) m <= npos dw)%nat.
    Notation I0 := (pidx idx m).
    Notation W0 := (pcw cw idx m).
    Notation pen0 := (ipen xs W0 I0).
    Notation ST := (gst p0 k xs dw W0 I0 pen0 sel unique ord (Z.of_nat (npos W0))).
    Hypothesis Hsel : sel_ok xs dw I0 sel.

    Lemma I0_len : length I0 = Nat.max (length idx) m.
    Proof. unfold pidx. rewrite app_length, repeat_length. lia. Qed.
    Lemma W0_len : length W0 = length I0.
    Proof. unfold pidx, pcw. rewrite !app_length, !repeat_length. lia. Qed.
    Lemma pen0_len : length pen0 = length xs.
    Proof. apply map_length. Qed.
    Lemma Hord' : forall i, Permutation (ord i) (seq 0 (length I0)).
    Proof. intros. rewrite I0_len. apply Hord. Qed.
    Lemma Henough' : enough xs dw I0 unique.
    Proof.
      unfold enough. rewrite pos_idx_npos, I0_len by assumption. auto.
    Qed.
    Lemma Hinit' : (exists i, (i < length I0)%nat /\ 0 < nth i W0 0) -> (0 < Z.of_nat (npos W0))%Z.
    Proof.
      intros [i [Hi H]]. assert (0 < npos W0)%nat; [|lia]. apply (npos_pos _ i); [|assumption]. now rewrite W0_len.
    Qed.
    Lemma run_inv t : (t <= length I0)%nat -> ginv p0 k xs dw W0 I0 pen0 unique (Z.of_nat (npos W0)) t (ST t).
    Proof.
      intros Ht. apply gst_inv; auto using W0_len, pen0_len, Hord', Henough', Hinit'. lia.
    Qed.

    Definition out_idx : list Z := firstn m (g_idx (ST m)).
    Lemma out_len : length out_idx = m.
    Proof.
      unfold out_idx. rewrite firstn_length. destruct (run_inv m) as [H _]; [rewrite I0_len; lia|].
      rewrite H, I0_len. lia.
    Qed.
    Lemma out_nth t : (t < m)%nat -> nth t out_idx 0%Z = nth t (g_idx (ST m)) 0%Z.
    Proof. intros. unfold out_idx. now apply nth_firstn. Qed.

    (** result as natural numbers *)
    Definition res : list nat := map Z.to_nat out_idx.
    Lemma res_len : length res = m.
    Proof. unfold res. now rewrite map_length, out_len. Qed.
    Lemma out_range i : (i < m)%nat -> exists r, nth i out_idx 0%Z = Z.of_nat r /\ (r < length xs)%nat /\ 0 < nth r dw 0.
    Proof.
      intros Hi. rewrite out_nth by assumption.
      destruct (run_inv m) as [_ [_ [H _]]]; [rewrite I0_len; lia|]. now apply H.
    Qed.
    Lemma out_res : out_idx = map Z.of_nat res.
    Proof.
      unfold res. rewrite map_map. rewrite <- (map_id out_idx) at 1. apply map_ext_in.
      intros z Hz. apply (In_nth _ _ 0%Z) in Hz. destruct Hz as [i [Hi E]]. rewrite out_len in Hi.
      destruct (out_range i Hi) as [r [Er _]]. rewrite <- E, Er. now rewrite Nat2Z.id.
    Qed.
    Lemma res_nth i : (i < m)%nat -> nth i out_idx 0%Z = Z.of_nat (nth i res 0%nat).
    Proof. intros. rewrite out_res at 1. rewrite (nth_map_lt _ _ _ 0%nat); [reflexivity|now rewrite res_len]. Qed.
    Lemma res_range i : (i < m)%nat -> (nth i res 0 < length xs)%nat /\ 0 < nth (nth i res 0%nat) dw 0.
    Proof.
      intros Hi. destruct (out_range i Hi) as [r [E [A B]]]. rewrite res_nth in E by assumption.
      apply Nat2Z.inj in E. now rewrite E.
    Qed.
    Lemma res_nodup : unique = true -> NoDup res.
    Proof.
      intros Hu. apply (NoDup_nth res 0%nat). rewrite res_len. intros i j Hi Hj E.
      destruct (run_inv m) as [_ [_ [_ [H _]]]]; [rewrite I0_len; lia|]. specialize (H Hu).
      assert (E' : nth i (g_idx (ST m)) 0%Z = nth j (g_idx (ST m)) 0%Z).
      { rewrite <- !out_nth, !res_nth by assumption. now rewrite E. }
      destruct (Nat.lt_trichotomy i j) as [L|[L|L]]; auto; exfalso.
      - apply (H i j); [lia|assumption].
      - apply (H j i); [lia|now symmetry].
    Qed.
    (** the state's prefix is the result's prefix *)
    Lemma st_prefix t i : (i < t)%nat -> (t <= m)%nat -> nth i (g_idx (ST t)) 0%Z = Z.of_nat (nth i res 0%nat).
    Proof.
      intros Hi Ht. rewrite <- res_nth, out_nth by lia. symmetry.
      apply gst_stable; auto using W0_len, pen0_len, Hord', Henough', Hinit'.
    Qed.
    Lemma st_choice t : (t < m)%nat ->
      Z.of_nat (nth t res 0%nat) = gchoice p0 k xs dw W0 sel unique ord t (ST t).
    Proof.
      intros Ht. rewrite <- res_nth, out_nth by assumption.
      apply gst_choice; auto using W0_len, pen0_len, Hord', Henough', Hinit'; try lia. rewrite I0_len. lia.
    Qed.
    Lemma st_taken t j : (t <= m)%nat -> taken (g_idx (ST t)) t j <-> In j (firstn t res).
    Proof.
      intros Ht. split.
      - intros [i [Hi E]]. rewrite st_prefix in E by assumption. apply Nat2Z.inj in E. subst j.
        rewrite <- (nth_firstn res i t 0%nat) by assumption. apply nth_In. rewrite firstn_length, res_len. lia.
      - intros H. apply (In_nth _ _ 0%nat) in H. destruct H as [i [Hi E]].
        rewrite firstn_length, res_len in Hi. rewrite nth_firstn in E by lia.
        exists i. split; [lia|]. rewrite st_prefix by lia. now rewrite E.
    Qed.
  End Run.
End Whole.
