(** * KernelHerding / SteinThinning: end-to-end statements *)
From Coq Require Import List ZArith Reals Lra Lia Bool Permutation.
From Verif Require Import Num Jax RSum JaxFacts ArgFacts DataModel MeanModel MeanProofs DataMeanLemmas DataProofs
  MeanSpec GreedySpec GreedyModel GreedyProofs GreedyProofs2 GreedyProofs3.
Import ListNotations.
Open Scope R_scope.

(** exponential on extended reals *)
Definition expE (v : ER) : ER :=
  match v with Fin x => Fin (exp x) | PInf => PInf | NInf => Fin 0 | NaN => NaN end.

(** what is assumed of [jr.choice(key, n, (), p=probs, replace=False)] *)
Definition choice_ok (choice : nat -> list ER -> Z) : Prop :=
  forall i (p : list R),
    (forall q, In q p -> 0 <= q) -> (exists q, In q p /\ 0 < q) ->
    exists r, choice i (map Fin p) = Z.of_nat r /\ (r < length p)%nat /\ 0 < nth r p 0.

Section Softmax.
  (** softmax of finite values and -inf, at least one finite *)
  Lemma fold_fmax_fin l a : (forall v, In v l -> v <> NaN /\ v <> PInf) ->
    exists b, fold_left (fmax EROps) l (Fin a) = Fin b.
  Proof.
    revert a; induction l as [|v l IH]; intros a H; simpl; [eauto|].
    destruct (H v ltac:(now left)) as [H1 H2].
    destruct v as [x| | |]; try congruence.
    - unfold fmax at 2. cbn [fisnan EROps extOps eisnan]. destruct (fltb EROps (Fin a) (Fin x)); apply IH; intros; apply H; now right.
    - unfold fmax at 2. cbn. apply IH. intros; apply H; now right.
  Qed.
  Lemma fold_fmax_ninf l : (forall v, In v l -> v <> NaN /\ v <> PInf) ->
    (exists x, In (Fin x) l) -> exists b, fold_left (fmax EROps) l NInf = Fin b.
  Proof.
    induction l as [|v l IH]; intros H [x Hx]; [destruct Hx|]. simpl.
    destruct (H v ltac:(now left)) as [H1 H2].
    destruct v as [y| | |]; try congruence.
    - unfold fmax at 2. cbn. apply fold_fmax_fin. intros; apply H; now right.
    - unfold fmax at 2. cbn. apply IH; [intros; apply H; now right|]. destruct Hx as [Hx|Hx]; [discriminate|eauto].
  Qed.
  Lemma softmax_fin l : (forall v, In v l -> v <> NaN /\ v <> PInf) -> (exists x, In (Fin x) l) ->
    exists p, softmax EROps expE l = map Fin p /\ length p = length l /\
      (forall q, In q p -> 0 <= q) /\
      forall i, (i < length l)%nat -> (0 < nth i p 0 <-> exists x, nth i l NaN = Fin x).
  Proof.
    intros H Hx. unfold softmax. change (fninf EROps) with (NInf : ER).
    destruct (fold_fmax_ninf l H Hx) as [b ->].
    set (e := fun v : ER => match v with Fin x => exp (x - b) | _ => 0 end).
    assert (He : map (fun v => expE (fsub EROps v (Fin b))) l = map Fin (map e l)).
    { rewrite map_map. apply map_ext_in. intros v Hv. destruct (H v Hv) as [A B].
      destruct v; try congruence; reflexivity. }
    rewrite He, fsum_fin, map_map.
    assert (Hpos : 0 < Rsum (map e l)).
    { destruct Hx as [x Hx]. apply in_split in Hx. destruct Hx as [l1 [l2 ->]].
      rewrite map_app, Rsum_app. cbn [map Rsum].
      assert (0 <= Rsum (map e l1)).
      { apply Rsum_nonneg. intros a Ha. apply in_map_iff in Ha. destruct Ha as [v [<- _]].
        unfold e. destruct v; try lra. left. apply exp_pos. }
      assert (0 <= Rsum (map e l2)).
      { apply Rsum_nonneg. intros a Ha. apply in_map_iff in Ha. destruct Ha as [v [<- _]].
        unfold e. destruct v; try lra. left. apply exp_pos. }
      assert (0 < e (Fin x)) by (apply exp_pos). lra. }
    exists (map (fun v => e v / Rsum (map e l)) l). repeat split.
    - rewrite !map_map. apply map_ext. intros v. apply fdiv_fin. lra.
    - apply map_length.
    - intros q Hq. apply in_map_iff in Hq. destruct Hq as [v [<- _]].
      apply Rmult_le_pos; [|left; now apply Rinv_0_lt_compat].
      unfold e. destruct v; try lra. left. apply exp_pos.
    - rewrite (nth_map_lt _ _ _ NaN) by assumption. unfold e at 1.
      destruct (nth i l NaN) as [x| | |]; [eauto|..]; unfold Rdiv; rewrite Rmult_0_l; intros; lra.
    - intros [x E]. rewrite (nth_map_lt _ _ _ NaN) by assumption. rewrite E. unfold e at 1.
      apply Rdiv_lt_0_compat; [apply exp_pos|assumption].
  Qed.
  Lemma fadd_nan_l b : fadd EROps NaN b = NaN. Proof. reflexivity. Qed.
  Lemma fadd_nan_r a : fadd EROps a NaN = NaN. Proof. now destruct a. Qed.
  Lemma fold_fmax_nan l : fold_left (fmax EROps) l NaN = NaN.
  Proof. induction l; simpl; auto. Qed.
  Lemma fold_fmax_in_nan l a : In NaN l -> fold_left (fmax EROps) l a = NaN.
  Proof.
    revert a; induction l as [|v l IH]; intros a H; [destruct H|]. simpl.
    destruct H as [->|H]; [|now apply IH].
    replace (fmax EROps a NaN) with (NaN : ER); [apply fold_fmax_nan|].
    unfold fmax. cbn. now destruct a.
  Qed.
  Lemma softmax_nan l : In NaN l -> softmax EROps expE l = repeat NaN (length l).
  Proof.
    intros H. unfold softmax. rewrite fold_fmax_in_nan by assumption.
    replace (map (fun v => expE (fsub EROps v NaN)) l) with (repeat (NaN : ER) (length l)).
    - rewrite map_repeat. now rewrite repeat_length || reflexivity.
    - clear. induction l; simpl; auto. rewrite IHl. now destruct a.
  Qed.
End Softmax.

Section ProbSel.
  Context {P : Type} (xs : list P) (dw : list R).
  Lemma prob_sel_ok idx0 grm temp choice :
    length grm = length xs -> (forall j, (j < length xs)%nat -> 0 < nth j dw 0) ->
    0 < temp -> choice_ok choice ->
    sel_ok xs dw idx0 (herding_select EROps (Prob expE (Fin temp) choice) (map Fin grm)).
  Proof.
    intros Hg Hall Ht Hch i v size Hi HvL Hs Hni Hnan [j0 [r0 [Hj0 E0]]].
    unfold herding_select. set (resid := map2 _ (map Fin grm) v).
    assert (HrL : length resid = length xs) by (unfold resid; rewrite map2_length, map_length; lia).
    set (l := map (fun r => fdiv EROps r (Fin temp)) resid).
    assert (HlL : length l = length xs) by (unfold l; now rewrite map_length).
    pose proof (IZR_pos_ne size Hs) as Hne. apply IZR_lt in Hs.
    assert (Hl : forall j, (j < length xs)%nat ->
      (forall q, nth j v NaN = Fin q -> exists x, nth j l NaN = Fin x) /\
      (nth j v NaN = PInf -> nth j l NaN = NInf)).
    { intros j Hj. unfold l, resid. rewrite (nth_map_lt _ _ _ NaN) by (rewrite map2_length, map_length; lia).
      rewrite (nth_map2 _ _ _ _ NaN NaN) by (rewrite ?map_length; lia).
      rewrite nth_map_Fin by lia. split.
      - intros q ->. cbn [fofZ EROps extOps]. change (fdiv (extOps ROps)) with (fdiv EROps).
        change (nofZ ROps size) with (IZR size). rewrite fdiv_fin by assumption.
        cbn [fsub EROps extOps esub]. change (fdiv (extOps ROps)) with (fdiv EROps). rewrite fdiv_fin by lra. eauto.
      - intros ->. cbn. rewrite nsign_R. destruct (Rlt_dec 0 (IZR size)); [|lra]. cbn.
        rewrite nsign_R. destruct (Rlt_dec 0 temp); [reflexivity|lra]. }
    assert (Hcase : forall j, (j < length xs)%nat -> (exists q, nth j v NaN = Fin q) \/ nth j v NaN = PInf).
    { intros j Hj. destruct (nth j v NaN) eqn:E; eauto.
      - exfalso. now apply (Hni j).
      - exfalso. now apply (Hnan j Hj E), Hall. }
    destruct (softmax_fin l) as [p [Ep [HpL [Hp0 Hp1]]]].
    - intros u Hu. apply (In_nth _ _ NaN) in Hu. destruct Hu as [j [Hj <-]]. rewrite HlL in Hj.
      destruct (Hcase j Hj) as [[q E]|E].
      + destruct (proj1 (Hl j Hj) q E) as [x ->]. split; discriminate.
      + rewrite (proj2 (Hl j Hj) E). split; discriminate.
    - destruct (proj1 (Hl j0 Hj0) r0 E0) as [x E]. exists x. rewrite <- E. apply nth_In. lia.
    - rewrite Ep. destruct (Hch i p Hp0) as [r [Er [Hr Hrp]]].
      + exists (nth j0 p 0). split; [apply nth_In; lia|]. apply Hp1; [lia|].
        now apply (proj1 (Hl j0 Hj0) r0).
      + rewrite HpL, HlL in Hr. apply Hp1 in Hrp; [|lia]. destruct Hrp as [x Ex].
        destruct (Hcase r Hr) as [[q E]|E]; [exists r, q; auto|].
        rewrite (proj2 (Hl r Hr) E) in Ex. discriminate.
  Qed.
End ProbSel.

Section Top.
  Context {P Y : Type} (p0 : P) (y0 : Y) (k : P -> P -> R).
  Notation kE := (fun a b => Fin (k a b) : ER).
  Notation mkD xs dw := (mkData xs (map Fin dw) (@None (list Y))).

  (** generic outcome of the selection loop *)
  Lemma selection_outcome idx cw xs dw sel m unique bs ord :
    length dw = length xs -> length cw = length idx -> (1 <= m)%nat ->
    (forall i, Permutation (ord i) (seq 0 (Nat.max (length idx) m))) ->
    (1 <= npos dw)%nat -> (unique = true -> (Nat.max (length idx) m <= npos dw)%nat) ->
    sel_ok xs dw (pidx idx m) sel ->
    let l := res p0 k idx cw xs dw sel m unique ord in
    greedy_selection EROps p0 y0 (mkCS idx (map Fin cw) (mkD xs dw)) sel m kE unique bs ord
    = Ok (mkCS (map Z.of_nat l) (repeat (Fin 1) m) (mkD xs dw)) /\
    length l = m /\ (forall i, In i l -> (i < length xs)%nat /\ 0 < nth i dw 0) /\
    (unique = true -> NoDup l).
  Proof.
    intros Hdw Hcw Hm Hord Hp1 Hp Hsel l.
    assert (Hx : xs <> []).
    { intros ->. destruct dw; [|discriminate]. unfold npos in Hp1. simpl in Hp1. lia. }
    rewrite greedy_selection_unfold by assumption. cbv zeta.
    pose proof (out_res p0 k idx cw xs dw sel m unique ord Hdw Hcw Hm Hord Hp1 Hp Hsel) as E.
    unfold out_idx in E. rewrite E. fold l. rewrite map_length.
    assert (HL : length l = m) by (apply res_len; assumption).
    rewrite HL. split; [reflexivity|]. split; [reflexivity|]. split.
    - intros i Hi. apply (In_nth _ _ 0%nat) in Hi. destruct Hi as [j [Hj <-]]. rewrite HL in Hj.
      apply res_range; assumption.
    - apply res_nodup; assumption.
  Qed.

  Definition grm_of (xs : list P) (dw : list R) : list R :=
    map (fun y => Rdot (map (k y) xs) (norm_w dw)) xs.
  Lemma gramian_eq xs dw bs : xs <> [] -> length dw = length xs ->
    gramian_row_mean EROps p0 y0 kE (mkD xs dw) bs = Ok (MVec (map Fin (grm_of xs dw))).
  Proof.
    intros Hx Hd. unfold gramian_row_mean. rewrite compute_mean_axis0 by auto.
    unfold grm_of. now rewrite map_map.
  Qed.
  (** the Gramian row-mean a run of herding uses *)
  Definition used_grm (xs : list P) (dw : list R) (st : option (list R)) : list R :=
    match st with None => grm_of xs dw | Some g => g end.
  Lemma used_grm_len xs dw st : (forall g, st = Some g -> length g = length xs) -> length (used_grm xs dw st) = length xs.
  Proof. destruct st; simpl; intros H; [now apply H|]. unfold grm_of. apply map_length. Qed.

  Lemma npos_nonempty (xs : list P) dw : length dw = length xs -> (1 <= npos dw)%nat -> xs <> [].
  Proof. intros H Hp ->. destruct dw; [|discriminate]. unfold npos in Hp. simpl in Hp. lia. Qed.

  Lemma herding_refine_unfold m unique bs mode ord idx cw xs dw st :
    length dw = length xs -> (1 <= npos dw)%nat ->
    herding_refine EROps p0 y0 (mkHerding m kE unique bs mode) ord (mkCS idx (map Fin cw) (mkD xs dw))
      (option_map (map Fin) st)
    = do c' <- greedy_selection EROps p0 y0 (mkCS idx (map Fin cw) (mkD xs dw))
                 (herding_select EROps mode (map Fin (used_grm xs dw st))) m kE unique bs ord;
      Ok (c', map Fin (used_grm xs dw st)).
  Proof.
    intros Hdw Hp. unfold herding_refine. cbn [h_kernel h_bs h_mode h_size h_unique c_pre].
    destruct st as [g|]; cbn [option_map bind used_grm]; [reflexivity|].
    rewrite gramian_eq by (try assumption; now apply (npos_nonempty xs dw)). reflexivity.
  Qed.
  Lemma herding_refine_outcome m unique bs ord idx cw xs dw st :
    length dw = length xs -> length cw = length idx -> (1 <= m)%nat ->
    (forall i, Permutation (ord i) (seq 0 (Nat.max (length idx) m))) ->
    (1 <= npos dw)%nat -> (unique = true -> (Nat.max (length idx) m <= npos dw)%nat) ->
    (forall g, st = Some g -> length g = length xs) ->
    exists l,
      herding_refine EROps p0 y0 (mkHerding m kE unique bs Greedy) ord (mkCS idx (map Fin cw) (mkD xs dw))
        (option_map (map Fin) st)
      = Ok (mkCS (map Z.of_nat l) (repeat (Fin 1) m) (mkD xs dw), map Fin (used_grm xs dw st)) /\
      length l = m /\ (forall i, In i l -> (i < length xs)%nat /\ 0 < nth i dw 0) /\
      (unique = true -> NoDup l).
  Proof.
    intros Hdw Hcw Hm Hord Hp1 Hp Hst.
    pose proof (herding_sel_ok xs dw (pidx idx m) (used_grm xs dw st) (used_grm_len xs dw st Hst)) as Hsel.
    destruct (selection_outcome idx cw xs dw _ m unique bs ord Hdw Hcw Hm Hord Hp1 Hp Hsel)
      as [E [A [B C]]].
    eexists. rewrite herding_refine_unfold by assumption. rewrite E. cbn [bind]. split; [reflexivity|]. auto.
  Qed.
  Lemma herding_prob_outcome m unique bs ord idx cw xs dw st temp choice :
    length dw = length xs -> length cw = length idx -> (1 <= m)%nat ->
    (forall i, Permutation (ord i) (seq 0 (Nat.max (length idx) m))) ->
    (1 <= length xs)%nat -> (unique = true -> (Nat.max (length idx) m <= length xs)%nat) ->
    (forall g, st = Some g -> length g = length xs) ->
    (forall a, In a dw -> 0 < a) -> 0 < temp -> choice_ok choice ->
    exists l,
      herding_refine EROps p0 y0 (mkHerding m kE unique bs (Prob expE (Fin temp) choice)) ord
        (mkCS idx (map Fin cw) (mkD xs dw)) (option_map (map Fin) st)
      = Ok (mkCS (map Z.of_nat l) (repeat (Fin 1) m) (mkD xs dw), map Fin (used_grm xs dw st)) /\
      length l = m /\ (forall i, In i l -> (i < length xs)%nat) /\
      (unique = true -> NoDup l).
  Proof.
    intros Hdw Hcw Hm Hord Hp1 Hp Hst Hall Ht Hch.
    assert (Hnp : npos dw = length xs).
    { unfold npos. rewrite filter_all; [assumption|]. intros a Ha. specialize (Hall a Ha). now destruct (Rlt_dec 0 a). }
    assert (Hall' : forall j, (j < length xs)%nat -> 0 < nth j dw 0).
    { intros j Hj. apply Hall, nth_In. lia. }
    pose proof (prob_sel_ok xs dw (pidx idx m) (used_grm xs dw st) temp choice (used_grm_len xs dw st Hst) Hall' Ht Hch) as Hsel.
    rewrite <- Hnp in Hp1, Hp.
    destruct (selection_outcome idx cw xs dw _ m unique bs ord Hdw Hcw Hm Hord Hp1 Hp Hsel)
      as [E [A [B C]]].
    eexists. rewrite herding_refine_unfold by assumption. rewrite E. cbn [bind]. split; [reflexivity|].
    split; [assumption|]. split; [|assumption]. intros i Hi. now apply B.
  Qed.

  Lemma initial_ok xs dw m : (m <= length xs)%nat ->
    initial_coresubset EROps p0 y0 0 m (mkD xs dw) = Ok (mkCS (repeat 0%Z m) (map Fin (repeat 0 m)) (mkD xs dw)).
  Proof.
    intros H. unfold initial_coresubset. rewrite cs_init_ok. rewrite repeat_length. unfold d_len. cbn [d_x].
    destruct (Nat.ltb_spec (length xs) m); [lia|]. now rewrite map_Fin_repeat.
  Qed.
  Lemma initial_err (d : Data P Y ER) m : (d_len d < m)%nat ->
    initial_coresubset EROps p0 y0 0 m d = Err ValueError.
  Proof.
    intros H. unfold initial_coresubset. rewrite cs_init_ok. rewrite repeat_length.
    destruct (Nat.ltb_spec (d_len d) m); [reflexivity|lia].
  Qed.

  Lemma npos_le w : (npos w <= length w)%nat.
  Proof. unfold npos. apply filter_len_le. Qed.

  (** KernelHerding.reduce *)
  Lemma herding_reduce_outcome m unique bs ord xs dw st :
    length dw = length xs -> (1 <= m <= length xs)%nat ->
    (forall i, Permutation (ord i) (seq 0 m)) ->
    (1 <= npos dw)%nat -> (unique = true -> (m <= npos dw)%nat) ->
    (forall g, st = Some g -> length g = length xs) ->
    exists l,
      herding_reduce EROps p0 y0 (mkHerding m kE unique bs Greedy) ord (mkD xs dw) (option_map (map Fin) st)
      = Ok (mkCS (map Z.of_nat l) (repeat (Fin 1) m) (mkD xs dw), map Fin (used_grm xs dw st)) /\
      length l = m /\ (forall i, In i l -> (i < length xs)%nat /\ 0 < nth i dw 0) /\
      (unique = true -> NoDup l) /\
      greedy_argmax (candidate dw unique)
        (herding_score k (fun j => nth j (used_grm xs dw st) 0) (fun j => nth j xs p0)) l.
  Proof.
    intros Hdw Hm Hord Hp1 Hp Hst.
    pose proof (herding_sel_ok xs dw (pidx (repeat 0%Z m) m) (used_grm xs dw st) (used_grm_len xs dw st Hst)) as Hsel.
    assert (HL0 : length (repeat 0%Z m) = m) by apply repeat_length.
    assert (Hord' : forall i, Permutation (ord i) (seq 0 (Nat.max (length (repeat 0%Z m)) m)))
      by (rewrite HL0, Nat.max_id; assumption).
    assert (Hp' : unique = true -> (Nat.max (length (repeat 0%Z m)) m <= npos dw)%nat)
      by (rewrite HL0, Nat.max_id; assumption).
    assert (Hcw' : length (repeat 0 m) = length (repeat 0%Z m)) by now rewrite !repeat_length.
    destruct (selection_outcome (repeat 0%Z m) (repeat 0 m) xs dw _ m unique bs ord Hdw Hcw' (proj1 Hm) Hord' Hp1 Hp' Hsel)
      as [E [A [B C]]].
    - eexists. unfold herding_reduce. cbn [h_size]. rewrite initial_ok by lia. cbn [bind].
      rewrite herding_refine_unfold by assumption. rewrite E. cbn [bind].
      split; [reflexivity|]. split; [assumption|]. split; [assumption|]. split; [assumption|].
      apply herding_rule; auto; [lia|]. now apply used_grm_len.
  Qed.

  (** SteinThinning *)
  Definition stein_of m unique bs (reg : option (option R * (list P -> list R -> list R) * (list P -> list R))) : stein :=
    mkStein m kE unique bs
      (option_map (fun q => let '(lam, logpdf, lap) := q in
          (option_map Fin lam,
           (fun x (w : list ER) => map Fin (logpdf x (map (fun v => match v with Fin a => a | _ => 0 end) w)) : list ER),
           (fun x => map Fin (lap x) : list ER))) reg).
  Definition stein_reg (clen : nat) (reg : option (option R * (list P -> list R -> list R) * (list P -> list R)))
     xs dw : option (list R * list R) :=
    option_map (fun q => let '(lam, logpdf, lap) := q in
       (lap xs, map (Rmult (match lam with Some l => l | None => 1 / INR clen end)) (logpdf xs dw))) reg.
  Lemma stein_terms_fin m unique bs reg clen xs dw : (1 <= clen)%nat ->
    stein_terms EROps (stein_of m unique bs reg) clen xs (map Fin dw)
    = option_map (fun p => (map Fin (fst p), map Fin (snd p))) (stein_reg clen reg xs dw).
  Proof.
    intros Hc. unfold stein_terms, stein_of, stein_reg. cbn [s_reg].
    destruct reg as [[[lam logpdf] lap]|]; cbn [option_map]; [|reflexivity]. cbn [fst snd]. do 2 f_equal.
    rewrite !map_map, map_id.
    apply map_ext. intros a. destruct lam as [l|]; cbn [option_map]; [reflexivity|].
    change (f1 EROps) with (Fin 1 : ER). change (fofZ EROps (Z.of_nat clen)) with (Fin (IZR (Z.of_nat clen)) : ER).
    assert (HI : INR clen <> 0) by (apply not_0_INR; lia).
    rewrite fdiv_fin by (rewrite <- INR_IZR_INZ; assumption).
    cbn. now rewrite <- INR_IZR_INZ.
  Qed.
  Lemma stein_refine_unfold m unique bs reg ord idx cw xs dw : (1 <= length idx)%nat ->
    stein_refine EROps p0 y0 (stein_of m unique bs reg) ord (mkCS idx (map Fin cw) (mkD xs dw))
    = greedy_selection EROps p0 y0 (mkCS idx (map Fin cw) (mkD xs dw))
        (stein_select EROps (map Fin (map (fun a => k a a) xs))
           (option_map (fun p => (map Fin (fst p), map Fin (snd p))) (stein_reg (length idx) reg xs dw)))
        m kE unique bs ord.
  Proof.
    intros H. unfold stein_refine. cbn [c_pre unpack2 d_y d_x d_w bind c_idx].
    rewrite stein_terms_fin by assumption. rewrite map_map. reflexivity.
  Qed.
  Definition reg_ok (xs : list P) (dw : list R) (reg : option (option R * (list P -> list R -> list R) * (list P -> list R))) : Prop :=
    match reg with None => True | Some (_, logpdf, lap) => length (logpdf xs dw) = length xs /\ length (lap xs) = length xs end.
  Lemma stein_reg_len clen reg xs dw : reg_ok xs dw reg ->
    forall lap rlp, stein_reg clen reg xs dw = Some (lap, rlp) -> length lap = length xs /\ length rlp = length xs.
  Proof.
    intros H lap rlp E. unfold stein_reg in E. destruct reg as [[[lam logpdf] lap']|]; [|discriminate].
    destruct H as [H1 H2]. cbn in E. injection E as <- <-. now rewrite map_length.
  Qed.
  Lemma stein_refine_outcome m unique bs reg ord idx cw xs dw :
    (1 <= length idx)%nat ->
    length dw = length xs -> length cw = length idx -> (1 <= m)%nat ->
    (forall i, Permutation (ord i) (seq 0 (Nat.max (length idx) m))) ->
    (1 <= npos dw)%nat -> (unique = true -> (Nat.max (length idx) m <= npos dw)%nat) ->
    reg_ok xs dw reg ->
    exists l,
      stein_refine EROps p0 y0 (stein_of m unique bs reg) ord (mkCS idx (map Fin cw) (mkD xs dw))
      = Ok (mkCS (map Z.of_nat l) (repeat (Fin 1) m) (mkD xs dw)) /\
      length l = m /\ (forall i, In i l -> (i < length xs)%nat /\ 0 < nth i dw 0) /\
      (unique = true -> NoDup l).
  Proof.
    intros Hi Hdw Hcw Hm Hord Hp1 Hp Hreg.
    pose proof (stein_sel_ok xs dw (pidx idx m) (map (fun a => k a a) xs) (stein_reg (length idx) reg xs dw)
                  (map_length _ _) (stein_reg_len _ reg xs dw Hreg)) as Hsel.
    destruct (selection_outcome idx cw xs dw _ m unique bs ord Hdw Hcw Hm Hord Hp1 Hp Hsel) as [E R].
    eexists. rewrite stein_refine_unfold by assumption. rewrite E. split; [reflexivity|]. exact R.
  Qed.
  Lemma stein_reduce_outcome m unique bs reg ord xs dw :
    length dw = length xs -> (1 <= m <= length xs)%nat ->
    (forall i, Permutation (ord i) (seq 0 m)) ->
    (1 <= npos dw)%nat -> (unique = true -> (m <= npos dw)%nat) -> reg_ok xs dw reg ->
    exists l,
      stein_reduce EROps p0 y0 (stein_of m unique bs reg) ord (mkD xs dw)
      = Ok (mkCS (map Z.of_nat l) (repeat (Fin 1) m) (mkD xs dw)) /\
      length l = m /\ (forall i, In i l -> (i < length xs)%nat /\ 0 < nth i dw 0) /\
      (unique = true -> NoDup l) /\
      greedy_argmax (candidate dw unique)
        (stein_score k
           (fun j => match reg with Some (_, _, lap) => nth j (lap xs) 0 | None => 0 end)
           (fun j => match reg with
                     | Some (lam, logpdf, _) =>
                         (match lam with Some l => l | None => 1 / INR m end) * nth j (logpdf xs dw) 0
                     | None => 0 end)
           (fun j => nth j xs p0)) l.
  Proof.
    intros Hdw Hm Hord Hp1 Hp Hreg.
    pose proof (stein_sel_ok xs dw (pidx (repeat 0%Z m) m) (map (fun a => k a a) xs) (stein_reg m reg xs dw)
                  (map_length _ _) (stein_reg_len _ reg xs dw Hreg)) as Hsel.
    assert (HL0 : length (repeat 0%Z m) = m) by apply repeat_length.
    assert (Hord' : forall i, Permutation (ord i) (seq 0 (Nat.max (length (repeat 0%Z m)) m)))
      by (rewrite HL0, Nat.max_id; assumption).
    assert (Hp' : unique = true -> (Nat.max (length (repeat 0%Z m)) m <= npos dw)%nat)
      by (rewrite HL0, Nat.max_id; assumption).
    assert (Hcw' : length (repeat 0 m) = length (repeat 0%Z m)) by now rewrite !repeat_length.
    destruct (selection_outcome (repeat 0%Z m) (repeat 0 m) xs dw _ m unique bs ord Hdw Hcw' (proj1 Hm) Hord' Hp1 Hp' Hsel)
      as [E [A [B C]]].
    - eexists. unfold stein_reduce. cbn [s_size stein_of]. rewrite initial_ok by lia. cbn [bind].
      fold (stein_of m unique bs reg).
      rewrite stein_refine_unfold by (rewrite repeat_length; lia). rewrite repeat_length, E.
      split; [reflexivity|]. split; [assumption|]. split; [assumption|]. split; [assumption|].
      pose proof (stein_rule p0 k xs dw m unique ord Hdw ltac:(lia) Hord Hp1 Hp _ (stein_reg_len m reg xs dw Hreg)) as R.
      intros t Ht. destruct (R t Ht) as [R1 R2]. split; [exact R1|]. intros j Hj.
      assert (Heq : forall ch i, (i < length xs)%nat ->
        stein_score k
           (fun j => match reg with Some (_, _, lap) => nth j (lap xs) 0 | None => 0 end)
           (fun j => match reg with
                     | Some (lam, logpdf, _) =>
                         (match lam with Some l => l | None => 1 / INR m end) * nth j (logpdf xs dw) 0
                     | None => 0 end)
           (fun j => nth j xs p0) ch i
        = stein_score k
            (fun j => match stein_reg m reg xs dw with Some (lap, _) => nth j lap 0 | None => 0 end)
            (fun j => match stein_reg m reg xs dw with Some (_, rlp) => nth j rlp 0 | None => 0 end)
            (fun j => nth j xs p0) ch i).
      { intros ch i Hi. unfold stein_score, stein_reg. destruct reg as [[[lam logpdf] lap]|]; cbn [option_map]; [|reflexivity].
        destruct Hreg as [H1 H2]. rewrite (nth_map_lt _ _ _ 0) by lia. reflexivity. }
      rewrite !Heq.
      + now apply R2.
      + destruct R1. lia.
      + destruct Hj. lia.
  Qed.

  (** ** monotone refinement *)
  Section Mono.
    Hypothesis ksym : forall a b, k a b = k b a.
    Lemma grm_wavg xs dw j : length dw = length xs -> Rsum dw <> 0 -> (j < length xs)%nat ->
      nth j (grm_of xs dw) 0 = wavg (fun b => k b (nth j xs p0)) xs dw.
    Proof.
      intros Hd Hs Hj. unfold grm_of. rewrite (nth_map_lt _ _ _ p0) by assumption.
      rewrite Rdot_wsum, wsum_norm by auto. apply wavg_ext. intros. apply ksym.
    Qed.
    Lemma herding_mono l0 c xs dw unique ord :
      length dw = length xs -> (1 <= length l0)%nat -> 0 < c -> Rsum dw <> 0 ->
      (forall i, Permutation (ord i) (seq 0 (length l0))) ->
      (forall i, In i l0 -> (i < length xs)%nat /\ 0 < nth i dw 0) ->
      (unique = true -> NoDup l0) ->
      (forall a b, In a xs -> In b xs -> k a a = k b b) ->
      mmd2 k xs dw (map (fun j => nth j xs p0)
         (res p0 k (map Z.of_nat l0) (repeat c (length l0)) xs dw
            (herding_select EROps Greedy (map Fin (grm_of xs dw))) (length l0) unique ord))
         (repeat 1 (length l0))
      <= mmd2 k xs dw (map (fun j => nth j xs p0) l0) (repeat c (length l0)).
    Proof.
      intros Hdw Hm Hc Hs Hord Hl0 Hnd Hdiag.
      assert (Hg : length (grm_of xs dw) = length xs) by apply map_length.
      pose proof (herding_sel_ok xs dw (map Z.of_nat l0) (grm_of xs dw) Hg) as Hsel.
      set (RES := res _ _ _ _ _ _ _ _ _ _).
      assert (HL : length RES = length l0) by (apply r_reslen; assumption).
      assert (Hne : l0 <> []) by (destruct l0; [simpl in Hm; lia|discriminate]).
      assert (HneR : RES <> []) by (intros E; rewrite E in HL; simpl in HL; lia).
      rewrite <- HL at 1. rewrite !mmd2_uniform by (try assumption; lra). rewrite HL.
      set (x := fun j => nth j xs p0). set (M := INR (length l0)).
      assert (HM : 0 < M) by (apply lt_0_INR; lia).
      set (obj := fun l => quad (fun a b => k (x a) (x b)) l / (M * M)
          - 2 * (Rsum (map (fun a => wavg (fun b => k b (x a)) xs dw) l) / M)).
      assert (Hobj : forall t, (t <= length l0)%nat ->
         obj (cur p0 k l0 c xs dw (herding_select EROps Greedy (map Fin (grm_of xs dw))) unique ord t) <= obj l0).
      { induction t; intros Ht; [unfold cur; simpl; lra|]. specialize (IHt ltac:(lia)).
        destruct (exchange p0 k l0 c xs dw _ unique ord Hdw Hm Hc Hord Hl0 Hnd Hsel t ltac:(lia))
          as [pre [y [r [post [v [E1 [E2 [Hy [Hr [Vy [Vr [Hsl [HvL Hni]]]]]]]]]]]]].
        eapply Rle_trans; [|exact IHt]. rewrite E1, E2. unfold obj.
        rewrite !(quad_split (fun a b => k (x a) (x b))) by (intros; apply ksym).
        rewrite !map_app. cbn [map]. rewrite !Rsum_app. cbn [Rsum].
        destruct (herding_select_spec xs (grm_of xs dw) t v (Z.of_nat (length l0)) Hg HvL ltac:(lia) Hni)
          as [r' [q [Er [Hr' [Eq Hmax]]]]]; [eauto|].
        rewrite Er in Hsl. apply Nat2Z.inj in Hsl. subst r'.
        rewrite Vr in Eq. injection Eq as <-. destruct (Hmax y _ Hy Vy) as [Hle _].
        rewrite !grm_wavg, <- INR_IZR_INZ in Hle by assumption.
        fold M in Hle. fold (x y) (x r) in Hle.
        assert (Hd : k (x r) (x r) = k (x y) (x y)).
        { apply Hdiag; apply nth_In; assumption. }
        rewrite Hd.
        change (fun i : nat => k (x y) (nth i xs p0)) with (fun i => k (x y) (x i)) in Hle.
        change (fun i : nat => k (x r) (nth i xs p0)) with (fun i => k (x r) (x i)) in Hle.
        rewrite !map_app, !Rsum_app in Hle.
        set (A := Rsum (map (fun i => k (x y) (x i)) pre) + Rsum (map (fun i => k (x y) (x i)) post)) in *.
        set (B := Rsum (map (fun i => k (x r) (x i)) pre) + Rsum (map (fun i => k (x r) (x i)) post)) in *.
        set (wy := wavg (fun b => k b (x y)) xs dw) in *.
        set (wr := wavg (fun b => k b (x r)) xs dw) in *.
        set (Q := quad _ (pre ++ post)).
        set (S1 := Rsum (map _ pre)). set (S2 := Rsum (map _ post)).
        assert (E : (Q + 2 * A + k (x y) (x y)) / (M * M) - 2 * ((S1 + (wy + S2)) / M)
                    - ((Q + 2 * B + k (x y) (x y)) / (M * M) - 2 * ((S1 + (wr + S2)) / M))
                    = 2 / M * ((wr - B / M) - (wy - A / M))) by (field; lra).
        assert (0 <= 2 / M * ((wr - B / M) - (wy - A / M))).
        { apply Rmult_le_pos; [|lra]. apply Rlt_le, Rdiv_lt_0_compat; lra. }
        lra. }
      specialize (Hobj (length l0) (Nat.le_refl _)). rewrite cur_m in Hobj by assumption.
      fold RES in Hobj. unfold obj in Hobj. fold M. unfold x in Hobj. lra.
    Qed.
    (** kernel Stein discrepancy of a uniformly weighted coreset *)
    Lemma stein_mono l0 c xs dw unique ord :
      length dw = length xs -> (1 <= length l0)%nat -> 0 < c ->
      (forall i, Permutation (ord i) (seq 0 (length l0))) ->
      (forall i, In i l0 -> (i < length xs)%nat /\ 0 < nth i dw 0) ->
      (unique = true -> NoDup l0) ->
      quad (fun a b => k (nth a xs p0) (nth b xs p0))
         (res p0 k (map Z.of_nat l0) (repeat c (length l0)) xs dw
            (stein_select EROps (map Fin (map (fun a => k a a) xs)) None) (length l0) unique ord)
      <= quad (fun a b => k (nth a xs p0) (nth b xs p0)) l0.
    Proof.
      intros Hdw Hm Hc Hord Hl0 Hnd.
      assert (Hg : length (map (fun a => k a a) xs) = length xs) by apply map_length.
      assert (Hreg : forall lap rlp : list R, None = Some (lap, rlp) -> length lap = length xs /\ length rlp = length xs)
        by discriminate.
      pose proof (stein_sel_ok xs dw (map Z.of_nat l0) _ None Hg Hreg) as Hsel. cbn [option_map] in Hsel.
      set (x := fun j => nth j xs p0).
      assert (Hobj : forall t, (t <= length l0)%nat ->
         quad (fun a b => k (x a) (x b)) (cur p0 k l0 c xs dw (stein_select EROps (map Fin (map (fun a => k a a) xs)) None) unique ord t)
         <= quad (fun a b => k (x a) (x b)) l0).
      { induction t; intros Ht; [unfold cur; simpl; lra|]. specialize (IHt ltac:(lia)).
        destruct (exchange p0 k l0 c xs dw _ unique ord Hdw Hm Hc Hord Hl0 Hnd Hsel t ltac:(lia))
          as [pre [y [r [post [v [E1 [E2 [Hy [Hr [Vy [Vr [Hsl [HvL Hni]]]]]]]]]]]]].
        eapply Rle_trans; [|exact IHt]. rewrite E1, E2.
        rewrite !(quad_split (fun a b => k (x a) (x b))) by (intros; apply ksym).
        destruct (stein_select_spec xs _ None t v (Z.of_nat (length l0)) Hg HvL Hreg Hni)
          as [r' [q [Er [Hr' [Eq Hmax]]]]]; [eauto|]. cbn [option_map] in Er.
        rewrite Er in Hsl. apply Nat2Z.inj in Hsl. subst r'.
        rewrite Vr in Eq. injection Eq as <-. destruct (Hmax y _ Hy Vy) as [Hle _].
        rewrite !(nth_map_lt _ _ _ p0) in Hle by assumption.
        fold (x y) (x r) in Hle.
        change (fun i : nat => k (x y) (nth i xs p0)) with (fun i => k (x y) (x i)) in Hle.
        change (fun i : nat => k (x r) (nth i xs p0)) with (fun i => k (x r) (x i)) in Hle.
        lra. }
      specialize (Hobj (length l0) (Nat.le_refl _)). rewrite cur_m in Hobj by assumption. exact Hobj.
    Qed.
  End Mono.
End Top.
