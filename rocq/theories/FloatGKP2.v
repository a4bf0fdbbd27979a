(** * Greedy kernel points in floating point arithmetic: losses are finite, and the run *)
From Coq Require Import List ZArith Bool Reals Permutation Lia Lra.
From Coq Require Import Floats.SpecFloat.
From Flocq Require Import Core.Core IEEE754.BinarySingleNaN.
From Verif Require Import Num Jax RSum JaxFacts DataModel GreedyModel UtilModel GKPModel GKPSpec CholProofs
  GKPProofs GKPProofs2 GKPProofs3 FloatGKP Float FloatProofs2 FloatGreedy FloatRate3 FloatIdxSpec PropFloatIdx FloatGKPSpec.
Import ListNotations.
Open Scope nat_scope.

Section Arith.
  Context (prec emax : Z) {Hp : Prec_gt_0 prec} {Hm : Prec_lt_emax prec emax} {Sm : SumOrder prec emax}.
  Notation flt := (binary_float prec emax).
  Notation O := (FOpsIEEE prec emax).
  Definition fin (v : flt) : Prop := is_finite v = true.
  Definition rle (u v : flt) : Prop := (B2R u <= B2R v)%R.

  Lemma plus_zero (v : flt) : fin v -> fin (Bplus mode_NE v (B754_zero false)) /\ B2R (Bplus mode_NE v (B754_zero false)) = B2R v.
  Proof.
    intros F. destruct (plus_cases prec emax v (B754_zero false) F eq_refl) as [[R G]|(_ & _ & C)].
    - split; auto. rewrite R. change (B2R (B754_zero false)) with 0%R. rewrite Rplus_0_r. apply (rnd_id prec emax).
    - exfalso. change (B2R (B754_zero false)) with 0%R in C. rewrite Rplus_0_r, (rnd_id prec emax) in C. pose proof (B2R_big prec emax v). lra.
  Qed.
  Lemma argb_range (better : flt -> flt -> bool) l : l <> [] -> argb better l < length l.
  Proof.
    destruct l as [|x t]; [congruence|]. intros _. cbn [argb].
    assert (G : forall t pre bi b, bi < pre -> argbest better t pre bi b < pre + length t).
    { clear. induction t as [|x t IH]; intros pre bi b H; cbn [argbest length]; [lia|].
      destruct (better x b); (eapply Nat.lt_le_trans; [apply IH; lia|lia]). }
    specialize (G t 1 0 x). cbn [length]. lia.
  Qed.
  Definition least (l : list flt) (v : flt) : Prop := is_finite v = true /\ Forall (fun w => is_finite w = true -> (B2R v <= B2R w)%R) l.
  Lemma least_dec l v : {least l v} + {~ least l v}.
  Proof.
    unfold least. destruct (fin_dec prec emax v) as [F|F]; [|right; tauto].
    destruct (Forall_dec (fun w : flt => is_finite w = true -> (B2R v <= B2R w)%R)) with (l := l) as [A|A]; [|left; auto|right; tauto].
    intros w. destruct (is_finite w); [|left; discriminate]. destruct (Rle_dec (B2R v) (B2R w)); [left; auto|right; auto].
  Qed.
  Lemma finite_min l : Exists fin l -> exists v, In v l /\ fin v /\ forall w, In w l -> fin w -> (B2R v <= B2R w)%R.
  Proof.
    induction l as [|a l IH]; intros H; [inversion H|].
    destruct (Exists_dec fin l (fin_dec prec emax)) as [E|E].
    - destruct (IH E) as (v & V1 & V2 & V3). destruct (fin_dec prec emax a) as [F|F].
      + destruct (Rle_dec (B2R v) (B2R a)).
        * exists v. split; [now right|]. split; auto. intros w [<-|Hw] Fw; auto.
        * exists a. split; [now left|]. split; auto. intros w [<-|Hw] Fw; [lra|]. specialize (V3 w Hw Fw). lra.
      + exists v. split; [now right|]. split; auto. intros w [<-|Hw] Fw; [contradiction|auto].
    - apply Exists_cons in H as [H|H]; [|contradiction]. exists a. split; [now left|]. split; auto.
      intros w [<-|Hw] Fw; [lra|]. exfalso. apply E, Exists_exists. eauto.
  Qed.
  Lemma argmin_least (l : list flt) : (forall v, In v l -> fin v \/ v = B754_infinity false) -> Exists fin l ->
    argmin O l < length l /\ least l (nth (argmin O l) l B754_nan).
  Proof.
    intros H E. unfold argmin. apply (argb_inv prec emax (lt_nan O) (least l) l).
    - intros x b [FB BB] IX G. destruct (H x IX) as [F| ->]; [|destruct b as [[]|[]| |[] m e Hb]; try discriminate; discriminate G].
      split; auto. eapply Forall_impl; [|exact BB]. intros w Hw Fw. specialize (Hw Fw).
      assert (B2R x < B2R b)%R; [|lra]. unfold lt_nan in G. cbn [fisnan fltb FOpsIEEE] in G. apply andb_prop in G as [_ G].
      assert (NX : is_nan x = false) by (destruct x; auto; discriminate). rewrite NX in G. cbn [orb] in G.
      rewrite (Bltb_correct prec emax x b F FB) in G. revert G. case Rlt_bool_spec; auto; discriminate.
    - intros x b [FX BX] NB I. destruct (H b I) as [F| ->]; [|destruct x as [[]|[]| |[] m e Hb]; try discriminate; reflexivity].
      unfold lt_nan. cbn [fisnan fltb FOpsIEEE]. assert (NX : is_nan b = false) by (destruct b; auto; discriminate). rewrite NX. cbn [negb andb].
      apply orb_true_iff. right. rewrite (Bltb_correct prec emax x b FX F). apply Rlt_bool_true. apply Rnot_le_lt. intros L. apply NB. split; auto.
      eapply Forall_impl; [|exact BX]. intros w Hw Fw. specialize (Hw Fw). lra.
    - apply least_dec.
    - destruct (finite_min l E) as (v & V1 & V2 & V3). apply Exists_exists. exists v. split; auto. split; auto. apply Forall_forall. auto.
  Qed.
  Lemma float_arith : arith_ok O fin rle.
  Proof.
    constructor.
    - intros v F. cbn [fadd finf FOpsIEEE]. unfold fin in F. destruct v; try discriminate; reflexivity.
    - intros v F. apply plus_zero. exact F.
    - intros u v Fu Fv. cbn [fadd f0 FOpsIEEE]. unfold rle. rewrite (proj2 (plus_zero u Fu)), (proj2 (plus_zero v Fv)). auto.
    - discriminate.
    - intros l H. now apply argb_range.
    - intros l d H E. destruct (argmin_least l H E) as [R [F L]]. rewrite (nth_indep l d B754_nan R). split; [exact F|].
      rewrite Forall_forall in L. intros v I. apply L. exact I.
  Qed.
End Arith.

Section Loss.
  Context (prec emax : Z) {Hp : Prec_gt_0 prec} {Hm : Prec_lt_emax prec emax} {Sm : SumOrder prec emax}.
  Notation flt := (binary_float prec emax).
  Notation O := (FOpsIEEE prec emax).
  Context (a e c : Z) (FR : fit_room prec emax a e c).
  Notation g := (a + e + c)%Z.
  Context {P : Type} (k : P -> P -> flt) (x : list P) (y : list flt) (m : nat).
  Context (Hk : forall p q, at_most e (k p q)) (Hy : Forall (at_most (g - 1)) y).
  Context (Hma : (Z.of_nat m <= 2 ^ a)%Z) (solve : ls_solver (V := flt)).
  Context (HS : solver_bounded m e (g - 1) c solve).
  Notation gram := (padded_gramian O k x).
  Notation resp := (y ++ [f0 O]).

  Lemma at_most_zero q s : at_most q (B754_zero s : flt).
  Proof. split; [reflexivity|]. change (B2R _) with 0%R. rewrite Rabs_R0. apply bpow_ge_0. Qed.
  Lemma gram_bd i j : at_most e (gram_at O gram i j).
  Proof.
    unfold gram_at. set (row := jget [] gram i).
    assert (IR : In row gram) by (apply jget_In; unfold padded_gramian; destruct x; discriminate).
    assert (RN : row <> [] /\ forall v, In v row -> at_most e v).
    { clearbody row. unfold padded_gramian in IR. apply in_app_iff in IR as [IR|[<-|[]]].
      - apply in_map_iff in IR as [b [<- _]]. split; [destruct x; discriminate|]. intros v Hv. apply in_app_iff in Hv as [Hv|[<-|[]]].
        + apply in_map_iff in Hv as [b' [<- _]]. apply Hk.
        + apply at_most_zero.
      - split; [rewrite Nat.add_1_r; discriminate|]. intros v Hv. apply repeat_spec in Hv. subst. apply at_most_zero. }
    destruct RN as [RN RF]. apply RF, jget_In, RN.
  Qed.
  Lemma resp_bd i : at_most (g - 1) (jget (f0 O) resp i).
  Proof.
    assert (I : In (jget (f0 O) resp i) resp) by (apply jget_In; destruct y; discriminate).
    apply in_app_iff in I as [I|[<-|[]]]; [|apply at_most_zero]. rewrite Forall_forall in Hy. auto.
  Qed.

  Lemma pos2 q : (0 <= q)%Z -> (1 <= 2 ^ q)%Z. Proof. intros H. pose proof (Z.pow_pos_nonneg 2 q). lia. Qed.
  Lemma pred_bd ks cs : length ks <= m -> Forall (at_most e) ks -> Forall (at_most c) cs -> at_most g (fdot O ks cs).
  Proof.
    intros L K C. destruct FR as [[F1 F2] [F3 F4] F5].
    assert (PP : (1 <= 2 ^ a)%Z) by (apply pos2; lia).
    assert (P2 : (2 ^ (a + 1) = 2 * 2 ^ a)%Z) by (rewrite Z.pow_add_r by lia; lia).
    assert (Hmx := Hm). unfold Prec_lt_emax in Hmx. assert (Hpx := Hp). unfold Prec_gt_0 in Hpx.
    assert (F : Forall (bd prec emax (e + c) 1) (map2 (fmul O) ks cs) /\ length (map2 (fmul O) ks cs) <= length ks).
    { clear L. revert cs C. induction K as [|u ks U K IH]; intros [|v cs] C; cbn [map2 length]; try (split; [constructor|lia]).
      inversion C as [|? ? C1 C2]; subst. destruct (IH cs C2) as [I1 I2]. split; [|lia]. constructor; auto.
      cbn [fmul FOpsIEEE]. apply (bd_mult prec emax (e + c) (a + 1)) with (q := e); try lia; try apply U.
      replace (e + c - e)%Z with c by lia. now apply at_most_bd. }
    destruct F as [G1 G2].
    assert (B : bd prec emax (e + c) m (fdot O ks cs)).
    { unfold fdot. apply bd_mono with (length (map2 (fmul O) ks cs)); [|lia].
      rewrite <- (map_id (map2 (fmul O) ks cs)) at 2. rewrite <- list_sum_ones. rewrite Forall_forall in G1.
      apply (bd_sum prec emax (e + c) (a + 1)); try lia; auto. rewrite list_sum_ones. lia. }
    destruct B as [B1 B2]. split; auto. eapply Rle_trans; [exact B2|]. replace g with (a + (e + c))%Z by lia. rewrite (bpow_plus radix2 a).
    apply Rmult_le_compat_r; [apply bpow_ge_0|]. rewrite <- (IZR_Zpower radix2) by lia. apply IZR_le. exact Hma.
  Qed.
  Lemma loss_fin reg I batch cs : length cs = m -> (Z.of_nat (length batch) <= 2 ^ a)%Z ->
    is_finite (gkp_loss O solve reg resp gram I batch cs) = true.
  Proof.
    intros L LB. unfold gkp_loss. set (co := solve _ _ _ _).
    assert (C : Forall (at_most c) co).
    { apply HS.
      - apply Forall_forall. intros row Hr. apply in_map_iff in Hr as [i [<- _]]. apply Forall_forall. intros v Hv.
        apply in_map_iff in Hv as [j [<- _]]. apply gram_bd.
      - unfold gather. now rewrite map_length.
      - apply Forall_forall. intros v Hv. unfold gather in Hv. apply in_map_iff in Hv as [j [<- _]]. apply resp_bd. }
    clearbody co.
    destruct FR as [[F1 F2] [F3 F4] F5].
    assert (PP : (1 <= 2 ^ a)%Z) by (apply pos2; lia).
    assert (P2 : (2 ^ (a + 2) = 4 * 2 ^ a)%Z) by (rewrite Z.pow_add_r by lia; lia).
    assert (Hmx := Hm). unfold Prec_lt_emax in Hmx. assert (Hpx := Hp). unfold Prec_gt_0 in Hpx.
    set (pr := fun l => fdot O (map (fun i => gram_at O gram i l) cs) co).
    assert (PR : forall l, at_most g (pr l)).
    { intros l. apply pred_bd; auto; [rewrite map_length; lia|]. apply Forall_forall. intros v Hv. apply in_map_iff in Hv as [i [<- _]]. apply gram_bd. }
    assert (T : forall l, bd prec emax (2 * g) 2 (fmul O (fsub O (pr l) (fmul O (fofZ O 2) (jget (f0 O) resp l))) (pr l))).
    { intros l. cbn [fmul fsub FOpsIEEE].
      assert (Y : bd prec emax g 1 (Bmult mode_NE (fofZ O 2) (jget (f0 O) resp l))).
      { assert (4 <= 2 ^ prec)%Z by (change 4%Z with (2 ^ 2)%Z; apply Z.pow_le_mono_r; lia).
        destruct (ofZ_exact prec emax 2) as [Z1 Z2]; [lia|].
        apply (bd_mult prec emax g (a + 2)) with (q := 1%Z); try lia; auto.
        - apply at_most_bd, resp_bd.
        - rewrite Z2, Rabs_pos_eq by lra. cbn. lra. }
      assert (D : bd prec emax g 2 (Bminus mode_NE (pr l) (Bmult mode_NE (fofZ O 2) (jget (f0 O) resp l)))).
      { apply (bd_minus prec emax g (a + 2)) with (t := 1) (s := 1); try lia; auto. apply at_most_bd, PR. }
      destruct D as [D1 D2].
      destruct (rnd_bd prec emax (2 * g) (a + 2) ltac:(lia) ltac:(lia) ltac:(lia) 2
         (B2R (Bminus mode_NE (pr l) (Bmult mode_NE (fofZ O 2) (jget (f0 O) resp l))) * B2R (pr l))) as [R1 R2]; [lia| |].
      { rewrite Rabs_mult. replace (2 * g)%Z with (g + g)%Z by lia. rewrite bpow_plus, <- Rmult_assoc.
        apply Rmult_le_compat; auto using Rabs_pos. apply PR. }
      destruct (mult_cases prec emax (Bminus mode_NE (pr l) (Bmult mode_NE (fofZ O 2) (jget (f0 O) resp l))) (pr l) D1 (proj1 (PR l))) as [[R F]|[_ X]]; [|lra].
      split; auto. now rewrite R. }
    change (is_finite (fsum O (map (fun l => fmul O (fsub O (pr l) (fmul O (fofZ O 2) (jget (f0 O) resp l))) (pr l)) batch)) = true).
    assert (LS : list_sum (map (fun _ : Z => 2) batch) = 2 * length batch).
    { clear. unfold list_sum. induction batch as [|b l IH]; cbn [map fold_right length]; lia. }
    apply (bd_sum prec emax (2 * g) (a + 2) ltac:(lia) ltac:(lia) ltac:(lia) _ (fun _ => 2) batch); auto.
    rewrite LS. lia.
  Qed.
End Loss.

Section Run.
  Context (prec emax : Z) {Hp : Prec_gt_0 prec} {Hm : Prec_lt_emax prec emax} {Sm : SumOrder prec emax}.
  Notation flt := (binary_float prec emax).
  Notation O := (FOpsIEEE prec emax).
  Context (a e c : Z) (FR : fit_room prec emax a e c).
  Context {P K : Type} (p0 : P) (s : gkp (V := flt) (P := P) (K := K)).
  Variables (x : list P) (w y : list flt) (idx : list Z) (cw : list flt).
  Notation n := (length x).
  Notation m := (gk_size s).
  Notation d := (mkData x w (Some y)).
  Notation idx0 := (initial_indices m idx).
  Notation cb := (batch_size (gk_candidates s) n).
  Hypothesis Hk : forall p q, at_most e (gk_kernel s p q).
  Hypothesis Hy : Forall (at_most (a + e + c - 1)) y.
  Hypothesis Hna : (Z.of_nat n <= 2 ^ a)%Z.
  Hypothesis HS : solver_bounded m e (a + e + c - 1) c (gk_solve s).
  Hypothesis Hs : split_ok (gk_split s).
  Hypothesis Hpm : permutation_ok (gk_permutation s).
  Hypothesis Hc : batch_arg_ok (gk_candidates s).
  Hypothesis Hl : batch_arg_ok (gk_loss s).
  Hypothesis Hmn : m <= n.
  Hypothesis Hn : 0 < n.
  Notation gram := (padded_gramian O (gk_kernel s) x).
  Notation resp := (y ++ [f0 O]).

  Lemma float_run : exists su res, setup_batch_solver O s idx n = Ok su /\ setup_spec O s idx n su /\
    length res = m /\
    gkp_refine O p0 s (mkCS idx cw d) None = Ok (mkCS res (repeat Bone m) d, gram) /\
    forall u, u < m ->
      let cur := firstn u res ++ skipn u idx0 in
      let ch := nth u res 0%Z in
      let B := nth u (su_cand su) [] in
      In ch B /\
      (gk_unique s = false \/ (exists b, In b B /\ ~ In b (others u cur)) ->
       (gk_unique s = true -> ~ In ch (others u cur)) /\
       forall b, In b B -> (gk_unique s = true -> ~ In b (others u cur)) ->
         rle prec emax (loss_at O s su resp gram (v0 O s idx n) u (upd u ch cur)) (loss_at O s su resp gram (v0 O s idx n) u (upd u b cur))).
  Proof.
    destruct (setup_ok O s idx n Hs Hpm Hc Hl) as [su [ES SS]]. exists su.
    assert (LF : forall t q, t < m -> length q = m -> fin prec emax (loss_at O s su resp gram (v0 O s idx n) t q)).
    { intros t q Ht Lq. apply (loss_fin prec emax a e c FR (gk_kernel s) x y m Hk Hy); auto; [lia|].
      destruct (ss_loss _ _ _ _ _ SS t Ht) as [b [-> [ND [R _]]]]. rewrite map_length.
      assert (length b <= length (seq 0 n)); [|rewrite seq_length in *; lia].
      apply NoDup_incl_length; auto. intros i Hi. apply in_seq. apply R in Hi. lia. }
    assert (W : 0 < width s n).
    { unfold width. destruct (_ <? _)%Z; lia. }
    pose proof (gkp_loop O (fin prec emax) (rle prec emax) (float_arith prec emax) s su resp gram (v0 O s idx n) (width s n) LF) as LOOP.
    rewrite (ss_idx _ _ _ _ _ SS) in LOOP.
    specialize (LOOP (initial_indices_length _ _) (ss_len _ _ _ _ _ SS) W (fun r => setup_shape O s idx n Hc su r SS) (ss_id _ _ _ _ _ SS) (ss_cs _ _ _ _ _ SS)).
    set (out := fori m _ _) in LOOP. destruct LOOP as [Ll Lt Li Lc Lr].
    rewrite (ss_idx _ _ _ _ _ SS) in Lt, Lr.
    exists (k_idx out). split; [exact ES|]. split; [exact SS|]. split; [exact Ll|]. split; [|exact Lr].
    unfold gkp_refine. cbn [c_pre c_idx d_x d_y]. rewrite ES. cbn [bind].
    rewrite (ss_idx _ _ _ _ _ SS) at 1. fold out.
    unfold cs_build, conv_data. cbn [bind]. unfold cs_init, points, d_getitem, d_len. cbn [d_x c_idx c_pre].
    rewrite gather_length, Ll. destruct (Nat.ltb_spec n m); [lia|]. reflexivity.
  Qed.
  Lemma float_distinct : gk_unique s = true -> good n idx0 ->
    ((forall t, t < m -> nth t idx0 0%Z <> (-1)%Z) \/ m <= Z.to_nat cb) ->
    exists res, gkp_refine O p0 s (mkCS idx cw d) None = Ok (mkCS res (repeat Bone m) d, gram) /\
      length res = m /\ NoDup res /\ Forall (in_range n) res.
  Proof.
    intros U G Big. destruct float_run as [su [res [ES [SS [RL [E TR]]]]]].
    exists res. split; [exact E|]. split; [exact RL|]. rewrite Forall_forall.
    apply (trace_distinct O s idx n su Hc SS res RL G Big). intros u Hu. destruct (TR u Hu) as [T1 T2]. split; [exact T1|].
    intros EX. apply T2; auto.
  Qed.
End Run.
