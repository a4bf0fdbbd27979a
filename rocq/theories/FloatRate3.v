(** * KernelHerding in floating point arithmetic: accuracy of the scores *)
From Coq Require Import List ZArith Bool Reals Permutation Lia Lra.
From Coq Require Import Floats.SpecFloat.
From Flocq Require Import Core.Core IEEE754.BinarySingleNaN.
From Verif Require Import Num Jax RSum JaxFacts DataModel MeanModel MeanGeneric MeanSpec GreedySpec GreedyModel GreedyProofs GreedyProofs2 GreedyProofs3 LoopProofs
  MetricProofs RateProofs2 Float FloatProofs2 FloatGreedy FloatGreedy2 FloatIdxSpec FloatErrSpec FloatErr FloatMean FloatMMD FloatRateSpec FloatRate FloatRate2.
Import ListNotations.
Open Scope R_scope.

Section Pick.
  Context (prec emax : Z) {Hprec : Prec_gt_0 prec} {Hmax : Prec_lt_emax prec emax} {Sm : SumOrder prec emax}.
  Notation flt := (binary_float prec emax).
  Notation O := (FOpsIEEE prec emax).
  Lemma finite_max (l : list flt) : Exists (fun v => is_finite v = true) l ->
    exists v, In v l /\ is_finite v = true /\ forall w, In w l -> is_finite w = true -> B2R w <= B2R v.
  Proof.
    induction l as [|a l IH]; intros H; [inversion H|].
    destruct (Exists_dec (fun v : flt => is_finite v = true) l ltac:(apply fin_dec)) as [E|E].
    - destruct (IH E) as (v & V1 & V2 & V3). destruct (is_finite a) eqn:FA.
      + destruct (Rle_dec (B2R a) (B2R v)).
        * exists v. split; [now right|]. split; auto. intros w [<-|Hw] Fw; auto.
        * exists a. split; [now left|]. split; auto. intros w [<-|Hw] Fw; [lra|]. specialize (V3 w Hw Fw). lra.
      + exists v. split; [now right|]. split; auto. intros w [<-|Hw] Fw; [congruence|auto].
    - apply Exists_cons in H as [H|H]; [|contradiction]. exists a. split; [now left|]. split; auto.
      intros w [<-|Hw] Fw; [lra|]. exfalso. apply E, Exists_exists. eauto.
  Qed.
  Definition best (l : list flt) (v : flt) : Prop := is_finite v = true /\ Forall (fun w => is_finite w = true -> B2R w <= B2R v) l.
  Lemma best_dec l v : {best l v} + {~ best l v}.
  Proof.
    unfold best. destruct (fin_dec prec emax v) as [F|F]; [|right; tauto].
    destruct (Forall_dec (fun w : flt => is_finite w = true -> B2R w <= B2R v)) with (l := l) as [A|A]; [|left; auto|right; tauto].
    intros w. destruct (is_finite w); [|left; discriminate]. destruct (Rle_dec (B2R w) (B2R v)); [left; auto|right; auto].
  Qed.
  Lemma nanargmax_best (l : list flt) :
    (forall v, In v l -> v = B754_nan \/ v = B754_infinity true \/ is_finite v = true) -> Exists (fun v => is_finite v = true) l ->
    exists r, nanargmax O l = Z.of_nat r /\ (r < length l)%nat /\ is_finite (nth r l B754_nan) = true /\
      forall w, In w l -> is_finite w = true -> B2R w <= B2R (nth r l B754_nan).
  Proof.
    intros H E. unfold nanargmax.
    replace (forallb (fisnan O) l) with false.
    2:{ symmetry. apply not_true_is_false. intros F. rewrite forallb_forall in F. apply Exists_exists in E as [v [I FV]].
        specialize (F v I). destruct v; discriminate. }
    set (f := fun v : flt => if fisnan O v then fninf O else v).
    assert (Hm : forall v, In v (map f l) -> v = B754_infinity true \/ is_finite v = true).
    { intros v Hv. apply in_map_iff in Hv as [w [<- Hw]]. unfold f. destruct (H w Hw) as [->|[->|F]]; cbn; auto.
      destruct w; try discriminate; cbn; auto. }
    assert (FI : forall v, is_finite v = true -> f v = v) by (intros v F; unfold f; destruct v; try discriminate; reflexivity).
    destruct (argb_inv prec emax (gt_nan O) (best l) (map f l)) as [R1 R2].
    - intros x b [FB BB] IX G. destruct (Hm x IX) as [->|F]; [destruct b as [[]|[]| |[] m e Hb]; try discriminate; discriminate G|].
      split; auto. eapply Forall_impl; [|exact BB]. intros w Hw Fw. specialize (Hw Fw).
      assert (B2R b < B2R x); [|lra]. unfold gt_nan in G. cbn [fisnan fltb FOpsIEEE] in G. apply andb_prop in G as [_ G].
      assert (NX : is_nan x = false) by (destruct x; auto; discriminate). rewrite NX in G. cbn [orb] in G.
      rewrite (Bltb_correct prec emax b x FB F) in G. revert G. case Rlt_bool_spec; auto; discriminate.
    - intros x b [FX BX] NB I. destruct (Hm b I) as [->|F]; [destruct x as [[]|[]| |[] m e Hb]; try discriminate; reflexivity|].
      unfold gt_nan. cbn [fisnan fltb FOpsIEEE]. assert (NX : is_nan b = false) by (destruct b; auto; discriminate). rewrite NX. cbn [negb andb].
      apply orb_true_iff. right. rewrite (Bltb_correct prec emax b x F FX). apply Rlt_bool_true. apply Rnot_le_lt. intros L. apply NB. split; auto.
      eapply Forall_impl; [|exact BX]. intros w Hw Fw. specialize (Hw Fw). lra.
    - apply best_dec.
    - destruct (finite_max l E) as (v & V1 & V2 & V3). apply Exists_exists. exists v. split.
      + apply in_map_iff. exists v. split; auto.
      + split; auto. apply Forall_forall. auto.
    - rewrite map_length in R1. exists (argmax O (map f l)). split; [reflexivity|]. split; [exact R1|].
      unfold argmax in *. rewrite (nth_map_lt f l _ B754_nan) in R2 by exact R1. set (v := nth _ l _) in *.
      assert (FV : is_finite v = true) by (destruct R2 as [F _]; unfold f in F; destruct v; cbn in F; auto; discriminate).
      rewrite (FI v FV) in R2. destruct R2 as [_ B]. split; auto. intros w Hw. rewrite Forall_forall in B. auto.
  Qed.

  Lemma ofZ_exact z : (0 <= z < 2 ^ prec)%Z -> is_finite (fofZ O z) = true /\ B2R (fofZ O z) = IZR z.
  Proof.
    intros L. assert (P : (0 < prec < emax)%Z) by (split; assumption).
    pose proof (binary_normalize_correct prec emax _ _ mode_NE z 0 false) as B. cbn zeta in B.
    replace (F2R {| Fnum := z; Fexp := 0 |}) with (IZR z) in B by (unfold F2R; cbn; lra).
    rewrite round_generic in B.
    - rewrite Rlt_bool_true in B.
      + destruct B as (B1 & B2 & _). split; [exact B2|exact B1].
      + rewrite Rabs_pos_eq by (apply IZR_le; lia). eapply Rlt_trans; [apply IZR_lt, L|]. change 2%Z with (radix_val radix2). rewrite IZR_Zpower by lia. apply bpow_lt. lia.
    - apply valid_rnd_round_mode.
    - change (SpecFloat.fexp prec emax) with (FLT_exp (3 - emax - prec) prec). apply generic_format_FLT.
      exists (Float radix2 z 0); [unfold F2R; cbn; lra| |cbn [Fexp]; lia]. cbn [Fnum]. rewrite Z.abs_eq by lia. apply L.
  Qed.
  Lemma apx_div N a d x S r : apx prec emax N a x S -> is_finite d = true -> B2R d = r -> 1 <= r ->
    gg prec (Datatypes.S N) * (S / r + tau emax) < bpow radix2 emax ->
    apx prec emax (Datatypes.S N) (Bdiv mode_NE a d) (x / r) (S / r + tau emax).
  Proof.
    intros (FA & A & B) FD RD R1 L. pose proof (tau_pos emax) as TP. assert (IR : 0 < / r) by (apply Rinv_0_lt_compat; lra).
    destruct (apx_round prec N (B2R a / r) (x / r) (S / r) (tau emax) (round radix2 (SpecFloat.fexp prec emax) (round_mode mode_NE) (B2R a / r))) as [Q1 Q2].
    - unfold Rdiv. rewrite Rabs_mult, (Rabs_pos_eq (/ r)) by lra. apply Rmult_le_compat_r; lra.
    - replace (B2R a / r - x / r) with ((B2R a - x) * / r) by (unfold Rdiv; ring). rewrite Rabs_mult, (Rabs_pos_eq (/ r)) by lra.
      unfold Rdiv. rewrite <- Rmult_assoc. apply Rmult_le_compat_r; lra.
    - lra.
    - apply rnd_err; assumption.
    - rewrite <- RD in *. destruct (div_cases prec emax a d FA ltac:(lra)) as [[R F]|(_ & C)]; [|lra].
      split; auto. rewrite R. split; [|exact Q1]. unfold Rdiv. rewrite Rabs_mult, (Rabs_pos_eq (/ B2R d)) by lra.
      assert (Rabs x * / B2R d <= S * / B2R d) by (apply Rmult_le_compat_r; lra). lra.
  Qed.
End Pick.

Lemma wavg_close {P} (p0 : P) (f g : P -> R) xs w eps : length w = length xs -> (forall a, In a w -> 0 <= a) -> 0 < Rsum w ->
  (forall a, In a xs -> Rabs (f a - g a) <= eps) -> Rabs (wavg f xs w - wavg g xs w) <= eps.
Proof.
  intros HL HN HS H.
  assert (A : forall f g, (forall a, In a xs -> Rabs (f a - g a) <= eps) -> wavg f xs w - wavg g xs w <= eps).
  { clear f g H. intros f g H. replace (wavg f xs w) with (wavg (fun a => (f a - g a) + g a) xs w).
    - rewrite wavg_lin. enough (wavg (fun a => f a - g a) xs w <= eps) by lra. rewrite wavg_lin_nm. apply (lin_nm_bound p0); auto.
      intros j Hj _. specialize (H (nth j xs p0) (nth_In _ _ Hj)). apply Rabs_le_inv in H. lra.
    - apply DataMeanLemmas.wavg_ext. intros. lra. }
  apply Rabs_le. pose proof (A f g H). assert (B : wavg g xs w - wavg f xs w <= eps).
  { apply A. intros a Ha. rewrite Rabs_minus_sym. auto. } lra.
Qed.

Section Score.
  Context (prec emax : Z) {Hprec : Prec_gt_0 prec} {Hmax : Prec_lt_emax prec emax} {Sm : SumOrder prec emax}.
  Notation flt := (binary_float prec emax).
  Notation O := (FOpsIEEE prec emax).
  Notation big := (bpow radix2 emax).
  Notation gg := (gg prec). Notation tau := (tau emax). Notation apx := (apx prec emax).
  Notation nan := (B754_nan : flt).
  Notation inf := (B754_infinity false : flt).
  Variables (a e : Z) (L : nat).
  Hypothesis HR : mean_room prec emax a e L.
  Notation K := (bpow radix2 e).
  Context {P Y : Type} (p0 : P) (y0 : Y) (k : P -> P -> flt) (kx : P -> P -> R) (eps : R) (xs : list P) (dw : list flt) (m : nat) (unique : bool).
  Notation n := (length xs).
  Notation x := (fun j => nth j xs p0).
  Notation dwR := (map B2R dw).
  Notation cand := (candidate dwR unique).
  Hypothesis HX : weighted_data a xs dw.
  Hypothesis Hk : forall x y, In x (p0 :: xs) -> In y (p0 :: xs) -> at_most e (k x y).
  Hypothesis Hkx : forall x y, In x xs -> In y xs -> Rabs (B2R (k x y) - kx x y) <= eps.
  (** roundings behind a score *)
  Notation N := (2 * n + m + 5)%nat.
  Hypothesis HN : (N <= L)%nat.
  Notation score := (herding_score kx (fun j => wavg (fun b => kx (nth j xs p0) b) xs dwR) x).
  Definition fscore_err : R := 9 / 2 * INR N * bpow radix2 (e - prec) + 2 * eps.

  Lemma dwR_pos : (forall v, In v dwR -> 0 <= v) /\ 0 < Rsum dwR /\ length dwR = n.
  Proof.
    destruct HX as [H1 H2 H3 H4 H5]. split; [|split; [exact H4|now rewrite map_length]].
    intros v Hv. apply in_map_iff in Hv as [u [<- Hu]]. rewrite Forall_forall in H3. now apply H3.
  Qed.
  Lemma eps_pos : 0 <= eps.
  Proof.
    destruct dwR_pos as (_ & H & HL).
    assert (NE : (0 < n)%nat) by (rewrite <- HL; destruct dwR; [cbn in H; lra|cbn; lia]).
    eapply Rle_trans; [apply Rabs_pos|]. apply (Hkx (x 0%nat) (x 0%nat)); now apply nth_In.
  Qed.
  Lemma gg2 t : (t <= L)%nat -> 1 <= gg t <= 2.
  Proof. intros H. split; [apply gg_ge1|]. exact (proj2 (gg_room prec emax a e L HR t H)). Qed.

  (** the score computed from an accurate mean [g] and an accurate penalty [p] *)
  Definition fscore (g p : flt) (t : nat) : flt := fsub O g (fdiv O p (fofZ O (Z.of_nat t + 1))).
  Lemma fscore_apx g p j l : (length l < m)%nat -> (j < n)%nat -> (forall i, In i l -> (i < n)%nat) ->
    apx (2 * n + 3) g (wavg (fun b => B2R (k (x j) b)) xs dwR) (9 / 8 * K) ->
    apx (length l) p (pval prec emax p0 k xs l j) (INR (length l) * K) ->
    is_finite (fscore g p (length l)) = true /\ Rabs (B2R (fscore g p (length l)) - score l j) <= fscore_err.
  Proof using HR HX Hk Hkx HN Hprec Hmax.
    intros Hl Hj Hin AG AP. set (t := length l) in *.
    destruct (tau_room prec emax a e L HR) as (T1 & T2 & T3 & T4). pose proof (tau_pos emax) as TP. pose proof (bpow_gt_0 radix2 e) as KP.
    assert (D : (Z.of_nat t + 1 < 2 ^ prec)%Z).
    { destruct HR as [_ _ _ D]. replace prec with (prec - 1 + 1)%Z by lia. rewrite Z.pow_add_r by (try lia; assert (0 < prec)%Z by assumption; lia). lia. }
    destruct (ofZ_exact prec emax (Z.of_nat t + 1) ltac:(lia)) as [FD RD].
    rewrite plus_IZR, <- INR_IZR_INZ in RD. pose proof (pos_INR t) as PT.
    assert (Q : INR t * K / (INR t + 1) <= K).
    { apply Rmult_le_reg_r with (INR t + 1); [lra|]. unfold Rdiv. rewrite Rmult_assoc, Rinv_l by lra. nra. }
    assert (Q0 : 0 <= INR t * K / (INR t + 1)) by (apply Rmult_le_pos; [apply Rmult_le_pos; lra|left; apply Rinv_0_lt_compat; lra]).
    destruct (gg2 (S t) ltac:(lia)) as [G1 G2].
    pose proof (apx_div prec emax t p _ _ _ _ AP FD RD ltac:(lra)) as AD.
    assert (AD' : apx (2 * n + m + 4) (fdiv O p (fofZ O (Z.of_nat t + 1))) (pval prec emax p0 k xs l j / (INR t + 1)) (K + tau)).
    { eapply apx_mono; [apply AD|lia|lra]. apply Rle_lt_trans with (2 * (K + tau)); [apply Rmult_le_compat; lra|lra]. }
    assert (AG' : apx (2 * n + m + 4) g (wavg (fun b => B2R (k (x j) b)) xs dwR) (9 / 8 * K)) by (eapply apx_mono; [exact AG|lia|lra]).
    destruct (gg2 (S (2 * n + m + 4)) ltac:(lia)) as [G3 G4].
    pose proof (apx_sub prec emax _ _ _ _ _ _ _ AG' AD') as AS. specialize (AS ltac:(apply Rle_lt_trans with (2 * (9 / 8 * K + (K + tau))); [apply Rmult_le_compat; lra|lra])).
    assert (TK : tau <= / 8 * K).
    { unfold FloatErr.tau. change (/ 8) with (bpow radix2 (-3)). rewrite <- bpow_plus. apply bpow_le. destruct HR. lia. }
    replace (S (2 * n + m + 4)) with N in AS by lia.
    destruct (apx_error prec emax a e L HR N _ _ (9 / 8 * K + (K + tau)) (9 / 4) HN ltac:(lra) ltac:(lra) AS) as [F B]. split; [exact F|].
    set (v := B2R (Bminus _ _ _)) in B. change (B2R (fscore g p t)) with v.
    replace (2 * (9 / 4)) with (9 / 2) in B by field.
    destruct dwR_pos as (W1 & W2 & W3). pose proof eps_pos as EP.
    assert (E1 : Rabs (wavg (fun b => B2R (k (x j) b)) xs dwR - wavg (fun b => kx (x j) b) xs dwR) <= eps).
    { apply (wavg_close p0); auto. intros b Hb. apply Hkx; auto. now apply nth_In. }
    assert (E2 : Rabs (pval prec emax p0 k xs l j - Rsum (map (fun c => kx (x j) (x c)) l)) <= INR t * eps).
    { unfold pval, t. clear - Hkx Hj Hin. induction l as [|c l IH]; [cbn; rewrite Rminus_eq_0, Rabs_R0; lra|].
      cbn [map Rsum length]. rewrite S_INR. specialize (IH (fun i Hi => Hin i (or_intror Hi))).
      pose proof (Hkx (x j) (x c) (nth_In _ _ Hj) (nth_In _ _ (Hin c (or_introl eq_refl)))) as C.
      apply Rabs_le_inv in IH. apply Rabs_le_inv in C. apply Rabs_le. cbv beta in *. lra. }
    assert (E3 : Rabs (pval prec emax p0 k xs l j / (INR t + 1) - Rsum (map (fun c => kx (x j) (x c)) l) / (INR t + 1)) <= eps).
    { unfold Rdiv. rewrite <- Rmult_minus_distr_r, Rabs_mult, Rabs_inv, (Rabs_pos_eq (INR t + 1)) by lra.
      apply Rmult_le_reg_r with (INR t + 1); [lra|]. rewrite Rmult_assoc, Rinv_l by lra. lra. }
    unfold herding_score, fscore_err. fold t. rewrite plus_INR. change (INR 1) with 1. cbv beta in *.
    apply Rabs_le_inv in B. apply Rabs_le_inv in E1. apply Rabs_le_inv in E3. apply Rabs_le. lra.
  Qed.

  Lemma fherding_sel grm : length grm = n ->
    (forall j, (j < n)%nat -> apx (2 * n + 3) (nth j grm nan) (wavg (fun b => B2R (k (x j) b)) xs dwR) (9 / 8 * K)) ->
    fsel_ok prec emax p0 k e xs dw m unique (herding_select O Greedy grm) score (fun _ => 2 * fscore_err).
  Proof using HR HX Hk Hkx HN Hprec Hmax.
    intros GL GA l v Hl Hin [VL HV] [j0 C0]. unfold herding_select. set (res := map2 _ grm v).
    assert (RL : length res = n) by (unfold res; rewrite map2_length; lia).
    assert (RN : forall j, (j < n)%nat -> nth j res nan = fscore (nth j grm nan) (nth j v nan) (length l)).
    { intros j Hj. unfold res. now rewrite (nth_map2 _ _ _ _ nan nan) by lia. }
    assert (CL : forall j, cand l j -> (j < n)%nat) by (intros j [C _]; rewrite map_length, (wd_len _ _ _ HX) in C; exact C).
    assert (RC : forall j, cand l j -> is_finite (nth j res nan) = true /\ Rabs (B2R (nth j res nan) - score l j) <= fscore_err).
    { intros j C. pose proof (CL j C) as Hj. rewrite RN by assumption. destruct (HV j Hj) as [V1 _]. apply fscore_apx; auto. }
    assert (D : (Z.of_nat (length l) + 1 < 2 ^ prec)%Z).
    { destruct HR as [_ _ _ D]. replace prec with (prec - 1 + 1)%Z by lia. rewrite Z.pow_add_r by (try lia; assert (0 < prec)%Z by assumption; lia). lia. }
    assert (RX : forall j, (j < n)%nat -> ~ cand l j -> nth j res nan = nan \/ nth j res nan = B754_infinity true).
    { intros j Hj NC. rewrite RN by assumption. destruct (HV j Hj) as [_ V2]. destruct (GA j Hj) as [FG _].
      destruct (V2 NC) as [->| ->]; unfold fscore.
      - left. cbn. now destruct (nth j grm nan).
      - right. destruct (ofZ_exact prec emax (Z.of_nat (length l) + 1) ltac:(lia)) as [FD RD].
        assert (PS : pos prec emax (fofZ O (Z.of_nat (length l) + 1))) by (apply pos_spec; split; [exact FD|rewrite RD; apply IZR_lt; lia]).
        cbn [fdiv fsub FOpsIEEE]. set (z := fofZ O _) in *. clearbody z. destruct z; try contradiction; try discriminate. cbn in PS. subst.
        destruct (nth j grm nan); try discriminate; reflexivity. }
    assert (DEC : forall j, cand l j \/ ~ cand l j).
    { intros j. unfold candidate. destruct (lt_dec j (length dwR)); [|tauto]. destruct (Rlt_dec 0 (nth j dwR 0)); [|tauto].
      destruct unique; [destruct (in_dec Nat.eq_dec j l)|]; intuition discriminate. }
    destruct (nanargmax_best prec emax res) as (r & R1 & R2 & R3 & R4).
    - intros w Hw. apply In_nth with (d := nan) in Hw as [j [Hj <-]]. rewrite RL in Hj.
      destruct (DEC j) as [C|C]; [right; right; now apply RC|]. destruct (RX j Hj C); auto.
    - apply Exists_exists. exists (nth j0 res nan). split; [apply nth_In; rewrite RL; auto|]. now apply RC.
    - rewrite RL in R2. exists r. split; [exact R1|].
      assert (CR : cand l r). { destruct (DEC r) as [C|C]; auto. exfalso. destruct (RX r R2 C) as [E|E]; rewrite E in R3; discriminate. }
      split; auto. intros j C. destruct (RC j C) as [F B]. destruct (RC r CR) as [_ B'].
      specialize (R4 (nth j res nan) ltac:(apply nth_In; rewrite RL; auto) F). apply Rabs_le_inv in B. apply Rabs_le_inv in B'. lra.
  Qed.
End Score.
