(** * SteinThinning in floating point arithmetic: accuracy of the scores, outcome of [reduce] *)
From Coq Require Import List ZArith Bool Reals Permutation Lia Lra.
From Coq Require Import Floats.SpecFloat.
From Flocq Require Import Core.Core IEEE754.BinarySingleNaN.
From Verif Require Import Num Jax RSum JaxFacts DataModel MeanModel MeanGeneric MeanSpec GreedySpec GreedyModel GreedyProofs GreedyProofs2 GreedyProofs3 GreedyProofs5 LoopProofs
  Float FloatProofs2 FloatGreedy FloatGreedy2 FloatIdxSpec FloatErrSpec FloatErr FloatMean FloatMMD FloatRateSpec FloatRate FloatRate2 FloatRate3 FloatRate4.
Import ListNotations.
Open Scope R_scope.

Section Pick.
  Context (prec emax : Z) {Hprec : Prec_gt_0 prec} {Hmax : Prec_lt_emax prec emax} {Sm : SumOrder prec emax}.
  Notation flt := (binary_float prec emax).
  Notation O := (FOpsIEEE prec emax).
  Lemma finite_min (l : list flt) : Exists (fun v => is_finite v = true) l ->
    exists v, In v l /\ is_finite v = true /\ forall w, In w l -> is_finite w = true -> B2R v <= B2R w.
  Proof.
    induction l as [|a l IH]; intros H; [inversion H|].
    destruct (Exists_dec (fun v : flt => is_finite v = true) l ltac:(apply fin_dec)) as [E|E].
    - destruct (IH E) as (v & V1 & V2 & V3). destruct (is_finite a) eqn:FA.
      + destruct (Rle_dec (B2R v) (B2R a)).
        * exists v. split; [now right|]. split; auto. intros w [<-|Hw] Fw; auto.
        * exists a. split; [now left|]. split; auto. intros w [<-|Hw] Fw; [lra|]. specialize (V3 w Hw Fw). lra.
      + exists v. split; [now right|]. split; auto. intros w [<-|Hw] Fw; [congruence|auto].
    - apply Exists_cons in H as [H|H]; [|contradiction]. exists a. split; [now left|]. split; auto.
      intros w [<-|Hw] Fw; [lra|]. exfalso. apply E, Exists_exists. eauto.
  Qed.
  Definition least (l : list flt) (v : flt) : Prop := is_finite v = true /\ Forall (fun w => is_finite w = true -> B2R v <= B2R w) l.
  Lemma least_dec l v : {least l v} + {~ least l v}.
  Proof.
    unfold least. destruct (fin_dec prec emax v) as [F|F]; [|right; tauto].
    destruct (Forall_dec (fun w : flt => is_finite w = true -> B2R v <= B2R w)) with (l := l) as [A|A]; [|left; auto|right; tauto].
    intros w. destruct (is_finite w); [|left; discriminate]. destruct (Rle_dec (B2R v) (B2R w)); [left; auto|right; auto].
  Qed.
  Lemma nanargmin_least (l : list flt) :
    (forall v, In v l -> v = B754_nan \/ v = B754_infinity false \/ is_finite v = true) -> Exists (fun v => is_finite v = true) l ->
    exists r, nanargmin O l = Z.of_nat r /\ (r < length l)%nat /\ is_finite (nth r l B754_nan) = true /\
      forall w, In w l -> is_finite w = true -> B2R (nth r l B754_nan) <= B2R w.
  Proof.
    intros H E. unfold nanargmin.
    replace (forallb (fisnan O) l) with false.
    2:{ symmetry. apply not_true_is_false. intros F. rewrite forallb_forall in F. apply Exists_exists in E as [v [I FV]].
        specialize (F v I). destruct v; discriminate. }
    set (f := fun v : flt => if fisnan O v then finf O else v).
    assert (Hm : forall v, In v (map f l) -> v = B754_infinity false \/ is_finite v = true).
    { intros v Hv. apply in_map_iff in Hv as [w [<- Hw]]. unfold f. destruct (H w Hw) as [->|[->|F]]; cbn; auto.
      destruct w; try discriminate; cbn; auto. }
    assert (FI : forall v, is_finite v = true -> f v = v) by (intros v F; unfold f; destruct v; try discriminate; reflexivity).
    destruct (argb_inv prec emax (lt_nan O) (least l) (map f l)) as [R1 R2].
    - intros x b [FB BB] IX G. destruct (Hm x IX) as [->|F]; [destruct b as [[]|[]| |[] m e Hb]; try discriminate; discriminate G|].
      split; auto. eapply Forall_impl; [|exact BB]. intros w Hw Fw. specialize (Hw Fw).
      assert (B2R x < B2R b); [|lra]. unfold lt_nan in G. cbn [fisnan fltb FOpsIEEE] in G. apply andb_prop in G as [_ G].
      assert (NX : is_nan x = false) by (destruct x; auto; discriminate). rewrite NX in G. cbn [orb] in G.
      rewrite (Bltb_correct prec emax x b F FB) in G. revert G. case Rlt_bool_spec; auto; discriminate.
    - intros x b [FX BX] NB I. destruct (Hm b I) as [->|F]; [destruct x as [[]|[]| |[] m e Hb]; try discriminate; reflexivity|].
      unfold lt_nan. cbn [fisnan fltb FOpsIEEE]. assert (NX : is_nan b = false) by (destruct b; auto; discriminate). rewrite NX. cbn [negb andb].
      apply orb_true_iff. right. rewrite (Bltb_correct prec emax x b FX F). apply Rlt_bool_true. apply Rnot_le_lt. intros L. apply NB. split; auto.
      eapply Forall_impl; [|exact BX]. intros w Hw Fw. specialize (Hw Fw). lra.
    - apply least_dec.
    - destruct (finite_min l E) as (v & V1 & V2 & V3). apply Exists_exists. exists v. split.
      + apply in_map_iff. exists v. split; auto.
      + split; auto. apply Forall_forall. auto.
    - rewrite map_length in R1. exists (argmin O (map f l)). split; [reflexivity|]. split; [exact R1|].
      unfold argmin in *. rewrite (nth_map_lt f l _ B754_nan) in R2 by exact R1. set (v := nth _ l _) in *.
      assert (FV : is_finite v = true) by (destruct R2 as [F _]; unfold f in F; destruct v; cbn in F; auto; discriminate).
      rewrite (FI v FV) in R2. destruct R2 as [_ B]. split; auto. intros w Hw. rewrite Forall_forall in B. auto.
  Qed.
End Pick.

Section Score.
  Context (prec emax : Z) {Hprec : Prec_gt_0 prec} {Hmax : Prec_lt_emax prec emax} {Sm : SumOrder prec emax}.
  Notation flt := (binary_float prec emax).
  Notation O := (FOpsIEEE prec emax).
  Notation big := (bpow radix2 emax).
  Notation gg := (gg prec). Notation tau := (tau emax). Notation apx := (apx prec emax).
  Notation nan := (B754_nan : flt).
  Notation inf := (B754_infinity false : flt).
  Variables (a e : Z) (L : nat).
  Hypothesis HR : mean_room prec emax a e L.
  Hypothesis HE : (a + e + 4 <= emax)%Z.
  Notation K := (bpow radix2 e).
  Context {P Y : Type} (p0 : P) (y0 : Y) (k : P -> P -> flt) (kx : P -> P -> R) (eps : R) (xs : list P) (dw : list flt) (m : nat) (unique : bool).
  Notation n := (length xs).
  Notation x := (fun j => nth j xs p0).
  Notation dwR := (map B2R dw).
  Notation cand := (candidate dwR unique).
  Hypothesis Hdw : length dw = n.
  Hypothesis Wdw : Forall weight_ok dw.
  Hypothesis Hk : forall x y, In x (p0 :: xs) -> In y (p0 :: xs) -> at_most e (k x y).
  Hypothesis Hkx : forall x y, In x xs -> In y xs -> Rabs (B2R (k x y) - kx x y) <= eps.
  Hypothesis HN : (m + 3 <= L)%nat.
  Hypothesis HA : (Z.of_nat m <= 2 ^ a)%Z.
  (** the regularisation terms *)
  Variables (lap rl : list flt).
  Hypothesis HLap : length lap = n /\ Forall (at_most e) lap.
  Hypothesis HRl : length rl = n /\ Forall (at_most e) rl.
  Notation lapR := (fun j => B2R (nth j lap nan)).
  Notation rlR := (fun j => B2R (nth j rl nan)).
  Notation score := (stein_score kx lapR rlR x).
  Definition fstein_err : R := 2 * INR (3 * m + 1) * INR (m + 3) * bpow radix2 (e - prec) + 2 * INR m * eps.

  Definition fstein (d p lp q : flt) (t : nat) : flt :=
    fsub O (fadd O (fadd O d (fmul O (fofZ O 2) p)) lp) (fmul O (fofZ O (Z.of_nat t + 1)) q).
  Lemma small_t t : (t < m)%nat -> (Z.of_nat t + 1 < 2 ^ prec)%Z.
  Proof using HR HN Hprec.
    clear - HR HN Hprec. intros Ht. destruct HR as [_ _ _ D]. assert (0 < prec)%Z by assumption.
    replace prec with (prec - 1 + 1)%Z by lia. rewrite Z.pow_add_r by lia. lia.
  Qed.
  Lemma fstein_apx j l p : (length l < m)%nat -> (j < n)%nat -> (forall i, In i l -> (i < n)%nat) ->
    apx (length l) p (pval prec emax p0 k xs l j) (INR (length l) * K) ->
    let v := fstein (k (x j) (x j)) p (nth j lap nan) (nth j rl nan) (length l) in
    is_finite v = true /\ Rabs (B2R v - (- score l j)) <= fstein_err.
  Proof using HR HE Hk Hkx HN HA HLap HRl Hprec Hmax.
    clear Hdw Wdw. intros Hl Hj Hin AP. cbv zeta. set (t := length l) in *.
    destruct (tau_room prec emax a e L HR) as (T1 & T2 & T3 & T4). pose proof (tau_pos emax) as TP. pose proof (bpow_gt_0 radix2 e) as KP.
    assert (TK : tau <= / 8 * K).
    { unfold FloatErr.tau. change (/ 8) with (bpow radix2 (-3)). rewrite <- bpow_plus. apply bpow_le. destruct HR. lia. }
    pose proof (pos_INR t) as PT.
    assert (TM : INR t + 1 <= INR m) by (rewrite <- S_INR; apply le_INR; lia).
    assert (MA : INR m <= bpow radix2 a).
    { rewrite INR_IZR_INZ. rewrite <- IZR_Zpower by (destruct HR as [[A _] _ _ _]; exact A). now apply IZR_le. }
    assert (BIG : 8 * INR m * K < big).
    { apply Rle_lt_trans with (8 * (bpow radix2 a * K)).
      - rewrite Rmult_assoc. apply Rmult_le_compat_l; [lra|]. apply Rmult_le_compat_r; lra.
      - rewrite <- bpow_plus. replace 8 with (bpow radix2 3) by reflexivity. rewrite <- bpow_plus. apply bpow_lt. lia. }
    assert (GB : forall N S, (N <= m + 3)%nat -> 0 <= S -> S <= 4 * INR m * K -> gg N * S < big).
    { intros N S H1 H2 H3. destruct (gg_room prec emax a e L HR N ltac:(lia)) as [_ G]. pose proof (gg_ge1 prec N).
      apply Rle_lt_trans with (2 * (4 * INR m * K)); [apply Rmult_le_compat; lra|lra]. }
    assert (TKm : (INR t + 1) * K <= INR m * K) by (apply Rmult_le_compat_r; lra).
    assert (PTK : 0 <= INR t * K) by (apply Rmult_le_pos; lra).
    destruct (Hk (x j) (x j)) as [F1 B1]; [right; now apply nth_In|right; now apply nth_In|].
    destruct HLap as [LL HLp], HRl as [RLn HRp]. rewrite Forall_forall in HLp, HRp.
    destruct (HLp (nth j lap nan)) as [F2 B2]; [apply nth_In; lia|]. destruct (HRp (nth j rl nan)) as [F3 B3]; [apply nth_In; lia|].
    destruct (ofZ_exact prec emax (Z.of_nat t + 1) ltac:(pose proof (small_t t Hl); lia)) as [FD RD].
    rewrite plus_IZR, <- INR_IZR_INZ in RD. destruct (two_exact prec emax a e L HR) as [F0 R0].
    assert (A0 : apx 0 (fofZ O 2) 2 2). { rewrite <- R0 at 1. apply apx_exact; auto. rewrite R0, Rabs_pos_eq; lra. }
    assert (A1 : apx 0 (fofZ O (Z.of_nat t + 1)) (INR t + 1) (INR t + 1)). { rewrite <- RD at 1. apply apx_exact; auto. rewrite RD, Rabs_pos_eq; lra. }
    pose proof (apx_mult prec emax _ _ _ _ _ _ _ _ A0 AP ltac:(apply GB; [lia|lra|lra])) as M1. cbn [plus] in M1.
    pose proof (apx_mono prec emax _ (S t) _ _ _ _ (apx_exact prec emax _ K F1 B1) ltac:(lia) (Rle_refl _)) as D1.
    pose proof (apx_add prec emax _ _ _ _ _ _ _ D1 M1 ltac:(apply GB; [lia|lra|lra])) as S1.
    pose proof (apx_mono prec emax _ (S (S t)) _ _ _ _ (apx_exact prec emax _ K F2 B2) ltac:(lia) (Rle_refl _)) as D2.
    pose proof (apx_add prec emax _ _ _ _ _ _ _ S1 D2 ltac:(apply GB; [lia|lra|lra])) as S2.
    pose proof (apx_mult prec emax _ _ _ _ _ _ _ _ A1 (apx_exact prec emax _ K F3 B3) ltac:(apply GB; [lia|lra|lra])) as M2. cbn [plus] in M2.
    pose proof (apx_mono prec emax _ (S (S (S t))) _ _ _ _ M2 ltac:(lia) (Rle_refl _)) as M3.
    pose proof (apx_sub prec emax _ _ _ _ _ _ _ S2 M3 ltac:(apply GB; [lia|lra|lra])) as S3.
    assert (IM : INR (3 * m + 1) = 3 * INR m + 1) by (rewrite plus_INR, mult_INR; cbn [INR]; ring).
    assert (S4 : apx (m + 3) (fstein (k (x j) (x j)) p (nth j lap nan) (nth j rl nan) t) (- (- (B2R (k (x j) (x j)) + B2R (nth j lap nan) - INR (t + 1) * B2R (nth j rl nan) + 2 * pval prec emax p0 k xs l j))) (INR (3 * m + 1) * K)).
    { eapply apx_mono; [|instantiate (1 := S (S (S (S t)))); lia|instantiate (1 := (K + (2 * (INR t * K) + tau) + K + ((INR t + 1) * K + tau))); rewrite IM; lra].
      replace (- (- _)) with (B2R (k (x j) (x j)) + 2 * pval prec emax p0 k xs l j + B2R (nth j lap nan) - (INR t + 1) * B2R (nth j rl nan)) by (rewrite plus_INR; cbn [INR]; ring).
      exact S3. }
    destruct (apx_error prec emax a e L HR _ _ _ _ (INR (3 * m + 1)) HN ltac:(apply pos_INR) (Rle_refl _) S4) as [F B]. split; [exact F|].
    set (v := B2R (fstein _ _ _ _ _)) in *.
    assert (E1 : Rabs (B2R (k (x j) (x j)) - kx (x j) (x j)) <= eps) by (apply Hkx; now apply nth_In).
    assert (EP : 0 <= eps) by (eapply Rle_trans; [apply Rabs_pos|exact E1]).
    assert (E2 : Rabs (pval prec emax p0 k xs l j - Rsum (map (fun c => kx (x j) (x c)) l)) <= INR t * eps).
    { unfold pval, t. clear - Hkx Hj Hin. induction l as [|c l IH]; [cbn; rewrite Rminus_eq_0, Rabs_R0; lra|].
      cbn [map Rsum length]. rewrite S_INR. specialize (IH (fun i Hi => Hin i (or_intror Hi))).
      pose proof (Hkx (x j) (x c) (nth_In _ _ Hj) (nth_In _ _ (Hin c (or_introl eq_refl)))) as C.
      apply Rabs_le_inv in IH. apply Rabs_le_inv in C. apply Rabs_le. cbv beta in *. lra. }
    unfold stein_score, fstein_err. fold t. cbv beta in *.
    assert (E3 : eps + 2 * (INR t * eps) <= 2 * INR m * eps).
    { replace (eps + 2 * (INR t * eps)) with ((1 + 2 * INR t) * eps) by ring. apply Rmult_le_compat_r; lra. }
    apply Rabs_le_inv in B. apply Rabs_le_inv in E1. apply Rabs_le_inv in E2. apply Rabs_le.
    split; lra.
  Qed.

  Lemma fstein_sel sel :
    (forall (l : list nat) v, length v = n -> sel (length l) v (Z.of_nat (length l) + 1)%Z
      = nanargmin O (map2 (fun dp lq => fstein (fst dp) (snd dp) (fst lq) (snd lq) (length l)) (combine (map (fun b => k b b) xs) v) (combine lap rl))) ->
    fsel_ok prec emax p0 k e xs dw m unique sel score (fun _ => 2 * fstein_err).
  Proof using HR HE Hk Hkx HN HA HLap HRl Hprec Hmax Hdw Wdw.
    intros Esel l v Hl Hin [VL HV] [j0 C0]. rewrite Esel by exact VL. set (res := map2 _ _ _).
    destruct HLap as [LL HLp]. destruct HRl as [RLn HRp].
    assert (RL : length res = n) by (unfold res; rewrite map2_length, !combine_length, map_length; lia).
    assert (RN : forall j, (j < n)%nat -> nth j res nan = fstein (k (x j) (x j)) (nth j v nan) (nth j lap nan) (nth j rl nan) (length l)).
    { intros j Hj. unfold res. rewrite (nth_map2 _ _ _ _ (k p0 p0, nan) (nan, nan)) by (rewrite ?combine_length, ?map_length; lia).
      rewrite !combine_nth by (rewrite ?map_length; lia). cbn [fst snd]. now rewrite (map_nth (fun b => k b b) xs p0). }
    assert (CL : forall j, cand l j -> (j < n)%nat) by (intros j [C _]; rewrite map_length, Hdw in C; exact C).
    assert (RC : forall j, cand l j -> is_finite (nth j res nan) = true /\ Rabs (B2R (nth j res nan) - (- score l j)) <= fstein_err).
    { intros j C. pose proof (CL j C) as Hj. rewrite RN by assumption. destruct (HV j Hj) as [V1 _]. apply fstein_apx; auto. }
    assert (RX : forall j, (j < n)%nat -> ~ cand l j -> nth j res nan = nan \/ nth j res nan = inf).
    { intros j Hj NC. rewrite RN by assumption. destruct (HV j Hj) as [_ V2].
      destruct (Hk (x j) (x j)) as [F1 _]; [right; now apply nth_In|right; now apply nth_In|].
      rewrite Forall_forall in HLp, HRp.
      destruct (HLp (nth j lap nan)) as [F2 _]; [apply nth_In; lia|]. destruct (HRp (nth j rl nan)) as [F3 B3]; [apply nth_In; lia|].
      set (q := nth j rl nan) in *. set (lp := nth j lap nan) in *. set (d := k (x j) (x j)) in *.
      assert (PS : pos prec emax (fofZ O 2)).
      { destruct (two_exact prec emax a e L HR) as [F0 R0]. apply pos_spec. split; [exact F0|rewrite R0; lra]. }
      assert (FQ : is_finite (fmul O (fofZ O (Z.of_nat (length l) + 1)) q) = true).
      { destruct (ofZ_exact prec emax (Z.of_nat (length l) + 1) ltac:(pose proof (small_t (length l) Hl); lia)) as [FD RD].
        pose proof (apx_mult prec emax 0 0 _ _ _ _ _ _ (apx_exact prec emax _ (INR (length l) + 1) FD ltac:(rewrite RD, plus_IZR, <- INR_IZR_INZ, Rabs_pos_eq; [lra|pose proof (pos_INR (length l)); lra])) (apx_exact prec emax _ K F3 B3)) as [FF _].
        - destruct (gg_room prec emax a e L HR 1 ltac:(lia)) as [_ G]. pose proof (gg_ge1 prec 1). destruct (tau_room prec emax a e L HR) as (T1 & T2 & T3 & T4).
          pose proof (tau_pos emax) as TP. pose proof (bpow_gt_0 radix2 e) as KP.
          assert (TM : INR (length l) + 1 <= bpow radix2 a).
          { rewrite <- S_INR, INR_IZR_INZ. rewrite <- IZR_Zpower by (destruct HR as [[A _] _ _ _]; exact A). apply IZR_le. change (radix_val radix2) with 2%Z. lia. }
          assert (TK2 : (INR (length l) + 1) * K <= bpow radix2 (a + e)) by (rewrite bpow_plus; apply Rmult_le_compat_r; lra).
          assert (K <= bpow radix2 (a + e)) by (apply bpow_le; destruct HR; lia).
          assert (0 <= (INR (length l) + 1) * K) by (apply Rmult_le_pos; [pose proof (pos_INR (length l))|]; lra).
          change (S (0 + 0)) with 1%nat. apply Rle_lt_trans with (2 * (2 * bpow radix2 (a + e))); [apply Rmult_le_compat; lra|].
          replace (2 * (2 * bpow radix2 (a + e))) with (bpow radix2 (2 + (a + e))) by (rewrite bpow_plus; change (bpow radix2 2) with 4; ring). apply bpow_lt. lia.
        - exact FF. }
      unfold fstein. set (w := fmul O (fofZ O (Z.of_nat (length l) + 1)) q) in *. clearbody w. set (two := fofZ O 2) in *. clearbody two.
      destruct (V2 NC) as [->| ->].
      - left. cbn [fmul fadd fsub FOpsIEEE]. destruct two; cbn; destruct d; cbn; destruct lp; cbn; reflexivity.
      - right. destruct two; try contradiction; try discriminate. cbn in PS. subst. cbn [fmul fadd fsub FOpsIEEE].
        destruct d; try discriminate; cbn; destruct lp; try discriminate; cbn; destruct w; try discriminate; reflexivity. }
    assert (DEC : forall j, cand l j \/ ~ cand l j).
    { intros j. unfold candidate. destruct (lt_dec j (length dwR)); [|tauto]. destruct (Rlt_dec 0 (nth j dwR 0)); [|tauto].
      destruct unique; [destruct (in_dec Nat.eq_dec j l)|]; intuition discriminate. }
    destruct (nanargmin_least prec emax res) as (r & R1 & R2 & R3 & R4).
    - intros w Hw. apply In_nth with (d := nan) in Hw as [j [Hj <-]]. rewrite RL in Hj.
      destruct (DEC j) as [C|C]; [right; right; now apply RC|]. destruct (RX j Hj C); auto.
    - apply Exists_exists. exists (nth j0 res nan). split; [apply nth_In; rewrite RL; auto|]. now apply RC.
    - rewrite RL in R2. exists r. split; [exact R1|].
      assert (CR : cand l r). { destruct (DEC r) as [C|C]; auto. exfalso. destruct (RX r R2 C) as [E|E]; rewrite E in R3; discriminate. }
      split; auto. intros j C. destruct (RC j C) as [F B]. destruct (RC r CR) as [_ B'].
      specialize (R4 (nth j res nan) ltac:(apply nth_In; rewrite RL; auto) F). apply Rabs_le_inv in B. apply Rabs_le_inv in B'. lra.
  Qed.
End Score.
