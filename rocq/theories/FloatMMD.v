(** * Accuracy of the maximum mean discrepancy in IEEE arithmetic *)
From Coq Require Import List ZArith Bool Reals Lia Lra.
From Coq Require Import Floats.SpecFloat.
From Flocq Require Import Core.Core IEEE754.BinarySingleNaN.
From Verif Require Import Num Jax RSum JaxFacts DataModel MeanModel MeanGeneric MeanSpec GreedySpec MetricModel MapReduceProofs
  Float FloatProofs2 FloatGreedy FloatGreedy2 FloatIdxSpec FloatErrSpec FloatErr FloatMean.
Import ListNotations.
Open Scope R_scope.

Lemma block_used_eff n b : block_used n b = eff_block n b.
Proof. destruct b as [z|]; unfold block_used, eff_block; [|reflexivity]. lia. Qed.
Lemma sqrt_le_abs a b : 0 <= a -> 0 <= b -> Rabs (sqrt a - sqrt b) <= sqrt (Rabs (a - b)).
Proof.
  intros A B. assert (W : forall a b, 0 <= b <= a -> Rabs (sqrt a - sqrt b) <= sqrt (Rabs (a - b))).
  { clear. intros a b [B L]. pose proof (sqrt_le_1 b a B ltac:(lra) L). rewrite !Rabs_pos_eq by lra.
    pose proof (sqrt_pos b). apply Rsqr_incr_0_var; [|apply sqrt_pos].
    rewrite Rsqr_sqrt by lra. unfold Rsqr. pose proof (sqrt_sqrt a ltac:(lra)). pose proof (sqrt_sqrt b B). nra. }
  destruct (Rle_dec b a); [apply W; lra|]. rewrite Rabs_minus_sym, (Rabs_minus_sym a b). apply W. lra.
Qed.
Lemma sqrt_diff_mul a b : 0 <= a -> 0 <= b -> Rabs (sqrt a - sqrt b) * sqrt b <= Rabs (a - b).
Proof.
  intros A B. pose proof (sqrt_pos a). pose proof (sqrt_pos b).
  replace (a - b) with ((sqrt a - sqrt b) * (sqrt a + sqrt b)).
  2:{ pose proof (sqrt_sqrt a A). pose proof (sqrt_sqrt b B). lra. }
  rewrite Rabs_mult. apply Rmult_le_compat_l; [apply Rabs_pos|]. rewrite Rabs_pos_eq; lra.
Qed.
Lemma sqrt_Rmax0 a : sqrt (Rmax 0 a) = sqrt a.
Proof. unfold Rmax. destruct (Rle_dec 0 a); [reflexivity|]. rewrite sqrt_0, sqrt_neg_0; lra. Qed.
Lemma Rmax0_diff a b : Rabs (Rmax 0 a - Rmax 0 b) <= Rabs (a - b).
Proof. unfold Rmax. destruct (Rle_dec 0 a), (Rle_dec 0 b); unfold Rabs; repeat destruct (Rcase_abs _); lra. Qed.

Section MMD.
  Context (prec emax : Z) {Hprec : Prec_gt_0 prec} {Hmax : Prec_lt_emax prec emax} {Sm : SumOrder prec emax}.
  Notation flt := (binary_float prec emax).
  Notation O := (FOpsIEEE prec emax).
  Notation big := (bpow radix2 emax).
  Notation gg := (gg prec). Notation tau := (tau emax). Notation apx := (apx prec emax). Notation uu := (uu prec).

  Section Room.
    Variables (a e : Z) (L : nat).
    Hypothesis HR : mean_room prec emax a e L.
    Notation K := (bpow radix2 e).
    Lemma gg_room N : (N <= L)%nat -> gg N <= 1 + 2 * (INR N * uu) /\ gg N <= 2.
    Proof using HR Hprec Hmax.
      intros HN. destruct HR as [_ _ _ D]. pose proof (uu_pos prec) as U.
      assert (P : (0 < prec)%Z) by assumption.
      assert (B : INR N * uu <= / 2).
      { unfold FloatErr.uu. rewrite INR_IZR_INZ. replace (/ 2) with (IZR (2 ^ (prec - 1)) * bpow radix2 (- prec)).
        - apply Rmult_le_compat_r; [apply bpow_ge_0|]. apply IZR_le. lia.
        - replace (IZR (2 ^ (prec - 1))) with (bpow radix2 (prec - 1)) by (rewrite <- IZR_Zpower by lia; reflexivity). rewrite <- bpow_plus. change (/ 2) with (bpow radix2 (-1)). f_equal. lia. }
      pose proof (gg_bound prec N B). lra.
    Qed.
    Lemma bpow_4 z : bpow radix2 (z - 4) = / 16 * bpow radix2 z.
    Proof. replace (z - 4)%Z with (-4 + z)%Z by lia. rewrite bpow_plus. cbn. lra. Qed.
    Lemma tau_room : tau <= K /\ tau <= / 16 /\ big >= 16 * K /\ big >= 128.
    Proof using HR.
      destruct HR as [[A1 A2] B C _]. unfold FloatErr.tau. repeat split.
      - apply bpow_le. lia.
      - apply Rle_trans with (bpow radix2 (-4)); [apply bpow_le; lia|cbn; lra].
      - apply Rle_ge. change 16 with (bpow radix2 4). rewrite <- bpow_plus. apply bpow_le. lia.
      - apply Rle_ge. change 128 with (bpow radix2 7). apply bpow_le. lia.
    Qed.
    (** the number of padded points times the underflow threshold *)
    Lemma pad_room n b : (Z.of_nat n <= 2 ^ a)%Z -> (0 < b <= n)%nat ->
      0 <= INR (b * cdiv n b) * tau <= / 16 /\ INR (b * cdiv n b) * tau <= / 16 * K /\ INR (cdiv n b) <= bpow radix2 a /\ INR (b * cdiv n b) <= bpow radix2 (a + 1).
    Proof using HR.
      intros Hn Hb. destruct HR as [[A1 A2] B C _]. pose proof (cdiv_spec n b ltac:(lia)) as CS.
      assert (I1 : INR (b * cdiv n b) <= bpow radix2 (a + 1)).
      { rewrite INR_IZR_INZ, <- IZR_Zpower by lia. apply IZR_le. change (radix_val radix2) with 2%Z.
        rewrite Z.pow_add_r by lia. change (2 ^ 1)%Z with 2%Z. nia. }
      assert (I2 : INR (cdiv n b) <= bpow radix2 a).
      { rewrite INR_IZR_INZ, <- IZR_Zpower by lia. apply IZR_le. change (radix_val radix2) with 2%Z.
        assert (cdiv n b <= n)%nat; [|lia]. unfold cdiv. apply Nat.div_le_upper_bound; [lia|]. nia. }
      assert (T : INR (b * cdiv n b) * tau <= bpow radix2 (a + 3 - emax)).
      { apply Rle_trans with (bpow radix2 (a + 1) * tau); [apply Rmult_le_compat_r; auto; left; apply tau_pos|].
        unfold FloatErr.tau. rewrite <- bpow_plus. apply bpow_le. lia. }
      repeat split; auto.
      - apply Rmult_le_pos; [apply pos_INR|left; apply tau_pos].
      - eapply Rle_trans; [exact T|]. change (/ 16) with (bpow radix2 (-4)). apply bpow_le. lia.
      - eapply Rle_trans; [exact T|]. change (/ 16) with (bpow radix2 (-4)). rewrite <- bpow_plus. apply bpow_le. lia.
    Qed.
    Lemma rsize_room m b : (Z.of_nat m <= 2 ^ a)%Z -> (0 < b <= m)%nat -> 0 <= rsize emax K m b <= 9 / 8 * K.
    Proof using HR.
      intros Hm Hb. destruct (pad_room m b Hm Hb) as ([P0 P1] & P2 & P3 & P4). unfold rsize.
      set (c := INR (b * cdiv m b) * tau) in *. pose proof (bpow_gt_0 radix2 e) as KP.
      assert (0 <= K * c <= K * / 16) by (split; [apply Rmult_le_pos; lra|apply Rmult_le_compat_l; lra]). lra.
    Qed.
    Lemma msize_room n m bx by_ : (Z.of_nat n <= 2 ^ a)%Z -> (Z.of_nat m <= 2 ^ a)%Z -> (0 < bx <= n)%nat -> (0 < by_ <= m)%nat ->
      0 <= msize emax K n m bx by_ <= 3 / 2 * K.
    Proof using HR.
      intros Hn Hm Hbx Hby. pose proof (rsize_room m by_ Hm Hby) as R. unfold rsize in R. unfold msize.
      destruct (pad_room n bx Hn Hbx) as ([P0 P1] & P2 & P3 & P4). destruct (pad_room m by_ Hm Hby) as ([Q0 Q1] & Q2 & Q3 & Q4).
      pose proof (bpow_gt_0 radix2 e) as KP. pose proof (tau_pos emax) as TP.
      set (r := K * (1 + INR (by_ * cdiv m by_) * tau) + INR (by_ * cdiv m by_) * tau) in *.
      set (c := INR (bx * cdiv n bx) * tau) in *.
      assert (0 <= c * r <= / 16 * (9 / 8 * K)) by (split; [apply Rmult_le_pos; lra|apply Rmult_le_compat; lra]).
      assert (0 <= INR (bx * cdiv n bx) * (INR (cdiv m by_) * tau) <= / 16 * K).
      { split; [repeat apply Rmult_le_pos; try apply pos_INR; lra|].
        apply Rle_trans with (bpow radix2 (a + 1) * (bpow radix2 a * tau)).
        - apply Rmult_le_compat; try apply pos_INR; auto; [apply Rmult_le_pos; [apply pos_INR|lra]|]. apply Rmult_le_compat_r; lra.
        - unfold FloatErr.tau. change (/ 16) with (bpow radix2 (-4)). rewrite <- !bpow_plus. apply bpow_le. destruct HR. lia. }
      lra.
    Qed.
    Lemma apx_error N v x S c : (N <= L)%nat -> 0 <= c -> S <= c * K -> apx N v x S ->
      is_finite v = true /\ Rabs (B2R v - x) <= 2 * c * INR N * bpow radix2 (e - prec).
    Proof using HR Hprec Hmax.
      intros HN Hc HS (F & A & B). split; auto. destruct (gg_room N HN) as [G1 G2]. pose proof (gg_ge1 prec N). pose proof (Rabs_pos x).
      eapply Rle_trans; [exact B|]. pose proof (uu_pos prec). pose proof (bpow_gt_0 radix2 e) as KP. pose proof (pos_INR N).
      apply Rle_trans with (2 * (INR N * uu) * (c * K)); [apply Rmult_le_compat; lra|].
      unfold FloatErr.uu. unfold Zminus. rewrite bpow_plus. right. ring.
    Qed.

    Context {P Y : Type} (p0 : P) (y0 : Y) (k : P -> P -> flt).
    Notation data := (Data P Y flt).
    Notation wdata := (weighted_data (prec := prec) (emax := emax) a).
    Lemma wdata_facts (xs : list P) (w : list flt) : wdata xs w -> (length w <= L)%nat ->
      (0 < length xs)%nat /\ xs <> [] /\ Forall (wok prec emax) w /\ 0 < tot prec emax w /\ gg (length w) * tot prec emax w < big.
    Proof using HR Hprec Hmax.
      intros [A B C D E] HL. split; [|split; [|split; [|split]]]; auto.
      - destruct xs; cbn; [|lia]. destruct w; [|discriminate]. exfalso. unfold total in D. cbn in D. lra.
      - intros ->. destruct w; [|discriminate]. unfold total in D. cbn in D. lra.
      - change (total w) with (tot prec emax w) in D, E. destruct (gg_room _ HL) as [_ G]. pose proof (gg_ge1 prec (length w)).
        apply Rle_lt_trans with (2 * bpow radix2 (emax - 2)); [apply Rmult_le_compat; lra|].
        replace (2 * bpow radix2 (emax - 2)) with (bpow radix2 (1 + (emax - 2))) by (rewrite bpow_plus; reflexivity). apply bpow_lt. lia.
    Qed.
    Lemma mean_apx (xs : list P) w (sx : option (list Y)) ys v (sy : option (list Y)) bx by_ :
      wdata xs w -> wdata ys v ->
      (forall x y, In x (p0 :: xs ++ ys) -> In y (p0 :: xs ++ ys) -> at_most e (k x y)) ->
      (roundings (length xs) (length ys) (block_used (length xs) bx) (block_used (length ys) by_) <= L)%nat ->
      exists z, mean_scalar O p0 y0 k (mkData xs w sx) (mkData ys v sy) (BTwo bx by_) = Ok z /\
        apx (roundings (length xs) (length ys) (block_used (length xs) bx) (block_used (length ys) by_)) z
          (wavg (fun a => wavg (fun b => B2R (k a b)) ys (map B2R v)) xs (map B2R w)) (3 / 2 * K).
    Proof using HR Hprec Hmax.
      intros HX HY Hk HL. rewrite !block_used_eff in *.
      assert (Lx : (length w <= L)%nat) by (rewrite (wd_len _ _ _ HX); unfold roundings in HL; lia).
      assert (Ly : (length v <= L)%nat) by (rewrite (wd_len _ _ _ HY); unfold roundings in HL; lia).
      destruct (wdata_facts xs w HX Lx) as (X1 & X2 & X3 & X4 & X5). destruct (wdata_facts ys v HY Ly) as (Y1 & Y2 & Y3 & Y4 & Y5).
      unfold mean_scalar, compute_mean. cbn [bs_leaves leaves_repeat app rev length Nat.sub repeat nth].
      destruct (block_convert_gen O p0 y0 (mkData xs w sx) bx X2) as [Ex ->].
      destruct (block_convert_gen O p0 y0 (mkData ys v sy) by_ Y2) as [Ey ->]. cbn [bind].
      rewrite block_scan_gen. cbn [d_x bind] in *. eexists. split; [reflexivity|].
      set (bx' := eff_block (length xs) bx) in *. set (by' := eff_block (length ys) by_) in *.
      pose proof (msize_room (length xs) (length ys) bx' by' (wd_size _ _ _ HX) (wd_size _ _ _ HY) Ex Ey) as M.
      destruct (gg_room _ HL) as [_ G2]. destruct tau_room as (T1 & T2 & T3 & T4). pose proof (tau_pos emax). pose proof (bpow_gt_0 radix2 e).
      pose proof (gg_ge1 prec (depth (length xs) (length ys) bx' by')).
      change (roundings (length xs) (length ys) bx' by') with (depth (length xs) (length ys) bx' by') in *.
      eapply apx_mono; [apply (blocks_apx prec emax p0 k K (fun x => In x (p0 :: xs ++ ys)))|reflexivity|lra]; auto; try lia.
      - now left.
      - intros x Hx. right. apply in_or_app. now left.
      - intros x Hx. right. apply in_or_app. now right.
      - exact (wd_len _ _ _ HX).
      - exact (wd_len _ _ _ HY).
      - apply Rle_lt_trans with (2 * 2); [apply Rmult_le_compat; lra|lra].
      - apply Rle_lt_trans with (2 * (3 / 2 * K)); [apply Rmult_le_compat; lra|lra].
    Qed.
    Lemma rows_apx (xs : list P) (w : list flt) (sx : option (list Y)) ys v (sy : option (list Y)) bx by_ :
      xs <> [] -> length w = length xs -> wdata ys v ->
      (forall x y, In x (p0 :: xs ++ ys) -> In y (p0 :: xs ++ ys) -> at_most e (k x y)) ->
      (row_roundings (length ys) (block_used (length ys) by_) <= L)%nat ->
      exists zs, compute_mean O p0 y0 k (mkData xs w sx) (mkData ys v sy) Axis1 (BTwo bx by_) = Ok (MVec zs) /\ length zs = length xs /\
        forall i, (i < length xs)%nat -> apx (row_roundings (length ys) (block_used (length ys) by_)) (nth i zs B754_nan)
          (wavg (fun b => B2R (k (nth i xs p0) b)) ys (map B2R v)) (9 / 8 * K).
    Proof using HR Hprec Hmax.
      intros X2 WL HY Hk HL. rewrite !block_used_eff in *.
      assert (Ly : (length v <= L)%nat) by (rewrite (wd_len _ _ _ HY); unfold row_roundings in HL; lia).
      destruct (wdata_facts ys v HY Ly) as (Y1 & Y2 & Y3 & Y4 & Y5).
      unfold compute_mean. cbn [bs_leaves leaves_repeat app rev length Nat.sub repeat nth].
      destruct (block_convert_gen O p0 y0 (mkData xs w sx) bx X2) as [Ex ->].
      destruct (block_convert_gen O p0 y0 (mkData ys v sy) by_ Y2) as [Ey ->]. cbn [bind].
      rewrite block_scan_gen. cbn [d_x] in *.
      set (bx' := eff_block (length xs) bx) in *. set (by' := eff_block (length ys) by_) in *.
      exists (map (browsum O k (gblocks O p0 (mkData ys v sy) by')) xs). split; [|split; [apply map_length|]].
      - do 2 f_equal. destruct (gblocks_facts O p0 (mkData xs w sx) bx' WL ltac:(lia)) as [F _]. cbn [d_x] in F.
        rewrite <- (map_map fst (map (browsum O k (gblocks O p0 (mkData ys v sy) by')))).
        rewrite <- concat_map, F, map_app. rewrite <- (map_length (browsum O k (gblocks O p0 (mkData ys v sy) by')) xs) at 1.
        rewrite firstn_app, Nat.sub_diag, firstn_all. cbn [firstn]. apply app_nil_r.
      - intros i Hi. rewrite (nth_indep _ B754_nan (browsum O k (gblocks O p0 (mkData ys v sy) by') p0)) by (now rewrite map_length). rewrite map_nth.
        pose proof (rsize_room (length ys) by' (wd_size _ _ _ HY) Ey) as M.
        destruct (gg_room _ HL) as [_ G2]. destruct tau_room as (T1 & T2 & T3 & T4). pose proof (tau_pos emax). pose proof (bpow_gt_0 radix2 e).
        pose proof (gg_ge1 prec (rdepth (length ys) by')).
        change (row_roundings (length ys) by') with (rdepth (length ys) by') in *.
        eapply apx_mono; [apply (row_total_apx prec emax p0 k K (fun x => In x (p0 :: xs ++ ys)))|reflexivity|lra]; auto; try lia.
        + now left.
        + right. apply in_or_app. left. now apply nth_In.
        + intros x Hx. right. apply in_or_app. now right.
        + exact (wd_len _ _ _ HY).
        + apply Rle_lt_trans with (2 * 2); [apply Rmult_le_compat; lra|lra].
        + apply Rle_lt_trans with (2 * (9 / 8 * K)); [apply Rmult_le_compat; lra|lra].
    Qed.

    (** ** The squared discrepancy *)
    Lemma two_exact : is_finite (fofZ O 2) = true /\ B2R (fofZ O 2) = 2.
    Proof using HR Hprec Hmax.
      destruct HR as [[A1 A2] _ _ _]. assert (PP : (0 < prec < emax)%Z) by (split; assumption).
      pose proof (binary_normalize_correct prec emax _ _ mode_NE 2 0 false) as B. cbn zeta in B.
      assert (E2 : F2R (beta := radix2) {| Fnum := 2; Fexp := 0 |} = bpow radix2 1) by (unfold F2R; cbn; lra).
      rewrite E2 in B. rewrite round_generic in B.
      - rewrite Rabs_pos_eq in B by apply bpow_ge_0. rewrite Rlt_bool_true in B by (apply bpow_lt; lia). destruct B as (B & F & _). split; auto.
      - apply valid_rnd_round_mode.
      - apply generic_format_bpow. unfold SpecFloat.fexp, emin. lia.
    Qed.
    Definition sq_of (xx yy xy : flt) : flt := fsub O (fadd O xx yy) (fmul O (fofZ O 2) xy).
    Lemma sq_apx N xx yy xy a1 a2 a3 : (N + 2 <= L)%nat -> apx N xx a1 (3 / 2 * K) -> apx N yy a2 (3 / 2 * K) -> apx N xy a3 (3 / 2 * K) ->
      apx (N + 2) (sq_of xx yy xy) (a1 + a2 - 2 * a3) (7 * K).
    Proof using HR Hprec Hmax.
      intros HN A1 A2 A3. destruct tau_room as (T1 & T2 & T3 & T4). pose proof (tau_pos emax). pose proof (bpow_gt_0 radix2 e) as KP.
      destruct two_exact as [F2 R2].
      assert (G : forall M S, (M <= L)%nat -> 0 <= S <= 7 * K -> gg M * S < big).
      { intros M S HM HS. destruct (gg_room M HM) as [_ G2]. pose proof (gg_ge1 prec M). apply Rle_lt_trans with (2 * (7 * K)); [apply Rmult_le_compat; lra|lra]. }
      assert (S1 : apx (S N) (fadd O xx yy) (a1 + a2) (3 / 2 * K + 3 / 2 * K)) by (apply apx_add; auto; apply G; [lia|lra]).
      assert (S2 : apx (S (0 + N)) (fmul O (fofZ O 2) xy) (2 * a3) (2 * (3 / 2 * K) + tau)).
      { apply apx_mult; auto; [|apply G; [lia|lra]]. rewrite <- R2. apply apx_exact; auto. rewrite R2, Rabs_pos_eq; lra. }
      cbn [plus] in S2. unfold sq_of. replace (N + 2)%nat with (S (S N)) by lia.
      eapply apx_mono; [apply apx_sub; [exact S1|exact S2|apply G; [lia|lra]]|reflexivity|lra].
    Qed.
    Definition root (s : flt) : flt := fsqrt O (fmax O (f0 O) s).
    Lemma root_facts (s : flt) : is_finite s = true ->
      is_finite (root s) = true /\ B2R (root s) = round radix2 (SpecFloat.fexp prec emax) (round_mode mode_NE) (sqrt (Rmax 0 (B2R s))) /\ 0 <= B2R (root s).
    Proof using Hprec Hmax.
      intros F. unfold root. assert (M : is_finite (fmax O (f0 O) s) = true /\ B2R (fmax O (f0 O) s) = Rmax 0 (B2R s)).
      { unfold fmax. cbn [fisnan f0 FOpsIEEE is_nan fltb]. assert (NN : is_nan s = false) by (destruct s; auto; discriminate). rewrite NN.
        rewrite (Bltb_correct prec emax) by auto. cbn [B2R]. unfold Rmax. destruct (Rlt_bool_spec 0 (B2R s)), (Rle_dec 0 (B2R s)); cbn; split; auto; lra. }
      destruct M as [M1 M2]. cbn [fsqrt FOpsIEEE]. destruct (Bsqrt_correct prec emax _ _ mode_NE (fmax O (f0 O) s)) as (R & FF & _).
      rewrite R, M2. split; [|split; [reflexivity|apply rnd_ge0; auto; apply sqrt_pos]].
      rewrite FF. pose proof (Rmax_l 0 (B2R s)) as P0. rewrite <- M2 in P0. destruct (fmax O (f0 O) s) as [s1|s1| |[] m e1 H1]; auto; try discriminate.
      pose proof (neg_lt0 m e1). cbn in P0. lra.
    Qed.
    Lemma root_apx N s x : (6 <= N <= L)%nat -> apx N s x (7 * K) ->
      let D := 14 * INR N * bpow radix2 (e - prec) in
      is_finite (root s) = true /\ 0 <= B2R (root s) /\ Rabs (B2R (root s) - sqrt x) <= 2 * sqrt D /\ Rabs (B2R (root s) - sqrt x) * sqrt x <= 2 * D.
    Proof using HR Hprec Hmax.
      intros HN A D. pose proof A as (F & AX & AE). destruct (root_facts s F) as (RF & RV & RP). split; auto. split; auto.
      destruct (apx_error N s x (7 * K) 7 ltac:(lia) ltac:(lra) ltac:(lra) A) as [_ ER].
      replace (2 * 7 * INR N * bpow radix2 (e - prec)) with D in ER by (unfold D; ring).
      destruct tau_room as (T1 & T2 & T3 & T4). pose proof (tau_pos emax) as TP. pose proof (bpow_gt_0 radix2 e) as KP. pose proof (uu_pos prec) as UP. pose proof (uu_le prec) as UL.
      assert (DE : D = 14 * INR N * uu * K) by (unfold D, FloatErr.uu, Zminus; rewrite bpow_plus; ring).
      assert (NI : 6 <= INR N) by (change 6 with (IZR (Z.of_nat 6)); rewrite INR_IZR_INZ; apply IZR_le; lia).
      assert (DU : 84 * (uu * K) <= D). { rewrite DE. assert (0 <= (INR N - 6) * (uu * K)) by (repeat apply Rmult_le_pos; lra). lra. }
      assert (UK : 0 < uu * K) by (apply Rmult_lt_0_compat; lra).
      pose proof (apx_mag _ _ _ _ _ _ A) as MG. destruct (gg_room N ltac:(lia)) as [_ G2].
      assert (SB : Rmax 0 (B2R s) <= 14 * K).
      { apply Rmax_lub; [lra|]. eapply Rle_trans; [apply Rle_abs|]. eapply Rle_trans; [exact MG|]. assert (gg N * (7 * K) <= 2 * (7 * K)) by (apply Rmult_le_compat_r; lra). lra. }
      assert (XB : Rmax 0 x <= 14 * K) by (apply Rmax_lub; [lra|]; eapply Rle_trans; [apply Rle_abs|]; lra).
      pose proof (Rmax_l 0 (B2R s)) as S0. pose proof (Rmax_l 0 x) as X0.
      set (y := sqrt (Rmax 0 (B2R s))) in *. rewrite <- (sqrt_Rmax0 x). set (z := sqrt (Rmax 0 x)).
      assert (YB : 0 <= y <= sqrt (14 * K)) by (split; [apply sqrt_pos|now apply sqrt_le_1_alt]).
      assert (ZB : 0 <= z <= sqrt (14 * K)) by (split; [apply sqrt_pos|now apply sqrt_le_1_alt]).
      pose proof (Rmax0_diff (B2R s) x) as MD.
      assert (E1 : Rabs (y - z) <= sqrt D). { eapply Rle_trans; [now apply sqrt_le_abs|]. apply sqrt_le_1_alt. lra. }
      assert (E2 : Rabs (y - z) * z <= D). { eapply Rle_trans; [now apply sqrt_diff_mul|]. lra. }
      assert (TT : tau <= sqrt (14 * K)).
      { apply Rsqr_incr_0_var; [|apply sqrt_pos]. rewrite Rsqr_sqrt by lra. unfold Rsqr. assert (tau * tau <= tau * 1) by (apply Rmult_le_compat_l; lra). lra. }
      assert (SQ : sqrt (14 * K) * sqrt (14 * K) = 14 * K) by (apply sqrt_sqrt; lra).
      pose proof (rnd_err prec emax y) as RE. rewrite <- RV in RE. rewrite (Rabs_pos_eq y) in RE by lra.
      assert (E3 : Rabs (B2R (root s) - y) <= 2 * uu * sqrt (14 * K)).
      { assert (uu * y <= uu * sqrt (14 * K)) by (apply Rmult_le_compat_l; lra). assert (uu * tau <= uu * sqrt (14 * K)) by (apply Rmult_le_compat_l; lra). lra. }
      assert (E4 : 2 * uu * sqrt (14 * K) <= sqrt D).
      { apply Rsqr_incr_0_var; [|apply sqrt_pos]. rewrite Rsqr_sqrt by lra. unfold Rsqr.
        replace (2 * uu * sqrt (14 * K) * (2 * uu * sqrt (14 * K))) with (4 * uu * uu * (sqrt (14 * K) * sqrt (14 * K))) by ring. rewrite SQ.
        assert (uu * (uu * K) <= / 2 * (uu * K)) by (apply Rmult_le_compat_r; lra). lra. }
      assert (E5 : 2 * uu * sqrt (14 * K) * z <= D).
      { apply Rle_trans with (2 * uu * sqrt (14 * K) * sqrt (14 * K)); [apply Rmult_le_compat_l; [|lra]; repeat apply Rmult_le_pos; try lra; apply sqrt_pos|].
        replace (2 * uu * sqrt (14 * K) * sqrt (14 * K)) with (2 * uu * (sqrt (14 * K) * sqrt (14 * K))) by ring. rewrite SQ. lra. }
      replace (B2R (root s) - z) with ((B2R (root s) - y) + (y - z)) by ring. pose proof (Rabs_triang (B2R (root s) - y) (y - z)) as TR. split; [lra|].
      eapply Rle_trans; [apply Rmult_le_compat_r; [lra|exact TR]|]. rewrite Rmult_plus_distr_r.
      assert (Rabs (B2R (root s) - y) * z <= 2 * uu * sqrt (14 * K) * z) by (apply Rmult_le_compat_r; lra). lra.
    Qed.
    Lemma self_zero N s x : apx N s x (3 / 2 * K) -> (N <= L)%nat -> is_finite (root (sq_of s s s)) = true /\ B2R (root (sq_of s s s)) = 0.
    Proof using HR Hprec Hmax.
      intros A HN. pose proof A as (F & _). pose proof (apx_mag _ _ _ _ _ _ A) as MG. destruct (gg_room N HN) as [_ G2].
      destruct tau_room as (_ & _ & T3 & _). pose proof (bpow_gt_0 radix2 e) as KP. destruct two_exact as [F2 R2].
      assert (SB : Rabs (B2R s) <= 3 * K). { eapply Rle_trans; [exact MG|]. assert (gg N * (3 / 2 * K) <= 2 * (3 / 2 * K)) by (apply Rmult_le_compat_r; lra). lra. }
      set (d := 2 * B2R s). assert (DB : Rabs d <= bpow radix2 (e + 3)).
      { unfold d. rewrite Rabs_mult, (Rabs_pos_eq 2) by lra. rewrite bpow_plus. change (bpow radix2 3) with 8. lra. }
      set (rd := round radix2 (SpecFloat.fexp prec emax) (round_mode mode_NE)) in *.
      assert (RB : Rabs (rd d) < big).
      { apply Rle_lt_trans with (bpow radix2 (e + 3)).
        - apply abs_round_le_generic; auto with typeclass_instances; [apply fexp_correct; assumption|].
          apply generic_format_bpow. unfold SpecFloat.fexp, emin. destruct HR. assert (0 < prec < emax)%Z by (split; assumption). lia.
        - apply bpow_lt. destruct HR. lia. }
      pose proof (Bplus_correct prec emax _ _ mode_NE s s F F) as P1. replace (B2R s + B2R s) with d in P1 by (unfold d; ring). fold rd in P1.
      rewrite Rlt_bool_true in P1 by exact RB. destruct P1 as (P1 & P2 & _).
      pose proof (Bmult_correct prec emax _ _ mode_NE (fofZ O 2) s) as M1. rewrite R2 in M1. fold d rd in M1.
      rewrite Rlt_bool_true in M1 by exact RB. destruct M1 as (M1 & M2 & _). rewrite F2, F in M2. cbn in M2.
      assert (Z : is_finite (sq_of s s s) = true /\ B2R (sq_of s s s) = 0).
      { assert (Q : forall u1 u2 : flt, is_finite u1 = true -> is_finite u2 = true -> B2R u1 = B2R u2 -> is_finite (Bminus mode_NE u1 u2) = true /\ B2R (Bminus mode_NE u1 u2) = 0).
        { intros u1 u2 U1 U2 U. pose proof (Bminus_correct prec emax _ _ mode_NE _ _ U1 U2) as Q. rewrite U, Rminus_diag_eq in Q by reflexivity.
          rewrite round_0 in Q by apply valid_rnd_round_mode. rewrite Rabs_R0, Rlt_bool_true in Q by apply bpow_gt_0. destruct Q as (Q1 & Q2 & _). auto. }
        unfold sq_of. apply Q; [exact P2|exact M2|]. etransitivity; [exact P1|]. symmetry. exact M1. }
      destruct Z as [Z1 Z2]. destruct (root_facts _ Z1) as (RF & RV & _). split; auto. rewrite RV, Z2, Rmax_left, sqrt_0 by lra. apply round_0. apply valid_rnd_round_mode.
    Qed.
  End Room.
End MMD.
