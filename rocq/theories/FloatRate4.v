(** * KernelHerding in floating point arithmetic: the outcome of [reduce] *)
From Coq Require Import List ZArith Bool Reals Permutation Lia Lra.
From Coq Require Import Floats.SpecFloat.
From Flocq Require Import Core.Core IEEE754.BinarySingleNaN.
From Verif Require Import Num SumSpec SumProofs Jax RSum JaxFacts DataModel MeanModel MeanGeneric MeanSpec GreedySpec GreedyModel GreedyProofs GreedyProofs2 GreedyProofs3 GreedyProofs5 LoopProofs
  MetricProofs RateProofs2 Float FloatProofs2 FloatGreedy FloatGreedy2 FloatIdxSpec FloatErrSpec FloatErr FloatMean FloatMMD FloatRateSpec FloatRate FloatRate2 FloatRate3.
Import ListNotations.
Open Scope R_scope.

Section Zero.
  Context (prec emax : Z) {Hprec : Prec_gt_0 prec} {Hmax : Prec_lt_emax prec emax} {Sm : SumOrder prec emax}.
  Notation flt := (binary_float prec emax).
  Notation O := (FOpsIEEE prec emax).
  Definition fzero (v : flt) : Prop := exists s, v = B754_zero s.
  Lemma fzero_add v w : fzero v -> fzero w -> fzero (fadd O v w).
  Proof. intros [s ->] [t ->]. cbn. destruct (Bool.eqb s t); eexists; reflexivity. Qed.
  Lemma fzero_sum l : Forall fzero l -> fzero (fsum O l).
  Proof. intros F. eapply summed_closed; [| |exact F|apply sum_fun_ok]; [now exists false|apply fzero_add]. Qed.
  Lemma fzero_mul v w : is_finite v = true -> fzero w -> fzero (fmul O v w).
  Proof. intros F [s ->]. destruct v; try discriminate; cbn; eexists; reflexivity. Qed.
  Lemma fzero_mul' v w : fzero v -> is_finite w = true -> fzero (fmul O v w).
  Proof. intros [s ->] F. destruct w; try discriminate; cbn; eexists; reflexivity. Qed.
  Lemma fzero_0 : fzero (f0 O).
  Proof. now exists false. Qed.
  Lemma nw_zero m : Forall fzero (normalize_w O true (repeat (f0 O) m)).
  Proof.
    unfold normalize_w. set (s := fsum O _). assert (S0 : fzero s).
    { apply fzero_sum. apply Forall_forall. intros v Hv. apply repeat_spec in Hv. subst. apply fzero_0. }
    apply Forall_forall. intros v Hv. apply in_map_iff in Hv as [q [<- Hq]]. apply in_map_iff in Hq as [z [<- Hz]]. apply repeat_spec in Hz. subst z.
    destruct S0 as [b ->]. cbn. eexists. reflexivity.
  Qed.
  Context {P Y : Type} (p0 : P) (k : P -> P -> flt).
  Lemma row_zero (d : Data P Y flt) b x m : length (d_x d) = m -> d_w d = repeat (f0 O) m -> (0 < b)%nat ->
    (forall y, In y (p0 :: d_x d) -> is_finite (k x y) = true) -> fzero (browsum O k (gblocks O p0 d b) x).
  Proof.
    intros HL HW Hb Hk. destruct (gblocks_facts O p0 d b) as (F1 & F2 & F3 & _); [rewrite HW, repeat_length; lia|assumption|]. cbv zeta in *.
    set (pad := (cdiv _ b * b - _)%nat) in *.
    apply fzero_sum. apply Forall_forall. intros v Hv. apply in_map_iff in Hv as [blk [<- Hblk]]. unfold bdot, fdot.
    apply fzero_sum.
    assert (X : forall y, In y (fst blk) -> is_finite (k x y) = true).
    { intros y Hy. apply Hk. assert (I : In y (concat (map fst (gblocks O p0 d b)))) by (apply in_concat; exists (fst blk); split; auto; apply in_map_iff; eauto).
      rewrite F1 in I. apply in_app_or in I as [I|I]; [now right|]. apply repeat_spec in I. now left. }
    assert (W : Forall fzero (snd blk)).
    { apply Forall_forall. intros w Hw. assert (I : In w (concat (map snd (gblocks O p0 d b)))) by (apply in_concat; exists (snd blk); split; auto; apply in_map_iff; eauto).
      rewrite F2, HW in I. apply in_app_or in I as [I|I]; [pose proof (nw_zero m) as Z; rewrite Forall_forall in Z; auto|]. apply repeat_spec in I. subst. apply fzero_0. }
    clear - X W. destruct blk as [l w]. cbn [fst snd] in *. revert w W. induction l as [|y l IH]; intros w W; destruct w as [|c w]; cbn [map map2]; try constructor.
    - inversion W; subst. apply fzero_mul; [apply X; now left|assumption].
    - inversion W; subst. apply IH; auto. intros z Hz. apply X. now right.
  Qed.
  Lemma fzero_apx v S : fzero v -> 0 <= S -> apx prec emax 0 v 0 S.
  Proof. intros [s ->] HS. split; [reflexivity|]. cbn [B2R]. rewrite Rminus_0_r, Rabs_R0. unfold gg. cbn [pow]. split; lra. Qed.
End Zero.

Section Reduce.
  Context (prec emax : Z) {Hprec : Prec_gt_0 prec} {Hmax : Prec_lt_emax prec emax} {Sm : SumOrder prec emax}.
  Notation flt := (binary_float prec emax).
  Notation O := (FOpsIEEE prec emax).
  Notation big := (bpow radix2 emax).
  Notation gg := (gg prec). Notation tau := (tau emax). Notation apx := (apx prec emax).
  Notation nan := (B754_nan : flt).
  Variables (a e : Z) (L : nat).
  Hypothesis HR : mean_room prec emax a e L.
  Hypothesis HE : (a + e + 2 <= emax)%Z.
  Notation K := (bpow radix2 e).
  Context {P Y : Type} (p0 : P) (y0 : Y) (k : P -> P -> flt) (kx : P -> P -> R) (eps : R) (xs : list P) (dw : list flt) (m : nat) (unique : bool).
  Variables (bs : bsarg) (ord : nat -> list nat).
  Notation n := (length xs).
  Notation x := (fun j => nth j xs p0).
  Notation dwR := (map B2R dw).
  Notation cand := (candidate dwR unique).
  Hypothesis HX : weighted_data a xs dw.
  Hypothesis Hk : forall x y, In x (p0 :: xs) -> In y (p0 :: xs) -> at_most e (k x y).
  Hypothesis Hkx : forall x y, In x xs -> In y xs -> Rabs (B2R (k x y) - kx x y) <= eps.
  Hypothesis HN : (2 * n + m + 5 <= L)%nat.
  Hypothesis Hm : (1 <= m <= n)%nat.
  Hypothesis Hord : forall i, Permutation (ord i) (seq 0 m).
  Hypothesis Huniq : unique = true -> (m <= npos dwR)%nat.
  Notation score := (herding_score kx (fun j => wavg (fun b => kx (nth j xs p0) b) xs dwR) x).
  Notation pre := (mkData xs dw None : Data P Y flt).

  Lemma npos_total (l : list R) : 0 < Rsum l -> (1 <= npos l)%nat.
  Proof.
    unfold npos. induction l as [|c l IH]; cbn [Rsum filter length]; [lra|]. intros H. destruct (Rlt_dec 0 c); cbn [length]; [lia|].
    apply IH. lra.
  Qed.
  Lemma fgrm : exists grm, gramian_row_mean O p0 y0 k pre bs = Ok (MVec grm) /\ length grm = n /\
    forall j, (j < n)%nat -> apx (2 * n + 3) (nth j grm nan) (wavg (fun b => B2R (k (x j) b)) xs dwR) (9 / 8 * K).
  Proof using HR HX Hk HN Hprec Hmax.
    clear Huniq Hm Hord Hkx HE. destruct (wdata_facts prec emax a e L HR xs dw HX ltac:(rewrite (wd_len _ _ _ HX); lia)) as (Y1 & Y2 & Y3 & Y4 & Y5).
    unfold gramian_row_mean. destruct (mean_axis0_gen O p0 y0 k pre pre bs Y2 Y2 (wd_len _ _ _ HX)) as [b [Hb ->]]. cbn [d_x] in *.
    eexists. split; [reflexivity|]. split; [apply map_length|]. intros j Hj.
    rewrite (nth_map_lt _ xs j p0) by assumption.
    assert (D : (rdepth n b <= 2 * n + 3)%nat).
    { unfold rdepth. destruct (Nat.le_gt_cases n b) as [Q|Q].
      - assert (cdiv n b <= 1)%nat; [|lia]. unfold cdiv. apply Nat.lt_succ_r. apply Nat.div_lt_upper_bound; lia.
      - enough (b + cdiv n b <= n + 1)%nat by lia. unfold cdiv.
        assert (H : ((n + (b - 1)) / b <= n - b + 1)%nat); [|lia]. apply Nat.lt_succ_r. apply Nat.div_lt_upper_bound; [lia|]. nia. }
    pose proof (rsize_room prec emax a e L HR n b (wd_size _ _ _ HX) Hb) as M.
    destruct (gg_room prec emax a e L HR (rdepth n b) ltac:(lia)) as [_ G2]. destruct (tau_room prec emax a e L HR) as (T1 & T2 & T3 & T4).
    pose proof (tau_pos emax). pose proof (bpow_gt_0 radix2 e). pose proof (gg_ge1 prec (rdepth n b)).
    eapply apx_mono; [apply (row_total_apx prec emax p0 k K (fun x => In x (p0 :: xs)))|exact D|lra]; auto; try lia.
    - now left.
    - right. now apply nth_In.
    - intros y Hy. now right.
    - exact (wd_len _ _ _ HX).
    - apply Rle_lt_trans with (2 * 2); [apply Rmult_le_compat; lra|lra].
    - apply Rle_lt_trans with (2 * (9 / 8 * K)); [apply Rmult_le_compat; lra|lra].
  Qed.
  Lemma fbig t : (t <= m)%nat -> gg t * (INR t * K) < big.
  Proof using HR HE HX HN Hm Hprec Hmax.
    clear Huniq. intros Ht. destruct (gg_room prec emax a e L HR t ltac:(lia)) as [_ G]. pose proof (gg_ge1 prec t). pose proof (bpow_gt_0 radix2 e) as KP. pose proof (pos_INR t).
    assert (T : INR t <= bpow radix2 a).
    { rewrite INR_IZR_INZ. rewrite <- IZR_Zpower by (destruct HR as [[A _] _ _ _]; exact A). apply IZR_le. change (radix_val radix2) with 2%Z.
      pose proof (wd_size _ _ _ HX). lia. }
    apply Rle_lt_trans with (2 * (bpow radix2 a * K)).
    - apply Rmult_le_compat; try lra; [apply Rmult_le_pos; lra|]. apply Rmult_le_compat_r; lra.
    - rewrite <- bpow_plus. replace (2 * bpow radix2 (a + e)) with (bpow radix2 (1 + (a + e))) by (rewrite bpow_plus; reflexivity). apply bpow_lt. lia.
  Qed.

  Theorem fherding_reduce : exists l g,
    herding_reduce O p0 y0 (mkHerding m k unique bs Greedy) ord pre None = Ok (mkCS (map Z.of_nat l) (repeat Bone m) pre, g) /\
    length l = m /\ near_greedy cand score (fun _ => 2 * fscore_err prec e eps xs m) l.
  Proof using HR HE HX Hk Hkx HN Hm Hord Huniq Hprec Hmax.
    destruct fgrm as (grm & EG & GL & GA).
    unfold herding_reduce. cbn [h_size]. rewrite initial_fine by (unfold d_len; cbn [d_x]; lia). cbn [bind].
    unfold herding_refine. cbn [h_kernel h_mode h_size h_unique h_bs c_pre]. rewrite EG. cbn [bind].
    unfold greedy_selection. cbn [c_idx c_w c_pre]. rewrite !repeat_length, Nat.sub_diag. cbn [repeat]. rewrite !app_nil_r.
    cbn [unpack2 d_y d_x d_w bind].
    set (pts := points O p0 y0 _).
    assert (PL : length (d_x pts) = m) by (unfold pts, points; cbn; unfold gather; now rewrite map_length, repeat_length).
    assert (PI : forall y, In y (d_x pts) -> In y xs).
    { intros y Hy. unfold pts, points in Hy. cbn in Hy. unfold gather in Hy. apply in_map_iff in Hy as [z [<- Hz]]. apply repeat_spec in Hz. subst z.
      change 0%Z with (Z.of_nat 0). rewrite jget_nat by lia. apply nth_In. lia. }
    destruct (mean_axis1_gen O p0 y0 k (as_data O xs) pts bs) as [b [Hb ->]].
    { cbn. intros E. rewrite E in Hm. cbn in Hm. lia. }
    { intros E0. rewrite E0 in PL. cbn in PL. lia. }
    { cbn. apply repeat_length. }
    cbn [bind d_x as_data].
    set (pen0 := map (fun v => fmul O _ v) _).
    assert (CZ : count_pos O (repeat (f0 O) m) = 0%nat).
    { unfold count_pos. clear. induction m; cbn [repeat filter]; auto. }
    assert (P0 : fpen_ok prec emax p0 k e xs unique [] pen0).
    { split; [unfold pen0; now rewrite !map_length|]. intros j Hj. split; [intros _ []|]. intros _.
      unfold pval. cbn [map Rsum length INR]. rewrite Rmult_0_l. apply fzero_apx; [|lra].
      unfold pen0. rewrite map_map. rewrite (nth_map_lt _ xs j p0) by assumption. rewrite CZ. apply fzero_mul'; [now exists false|].
      destruct (row_zero prec emax p0 k pts b (x j) m PL eq_refl ltac:(lia)) as [s ->]; [|reflexivity].
      intros y [<-|Hy]; apply Hk; try (now left); right; [now apply nth_In|now apply nth_In|auto]. }
    rewrite CZ. change (Z.of_nat 0) with 0%Z.
    pose proof (fherding_sel prec emax a e L HR p0 k kx eps xs dw m unique HX Hk Hkx HN grm GL GA) as HS.
    destruct (frun prec emax p0 k e xs dw m unique ord ltac:(intros; apply Hk; now right) (wd_len _ _ _ HX) (wd_ok _ _ _ HX) Hord fbig
      (npos_total _ (wd_pos _ _ _ HX)) Huniq _ _ _ HS pen0 P0) as (l & LL & NG & EI & _).
    set (out := fori m _ _) in *. rewrite Nat.sub_diag in EI. cbn [repeat] in EI. rewrite app_nil_r in EI. rewrite EI.
    rewrite firstn_all2 by (rewrite map_length; lia).
    exists l, grm. rewrite map_length, LL. auto.
  Qed.
End Reduce.
