(** * SteinThinning in floating point arithmetic: the outcome of [reduce] *)
From Coq Require Import List ZArith Bool Reals Permutation Lia Lra.
From Coq Require Import Floats.SpecFloat.
From Flocq Require Import Core.Core IEEE754.BinarySingleNaN.
From Verif Require Import Num Jax RSum JaxFacts DataModel MeanModel MeanGeneric MeanSpec GreedySpec GreedyModel GreedyProofs GreedyProofs2 GreedyProofs3 GreedyProofs5 LoopProofs
  Float FloatProofs2 FloatGreedy FloatGreedy2 FloatIdxSpec FloatErrSpec FloatErr FloatMean FloatMMD FloatRateSpec FloatRate FloatRate2 FloatRate3 FloatRate4 FloatStein.
Import ListNotations.
Open Scope R_scope.

Section Reduce.
  Context (prec emax : Z) {Hprec : Prec_gt_0 prec} {Hmax : Prec_lt_emax prec emax} {Sm : SumOrder prec emax}.
  Notation flt := (binary_float prec emax).
  Notation O := (FOpsIEEE prec emax).
  Notation big := (bpow radix2 emax).
  Notation gg := (gg prec).
  Notation nan := (B754_nan : flt).
  Variables (a e : Z) (L : nat).
  Hypothesis HR : mean_room prec emax a e L.
  Hypothesis HE : (a + e + 4 <= emax)%Z.
  Notation K := (bpow radix2 e).
  Context {P Y : Type} (p0 : P) (y0 : Y) (k : P -> P -> flt) (kx : P -> P -> R) (eps : R) (xs : list P) (dw : list flt) (m : nat) (unique : bool).
  Variables (bs : bsarg) (ord : nat -> list nat).
  Notation n := (length xs).
  Notation x := (fun j => nth j xs p0).
  Notation dwR := (map B2R dw).
  Notation cand := (candidate dwR unique).
  Hypothesis Hdw : length dw = n.
  Hypothesis Wdw : Forall weight_ok dw.
  Hypothesis Hpos : (1 <= npos dwR)%nat.
  Hypothesis Hk : forall x y, In x (p0 :: xs) -> In y (p0 :: xs) -> at_most e (k x y).
  Hypothesis Hkx : forall x y, In x xs -> In y xs -> Rabs (B2R (k x y) - kx x y) <= eps.
  Hypothesis HN : (m + 3 <= L)%nat.
  Hypothesis HA : (Z.of_nat m <= 2 ^ a)%Z.
  Hypothesis Hm : (1 <= m <= n)%nat.
  Hypothesis Hord : forall i, Permutation (ord i) (seq 0 m).
  Hypothesis Huniq : unique = true -> (m <= npos dwR)%nat.
  Notation pre := (mkData xs dw None : Data P Y flt).

  Lemma fbig' t : (t <= m)%nat -> gg t * (INR t * K) < big.
  Proof using HR HE HN HA Hprec Hmax.
    clear Huniq Hm Hpos Hdw. intros Ht. destruct (gg_room prec emax a e L HR t ltac:(lia)) as [_ G]. pose proof (gg_ge1 prec t). pose proof (bpow_gt_0 radix2 e) as KP. pose proof (pos_INR t).
    assert (T : INR t <= bpow radix2 a).
    { rewrite INR_IZR_INZ. rewrite <- IZR_Zpower by (destruct HR as [[A _] _ _ _]; exact A). apply IZR_le. change (radix_val radix2) with 2%Z. lia. }
    apply Rle_lt_trans with (2 * (bpow radix2 a * K)).
    - apply Rmult_le_compat; try lra; [apply Rmult_le_pos; lra|]. apply Rmult_le_compat_r; lra.
    - rewrite <- bpow_plus. replace (2 * bpow radix2 (a + e)) with (bpow radix2 (1 + (a + e))) by (rewrite bpow_plus; reflexivity). apply bpow_lt. lia.
  Qed.
  (** greedy selection from the initial coreset of weight zero *)
  Lemma fselect sel score tol : fsel_ok prec emax p0 k e xs dw m unique sel score tol -> exists l,
    greedy_selection O p0 y0 (mkCS (repeat 0%Z m) (repeat (f0 O) m) pre) sel m k unique bs ord = Ok (mkCS (map Z.of_nat l) (repeat Bone m) pre) /\
    length l = m /\ near_greedy cand score tol l.
  Proof using HR HE Hk HN HA Hm Hord Huniq Hpos Hdw Wdw Hprec Hmax.
    intros HS. unfold greedy_selection. cbn [c_idx c_w c_pre]. rewrite !repeat_length, Nat.sub_diag. cbn [repeat]. rewrite !app_nil_r.
    cbn [unpack2 d_y d_x d_w bind].
    set (pts := points O p0 y0 _).
    assert (PL : length (d_x pts) = m) by (unfold pts, points; cbn; unfold gather; now rewrite map_length, repeat_length).
    assert (PI : forall y, In y (d_x pts) -> In y xs).
    { intros y Hy. unfold pts, points in Hy. cbn in Hy. unfold gather in Hy. apply in_map_iff in Hy as [z [<- Hz]]. apply repeat_spec in Hz. subst z.
      change 0%Z with (Z.of_nat 0). rewrite jget_nat by lia. apply nth_In. lia. }
    destruct (mean_axis1_gen O p0 y0 k (as_data O xs) pts bs) as [b [Hb ->]].
    { cbn. intros E. rewrite E in Hm. cbn in Hm. lia. }
    { intros E0. rewrite E0 in PL. cbn in PL. lia. }
    { cbn. apply repeat_length. }
    cbn [bind d_x as_data].
    set (pen0 := map (fun v => fmul O _ v) _).
    assert (CZ : count_pos O (repeat (f0 O) m) = 0%nat).
    { unfold count_pos. clear. induction m; cbn [repeat filter]; auto. }
    assert (P0 : fpen_ok prec emax p0 k e xs unique [] pen0).
    { split; [unfold pen0; now rewrite !map_length|]. intros j Hj. split; [intros _ []|]. intros _.
      unfold pval. cbn [map Rsum length INR]. rewrite Rmult_0_l. apply fzero_apx; [|lra].
      unfold pen0. rewrite map_map. rewrite (nth_map_lt _ xs j p0) by assumption. rewrite CZ. apply fzero_mul'; [now exists false|].
      destruct (row_zero prec emax p0 k pts b (x j) m PL eq_refl ltac:(lia)) as [s ->]; [|reflexivity].
      intros y [<-|Hy]; apply Hk; try (now left); right; [now apply nth_In|now apply nth_In|auto]. }
    rewrite CZ. change (Z.of_nat 0) with 0%Z.
    destruct (frun prec emax p0 k e xs dw m unique ord ltac:(intros; apply Hk; now right) Hdw Wdw Hord fbig'
      Hpos Huniq _ _ _ HS pen0 P0) as (l & LL & NG & EI & _).
    set (out := fori m _ _) in *. rewrite Nat.sub_diag in EI. cbn [repeat] in EI. rewrite app_nil_r in EI. rewrite EI.
    rewrite firstn_all2 by (rewrite map_length; lia).
    exists l. rewrite map_length, LL. auto.
  Qed.

  (** unregularised, and regularised with terms [lap] and [rl] *)
  Definition terms_of (reg : option (list flt * list flt)) : list flt * list flt :=
    match reg with Some p => p | None => (repeat (f0 O) n, repeat (f0 O) n) end.
  Lemma select_form (reg : option (list flt * list flt)) (v : list flt) (t : nat) size :
    length v = n -> length (fst (terms_of reg)) = n -> length (snd (terms_of reg)) = n ->
    stein_select O (map (fun b => k b b) xs) reg t v size
    = nanargmin O (map2 (fun dp lq => fstein prec emax (fst dp) (snd dp) (fst lq) (snd lq) t) (combine (map (fun b => k b b) xs) v) (combine (fst (terms_of reg)) (snd (terms_of reg)))).
  Proof using Type.
    intros VL L1 L2. unfold stein_select, fstein. set (dg := map _ xs).
    assert (DL : length dg = n) by (unfold dg; apply map_length). clearbody dg.
    destruct reg as [[lap rl]|]; cbn [terms_of fst snd] in *; f_equal.
    - revert VL L1 L2 DL. generalize n. intros N; revert N v lap rl. induction dg as [|d dg IH]; intros N [|p v] [|c lap] [|q rl]; cbn; intros; try (subst N; discriminate); auto.
      f_equal. apply (IH (length dg)); congruence || (subst; cbn in *; lia).
    - clear L1 L2. revert VL DL. generalize n. intros N; revert N v. induction dg as [|d dg IH]; intros N [|p v]; cbn; intros; try (subst N; discriminate); auto.
      subst N. cbn [repeat length combine map2 map]. f_equal. apply IH; congruence || (cbn in *; lia).
  Qed.

  Theorem fstein_reduce (reg : option (option flt * (list P -> list flt -> list flt) * (list P -> list flt))) :
    let terms := terms_of (stein_terms O (mkStein m k unique bs reg) m xs dw) in
    length (fst terms) = n -> Forall (at_most e) (fst terms) -> length (snd terms) = n -> Forall (at_most e) (snd terms) ->
    exists l, stein_reduce O p0 y0 (mkStein m k unique bs reg) ord pre = Ok (mkCS (map Z.of_nat l) (repeat Bone m) pre) /\
      length l = m /\
      near_greedy cand (stein_score kx (fun j => B2R (nth j (fst terms) nan)) (fun j => B2R (nth j (snd terms) nan)) x) (fun _ => 2 * fstein_err prec e eps m) l.
  Proof using HR HE Hk Hkx HN HA Hm Hord Huniq Hpos Hdw Wdw Hprec Hmax.
    intros terms L1 B1 L2 B2. unfold stein_reduce. cbn [s_size]. rewrite initial_fine by (unfold d_len; cbn [d_x]; lia). cbn [bind].
    unfold stein_refine. cbn [s_kernel s_size s_unique s_bs c_pre c_idx unpack2 d_y d_x d_w bind]. rewrite repeat_length.
    apply fselect. apply (fstein_sel prec emax a e L HR HE p0 k kx eps xs dw m unique Hdw Wdw Hk Hkx HN HA (fst terms) (snd terms) (conj L1 B1) (conj L2 B2)).
    intros l v VL. now apply select_form.
  Qed.
End Reduce.
