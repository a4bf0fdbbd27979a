(** * KernelHerding and SteinThinning in floating point arithmetic: outcomes *)
From Coq Require Import List ZArith Bool Reals Permutation Lia Lra.
From Coq Require Import Floats.SpecFloat.
From Flocq Require Import Core.Core IEEE754.BinarySingleNaN.
From Verif Require Import Num Jax RSum JaxFacts DataModel MeanModel MeanGeneric GreedyModel GreedyProofs LoopProofs
  Float FloatProofs2 FloatGreedy.
Import ListNotations.
Open Scope nat_scope.

Section Outcome.
  Context (prec emax : Z) {Hprec : Prec_gt_0 prec} {Hmax : Prec_lt_emax prec emax} {Sm : SumOrder prec emax}.
  Notation flt := (binary_float prec emax).
  Notation O := (FOpsIEEE prec emax).
  Notation rnd := (round radix2 (SpecFloat.fexp prec emax) (round_mode mode_NE)).
  Notation bd := (bd prec emax).
  Notation wok := (wok prec emax).

  Lemma ofZ_bound z q : (0 <= z <= 2 ^ q)%Z -> (0 <= q < emax)%Z ->
    is_finite (fofZ O z) = true /\ (0 <= B2R (fofZ O z) <= bpow radix2 q)%R /\ ((1 <= z)%Z -> (1 <= B2R (fofZ O z))%R).
  Proof.
    intros L Q. assert (P : (0 < prec < emax)%Z) by (split; assumption).
    pose proof (binary_normalize_correct prec emax _ _ mode_NE z 0 false) as B. cbn zeta in B.
    replace (F2R {| Fnum := z; Fexp := 0 |}) with (IZR z) in B by (unfold F2R; cbn; lra).
    assert (G : generic_format radix2 (SpecFloat.fexp prec emax) (bpow radix2 q)).
    { apply generic_format_bpow. unfold SpecFloat.fexp, SpecFloat.emin. lia. }
    assert (U : (rnd (IZR z) <= bpow radix2 q)%R).
    { apply round_le_generic; auto with typeclass_instances; [apply fexp_correct; exact Hprec|].
      rewrite <- IZR_Zpower by lia. now apply IZR_le. }
    assert (W : (0 <= rnd (IZR z))%R). { apply rnd_ge0; auto. apply IZR_le. lia. }
    rewrite Rlt_bool_true in B.
    - destruct B as (B1 & B2 & _). split; [exact B2|]. cbn [fofZ FOpsIEEE]. rewrite B1. split; [lra|]. intros Z1.
      rewrite <- (rnd_1 prec emax). apply rnd_mono; auto. apply IZR_le. lia.
    - rewrite Rabs_pos_eq by lra. eapply Rle_lt_trans; [exact U|]. apply bpow_lt. lia.
  Qed.
  Lemma bd_unit e e' t v : bd e t v -> (e <= e')%Z -> bd e' t v.
  Proof.
    intros [F L] H. split; auto. eapply Rle_trans; [exact L|]. apply Rmult_le_compat_l; [apply IZR_le; lia|]. now apply bpow_le.
  Qed.
  Lemma bd_one e q t v : bd e t v -> (0 <= q)%Z -> (Z.of_nat t <= 2 ^ q)%Z -> bd (e + q) 1 v.
  Proof.
    intros [F L] Q H. split; auto. eapply Rle_trans; [exact L|]. rewrite bpow_plus. change (IZR (Z.of_nat 1)) with 1%R.
    rewrite Rmult_1_l, Rmult_comm. apply Rmult_le_compat_l; [apply bpow_ge_0|]. rewrite <- (IZR_Zpower radix2) by lia. now apply IZR_le.
  Qed.

  Variables a e : Z.
  (** sizes up to [2^a] and kernel values up to [2^e] *)
  Hypothesis Ha : (1 <= a)%Z.
  Hypothesis Hprec3 : (a + 3 <= prec)%Z.
  Hypothesis Hemax : (e + 3 * a + 5 <= emax)%Z.
  Hypothesis Hemin : (3 - emax - prec <= e)%Z.
  Notation E := (e + 2 * a + 1)%Z.
  Notation p := (a + 3)%Z.
  Notation small n := (Z.of_nat n <= 2 ^ a)%Z.

  Lemma pow_a3 : (2 ^ p = 8 * 2 ^ a)%Z.
  Proof. rewrite Z.pow_add_r by lia. lia. Qed.
  Lemma pow_a1 : (2 ^ (a + 1) = 2 * 2 ^ a)%Z.
  Proof. rewrite Z.pow_add_r by lia. lia. Qed.
  Lemma pow_a : (2 <= 2 ^ a)%Z.
  Proof. change 2%Z with (2 ^ 1)%Z at 1. apply Z.pow_le_mono_r; lia. Qed.

  Lemma a_emax : (a + 3 < emax)%Z.
  Proof. assert (prec < emax)%Z by assumption. lia. Qed.

  Context {P Y : Type} (p0 : P) (y0 : Y) (k : P -> P -> flt).
  Hypothesis Hk : forall x y, bd e 1 (k x y).

  Lemma rows_bd (d : Data P Y flt) b x : length (d_w d) = length (d_x d) -> Forall wok (d_w d) -> small (length (d_x d)) ->
    0 < b <= length (d_x d) -> bd (e + a + 1) 1 (browsum O k (gblocks O p0 d b) x).
  Proof.
    intros HL HW Hs Hb. pose proof pow_a. pose proof pow_a1. pose proof pow_a3. pose proof a_emax.
    destruct (gblocks_facts O p0 d b HL ltac:(lia)) as (F1 & F2 & _ & F4). cbv zeta in F4.
    replace (e + a + 1)%Z with (e + (a + 1))%Z by lia.
    apply bd_one with (length (concat (map fst (gblocks O p0 d b)))); [|lia|].
    - apply (bd_rowsum prec emax e p); auto; try lia.
      + rewrite F2. apply Forall_app. split; [now apply normalize_upto|]. apply Forall_forall. intros v Hv. apply repeat_spec in Hv. subst v.
        split; [reflexivity|]. cbn. lra.
      + rewrite F1, app_length, repeat_length. lia.
    - rewrite F1, app_length, repeat_length. lia.
  Qed.

  (** the selection functions pick an entry that is a number *)
  Lemma herding_sel grm (xs : list P) (idx : list Z) init : length grm = length xs -> Forall (bd E 1) grm ->
    small (length idx) -> (0 <= init <= 2 ^ a)%Z ->
    lsel_ok O (bd E) xs idx (herding_select O Greedy grm) init 1.
  Proof.
    intros GL GB Hs Hi i v size Hi' VL Sz Hv [j [Hj Bj]]. pose proof pow_a. pose proof pow_a1. pose proof pow_a3. pose proof a_emax.
    unfold herding_select. set (res := map2 _ grm v).
    destruct (ofZ_bound size (a + 1)) as (Z1 & Z2 & Z3); [lia|lia|]. specialize (Z3 ltac:(lia)).
    assert (RL : length res = length xs) by (unfold res; rewrite map2_length; lia).
    assert (RN : forall j, j < length xs -> nth j res B754_nan = fsub O (nth j grm B754_nan) (fdiv O (nth j v B754_nan) (fofZ O size))).
    { intros j' Hj'. unfold res. now rewrite (nth_map2 _ _ _ _ B754_nan B754_nan) by lia. }
    assert (GN : forall j, j < length xs -> bd E 1 (nth j grm B754_nan)).
    { intros j' Hj'. rewrite Forall_forall in GB. apply GB, nth_In. lia. }
    assert (RF : forall j, j < length xs -> bd E (1 + 2 * length idx) (nth j v B754_nan) -> is_finite (nth j res B754_nan) = true).
    { intros j' Hj' Bj'. rewrite RN by assumption.
      apply (bd_minus prec emax E p ltac:(lia) ltac:(lia) ltac:(lia) 1 (1 + 2 * length idx)); auto; [|lia].
      apply (bd_div prec emax E p); auto; lia. }
    assert (RNN : forall j, j < length xs -> nth j v B754_nan = B754_nan -> nth j res B754_nan = B754_nan).
    { intros j' Hj' Ej'. rewrite RN, Ej' by assumption. cbn. now destruct (nth j' grm B754_nan). }
    assert (RI : forall j, j < length xs -> nth j v B754_nan = B754_infinity false -> nth j res B754_nan = B754_infinity true).
    { intros j' Hj' Ej'. rewrite RN, Ej' by assumption. specialize (GN j' Hj'). destruct GN as [FG _].
      assert (PS : pos prec emax (fofZ O size)) by (apply pos_spec; split; [exact Z1|lra]).
      cbn [fdiv fsub FOpsIEEE]. set (z := fofZ O size) in *. clearbody z. destruct z; try contradiction; try discriminate. cbn in PS. subst.
      destruct (nth j' grm B754_nan); try discriminate; reflexivity. }
    destruct (nanargmax_finite prec emax res) as [r [R1 [R2 R3]]].
    - intros w Hw. apply In_nth with (d := B754_nan) in Hw as [j' [Hj' <-]]. rewrite RL in Hj'.
      destruct (Hv j' Hj') as [H3|[H3|H3]]; auto.
    - apply Exists_exists. exists (nth j res B754_nan). split; [apply nth_In; lia|]. auto.
    - exists r. rewrite RL in R2. split; [exact R1|]. split; auto.
      destruct (Hv r R2) as [H3|[H3|H3]]; auto; exfalso.
      + rewrite (RNN r R2 H3) in R3. discriminate.
      + rewrite (RI r R2 H3) in R3. discriminate.
  Qed.

  Definition small_terms (n : nat) (reg : option (list flt * list flt)) : Prop :=
    match reg with
    | None => True
    | Some (lp, rlp) => length lp = n /\ length rlp = n /\ Forall (bd (e + a + 1) 1) lp /\ Forall (bd (e + a + 1) 1) rlp
    end.

  Lemma stein_sel diag reg (xs : list P) (idx : list Z) init : length diag = length xs -> Forall (bd E 1) diag ->
    small_terms (length xs) reg -> small (length idx) ->
    lsel_ok O (bd E) xs idx (stein_select O diag reg) init 1.
  Proof.
    intros GL GB Hreg Hs i v size Hi' VL Sz Hv [j [Hj Bj]]. pose proof pow_a. pose proof pow_a1. pose proof pow_a3. pose proof a_emax.
    destruct (ofZ_bound (Z.of_nat i + 1) a) as (Z1 & Z2 & _); [lia|lia|].
    set (lp := fun j => match reg with None => f0 O | Some (l, _) => nth j l B754_nan end).
    set (rp := fun j => match reg with None => f0 O | Some (_, l) => nth j l B754_nan end).
    set (res := match reg with
      | None => map (fun v => fsub O (fadd O v (f0 O)) (fmul O (fofZ O (Z.of_nat i + 1)) (f0 O)))
           (map2 (fun d p => fadd O d (fmul O (fofZ O 2) p)) diag v)
      | Some (lap, rlp) => map2 (fun v q => fsub O v (fmul O (fofZ O (Z.of_nat i + 1)) q))
           (map2 (fadd O) (map2 (fun d p => fadd O d (fmul O (fofZ O 2) p)) diag v) lap) rlp
      end).
    replace (stein_select O diag reg i v size) with (nanargmin O res) by (unfold stein_select, res; destruct reg as [[? ?]|]; reflexivity).
    assert (RL : length res = length xs).
    { unfold res. destruct reg as [[l1 l2]|]; [destruct Hreg as (L1 & L2 & _)|]; rewrite ?map_length, ?map2_length; lia. }
    assert (LP : forall j, j < length xs -> bd (e + a + 1) 1 (lp j)).
    { intros j' Hj'. unfold lp. destruct reg as [[l1 l2]|]; [destruct Hreg as (L1 & L2 & F1 & F2)|].
      - rewrite Forall_forall in F1. apply F1, nth_In. lia.
      - apply bd_zero. }
    assert (RP : forall j, j < length xs -> bd (e + a + 1) 1 (rp j)).
    { intros j' Hj'. unfold rp. destruct reg as [[l1 l2]|]; [destruct Hreg as (L1 & L2 & F1 & F2)|].
      - rewrite Forall_forall in F2. apply F2, nth_In. lia.
      - apply bd_zero. }
    assert (RN : forall j, j < length xs -> nth j res B754_nan =
       fsub O (fadd O (fadd O (nth j diag B754_nan) (fmul O (fofZ O 2) (nth j v B754_nan))) (lp j)) (fmul O (fofZ O (Z.of_nat i + 1)) (rp j))).
    { intros j' Hj'. unfold res, lp, rp. destruct reg as [[l1 l2]|]; [destruct Hreg as (L1 & L2 & _)|].
      - rewrite !(nth_map2 _ _ _ _ B754_nan B754_nan) by (rewrite ?map2_length; lia). reflexivity.
      - set (f := fun v : flt => fsub O (fadd O v (f0 O)) (fmul O (fofZ O (Z.of_nat i + 1)) (f0 O))).
        rewrite (nth_indep _ _ (f B754_nan)) by (rewrite map_length, map2_length; lia).
        rewrite map_nth. unfold f. rewrite (nth_map2 _ _ _ _ B754_nan B754_nan) by lia. reflexivity. }
    assert (GN : forall j, j < length xs -> bd E 1 (nth j diag B754_nan)).
    { intros j' Hj'. rewrite Forall_forall in GB. apply GB, nth_In. lia. }
    destruct (ofZ_bound 2 1) as (T1 & T2 & T3); [change (2 ^ 1)%Z with 2%Z; lia|lia|]. specialize (T3 ltac:(lia)).
    assert (PR : forall j, j < length xs -> bd (E + 1) 1 (fmul O (fofZ O (Z.of_nat i + 1)) (rp j))).
    { intros j' Hj'. apply (bd_mult prec emax (E + 1) p ltac:(lia) ltac:(lia) ltac:(lia) a); auto; try lia.
      - apply bd_unit with (e + a + 1)%Z; auto. lia.
      - rewrite Rabs_pos_eq; lra. }
    assert (RF : forall j, j < length xs -> bd E (1 + 2 * length idx) (nth j v B754_nan) -> is_finite (nth j res B754_nan) = true).
    { intros j' Hj' Bj'. rewrite RN by assumption.
      apply (bd_minus prec emax (E + 1) p ltac:(lia) ltac:(lia) ltac:(lia) (3 + 2 * length idx) 1); auto; [|lia].
      replace (3 + 2 * length idx) with (1 + (1 + 2 * length idx) + 1) by lia.
      apply (bd_plus prec emax (E + 1) p); try lia; [|eapply bd_unit; [apply LP; auto|lia]].
      apply (bd_plus prec emax (E + 1) p); try lia; [eapply bd_unit; [apply GN; auto|lia]|].
      apply (bd_mult prec emax (E + 1) p ltac:(lia) ltac:(lia) ltac:(lia) 1); auto; try lia.
      - replace (E + 1 - 1)%Z with E by lia. exact Bj'.
      - rewrite Rabs_pos_eq; lra. }
    assert (RNN : forall j, j < length xs -> nth j v B754_nan = B754_nan -> nth j res B754_nan = B754_nan).
    { intros j' Hj' Ej'. rewrite RN, Ej' by assumption. cbn [fadd fsub fmul FOpsIEEE].
      destruct (fofZ O 2), (nth j' diag B754_nan), (lp j'), (Bmult mode_NE (fofZ O (Z.of_nat i + 1)) (rp j')); reflexivity. }
    assert (RI : forall j, j < length xs -> nth j v B754_nan = B754_infinity false -> nth j res B754_nan = B754_infinity false).
    { intros j' Hj' Ej'. rewrite RN, Ej' by assumption. destruct (GN j' Hj') as [FG _]. destruct (LP j' Hj') as [FL _]. destruct (PR j' Hj') as [FP _].
      assert (PS : pos prec emax (fofZ O 2)) by (apply pos_spec; split; [exact T1|lra]).
      set (q := fmul O (fofZ O (Z.of_nat i + 1)) (rp j')) in *. clearbody q.
      cbn [fadd fsub fmul FOpsIEEE]. set (z := fofZ O 2) in *. clearbody z. destruct z; try contradiction; try discriminate. cbn in PS. subst.
      destruct (nth j' diag B754_nan), (lp j'), q; try discriminate; reflexivity. }
    destruct (nanargmin_finite prec emax res) as [r [R1 [R2 R3]]].
    - intros w Hw. apply In_nth with (d := B754_nan) in Hw as [j' [Hj' <-]]. rewrite RL in Hj'.
      destruct (Hv j' Hj') as [H3|[H3|H3]]; auto.
    - apply Exists_exists. exists (nth j res B754_nan). split; [apply nth_In; lia|]. auto.
    - exists r. rewrite RL in R2. split; [exact R1|]. split; auto.
      destruct (Hv r R2) as [H3|[H3|H3]]; auto; exfalso.
      + rewrite (RNN r R2 H3) in R3. discriminate.
      + rewrite (RI r R2 H3) in R3. discriminate.
  Qed.

  Lemma inf_ops : (forall x y, fadd O (finf O) (k x y) = finf O) /\ (forall x y, fsub O (finf O) (k x y) = finf O).
  Proof. split; intros x y; destruct (Hk x y) as [F _]; destruct (k x y); try discriminate; reflexivity. Qed.

  Variables (m : nat) (unique : bool) (bs : bsarg) (ord : nat -> list nat) (idx : list Z) (cw : list flt) (xs : list P) (dw : list flt).
  Hypothesis Hdw : length dw = length xs.
  Hypothesis Hcw : length cw = length idx.
  Hypothesis Hm : 1 <= m.
  Hypothesis Hord : forall i, Permutation (ord i) (seq 0 (Nat.max (length idx) m)).
  Hypothesis Hn : small (length xs).
  Hypothesis HM : small (Nat.max (length idx) m).
  Hypothesis Wdw : Forall wok dw.
  Hypothesis Wcw : Forall wok cw.
  Hypothesis Hen1 : 1 <= count_pos O dw.
  Hypothesis Hen2 : unique = true -> Nat.max (length idx) m <= count_pos O dw.
  Notation pre := (mkData xs dw None : Data P Y flt).

  Lemma xs_ne : xs <> [].
  Proof. intros ->. destruct dw; [cbn in Hen1; lia|discriminate]. Qed.

  Lemma fselection sel :
    (forall idx' init, length idx' = Nat.max (length idx) m -> (0 <= init <= 2 ^ a)%Z -> lsel_ok O (bd E) xs idx' sel init 1) ->
    exists l, greedy_selection O p0 y0 (mkCS idx cw pre) sel m k unique bs ord = Ok (mkCS (map Z.of_nat l) (repeat (f1 O) m) pre) /\
      length l = m /\ (forall i, In i l -> i < length xs /\ fgt0 O (nth i dw B754_nan) = true) /\ (unique = true -> NoDup l).
  Proof.
    intros Hsel. pose proof pow_a. pose proof pow_a1. pose proof pow_a3. pose proof a_emax.
    set (cw' := cw ++ repeat (f0 O) (m - length idx)).
    assert (CL : length cw' = Nat.max (length idx) m) by (unfold cw'; rewrite app_length, repeat_length; lia).
    assert (CC : (Z.of_nat (count_pos O cw') <= 2 ^ a)%Z).
    { pose proof (filter_len_le (fgt0 O) cw'). unfold count_pos. lia. }
    set (pts := points O p0 y0 (mkCS (idx ++ repeat 0%Z (m - length idx)) cw' pre)).
    assert (PL : length (d_x pts) = Nat.max (length idx) m).
    { unfold pts, points. cbn. unfold gather. rewrite map_length, app_length, repeat_length. lia. }
    assert (XL : 0 < length xs) by (pose proof xs_ne; destruct xs; [congruence|simpl; lia]).
    destruct (mean_axis1_gen O p0 y0 k (as_data O xs) pts bs) as [b [Hb Mn]].
    { cbn. apply xs_ne. }
    { intros E0. apply (f_equal (@length P)) in E0. rewrite PL in E0. cbn in E0. lia. }
    { cbn. apply repeat_length. }
    destruct inf_ops as [I1 I2].
    assert (KE : forall x y, bd E 1 (k x y)) by (intros; eapply bd_unit; [apply Hk|lia]).
    refine (lselection O p0 y0 k (bd E) (mkCS idx cw pre) xs dw sel m unique bs ord _ 1 eq_refl Hdw Hcw Hord Hen1 Hen2 Mn _ _ _ _ _ _ _ I1 I2 _).
    - cbn [d_x as_data]. apply map_length.
    - intros v Hv. apply in_map_iff in Hv as [x [<- _]]. cbn [c_w c_idx]. fold cw'.
      destruct (ofZ_bound (Z.of_nat (count_pos O cw')) a) as (Z1 & Z2 & _); [lia|lia|].
      apply (bd_mult prec emax E p ltac:(lia) ltac:(lia) ltac:(lia) a); auto.
      + replace (E - a)%Z with (e + a + 1)%Z by lia. apply rows_bd; rewrite ?PL; auto; try lia.
        change (Forall wok cw'). unfold cw'. apply Forall_app. split; auto.
        apply Forall_forall. intros v Hv. apply repeat_spec in Hv. subst v. split; [reflexivity|]. cbn. lra.
      + rewrite Rabs_pos_eq; lra.
      + lia.
    - intros t t' v B L. eapply bd_mono; eauto.
    - intros t. apply bd_inf.
    - intros t. apply bd_nan.
    - intros t v x y B L. cbn [c_idx] in L. rewrite <- Nat.add_1_r. apply (bd_plus prec emax E p); auto; lia.
    - intros t v x y B L. cbn [c_idx] in L. rewrite <- Nat.add_1_r. apply (bd_minus prec emax E p); auto; lia.
    - intros idx' L. cbn [c_idx c_w] in *. apply Hsel; auto. fold cw'. lia.
  Qed.

  Lemma fherding_refine st :
    (forall g, st = Some g -> length g = length xs /\ Forall (bd (e + a + 1) 1) g) ->
    exists l g, herding_refine O p0 y0 (mkHerding m k unique bs Greedy) ord (mkCS idx cw pre) st = Ok (mkCS (map Z.of_nat l) (repeat (f1 O) m) pre, g) /\
      length l = m /\ (forall i, In i l -> i < length xs /\ fgt0 O (nth i dw B754_nan) = true) /\ (unique = true -> NoDup l) /\
      length g = length xs /\ Forall (bd (e + a + 1) 1) g.
  Proof.
    intros Hst.
    assert (G : exists g, match st with
              | Some g => Ok g
              | None => do m <- gramian_row_mean O p0 y0 k pre bs;
                        match m with MVec g => Ok g | MScalar _ => Err ShapeError end
              end = Ok g /\ length g = length xs /\ Forall (bd (e + a + 1) 1) g).
    { destruct st as [g|]; [exists g; split; auto|].
      unfold gramian_row_mean.
      destruct (mean_axis0_gen O p0 y0 k pre pre bs xs_ne xs_ne Hdw) as [b [Hb ->]]. cbn [bind d_x].
      eexists. split; [reflexivity|]. rewrite map_length. split; auto. apply Forall_forall. intros v Hv.
      apply in_map_iff in Hv as [x [<- _]]. now apply rows_bd. }
    destruct G as [g [EG [GL GB]]].
    destruct (fselection (herding_select O Greedy g)) as [l [El [Ll [Rl Ul]]]].
    { intros idx' init L I. apply herding_sel; auto; [|lia].
      eapply Forall_impl; [|exact GB]. intros v Bv. eapply bd_unit; [exact Bv|lia]. }
    exists l, g. unfold herding_refine. cbn [h_kernel h_mode h_size h_unique h_bs c_pre]. rewrite EG. cbn [bind]. rewrite El. cbn [bind].
    split; [reflexivity|]. auto 10.
  Qed.

  Lemma fstein_refine reg :
    small_terms (length xs) (stein_terms O (mkStein m k unique bs reg) (length idx) xs dw) ->
    exists l, stein_refine O p0 y0 (mkStein m k unique bs reg) ord (mkCS idx cw pre) = Ok (mkCS (map Z.of_nat l) (repeat (f1 O) m) pre) /\
      length l = m /\ (forall i, In i l -> i < length xs /\ fgt0 O (nth i dw B754_nan) = true) /\ (unique = true -> NoDup l).
  Proof.
    intros Hst.
    destruct (fselection (stein_select O (map (fun a => k a a) xs) (stein_terms O (mkStein m k unique bs reg) (length idx) xs dw))) as [l [El [Ll [Rl Ul]]]].
    { intros idx' init L I. apply stein_sel; auto; [apply map_length| |lia].
      apply Forall_forall. intros v Hv. apply in_map_iff in Hv as [x [<- _]]. eapply bd_unit; [apply Hk|lia]. }
    exists l. unfold stein_refine. cbn [s_kernel s_size s_unique s_bs c_pre c_idx unpack2 d_y d_x d_w bind].
    rewrite El. auto.
  Qed.
End Outcome.
