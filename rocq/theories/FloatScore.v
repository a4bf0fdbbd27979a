(** * Kernel density scores in floating point arithmetic: lemmas *)
From Coq Require Import List ZArith Bool Reals Permutation Lia Lra.
From Coq Require Import Floats.SpecFloat.
From Flocq Require Import Core.Core IEEE754.BinarySingleNaN.
From Verif Require Import Num Jax RSum JaxFacts DataModel MeanModel MeanGeneric MetricModel UtilModel KernelModel ApproxModel ScoreModel
  SumSpec SumProofs Float FloatProofs2 FloatGreedy FloatErr FloatIdxSpec FloatRate3 PropFloat.
Import ListNotations.
Open Scope R_scope.

Section Score.
  Context (prec emax : Z) {Hprec : Prec_gt_0 prec} {Hmax : Prec_lt_emax prec emax} {Sm : SumOrder prec emax}.
  Notation flt := (binary_float prec emax).
  Notation O := (FOpsIEEE prec emax).
  Notation rnd := (round radix2 (SpecFloat.fexp prec emax) (round_mode mode_NE)).
  Notation big := (bpow radix2 emax).
  Context (T : TOps flt) (jgrad : (list flt -> flt) -> list flt -> list flt) (keq : kern flt -> kern flt -> bool).

  (** the value and the entries of the gradient at one point *)
  Definition kv (len s : flt) (x c : list flt) : flt := se_val O T len s x c.
  Definition gx (len s : flt) (x c : list flt) : list flt := map (fneg O) (se_gy O T len s x c).
  Definition ones (n : nat) : list flt := normalize_w O true (repeat (f1 O) n).
  Definition dens (len s : flt) (X : list (list flt)) (x : list flt) : flt :=
    fsum O [fdot O (map (kv len s x) X) (ones (length X))].

  Lemma chunks_whole {A} (l : list A) : l <> [] -> chunks (length l) l = [l].
  Proof.
    intros H. unfold chunks. destruct l as [|a l]; [congruence|]. set (m := a :: l). change (length m) with (S (length l)) at 1. cbn [chunks_fuel].
    unfold m at 1. rewrite firstn_all, skipn_all. destruct (length l); reflexivity.
  Qed.
  Lemma kdm_point_gen len s (X : list (list flt)) (x : list flt) : X <> [] ->
    kdm_score O T jgrad keq (KSE len s) X (IPoint x) =
      Ok (OVec (map (fun v => fdiv O v (dens len s X x)) (mean_rows O (map (gx len s x) X)))).
  Proof.
    intros HX. unfold kdm_score. cbn [atleast_2d]. unfold compute_mean. cbn [bs_leaves leaves_repeat app rev length Nat.sub repeat nth].
    destruct (block_convert_gen O [] tt (as_data O [x]) None ltac:(discriminate)) as [_ ->].
    destruct (block_convert_gen O [] tt (as_data O X) None HX) as [_ ->]. cbn [bind].
    rewrite block_scan_gen. unfold gblocks, as_data, eff_block. cbn [d_x d_w].
    assert (LX : (0 < length X)%nat) by (destruct X; [congruence|cbn; lia]).
    assert (C1 : forall n, (0 < n)%nat -> cdiv n n = 1%nat).
    { intros n Hn. unfold cdiv. symmetry. apply (Nat.div_unique _ _ 1%nat (n - 1)); lia. }
    rewrite !C1 by (cbn; lia). rewrite !Nat.mul_1_l, !Nat.sub_diag. cbn [repeat]. rewrite !app_nil_r.
    assert (W : length (normalize_w O true (repeat (f1 O) (length X))) = length X) by (rewrite (normalize_w_len O), repeat_length; reflexivity).
    assert (NW : normalize_w O true (repeat (f1 O) (length X)) <> []) by (intros E; rewrite E in W; cbn in W; lia).
    assert (CW : chunks (length X) (normalize_w O true (repeat (f1 O) (length X))) = [normalize_w O true (repeat (f1 O) (length X))]).
    { set (w := normalize_w O true (repeat (f1 O) (length X))) in *. rewrite <- W. now apply chunks_whole. }
    rewrite CW, (chunks_whole X HX).
    cbn [length]. change (chunks 1 [x]) with [[x]].
    replace (chunks 1 (normalize_w O true (repeat (f1 O) 1))) with [normalize_w O true [f1 O]] by reflexivity.
    transitivity (Ok (OVec (map (fun v => fdiv O v (dens len s X x)) (mean_rows O (map unvec (map (fun c => Vec (gx len s x c)) X)))))); [reflexivity|].
    rewrite map_map. reflexivity.
  Qed.

  (** ** Zero or not a number *)
  Definition zn (v : flt) : Prop := match v with B754_zero _ | B754_nan => True | _ => False end.
  Lemma zn_plus a b : zn a -> zn b -> zn (Bplus mode_NE a b).
  Proof. destruct a as [[]|[]| |], b as [[]|[]| |]; cbn; tauto. Qed.
  Lemma zn_sum l : Forall zn l -> zn (fsum O l).
  Proof. intros F. eapply summed_closed; [| |exact F|apply sum_fun_ok]; [exact I|apply zn_plus]. Qed.
  Lemma zn_mult_l a b : zn a -> zn (Bmult mode_NE a b).
  Proof. destruct a as [[]|[]| |], b as [[]|[]| |]; cbn; tauto. Qed.
  Lemma zn_mult_r a b : zn b -> zn (Bmult mode_NE a b).
  Proof. destruct a as [[]|[]| |], b as [[]|[]| |]; cbn; tauto. Qed.
  Lemma zn_opp a : zn a -> zn (fneg O a).
  Proof. destruct a as [[]|[]| |]; cbn; tauto. Qed.
  Lemma zn_div a b : zn a -> zn (Bdiv mode_NE a b).
  Proof. destruct a as [[]|[]| |], b as [[]|[]| |]; cbn; tauto. Qed.
  Lemma zn_div_zn a b : zn a -> zn b -> Bdiv mode_NE a b = B754_nan.
  Proof. destruct a as [[]|[]| |], b as [[]|[]| |]; cbn; tauto. Qed.
  Lemma dens_zn len s X x : (forall c, In c X -> zn (kv len s x c)) -> zn (dens len s X x).
  Proof.
    intros H. apply zn_sum. constructor; [|constructor]. apply zn_sum. apply Forall_forall. intros v Hv.
    unfold ones in Hv. revert Hv. generalize (normalize_w O true (repeat (f1 O) (length X))) as w.
    induction X as [|c X IH]; intros w Hv; [destruct Hv|]. destruct w as [|a w]; [destruct Hv|]. cbn [map map2] in Hv.
    destruct Hv as [<-|Hv]; [apply zn_mult_l, H; now left|]. apply (IH (fun d Hd => H d (or_intror Hd)) w Hv).
  Qed.
  Lemma gx_entry len s x c v : In v (gx len s x c) -> exists d, In d (difference O x c) /\
    v = fneg O (Bmult mode_NE (Bdiv mode_NE d (sq O len)) (kv len s x c)).
  Proof.
    unfold gx, se_gy. rewrite map_map. intros Hv. apply in_map_iff in Hv as [d [<- Hd]]. exists d. split; auto.
  Qed.
  Lemma far_nan len s X x : X <> [] -> (forall c, In c X -> length c = length x) ->
    (forall c, In c X -> B2R (kv len s x c) = 0 /\ is_finite (kv len s x c) = true) ->
    kdm_score O T jgrad keq (KSE len s) X (IPoint x) = Ok (OVec (repeat B754_nan (length x))).
  Proof.
    intros HX HL HZ. rewrite kdm_point_gen by auto. do 2 f_equal.
    assert (Z : forall c, In c X -> zn (kv len s x c)).
    { intros c Hc. destruct (HZ c Hc) as [E F]. destruct (kv len s x c) as [[]|[]| |[] m e B]; try exact I; try discriminate; exfalso; cbn in E;
        apply eq_0_F2R in E; discriminate. }
    pose proof (dens_zn len s X x Z) as D. unfold mean_rows. rewrite map_map.
    assert (LG : length (hd [] (map (gx len s x) X)) = length x).
    { destruct X as [|c X]; [congruence|]. cbn [map hd]. unfold gx, se_gy. rewrite !map_length. unfold difference.
      rewrite map2_length, (HL c (or_introl eq_refl)). apply Nat.min_id. }
    rewrite LG. rewrite <- (seq_length (length x) 0) at 2. 
    generalize (seq 0 (length x)) as js. induction js as [|j js IH]; [reflexivity|]. cbn [map length repeat]. rewrite <- IH. f_equal.
    apply zn_div_zn; auto. apply zn_div. apply zn_sum. apply Forall_forall. intros v Hv. unfold mcol in Hv.
    rewrite map_map in Hv. apply in_map_iff in Hv as [c [<- Hc]]. destruct (nth_in_or_default j (gx len s x c) (f0 O)) as [N|N]; [|rewrite N; exact I].
    apply gx_entry in N as [d [_ ->]]. apply zn_opp, zn_mult_r. auto.
  Qed.

  (** ** At a row of the data *)
  Section Row.
    Variables (c l t p : Z) (len s : flt).
    Hypothesis Hel : elementary T.
    Hypothesis Hp : (1 <= p <= prec)%Z.
    Hypothesis R1 : (3 - emax - prec <= c + 1 /\ c + 2 <= emax)%Z.
    Hypothesis R2 : (3 - emax - prec <= c + 1 - l /\ c + 2 - l <= emax)%Z.
    Hypothesis R3 : (3 - emax - prec <= c + 1 - l + t /\ c + 1 - l + t + p <= emax)%Z.
    Hypothesis R4 : (3 - emax - prec <= t - 1 - p /\ t + p <= emax)%Z.
    Hypothesis R5 : (3 - emax - prec <= c + 2 - l + p /\ c + 3 - l + p <= emax)%Z.
    Hypothesis R6 : (p <= emax - 3)%Z.
    Hypothesis Fq : is_finite (sq O len) = true.
    Hypothesis Bq : bpow radix2 l <= B2R (sq O len).
    Hypothesis Fd : is_finite (fmul O (fofZ O 2) (sq O len)) = true.
    Hypothesis Pd : 0 < B2R (fmul O (fofZ O 2) (sq O len)).
    Hypothesis Fs : is_finite s = true.
    Hypothesis Bs : bpow radix2 (t - 1) <= B2R s <= bpow radix2 t.

    Lemma rle k r : (3 - emax - prec <= k /\ k + 1 <= emax)%Z -> Rabs r <= bpow radix2 k -> Rabs (rnd r) <= bpow radix2 k /\ Rabs (rnd r) < big.
    Proof.
      intros Hk Hr. destruct (rnd_bd prec emax k 1 ltac:(lia) ltac:(lia) ltac:(lia) 1 r) as [A B]; [reflexivity|change (IZR (Z.of_nat 1)) with 1; lra|].
      change (IZR (Z.of_nat 1)) with 1 in A. split; lra.
    Qed.
    Lemma rge k r : (3 - emax - prec <= k)%Z -> bpow radix2 k <= r -> bpow radix2 k <= rnd r.
    Proof.
      intros Hk Hr. apply round_ge_generic; auto with typeclass_instances.
      - apply fexp_correct; exact Hprec.
      - apply generic_format_bpow. unfold SpecFloat.fexp, emin. unfold Prec_gt_0 in Hprec. lia.
    Qed.
    Lemma kv_self x : all_finite prec emax x -> kv len s x x = s.
    Proof.
      intros X. pose proof (bpow_gt_0 radix2 (t - 1)).
      destruct (C69_bounds prec emax _ _ Sm T jgrad keq (KSE len s) s _ Hel eq_refl Fs ltac:(lra) Fd Pd ltac:(discriminate)) as [A _].
      specialize (A x X). change (Sc (kv len s x x) = Sc s) in A. congruence.
    Qed.
    Lemma kv_bounds x y : all_finite prec emax x -> all_finite prec emax y ->
      is_finite (kv len s x y) = true /\ 0 <= B2R (kv len s x y) <= bpow radix2 t.
    Proof.
      intros X Y. pose proof (bpow_gt_0 radix2 (t - 1)).
      destruct (C69_bounds prec emax _ _ Sm T jgrad keq (KSE len s) s _ Hel eq_refl Fs ltac:(lra) Fd Pd ltac:(discriminate)) as [_ A].
      destruct (A x y X Y) as (v & E & F & B). change (Sc (kv len s x y) = Sc v) in E. assert (E' : kv len s x y = v) by congruence. rewrite E'. split; auto. lra.
    Qed.
    Lemma gx_bd x y v : Forall (at_most c) x -> Forall (at_most c) y -> In v (gx len s x y) -> bd prec emax (c + 1 - l + t) 1 v.
    Proof.
      intros X Y Hv. apply gx_entry in Hv as [d [Hd ->]].
      assert (AF : forall z, Forall (at_most c) z -> all_finite prec emax z) by (intros z Hz; eapply Forall_impl; [|exact Hz]; intros a Ha; apply Ha).
      destruct (kv_bounds x y (AF x X) (AF y Y)) as [FK BK]. set (kk := kv len s x y) in *. clearbody kk.
      assert (D : is_finite d = true /\ Rabs (B2R d) <= bpow radix2 (c + 1)).
      { clear - X Y Hd R1 Hp. revert y Y Hd. induction X as [|a x [FA A] X IH]; intros [|b y] Y Hd; try destruct Hd; try (inversion Y; subst; eapply IH; eauto; fail).
        inversion Y as [|? ? [FB B] _]; subst. cbn [fsub FOpsIEEE]. destruct (rle (c + 1) (B2R a - B2R b)) as [Q1 Q2]; [lia| |].
        - rewrite bpow_plus. change (bpow radix2 1) with 2. unfold Rminus. eapply Rle_trans; [apply Rabs_triang|]. rewrite Rabs_Ropp. lra.
        - pose proof (Bminus_correct prec emax _ _ mode_NE a b FA FB) as C. rewrite Rlt_bool_true in C by assumption.
          destruct C as (C & F & _). split; [exact F|]. change (fsub O a b) with (Bminus mode_NE a b). rewrite C. exact Q1. }
      destruct D as [FD D]. pose proof (bpow_gt_0 radix2 l) as LP.
      assert (E : is_finite (Bdiv mode_NE d (sq O len)) = true /\ Rabs (B2R (Bdiv mode_NE d (sq O len))) <= bpow radix2 (c + 1 - l)).
      { destruct (rle (c + 1 - l) (B2R d / B2R (sq O len))) as [Q1 Q2]; [lia| |].
        - unfold Rdiv. rewrite Rabs_mult, Rabs_inv, (Rabs_pos_eq (B2R (sq O len))) by lra. unfold Zminus at 1. rewrite bpow_plus, bpow_opp.
          apply Rmult_le_compat; auto; [apply Rabs_pos|left; apply Rinv_0_lt_compat; lra|apply Rinv_le_contravar; lra].
        - assert (NZ : B2R (sq O len) <> 0) by (apply Rgt_not_eq; eapply Rlt_le_trans; [exact LP|exact Bq]).
          destruct (div_cases prec emax d (sq O len) FD NZ) as [[R F]|[_ C]]; [|lra]. split; auto. now rewrite R. }
      destruct E as [FE E]. set (u := Bdiv mode_NE d (sq O len)) in *. clearbody u.
      assert (G : is_finite (Bmult mode_NE u kk) = true /\ Rabs (B2R (Bmult mode_NE u kk)) <= bpow radix2 (c + 1 - l + t)).
      { destruct (rle (c + 1 - l + t) (B2R u * B2R kk)) as [Q1 Q2]; [lia| |].
        - rewrite Rabs_mult, (Rabs_pos_eq (B2R kk)), bpow_plus by lra. apply Rmult_le_compat; try lra. apply Rabs_pos.
        - destruct (mult_cases prec emax u kk FE FK) as [[R F]|[_ C]]; [|lra]. split; auto. now rewrite R. }
      destruct G as [FG G]. set (z := Bmult mode_NE u kk) in *. clearbody z. unfold bd. change (IZR (Z.of_nat 1)) with 1. rewrite Rmult_1_l.
      destruct (rle (c + 1 - l + t) (0 - B2R z)) as [Q1 Q2]; [lia|rewrite Rminus_0_l, Rabs_Ropp; exact G|].
      pose proof (Bminus_correct prec emax _ _ mode_NE (B754_zero false) z eq_refl FG) as C. rewrite Rlt_bool_true in C by exact Q2.
      destruct C as (C & F & _). change (fneg O z) with (Bminus mode_NE (B754_zero false) z). split; [exact F|]. rewrite C. exact Q1.
    Qed.
    Lemma mean_bd x X j : Forall (at_most c) x -> X <> [] -> (forall y, In y X -> Forall (at_most c) y) -> (Z.of_nat (length X) < 2 ^ p)%Z ->
      bd prec emax (c + 1 - l + t) 1 (fdiv O (fsum O (mcol O (map (gx len s x) X) j)) (fofZ O (Z.of_nat (length (map (gx len s x) X))))).
    Proof.
      intros Hx HX HY HN. rewrite map_length. set (g := (c + 1 - l + t)%Z) in *.
      assert (N1 : 1 <= IZR (Z.of_nat (length X))) by (apply IZR_le; destruct X; [congruence|cbn [length]; lia]).
      assert (S : bd prec emax g (length X) (fsum O (mcol O (map (gx len s x) X) j))).
      { unfold mcol. rewrite map_map. 
        pose proof (bd_sum prec emax g p ltac:(lia) ltac:(lia) ltac:(lia) (fun y => nth j (gx len s x y) (f0 O)) (fun _ => 1%nat) X) as Q.
        rewrite list_sum_ones in Q. apply Q; [|exact HN].
        intros y Hy. destruct (nth_in_or_default j (gx len s x y) (f0 O)) as [N|N]; [|rewrite N; apply bd_zero]. exact (gx_bd x y _ Hx (HY y Hy) N). }
      destruct S as [FS S]. set (z := fsum O (mcol O (map (gx len s x) X) j)) in *. clearbody z.
      destruct (FloatRate3.ofZ_exact prec emax (Z.of_nat (length X))) as [FN EN].
      { split; [lia|]. eapply Z.lt_le_trans; [exact HN|]. apply Z.pow_le_mono_r; lia. }
      unfold bd. change (IZR (Z.of_nat 1)) with 1. rewrite Rmult_1_l.
      destruct (rle g (B2R z / B2R (fofZ O (Z.of_nat (length X))))) as [Q1 Q2]; [lia| |].
      - rewrite EN. unfold Rdiv. rewrite Rabs_mult, Rabs_inv, (Rabs_pos_eq (IZR _)) by lra. apply Rmult_le_reg_r with (IZR (Z.of_nat (length X))); [lra|].
        rewrite Rmult_assoc, Rinv_l by lra. lra.
      - destruct (div_cases prec emax z (fofZ O (Z.of_nat (length X))) FS ltac:(rewrite EN; lra)) as [[R F]|[_ C]]; [|lra].
        split; [exact F|]. change (fdiv O) with (@Bdiv prec emax Hprec Hmax mode_NE). rewrite R. exact Q1.
    Qed.
    Lemma ones_ok n a : (0 < n)%nat -> (Z.of_nat n < 2 ^ p)%Z -> In a (ones n) ->
      upto prec emax 1 a /\ bpow radix2 (- p) <= B2R a.
    Proof.
      intros N0 HN Ha. unfold ones, normalize_w in Ha. rewrite map_map in Ha. apply in_map_iff in Ha as [o [<- Ho]].
      apply repeat_spec in Ho. subst o. set (S := fsum O (repeat (f1 O) n)).
      assert (W1 : wok prec emax (f1 O)) by (split; [apply is_finite_Bone|change (f1 O) with (Bone : flt); rewrite Bone_correct; lra]).
      assert (B1 : B2R (f1 O) = 1) by apply Bone_correct.
      assert (SB : bd prec emax 0 n S).
      { pose proof (bd_sum prec emax 0 p ltac:(lia) ltac:(lia) ltac:(lia) (fun v => v) (fun _ => 1%nat) (repeat (f1 O) n)) as Q.
        rewrite list_sum_ones, map_id, repeat_length in Q. apply Q; [|exact HN].
        intros v Hv. apply repeat_spec in Hv. subst v. split; [apply W1|]. rewrite B1, Rabs_R1. cbn. lra. }
      destruct SB as [FS SB]. destruct (sum_ge prec emax (repeat (f1 O) n)) as [_ GE]; [apply Forall_forall; intros v Hv; apply repeat_spec in Hv; now subst v|].
      fold S in GE. specialize (GE FS (f1 O)). rewrite B1 in GE. assert (S1 : 1 <= B2R S) by (apply GE; destruct n; [lia|now left]). clear GE.
      assert (SP : B2R S <= bpow radix2 p).
      { rewrite Rabs_pos_eq in SB by lra. change (bpow radix2 0) with 1 in SB. rewrite Rmult_1_r in SB. eapply Rle_trans; [exact SB|].
        rewrite <- (IZR_Zpower radix2) by lia. apply IZR_le. apply Z.lt_le_incl. exact HN. }
      clearbody S.
      assert (I1 : 0 < / B2R S <= 1) by (split; [apply Rinv_0_lt_compat; lra|rewrite <- Rinv_1; apply Rinv_le_contravar; lra]).
      assert (I2 : bpow radix2 (- p) <= / B2R S) by (rewrite bpow_opp; apply Rinv_le_contravar; lra).
      destruct (rle 0 (B2R (f1 O) / B2R S)) as [Q1 Q2]; [lia|rewrite B1; unfold Rdiv; rewrite Rmult_1_l, Rabs_pos_eq by lra; cbn; lra|].
      assert (LO : bpow radix2 (- p) <= rnd (B2R (f1 O) / B2R S)) by (apply rge; [lia|rewrite B1; unfold Rdiv; now rewrite Rmult_1_l]).
      destruct (div_cases prec emax (f1 O) S (proj1 W1) ltac:(lra)) as [[R F]|[_ C]]; [|lra].
      assert (E1 : fnan_to_num O (fdiv O (f1 O) S) = Bdiv mode_NE (f1 O) S) by (cbn [fdiv FOpsIEEE]; cbn [fnan_to_num FOpsIEEE]; destruct (Bdiv mode_NE (f1 O) S); try discriminate; reflexivity).
      rewrite E1. pose proof (bpow_gt_0 radix2 (- p)). split; [|rewrite R; exact LO]. split; [exact F|]. rewrite R. rewrite Rabs_pos_eq in Q1 by lra.
      change (bpow radix2 0) with 1 in Q1. lra.
    Qed.
    Lemma dens_ok x X : In x X -> (forall y, In y X -> all_finite prec emax y) -> (Z.of_nat (length X) < 2 ^ p)%Z ->
      is_finite (dens len s X x) = true /\ bpow radix2 (t - 1 - p) <= B2R (dens len s X x).
    Proof.
      intros Hx HY HN. unfold dens. set (w := ones (length X)). set (ks := map (kv len s x) X).
      assert (N0 : (0 < length X)%nat) by (destruct X; [destruct Hx|cbn; lia]).
      assert (LW : length w = length X) by (unfold w, ones; rewrite (normalize_w_len O), repeat_length; reflexivity).
      assert (WO : forall a, In a w -> upto prec emax 1 a /\ bpow radix2 (- p) <= B2R a) by (intros a Ha; eapply ones_ok; eauto).
      assert (KB : Forall (bd prec emax t 1) ks).
      { apply Forall_forall. intros v Hv. apply in_map_iff in Hv as [y [<- Hy]]. destruct (kv_bounds x y (HY x Hx) (HY y Hy)) as [F B].
        split; auto. rewrite Rabs_pos_eq by lra. change (IZR (Z.of_nat 1)) with 1. lra. }
      assert (LK : length ks = length X) by apply map_length.
      assert (DB : bd prec emax t (length ks) (fdot O ks w)).
      { apply (bd_dot prec emax t p ltac:(lia) ltac:(lia) ltac:(lia)); auto; [apply Forall_forall; intros a Ha; now apply WO|now rewrite LK|].
        apply (Z.pow_lt_mono_r 2 0 p); lia. }
      assert (TW : forall v, In v (map2 (fmul O) ks w) -> wok prec emax v).
      { intros v Hv. assert (Q : exists y a, In y X /\ In a w /\ v = fmul O (kv len s x y) a).
        { clear - Hv. unfold ks in Hv. clear ks. clearbody w. revert w Hv. induction X as [|y X IH]; intros [|a w] Hv; try destruct Hv.
          - exists y, a. subst. cbn. auto.
          - destruct (IH w H) as (y' & a' & A & B & C). exists y', a'. cbn. auto. }
        destruct Q as (y & a & Hy & Ha & ->). destruct (kv_bounds x y (HY x Hx) (HY y Hy)) as [F B]. destruct (WO a Ha) as [[FA [A0 A1]] _].
        cbn [fmul FOpsIEEE]. assert (M : 0 <= B2R (kv len s x y) * B2R a <= bpow radix2 t) by (split; [apply Rmult_le_pos; lra|]; nra).
        destruct (rle t (B2R (kv len s x y) * B2R a)) as [Q1 Q2]; [lia|rewrite Rabs_pos_eq; lra|].
        destruct (mult_cases prec emax _ a F FA) as [[R FF]|[_ C]]; [|lra]. split; auto. rewrite R. apply rnd_ge0; auto. lra. }
      assert (TX : exists v, In v (map2 (fmul O) ks w) /\ bpow radix2 (t - 1 - p) <= B2R v).
      { assert (Q : exists a, In a w /\ In (fmul O s a) (map2 (fmul O) ks w)).
        { rewrite <- (kv_self x (HY x Hx)). clear - LW Hx. unfold ks. clear ks. clearbody w. revert w LW. induction X as [|y X IH]; intros [|a w] LW; try destruct Hx; try discriminate.
          - exists a. subst. cbn. auto.
          - cbn in LW. destruct (IH H w ltac:(lia)) as (b & B1 & B2). exists b. cbn. auto. }
        destruct Q as (a & Ha & I). exists (fmul O s a). split; auto. destruct (WO a Ha) as [[FA [A0 A1]] A2].
        pose proof (bpow_gt_0 radix2 (t - 1)) as TP. pose proof (bpow_gt_0 radix2 (- p)) as PP.
        assert (M : bpow radix2 (t - 1 - p) <= B2R s * B2R a) by (unfold Zminus at 1; rewrite bpow_plus; apply Rmult_le_compat; lra).
        assert (M2 : B2R s * B2R a <= bpow radix2 t) by nra. pose proof (bpow_gt_0 radix2 (t - 1 - p)).
        destruct (rle t (B2R s * B2R a)) as [Q1 Q2]; [lia|rewrite Rabs_pos_eq; lra|].
        destruct (mult_cases prec emax s a Fs FA) as [[R FF]|[_ C]]; [|lra]. cbn [fmul FOpsIEEE]. rewrite R. apply rge; [lia|exact M]. }
      destruct TX as (v & Hv & Bv). destruct DB as [FD DB].
      destruct (sum_ge prec emax (map2 (fmul O) ks w)) as [ND GE]; [apply Forall_forall; exact TW|].
      change (fsum O (map2 (fmul O) ks w)) with (fdot O ks w) in *. specialize (GE FD v Hv). set (d := fdot O ks w) in *. clearbody d.
      pose proof (bpow_gt_0 radix2 (t - 1 - p)).
      assert (SB : bd prec emax t (list_sum (map (fun _ : flt => length X) [d])) (fsum O (map (fun v => v) [d]))).
      { apply (bd_sum prec emax t p ltac:(lia) ltac:(lia) ltac:(lia)); [|cbn; lia]. intros a [<-|[]]. split; auto. now rewrite LK in DB. }
      change (map (fun v => v) [d]) with [d] in SB. destruct SB as [FSS _]. split; [exact FSS|].
      destruct (sum_ge prec emax [d]) as [_ G2]; [constructor; [split; auto; lra|constructor]|]. specialize (G2 FSS d (or_introl eq_refl)). lra.
    Qed.
    Lemma row_score x X : In x X -> (forall y, In y X -> Forall (at_most c) y /\ length y = length x) -> (Z.of_nat (length X) < 2 ^ p)%Z ->
      exists v, kdm_score O T jgrad keq (KSE len s) X (IPoint x) = Ok (OVec v) /\ length v = length x /\ Forall (at_most (c + 2 - l + p)) v.
    Proof.
      intros Hx HY HN. assert (HX : X <> []) by (intros ->; destruct Hx). rewrite kdm_point_gen by auto. eexists. split; [reflexivity|].
      assert (AF : forall z, In z X -> all_finite prec emax z) by (intros z Hz; eapply Forall_impl; [|apply (HY z Hz)]; intros a Ha; apply Ha).
      destruct (dens_ok x X Hx AF HN) as [FD BD]. set (d := dens len s X x) in *. clearbody d.
      unfold mean_rows. rewrite map_map. split.
      - rewrite map_length, seq_length. destruct X as [|y X]; [congruence|]. cbn [map hd]. unfold gx, se_gy. rewrite !map_length. unfold difference.
        rewrite map2_length, (proj2 (HY y (or_introl eq_refl))). apply Nat.min_id.
      - apply Forall_forall. intros v Hv. apply in_map_iff in Hv as [j [<- _]].
        destruct (mean_bd x X j) as [FM BM]; auto; try apply (HY x Hx); [intros y Hy; now apply HY|].
        set (z := fdiv O (fsum O (mcol O (map (gx len s x) X) j)) (fofZ O (Z.of_nat (length (map (gx len s x) X))))) in *. clearbody z.
        change (IZR (Z.of_nat 1)) with 1 in BM. rewrite Rmult_1_l in BM. pose proof (bpow_gt_0 radix2 (t - 1 - p)) as TP.
        destruct (rle (c + 2 - l + p) (B2R z / B2R d)) as [Q1 Q2]; [lia| |].
        + unfold Rdiv. rewrite Rabs_mult, Rabs_inv, (Rabs_pos_eq (B2R d)) by lra.
          replace (c + 2 - l + p)%Z with ((c + 1 - l + t) + - (t - 1 - p))%Z by lia. rewrite bpow_plus, bpow_opp.
          apply Rmult_le_compat; auto; [apply Rabs_pos|left; apply Rinv_0_lt_compat; lra|apply Rinv_le_contravar; lra].
        + destruct (div_cases prec emax z d FM ltac:(lra)) as [[R F]|[_ C]]; [|lra]. split; [exact F|].
          change (fdiv O) with (@Bdiv prec emax Hprec Hmax mode_NE). rewrite R. exact Q1.
    Qed.
  End Row.
End Score.
