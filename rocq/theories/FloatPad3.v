(** * Kernel herding and the padding row: lemmas *)
From Coq Require Import List ZArith Bool Reals Permutation Lia Lra.
From Coq Require Import Floats.SpecFloat.
From Flocq Require Import Core.Core IEEE754.BinarySingleNaN.
From Verif Require Import Num Jax RSum JaxFacts DataModel MeanModel MeanGeneric MetricModel KernelModel ScoreModel GreedyModel GreedyProofs5
  SumSpec SumProofs Float FloatErrSpec PropFloatScore FloatPad FloatPad2.
Import ListNotations.

Section Same.
  Context {V : Type} (O : FOps V) {P Y : Type} (p0 p1 : P) (y0 : Y).
  Lemma row_mean_pad (d : Data P Y V) k b0 b1 : d_x d <> [] ->
    (length (d_x d) mod block_used (length (d_x d)) b0 = 0)%nat -> (length (d_x d) mod block_used (length (d_x d)) b1 = 0)%nat ->
    gramian_row_mean O p0 y0 k d (BTwo b0 b1) = gramian_row_mean O p1 y0 k d (BTwo b0 b1).
  Proof.
    intros H M0 M1. unfold gramian_row_mean, compute_mean. cbn [bs_leaves leaves_repeat app rev length Nat.sub repeat nth].
    rewrite (block_convert_pad O p0 p1 y0 d b0 H M0), (block_convert_pad O p0 p1 y0 d b1 H M1). reflexivity.
  Qed.
  Lemma herding_reduce_pad (xs : list P) (dw : list V) m (k : P -> P -> V) u b0 b1 mode ord st : (1 <= m <= length xs)%nat ->
    (length xs mod block_used (length xs) b0 = 0)%nat -> (length xs mod block_used (length xs) b1 = 0)%nat -> (m mod block_used m b1 = 0)%nat ->
    herding_reduce O p0 y0 (mkHerding m k u (BTwo b0 b1) mode) ord (mkData xs dw None) st
    = herding_reduce O p1 y0 (mkHerding m k u (BTwo b0 b1) mode) ord (mkData xs dw None) st.
  Proof.
    intros Hm M0 M1 M2. unfold herding_reduce. cbn [h_size]. rewrite !initial_fine by (unfold d_len; cbn [d_x]; lia). cbn [bind].
    assert (HX : xs <> []) by (intros ->; cbn in Hm; lia).
    unfold herding_refine. cbn [h_kernel h_size h_unique h_bs h_mode c_pre].
    rewrite (row_mean_pad (mkData xs dw None) k b0 b1 HX M0 M1).
    match goal with |- bind ?g _ = _ => set (G := g) end. destruct G as [grm|]; cbn [bind]; [|reflexivity].
    rewrite (selection_pad O p0 p1 y0); [reflexivity|exact HX| | | |exact M0|]; rewrite ?repeat_length; auto.
    intros E. apply (f_equal (@length _)) in E. rewrite repeat_length in E. cbn in E. lia.
  Qed.
End Same.

Section Nan.
  Context (prec emax : Z) {Hprec : Prec_gt_0 prec} {Hmax : Prec_lt_emax prec emax} {Sm : SumOrder prec emax}.
  Notation flt := (binary_float prec emax).
  Notation O := (FOpsIEEE prec emax).
  Context {P Y : Type} (p0 : P) (y0 : Y) (k : P -> P -> flt).
  Notation nans n := (repeat (B754_nan : flt) n).
  Lemma row_mean_nan (d : Data P Y flt) b0 b1 : d_x d <> [] -> length (d_w d) = length (d_x d) ->
    (length (d_x d) mod block_used (length (d_x d)) b0 <> 0)%nat -> (forall x, In x (d_x d) -> k x p0 = B754_nan) ->
    gramian_row_mean O p0 y0 k d (BTwo b0 b1) = Ok (MVec (nans (length (d_x d)))).
  Proof.
    intros HD L M N. unfold gramian_row_mean, compute_mean. cbn [bs_leaves leaves_repeat app rev length Nat.sub repeat nth].
    destruct (block_convert_gen O p0 y0 d b0 HD) as [E0 ->]. destruct (block_convert_gen O p0 y0 d b1 HD) as [E1 ->]. cbn [bind].
    rewrite block_scan_gen. do 2 f_equal.
    destruct (gblocks_facts O p0 d (eff_block (length (d_x d)) b1) L ltac:(lia)) as [F _].
    set (g := browsum O k (gblocks O p0 d (eff_block (length (d_x d)) b0))).
    rewrite <- (map_map fst (map g)). rewrite <- concat_map, F, map_app.
    rewrite <- (map_length g (d_x d)) at 1. rewrite firstn_app, Nat.sub_diag, firstn_all. cbn [firstn]. rewrite app_nil_r.
    rewrite <- (map_length g (d_x d)). apply all_nan. apply Forall_forall. intros v Hv. apply in_map_iff in Hv as [x [<- Hx]].
    apply (row_nan prec emax p0 y0 k); auto. unfold isn. auto.
  Qed.
  Lemma herding_nan n i pen size : herding_select O Greedy (nans n) i pen size = (-1)%Z.
  Proof.
    unfold herding_select, nanargmax. replace (forallb _ _) with true; [reflexivity|]. symmetry. apply forallb_forall.
    revert pen. induction n as [|n IH]; intros [|p pen] v Hv; cbn [repeat map2] in Hv; try destruct Hv as [<-|Hv]; try (now destruct Hv); [reflexivity|eauto].
  Qed.
  Lemma herding_loop xs dw cw u ord n m s : length (g_idx s) = m ->
    g_idx (fori m (greedy_body O p0 k xs dw cw (herding_select O Greedy (nans n)) u ord) s) = repeat (-1)%Z m.
  Proof.
    intros HI. set (body := greedy_body O p0 k xs dw cw (herding_select O Greedy (nans n)) u ord).
    assert (B : forall i s, g_idx (body i s) = upd i (-1)%Z (g_idx s)) by (intros i q; unfold body, greedy_body; cbn [g_idx]; now rewrite herding_nan).
    assert (G : forall j, (j <= m)%nat -> length (g_idx (fori j body s)) = m /\ (forall i, (i < j)%nat -> nth i (g_idx (fori j body s)) 0%Z = (-1)%Z)).
    { induction j as [|j IH]; intros Hj; [split; [exact HI|lia]|]. destruct IH as [L N]; [lia|].
      unfold fori in *. rewrite seq_S, fold_left_app. cbn [fold_left Nat.add]. rewrite B. split; [now rewrite upd_len|].
      intros i Hi. destruct (Nat.eq_dec i j) as [->|Ne]; [apply upd_nth_eq; lia|rewrite upd_nth_ne by exact Ne; apply N; lia]. }
    destruct (G m (le_n m)) as [L N]. apply (nth_ext _ _ 0%Z 0%Z); [now rewrite repeat_length|].
    intros i Hi. rewrite N by lia. symmetry. pose proof (nth_In (repeat (-1)%Z m) 0%Z (n := i)) as I. rewrite repeat_length in I.
    specialize (I ltac:(lia)). now apply repeat_spec in I.
  Qed.
End Nan.

(** the Stein kernel of the default score is NaN at the zero row *)
Lemma stein_origin_nan prec emax (Hp : Prec_gt_0 prec) (Hm : Prec_lt_emax prec emax) (Sm : SumOrder prec emax) T jgrad keq len s0 s
    (X : list (list (binary_float prec emax))) d x :
  X <> [] -> (1 <= d)%nat -> (forall y, In y X -> length y = d) -> length x = d ->
  let origin := repeat (f0 (FOpsIEEE prec emax)) d in
  (forall y, In y X -> exists w, m_val (methods (FOpsIEEE prec emax) T jgrad keq (KSE len s0)) origin y = Sc w /\ is_finite w = true /\ B2R w = 0%R) ->
  unsc (FOpsIEEE prec emax) (m_val (methods (FOpsIEEE prec emax) T jgrad keq (KStein (KSE len s) (kdm_match (FOpsIEEE prec emax) T jgrad keq (KSE len s0) X))) x origin) = B754_nan.
Proof.
  intros HX Hd HL Lx origin HZ. assert (LO : length origin = d) by apply repeat_length.
  assert (SC : kdm_match (FOpsIEEE prec emax) T jgrad keq (KSE len s0) X origin = repeat B754_nan d).
  { unfold kdm_match. rewrite (C97_underflow_is_nan prec emax Hp Hm Sm T jgrad keq len s0 X origin HX); [now rewrite LO|intros y Hy; now rewrite LO, HL|exact HZ]. }
  set (score := kdm_match (FOpsIEEE prec emax) T jgrad keq (KSE len s0) X) in *.
  cbn [methods m_val auto_meth]. unfold stein_val. cbn [methods m_val m_gx m_gy m_div se_meth]. rewrite !SC.
  assert (GL : length (map (fneg (FOpsIEEE prec emax)) (se_gy (FOpsIEEE prec emax) T len s x origin)) = d).
  { unfold se_gy, UtilModel.difference. rewrite !map_length, map2_length, LO, Lx. apply Nat.min_id. }
  assert (IN : In B754_nan (repeat (B754_nan : binary_float prec emax) d)) by (destruct d; [lia|now left]).
  unfold tmatmul at 1. rewrite GL, repeat_length, Nat.eqb_refl.
  rewrite (nan_dot_r prec emax _ (repeat B754_nan d) IN) by (now rewrite GL, repeat_length).
  unfold tadd, tmap2, tmatmul, tmul, tmap2. cbn [fadd FOpsIEEE].
  repeat match goal with |- context [if ?b then _ else _] => destruct b end; cbn [unsc]; try reflexivity.
  do 2 (apply (nan_plus prec emax); left). apply (nan_plus prec emax). right. reflexivity.
Qed.
