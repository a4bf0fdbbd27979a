(** * RPCholesky in floating point arithmetic: index-level properties *)
From Coq Require Import List ZArith Bool Reals Permutation Lia Lra.
From Coq Require Import Floats.SpecFloat.
From Flocq Require Import Core.Core IEEE754.BinarySingleNaN.
From Verif Require Import Num Jax RSum JaxFacts DataModel GreedyModel CholModel MapReduceProofs3 GreedyProofs CholProofs
  Float FloatProofs2 FloatCholSpec.
Import ListNotations.
Open Scope nat_scope.

Section FChol.
  Context (prec emax : Z) {Hprec : Prec_gt_0 prec} {Hmax : Prec_lt_emax prec emax} {Sm : SumOrder prec emax}.
  Notation flt := (binary_float prec emax).
  Notation O := (FOpsIEEE prec emax).
  Notation rnd := (round radix2 (SpecFloat.fexp prec emax) (round_mode mode_NE)).

  Definition zr (v : flt) : Prop := is_nan v = true \/ (is_finite v = true /\ B2R v = 0%R).
  Lemma square_kinds (c : flt) : nn prec emax (fmul O c c) \/ fmul O c c = B754_nan.
  Proof. destruct (is_nan c) eqn:N; [right; destruct c; try discriminate; reflexivity|left; now apply nn_square]. Qed.
  Lemma max_zero_kinds (v : flt) : fmax O v (f0 O) = v \/ fmax O v (f0 O) = B754_zero false.
  Proof. unfold fmax. cbn. destruct (is_nan v); auto. destruct (Bltb _ _); auto. Qed.
  Lemma sub_nn (r q : flt) : is_finite r = true -> (0 <= B2R r)%R -> nn prec emax q -> is_finite q = true ->
    is_finite (Bminus mode_NE r q) = true /\ B2R (Bminus mode_NE r q) = rnd (B2R r - B2R q).
  Proof.
    intros R0 R1 Q FQ. apply nn_finite in Q; auto.
    pose proof (Bminus_correct prec emax _ _ mode_NE r q R0 FQ) as C. rewrite Rlt_bool_true in C; [tauto|].
    pose proof (B2R_big prec emax r) as BR. pose proof (B2R_big prec emax q) as BQ. rewrite Rabs_pos_eq in BR, BQ by lra.
    apply Rabs_def1.
    - eapply Rle_lt_trans; [|exact BR]. rewrite <- (rnd_id prec emax r) at 2. apply rnd_mono; auto. lra.
    - eapply Rlt_le_trans; [apply Ropp_lt_contravar, BQ|]. rewrite <- B2R_Bopp. rewrite <- (rnd_id prec emax (Bopp q)). apply rnd_mono; auto.
      rewrite B2R_Bopp. lra.
  Qed.
  (** [max(r - c^2, 0)] *)
  Lemma fdiag_step r c : float_diag_ok r -> float_diag_ok (fmax O (fsub O r (fmul O c c)) (f0 O)).
  Proof.
    intros [N|[F P]].
    - left. destruct r; try discriminate. reflexivity.
    - destruct (square_kinds c) as [Q|E].
      + right. destruct (is_finite (fmul O c c)) eqn:FQ.
        * destruct (sub_nn r _ F P Q FQ) as [F1 R1]. unfold fmax. cbn [fisnan fltb f0 FOpsIEEE fsub].
          replace (is_nan (Bminus mode_NE r (fmul O c c))) with false by (destruct (Bminus mode_NE r (fmul O c c)); auto; discriminate).
          cbn [is_nan]. rewrite (Bltb_correct prec emax) by auto. destruct (Rlt_bool_spec (B2R (Bminus mode_NE r (fmul O c c))) (B2R (B754_zero false : flt))).
          -- cbn. split; [reflexivity|lra].
          -- split; auto.
        * destruct (fmul O c c) as [| | |] eqn:E; try discriminate; cbn in Q; try contradiction. subst.
          destruct r; try discriminate; cbn; split; auto; cbn; lra.
      + left. rewrite E. destruct r; reflexivity.
  Qed.
  Lemma fdiag_step_zero r c : zr r -> zr (fmax O (fsub O r (fmul O c c)) (f0 O)).
  Proof.
    intros [N|[F P]].
    - left. destruct r; try discriminate. reflexivity.
    - destruct (square_kinds c) as [Q|E].
      + right. destruct (is_finite (fmul O c c)) eqn:FQ.
        * destruct (sub_nn r _ F ltac:(lra) Q FQ) as [F1 R1]. unfold fmax. cbn [fisnan fltb f0 FOpsIEEE fsub].
          replace (is_nan (Bminus mode_NE r (fmul O c c))) with false by (destruct (Bminus mode_NE r (fmul O c c)); auto; discriminate).
          cbn [is_nan]. rewrite (Bltb_correct prec emax) by auto. destruct (Rlt_bool_spec (B2R (Bminus mode_NE r (fmul O c c))) (B2R (B754_zero false : flt))) as [L|L].
          -- cbn. split; reflexivity.
          -- split; auto. cbn [B2R] in L. apply Rle_antisym; auto. rewrite R1. apply Rle_trans with (rnd 0); [apply rnd_mono; auto|right; apply rnd_0].
             apply nn_finite in Q; auto. lra.
        * destruct (fmul O c c) as [| | |] eqn:E; try discriminate; cbn in Q; try contradiction. subst.
          destruct r; try discriminate; cbn; split; auto.
      + left. rewrite E. destruct r; reflexivity.
  Qed.

  (** the uniform weights *)
  Lemma count_float cnt : 0 < cnt -> (Z.of_nat cnt <= 2 ^ (emax - 2))%Z ->
    is_finite (fofZ O (Z.of_nat cnt)) = true /\ (1 <= B2R (fofZ O (Z.of_nat cnt)) <= bpow radix2 (emax - 2))%R.
  Proof.
    intros C L. assert (P : (0 < prec < emax)%Z) by (split; assumption).
    pose proof (binary_normalize_correct prec emax _ _ mode_NE (Z.of_nat cnt) 0 false) as B. cbn zeta in B.
    replace (F2R {| Fnum := Z.of_nat cnt; Fexp := 0 |}) with (IZR (Z.of_nat cnt)) in B by (unfold F2R; cbn; lra).
    assert (G : generic_format radix2 (SpecFloat.fexp prec emax) (bpow radix2 (emax - 2))).
    { apply generic_format_bpow. unfold SpecFloat.fexp, SpecFloat.emin. lia. }
    assert (U : (rnd (IZR (Z.of_nat cnt)) <= bpow radix2 (emax - 2))%R).
    { apply round_le_generic; auto with typeclass_instances; [apply fexp_correct; exact Hprec|].
      rewrite <- IZR_Zpower by lia. now apply IZR_le. }
    assert (W : (1 <= rnd (IZR (Z.of_nat cnt)))%R).
    { rewrite <- (rnd_1 prec emax). apply rnd_mono; auto. apply IZR_le. lia. }
    rewrite Rlt_bool_true in B.
    - destruct B as (B1 & B2 & _). split; [exact B2|]. cbn [fofZ FOpsIEEE]. rewrite B1. lra.
    - rewrite Rabs_pos_eq by lra. eapply Rle_lt_trans; [exact U|]. apply bpow_lt. lia.
  Qed.
  Lemma uniform_weight cnt (b : bool) : 0 < cnt -> (Z.of_nat cnt <= 2 ^ (emax - 2))%Z ->
    is_finite (fdiv O (if b then f1 O else f0 O) (fofZ O (Z.of_nat cnt))) = true /\
    (if b then 0 < B2R (fdiv O (if b then f1 O else f0 O) (fofZ O (Z.of_nat cnt))) else B2R (fdiv O (if b then f1 O else f0 O) (fofZ O (Z.of_nat cnt))) = 0)%R.
  Proof.
    intros C L. assert (P : (0 < prec < emax)%Z) by (split; assumption).
    destruct (count_float cnt C L) as [F [B1 B2]]. set (c := fofZ O (Z.of_nat cnt)) in *.
    destruct b.
    - cbn [fdiv f1 FOpsIEEE].
      pose proof (Bdiv_correct prec emax _ _ mode_NE Bone c ltac:(lra)) as D.
      rewrite (Bone_correct prec emax _ _) in D.
      assert (G : generic_format radix2 (SpecFloat.fexp prec emax) (bpow radix2 (2 - emax))).
      { apply generic_format_bpow. unfold SpecFloat.fexp, SpecFloat.emin. lia. }
      assert (I : (bpow radix2 (2 - emax) <= 1 / B2R c)%R).
      { replace (2 - emax)%Z with (- (emax - 2))%Z by lia. rewrite bpow_opp. unfold Rdiv. rewrite Rmult_1_l. apply Rinv_le; lra. }
      assert (W : (bpow radix2 (2 - emax) <= rnd (1 / B2R c))%R).
      { apply round_ge_generic; auto with typeclass_instances. apply fexp_correct; exact Hprec. }
      assert (U : (rnd (1 / B2R c) <= 1)%R).
      { apply Rle_trans with (rnd 1); [apply rnd_mono; auto|right; exact (rnd_1 prec emax)]. unfold Rdiv. rewrite Rmult_1_l. apply Rle_trans with (/ 1)%R; [apply Rinv_le; lra|rewrite Rinv_1; lra]. }
      pose proof (bpow_gt_0 radix2 (2 - emax)).
      rewrite Rlt_bool_true in D.
      + destruct D as (D1 & D2 & _). rewrite D2, D1. split; [apply is_finite_Bone|]. lra.
      + rewrite Rabs_pos_eq by lra. eapply Rle_lt_trans; [exact U|]. apply (bpow_lt radix2 0). lia.
    - cbn [fdiv f0 FOpsIEEE]. destruct c as [| | |]; try discriminate; cbn in *; try lra; split; reflexivity.
  Qed.


  Context {P Y : Type} (p0 : P) (y0 : Y).
  Variable s : @rpcholesky flt P.
  Variable x : list P.
  Notation n := (length x).
  Notation m := (ch_size s).
  Hypothesis Hn : (Z.of_nat n <= 2 ^ (emax - 2))%Z.
  Hypothesis Hpick : float_pick_ok (ch_pick s).

  Record cinv (t : nat) (st : @cstate flt) (l : list nat) : Prop := mkInv {
    i_len : length l = t;
    i_ind : c_ind st = map Z.of_nat l ++ repeat (Z.of_nat n + 1)%Z (m - t);
    i_rng : forall i, In i l -> i < n;
    i_dlen : length (c_diag st) = n;
    i_mlen : length (c_mat st) = n;
    i_ok : Forall float_diag_ok (c_diag st);
    i_uni : ch_unique s = true -> NoDup l /\ forall i, In i l -> zr (nth i (c_diag st) B754_nan) }.

  Lemma avail_iff l t j : (forall i, In i l -> i < n) -> j < n ->
    nth j (available n (map Z.of_nat l ++ repeat (Z.of_nat n + 1)%Z t)) false = true <-> ~ In j l.
  Proof.
    intros Hl Hj. rewrite available_nth; auto.
    - rewrite existsb_app. split.
      + intros E I. apply negb_true_iff, orb_false_iff in E as [E _].
        rewrite existsb_nth with (n := 0) (d := 0%Z) in E || idtac.
        assert (X : existsb (Z.eqb (Z.of_nat j)) (map Z.of_nat l) = true).
        { apply existsb_exists. exists (Z.of_nat j). split; [now apply in_map|]. apply Z.eqb_refl. }
        congruence.
      + intros N. apply negb_true_iff, orb_false_iff. split.
        * destruct (existsb _ (map Z.of_nat l)) eqn:E; auto. apply existsb_exists in E as [z [I E]].
          apply in_map_iff in I as [a [<- I]]. apply Z.eqb_eq in E. apply Nat2Z.inj in E. subst a. contradiction.
        * destruct (existsb _ (repeat _ _)) eqn:E; auto. apply existsb_exists in E as [z [I E]].
          apply repeat_spec in I. apply Z.eqb_eq in E. lia.
    - intros i Hi. apply in_app_iff in Hi as [Hi|Hi].
      + apply in_map_iff in Hi as [a [<- _]]. lia.
      + apply repeat_spec in Hi. lia.
  Qed.

  (** the index drawn in step [t] is in range, and new when [unique] *)
  Lemma pick_new t st l : cinv t st l -> t < m -> m <= n ->
    let p := ch_pick s t (valid_residuals O (c_diag st) (available n (c_ind st))) in
    p < n /\ (ch_unique s = true -> ~ In p l).
  Proof.
    intros [Il Ii Ir Id Im Io Iu] Ht Hm p.
    set (mask := available n (c_ind st)) in *.
    assert (ML : length mask = n) by apply available_length.
    assert (VL : length (valid_residuals O (c_diag st) mask) = n).
    { unfold valid_residuals. destruct (_ || _); [unfold uniform_probs; now rewrite map_length|assumption]. }
    destruct (Hpick t (valid_residuals O (c_diag st) mask)) as [P1 P2].
    { intros E. rewrite E in VL. simpl in VL. lia. }
    fold p in P1, P2. rewrite VL in P1. split; auto. intros U. destruct (Iu U) as [ND Z].
    assert (AV : forall j, j < n -> nth j mask false = true <-> ~ In j l).
    { intros j Hj. unfold mask. rewrite Ii. now apply avail_iff. }
    unfold valid_residuals in *.
    destruct (forallb (fun v => feqb O v (f0 O)) (c_diag st) || existsb (fisnan O) (c_diag st)) eqn:FB.
    - (* uniform fallback *)
      destruct (pigeon l n ltac:(lia)) as [j [Hj Nj]].
      set (cnt := length (filter (fun b : bool => b) mask)) in *.
      assert (CP : 0 < cnt).
      { unfold cnt. apply AV in Nj; auto. assert (I : In true mask) by (rewrite <- Nj; apply nth_In; lia).
        destruct (filter (fun b : bool => b) mask) eqn:E; [|simpl; lia].
        exfalso. assert (In true (filter (fun b : bool => b) mask)) by (apply filter_In; auto). rewrite E in H. destruct H. }
      assert (CN : (Z.of_nat cnt <= 2 ^ (emax - 2))%Z).
      { etransitivity; [|exact Hn]. apply inj_le. unfold cnt. rewrite <- ML. apply filter_len_le. }
      assert (UV : forall b : bool, _) by exact (fun b => uniform_weight cnt b CP CN).
      assert (NU : forall j, j < n -> nth j (uniform_probs O mask) B754_nan = fdiv O (if nth j mask false then f1 O else f0 O) (fofZ O (Z.of_nat cnt))).
      { intros i Hi. unfold uniform_probs. fold cnt.
        rewrite (nth_map_lt _ mask i false) by lia. reflexivity. }
      assert (R0 : (0 < B2R (nth p (uniform_probs O mask) B754_nan))%R).
      { apply P2.
        - intros v Hv. unfold uniform_probs in Hv. fold cnt in Hv. apply in_map_iff in Hv as [b [<- _]].
          destruct (UV b) as [U1 U2]. split; auto. destruct b; lra.
        - exists (nth j (uniform_probs O mask) B754_nan). split.
          + apply nth_In. unfold uniform_probs. rewrite map_length. lia.
          + rewrite NU by assumption. rewrite (proj2 (AV j Hj) Nj). apply (UV true). }
      rewrite NU in R0 by assumption. destruct (nth p mask false) eqn:E; [now apply AV|].
      destruct (UV false) as [_ U2]. lra.
    - apply orb_false_iff in FB as [F1 F2].
      assert (NN : forall v, In v (c_diag st) -> is_finite v = true /\ (0 <= B2R v)%R).
      { intros v Hv. rewrite Forall_forall in Io. destruct (Io v Hv) as [N|H]; auto.
        exfalso. assert (existsb (fisnan O) (c_diag st) = true) by (apply existsb_exists; exists v; auto). congruence. }
      assert (R0 : (0 < B2R (nth p (c_diag st) B754_nan))%R).
      { apply P2; auto.
        assert (X : exists v, In v (c_diag st) /\ feqb O v (f0 O) = false).
        { clear -F1. induction (c_diag st) as [|v t' IH]; cbn [forallb In] in *; [discriminate|].
          destruct (feqb O v (f0 O)) eqn:E; simpl in F1; [destruct (IH F1) as [w [I Ew]]; exists w; auto|exists v; auto]. }
        destruct X as [v [I Ev]]. destruct (NN v I) as [F PV]. exists v. split; auto.
        destruct (Rle_lt_or_eq_dec 0 (B2R v) PV) as [L|L]; auto. exfalso.
        unfold feqb, fleb in Ev. cbn [fisnan fltb f0 FOpsIEEE] in Ev. rewrite !(Bltb_correct prec emax) in Ev by auto.
        cbn [B2R] in Ev. rewrite <- L, Rlt_bool_false in Ev by lra. destruct v; discriminate. }
      intros I. destruct (Z p I) as [E|[_ E]]; [|lra].
      destruct (NN (nth p (c_diag st) B754_nan)) as [F _]; [apply nth_In; lia|]. destruct (nth p (c_diag st) B754_nan); discriminate.
  Qed.

  Lemma chol_column_length k mat p : length mat = n -> length (chol_column O p0 k x mat p) = n.
  Proof. intros H. unfold chol_column. rewrite map2_length. lia. Qed.

  Lemma upd_app_repeat {A} (l : list A) a b t : 0 < t -> upd (length l) a (l ++ repeat b t) = (l ++ [a]) ++ repeat b (t - 1).
  Proof.
    intros H. induction l as [|c l IH]; simpl.
    - destruct t; [lia|]. simpl. now rewrite Nat.sub_0_r.
    - now rewrite IH.
  Qed.

  Lemma chol_step t st l : cinv t st l -> t < m -> m <= n ->
    cinv (S t) (chol_body O p0 s x t st)
      (l ++ [ch_pick s t (valid_residuals O (c_diag st) (available n (c_ind st)))]).
  Proof.
    intros I Ht Hm. destruct (pick_new t st l I Ht Hm) as [P1 P2]. destruct I as [Il Ii Ir Id Im Io Iu].
    set (p := ch_pick s t _) in *. unfold chol_body. fold p.
    set (col := map _ (chol_column O p0 (ch_kernel s) x (c_mat st) p)).
    assert (CL : length col = n) by (unfold col; rewrite map_length; now apply chol_column_length).
    set (dg := map2 (fun r c => fmax O (fsub O r (fmul O c c)) (f0 O)) (c_diag st) col).
    assert (DL : length dg = n) by (unfold dg; rewrite map2_length; lia).
    assert (DN : forall i, i < n -> nth i dg B754_nan = fmax O (fsub O (nth i (c_diag st) B754_nan) (fmul O (nth i col B754_nan) (nth i col B754_nan))) (f0 O)).
    { intros i Hi. unfold dg. rewrite (nth_map2 _ _ _ _ B754_nan B754_nan) by lia. reflexivity. }
    assert (DO : Forall float_diag_ok dg).
    { apply Forall_forall. intros v Hv. apply In_nth with (d := B754_nan) in Hv as [i [Hi <-]]. rewrite DN by lia.
      apply fdiag_step. rewrite Forall_forall in Io. apply Io, nth_In. lia. }
    constructor; cbn [c_diag c_mat c_ind].
    - rewrite app_length. simpl. lia.
    - rewrite Ii. rewrite <- Il at 1. rewrite <- (map_length Z.of_nat l). rewrite upd_app_repeat by lia.
      rewrite map_app. simpl. f_equal. f_equal. lia.
    - intros i Hi. apply in_app_iff in Hi as [Hi|[<-|[]]]; auto.
    - destruct (ch_unique s); [rewrite upd_length|]; assumption.
    - rewrite map2_length. lia.
    - destruct (ch_unique s); auto. apply Forall_forall. intros v Hv. apply In_nth with (d := B754_nan) in Hv as [i [Hi <-]].
      rewrite nth_upd. destruct (_ && _); [right; cbn; split; [reflexivity|lra]|].
      rewrite upd_length in Hi. rewrite Forall_forall in DO. now apply DO, nth_In.
    - intros U. rewrite U. destruct (Iu U) as [ND Z]. split.
      + clear -ND P2 U. specialize (P2 U). induction l as [|a l IH]; simpl; [repeat constructor; auto|].
        inversion ND; subst. constructor; [|apply IH; auto; intros Q; apply P2; now right].
        rewrite in_app_iff. intros [Q|[Q|[]]]; [contradiction|]. apply P2. now left.
      + intros i Hi. rewrite nth_upd, DL. destruct (Nat.eqb_spec i p) as [->|Ne]; simpl.
        * rewrite (proj2 (Nat.ltb_lt _ _)) by lia. right. split; reflexivity.
        * apply in_app_iff in Hi as [Hi|[E|[]]]; [|congruence]. rewrite DN by auto. apply fdiag_step_zero. auto.
  Qed.

  Lemma chol_loop diag : m <= n -> length diag = n -> Forall float_diag_ok diag ->
    forall t, t <= m -> exists l,
      cinv t (fori t (chol_body O p0 s x) (mkC diag (repeat (repeat (f0 O) m) n) (repeat (Z.of_nat n + 1)%Z m))) l.
  Proof.
    intros Hm Hd Ho t. induction t as [|t IH]; intros Ht.
    - exists []. constructor; cbn; auto.
      + now rewrite Nat.sub_0_r.
      + contradiction.
      + now rewrite repeat_length.
      + intros _. split; [constructor|contradiction].
    - destruct IH as [l I]; [lia|]. rewrite fori_S. eexists. apply chol_step; [exact I|lia|assumption].
  Qed.


End FChol.

Section Outcome.
  Context (prec emax : Z) {Hprec : Prec_gt_0 prec} {Hmax : Prec_lt_emax prec emax} {Sm : SumOrder prec emax}.
  Notation flt := (binary_float prec emax).
  Notation O := (FOpsIEEE prec emax).
Lemma fchol_outcome {P Y} (p0 : P) (y0 : Y) s (d : Data P Y flt) st : float_pick_ok (ch_pick s) -> ch_size s <= d_len d -> (Z.of_nat (d_len d) <= 2 ^ (emax - 2))%Z ->
  (forall a, In a (d_x d) -> float_diag_ok (ch_kernel s a a)) ->
  (forall g, st = Some g -> length g = d_len d /\ Forall float_diag_ok g) ->
  exists l g, chol_reduce O p0 y0 s d st = Ok (mkCS (map Z.of_nat l) (repeat (f1 O) (ch_size s)) d, g) /\
    length l = ch_size s /\ (forall i, In i l -> i < d_len d) /\ (ch_unique s = true -> NoDup l) /\
    length g = d_len d /\ Forall float_diag_ok g.
Proof.
  intros Hp Hm HN Hk Hs. unfold chol_reduce. rewrite initial_ok by assumption. cbn [bind c_idx].
  set (diag := match st with None => _ | Some g => g end).
  assert (D : length diag = length (d_x d) /\ Forall float_diag_ok diag).
  { unfold diag. destruct st as [g|]; [now apply Hs|]. rewrite map_length. split; auto. apply Forall_forall. intros v Hv.
    apply in_map_iff in Hv as [a [<- Ha]]. now apply Hk. }
  destruct D as [D1 D2].
  destruct (chol_loop prec emax p0 s (d_x d) HN Hp diag Hm D1 D2 (ch_size s) (le_n _)) as [l [Il Ii Ir Id Im Io Iu]].
  rewrite Nat.sub_diag in Ii. cbn [repeat] in Ii. rewrite app_nil_r in Ii.
  set (out := fori _ _ _) in *. exists l, (c_diag out). rewrite Ii.
  unfold cs_build, conv_data. cbn [bind]. unfold cs_init, points, d_getitem, d_len. cbn [d_x c_idx].
  rewrite gather_length, map_length, Il. unfold d_len in Hm.
  destruct (Nat.ltb_spec (length (d_x d)) (ch_size s)); [lia|]. cbn [bind].
  split; [reflexivity|]. split; auto. split; auto. split; [intros U; now apply Iu|]. split; assumption.
Qed.
End Outcome.
