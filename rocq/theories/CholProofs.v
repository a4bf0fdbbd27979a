(** * Proofs about RandomSample and RPCholesky: index-level properties *)
From Coq Require Import List ZArith Bool Reals Permutation Lia Lra.
From Verif Require Import Num Jax RSum JaxFacts DataModel GreedyModel CholModel CholSpec MapReduceProofs3 GreedyProofs.
Import ListNotations.
Open Scope nat_scope.

Lemma available_nth n idx j : (forall i, In i idx -> (0 <= i)%Z) -> j < n ->
  nth j (available n idx) false = negb (existsb (Z.eqb (Z.of_nat j)) idx).
Proof.
  intros Hi Hj. unfold available.
  assert (G : forall m, length m = n -> nth j (fold_left (fun m j => jset m j false) idx m) false
            = nth j m false && negb (existsb (Z.eqb (Z.of_nat j)) idx)).
  { induction idx as [|a idx IH]; intros m Hm; simpl; [now rewrite andb_true_r|].
    rewrite IH by (try (intros; apply Hi; now right); rewrite jset_length; assumption).
    assert (Ha : (0 <= a)%Z) by (apply Hi; now left).
    destruct (Z_lt_ge_dec a (Z.of_nat n)) as [L|L].
    - rewrite jset_in_range by (rewrite Hm; lia). rewrite nth_upd.
      destruct (Z.eqb_spec (Z.of_nat j) a) as [E|E].
      + subst a. rewrite Nat2Z.id, Nat.eqb_refl. rewrite (proj2 (Nat.ltb_lt _ _)) by lia. simpl. now rewrite andb_false_r.
      + destruct (Nat.eqb_spec j (Z.to_nat a)); [lia|]. reflexivity.
    - rewrite jset_oob by lia. destruct (Z.eqb_spec (Z.of_nat j) a); [lia|]. reflexivity. }
  rewrite G by apply repeat_length. now rewrite nth_repeat_lt.
Qed.
Lemma available_length n idx : length (available n idx) = n.
Proof.
  unfold available. assert (G : forall m, length (fold_left (fun m j => jset m j false) idx m) = length m).
  { induction idx; intros; simpl; auto. now rewrite IHidx, jset_length. }
  rewrite G. apply repeat_length.
Qed.

Lemma pigeon (l : list nat) n : length l < n -> exists j, j < n /\ ~ In j l.
Proof.
  intros H. destruct (Forall_Exists_dec (fun j => In j l) (fun j => in_dec Nat.eq_dec j l) (seq 0 n)) as [F|E].
  - exfalso. assert (incl (seq 0 n) l) by (intros j Hj; rewrite Forall_forall in F; auto).
    apply NoDup_incl_length in H0; [|apply seq_NoDup]. rewrite seq_length in H0. lia.
  - apply Exists_exists in E as [j [Hj Hn]]. apply in_seq in Hj. exists j. split; [lia|assumption].
Qed.

(** ** RandomSample *)
Lemma random_outcome {V} (O : FOps V) {P Y} (p0 : P) (y0 : Y) s (d : Data P Y V) : choice_ok (rs_choice s) ->
  (d_len d < rs_size s -> random_reduce O p0 y0 s d = Err ValueError) /\
  (rs_size s <= d_len d -> exists l,
     random_reduce O p0 y0 s d = Ok (mkCS (map Z.of_nat l) (repeat (f1 O) (rs_size s)) d) /\
     length l = rs_size s /\ (forall i, In i l -> i < d_len d) /\ (rs_unique s = true -> NoDup l)).
Proof.
  intros HC. unfold random_reduce.
  specialize (HC (d_len d) (rs_size s) (if rs_weighted s then Some (d_w d) else None) (negb (rs_unique s))) as [HE HO].
  split; intros H.
  - destruct (rs_unique s) eqn:U.
    + rewrite HE; [reflexivity|]. left. simpl. split; auto; lia.
    + destruct (Nat.eq_dec (d_len d) 0) as [Z|Z].
      * rewrite HE; [reflexivity|]. right. lia.
      * destruct HO as [l [-> [L _]]]; [split; [left; reflexivity|left; lia]|]. cbn [bind].
        unfold cs_init, points, d_getitem, d_len in *. cbn [d_x c_idx]. rewrite gather_length, map_length, L.
        destruct (Nat.ltb_spec (length (d_x d)) (rs_size s)); [reflexivity|lia].
  - destruct HO as [l [-> [L [R N]]]].
    { split; [right; assumption|]. destruct (Nat.eq_dec (rs_size s) 0); [right; assumption|left; lia]. }
    cbn [bind]. exists l. rewrite L. split.
    + unfold cs_init, points, d_getitem, d_len in *. cbn [d_x c_idx]. rewrite gather_length, map_length, L.
      destruct (Nat.ltb_spec (length (d_x d)) (rs_size s)); [lia|reflexivity].
    + split; auto. split; auto. intros U. apply N. now rewrite U.
Qed.

(** ** RPCholesky *)
Lemma square_ok (c : ER) : (exists r, fmul EROps c c = Fin r /\ (0 <= r)%R) \/ fmul EROps c c = PInf \/ fmul EROps c c = NaN.
Proof.
  destruct c as [x| | |]; cbn; auto. left. eexists; split; [reflexivity|]. pose proof (Rle_0_sqr x). exact H.
Qed.
Lemma diag_step r c : diag_ok r -> diag_ok (fmax EROps (fsub EROps r (fmul EROps c c)) (f0 EROps)).
Proof.
  intros [->|[x [-> Hx]]]; [left; reflexivity|].
  destruct (square_ok c) as [[q [-> Hq]]|[->| ->]].
  - right. unfold fmax. cbn. destruct (nltb ROps (x - q)%R 0%R) eqn:E; eexists; split; try reflexivity; [lra|].
    apply Rltb_false in E. exact E.
  - right. exists 0%R. split; [reflexivity|lra].
  - left. reflexivity.
Qed.
Lemma diag_step_zero r c : r = Fin 0%R \/ r = NaN ->
  fmax EROps (fsub EROps r (fmul EROps c c)) (f0 EROps) = Fin 0%R \/ fmax EROps (fsub EROps r (fmul EROps c c)) (f0 EROps) = NaN.
Proof.
  intros [->| ->]; [|right; reflexivity].
  destruct (square_ok c) as [[q [-> Hq]]|[->| ->]]; [|left; reflexivity|right; reflexivity].
  left. unfold fmax. cbn. destruct (nltb ROps (0 - q)%R 0%R) eqn:E; [reflexivity|]. apply Rltb_false in E. f_equal. lra.
Qed.

Section Chol.
  Context {P Y : Type} (p0 : P) (y0 : Y).
  Variable s : @rpcholesky ER P.
  Variable x : list P.
  Notation n := (length x).
  Notation m := (ch_size s).
  Hypothesis Hpick : pick_ok (ch_pick s).

  Record cinv (t : nat) (st : @cstate ER) (l : list nat) : Prop := mkInv {
    i_len : length l = t;
    i_ind : c_ind st = map Z.of_nat l ++ repeat (Z.of_nat n + 1)%Z (m - t);
    i_rng : forall i, In i l -> i < n;
    i_dlen : length (c_diag st) = n;
    i_mlen : length (c_mat st) = n;
    i_ok : Forall diag_ok (c_diag st);
    i_uni : ch_unique s = true -> NoDup l /\ forall i, In i l -> nth i (c_diag st) NaN = Fin 0%R \/ nth i (c_diag st) NaN = NaN }.

  Lemma avail_iff l t j : (forall i, In i l -> i < n) -> j < n ->
    nth j (available n (map Z.of_nat l ++ repeat (Z.of_nat n + 1)%Z t)) false = true <-> ~ In j l.
  Proof.
    intros Hl Hj. rewrite available_nth; auto.
    - rewrite existsb_app. split.
      + intros E I. apply negb_true_iff, orb_false_iff in E as [E _].
        rewrite existsb_nth with (n := 0) (d := 0%Z) in E || idtac.
        assert (X : existsb (Z.eqb (Z.of_nat j)) (map Z.of_nat l) = true).
        { apply existsb_exists. exists (Z.of_nat j). split; [now apply in_map|]. apply Z.eqb_refl. }
        congruence.
      + intros N. apply negb_true_iff, orb_false_iff. split.
        * destruct (existsb _ (map Z.of_nat l)) eqn:E; auto. apply existsb_exists in E as [z [I E]].
          apply in_map_iff in I as [a [<- I]]. apply Z.eqb_eq in E. apply Nat2Z.inj in E. subst a. contradiction.
        * destruct (existsb _ (repeat _ _)) eqn:E; auto. apply existsb_exists in E as [z [I E]].
          apply repeat_spec in I. apply Z.eqb_eq in E. lia.
    - intros i Hi. apply in_app_iff in Hi as [Hi|Hi].
      + apply in_map_iff in Hi as [a [<- _]]. lia.
      + apply repeat_spec in Hi. lia.
  Qed.

  (** the index drawn in step [t] is in range, and new when [unique] *)
  Lemma pick_new t st l : cinv t st l -> t < m -> m <= n ->
    let p := ch_pick s t (valid_residuals EROps (c_diag st) (available n (c_ind st))) in
    p < n /\ (ch_unique s = true -> ~ In p l).
  Proof.
    intros [Il Ii Ir Id Im Io Iu] Ht Hm p.
    set (mask := available n (c_ind st)) in *.
    assert (ML : length mask = n) by apply available_length.
    assert (VL : length (valid_residuals EROps (c_diag st) mask) = n).
    { unfold valid_residuals. destruct (_ || _); [unfold uniform_probs; now rewrite map_length|assumption]. }
    destruct (Hpick t (valid_residuals EROps (c_diag st) mask)) as [P1 P2].
    { intros E. rewrite E in VL. simpl in VL. lia. }
    fold p in P1, P2. rewrite VL in P1. split; auto. intros U. destruct (Iu U) as [ND Z].
    assert (AV : forall j, j < n -> nth j mask false = true <-> ~ In j l).
    { intros j Hj. unfold mask. rewrite Ii. now apply avail_iff. }
    unfold valid_residuals in *.
    destruct (forallb (fun v => feqb EROps v (f0 EROps)) (c_diag st) || existsb (fisnan EROps) (c_diag st)) eqn:FB.
    - (* uniform fallback *)
      destruct (pigeon l n ltac:(lia)) as [j [Hj Nj]].
      set (cnt := length (filter (fun b : bool => b) mask)) in *.
      assert (CP : 0 < cnt).
      { unfold cnt. apply AV in Nj; auto. assert (I : In true mask) by (rewrite <- Nj; apply nth_In; lia).
        destruct (filter (fun b : bool => b) mask) eqn:E; [|simpl; lia].
        exfalso. assert (In true (filter (fun b : bool => b) mask)) by (apply filter_In; auto). rewrite E in H. destruct H. }
      assert (CR : (0 < IZR (Z.of_nat cnt))%R) by (apply IZR_lt; lia).
      assert (UV : forall b : bool, fdiv EROps (if b then f1 EROps else f0 EROps) (fofZ EROps (Z.of_nat cnt)) = Fin ((if b then 1 else 0) / IZR (Z.of_nat cnt))%R).
      { intros b. change (fofZ EROps (Z.of_nat cnt)) with (@Fin R (IZR (Z.of_nat cnt))).
        change (f1 EROps) with (@Fin R 1%R). change (f0 EROps) with (@Fin R 0%R). destruct b; apply fdiv_fin; lra. }
      assert (NU : forall j, j < n -> nth j (uniform_probs EROps mask) NaN = Fin ((if nth j mask false then 1 else 0) / IZR (Z.of_nat cnt))%R).
      { intros i Hi. unfold uniform_probs. fold cnt.
        rewrite (nth_map_lt _ mask i false) by lia. apply UV. }
      destruct P2 as [r [Er Hr]].
      + intros v Hv. unfold uniform_probs in Hv. fold cnt in Hv. apply in_map_iff in Hv as [b [<- _]]. rewrite UV.
        eexists; split; [reflexivity|]. apply Rmult_le_pos; [destruct b; lra|]. left. now apply Rinv_0_lt_compat.
      + exists (1 / IZR (Z.of_nat cnt))%R. split.
        * replace (Fin (1 / IZR (Z.of_nat cnt))%R) with (nth j (uniform_probs EROps mask) NaN).
          -- apply nth_In. unfold uniform_probs. rewrite map_length. lia.
          -- rewrite NU by assumption. rewrite (proj2 (AV j Hj) Nj). reflexivity.
        * unfold Rdiv. rewrite Rmult_1_l. now apply Rinv_0_lt_compat.
      + rewrite NU in Er by assumption. destruct (nth p mask false) eqn:E; [now apply AV|].
        injection Er as Er. unfold Rdiv in Er. rewrite Rmult_0_l in Er. lra.
    - apply orb_false_iff in FB as [F1 F2].
      assert (NN : forall v, In v (c_diag st) -> exists r, v = Fin r /\ (0 <= r)%R).
      { intros v Hv. rewrite Forall_forall in Io. destruct (Io v Hv) as [->|H]; auto.
        exfalso. assert (existsb (fisnan EROps) (c_diag st) = true) by (apply existsb_exists; exists NaN; auto). congruence. }
      destruct P2 as [r [Er Hr]]; auto.
      + (* some entry is not zero *)
        assert (X : exists v, In v (c_diag st) /\ feqb EROps v (f0 EROps) = false).
        { clear -F1. induction (c_diag st) as [|v t' IH]; cbn [forallb In] in *; [discriminate|].
          destruct (feqb EROps v (f0 EROps)) eqn:E; simpl in F1; [destruct (IH F1) as [w [I Ew]]; exists w; auto|exists v; auto]. }
        destruct X as [v [I Ev]]. destruct (NN v I) as [r [-> Hr]]. exists r. split; auto.
        unfold feqb, fleb in Ev. cbn in Ev. destruct (Rle_lt_or_eq_dec 0 r Hr) as [L|L]; auto. subst r.
        assert (nltb ROps 0%R 0%R = false) by (apply Rltb_false; lra). rewrite H in Ev. discriminate.
      + intros I. destruct (Z p I) as [E|E]; rewrite E in Er; try discriminate. injection Er as Er. lra.
  Qed.

  Lemma chol_column_length k mat p : length mat = n -> length (chol_column EROps p0 k x mat p) = n.
  Proof. intros H. unfold chol_column. rewrite map2_length. lia. Qed.

  Lemma upd_app_repeat {A} (l : list A) a b t : 0 < t -> upd (length l) a (l ++ repeat b t) = (l ++ [a]) ++ repeat b (t - 1).
  Proof.
    intros H. induction l as [|c l IH]; simpl.
    - destruct t; [lia|]. simpl. now rewrite Nat.sub_0_r.
    - now rewrite IH.
  Qed.

  Lemma chol_step t st l : cinv t st l -> t < m -> m <= n ->
    cinv (S t) (chol_body EROps p0 s x t st)
      (l ++ [ch_pick s t (valid_residuals EROps (c_diag st) (available n (c_ind st)))]).
  Proof.
    intros I Ht Hm. destruct (pick_new t st l I Ht Hm) as [P1 P2]. destruct I as [Il Ii Ir Id Im Io Iu].
    set (p := ch_pick s t _) in *. unfold chol_body. fold p.
    set (col := map _ (chol_column EROps p0 (ch_kernel s) x (c_mat st) p)).
    assert (CL : length col = n) by (unfold col; rewrite map_length; now apply chol_column_length).
    set (dg := map2 (fun r c => fmax EROps (fsub EROps r (fmul EROps c c)) (f0 EROps)) (c_diag st) col).
    assert (DL : length dg = n) by (unfold dg; rewrite map2_length; lia).
    assert (DN : forall i, i < n -> nth i dg NaN = fmax EROps (fsub EROps (nth i (c_diag st) NaN) (fmul EROps (nth i col NaN) (nth i col NaN))) (f0 EROps)).
    { intros i Hi. unfold dg. rewrite (nth_map2 _ _ _ _ NaN NaN) by lia. reflexivity. }
    assert (DO : Forall diag_ok dg).
    { apply Forall_forall. intros v Hv. apply In_nth with (d := NaN) in Hv as [i [Hi <-]]. rewrite DN by lia.
      apply diag_step. rewrite Forall_forall in Io. apply Io, nth_In. lia. }
    constructor; cbn [c_diag c_mat c_ind].
    - rewrite app_length. simpl. lia.
    - rewrite Ii. rewrite <- Il at 1. rewrite <- (map_length Z.of_nat l). rewrite upd_app_repeat by lia.
      rewrite map_app. simpl. f_equal. f_equal. lia.
    - intros i Hi. apply in_app_iff in Hi as [Hi|[<-|[]]]; auto.
    - destruct (ch_unique s); [rewrite upd_length|]; assumption.
    - rewrite map2_length. lia.
    - destruct (ch_unique s); auto. apply Forall_forall. intros v Hv. apply In_nth with (d := NaN) in Hv as [i [Hi <-]].
      rewrite nth_upd. destruct (_ && _); [right; exists 0%R; split; [reflexivity|lra]|].
      rewrite upd_length in Hi. rewrite Forall_forall in DO. now apply DO, nth_In.
    - intros U. rewrite U. destruct (Iu U) as [ND Z]. split.
      + clear -ND P2 U. specialize (P2 U). induction l as [|a l IH]; simpl; [repeat constructor; auto|].
        inversion ND; subst. constructor; [|apply IH; auto; intros Q; apply P2; now right].
        rewrite in_app_iff. intros [Q|[Q|[]]]; [contradiction|]. apply P2. now left.
      + intros i Hi. rewrite nth_upd, DL. destruct (Nat.eqb_spec i p) as [->|Ne]; simpl.
        * rewrite (proj2 (Nat.ltb_lt _ _)) by lia. left. reflexivity.
        * apply in_app_iff in Hi as [Hi|[E|[]]]; [|congruence]. rewrite DN by auto. apply diag_step_zero. auto.
  Qed.

  Lemma chol_loop diag : m <= n -> length diag = n -> Forall diag_ok diag ->
    forall t, t <= m -> exists l,
      cinv t (fori t (chol_body EROps p0 s x) (mkC diag (repeat (repeat (f0 EROps) m) n) (repeat (Z.of_nat n + 1)%Z m))) l.
  Proof.
    intros Hm Hd Ho t. induction t as [|t IH]; intros Ht.
    - exists []. constructor; cbn; auto.
      + now rewrite Nat.sub_0_r.
      + contradiction.
      + now rewrite repeat_length.
      + intros _. split; [constructor|contradiction].
    - destruct IH as [l I]; [lia|]. rewrite fori_S. eexists. apply chol_step; [exact I|lia|assumption].
  Qed.
End Chol.

Lemma chol_outcome {P Y} (p0 : P) (y0 : Y) s (d : Data P Y ER) st : pick_ok (ch_pick s) -> ch_size s <= d_len d ->
  (forall a, In a (d_x d) -> diag_ok (ch_kernel s a a)) ->
  (forall g, st = Some g -> length g = d_len d /\ Forall diag_ok g) ->
  exists l g, chol_reduce EROps p0 y0 s d st = Ok (mkCS (map Z.of_nat l) (repeat (Fin 1%R) (ch_size s)) d, g) /\
    length l = ch_size s /\ (forall i, In i l -> i < d_len d) /\ (ch_unique s = true -> NoDup l) /\
    length g = d_len d /\ Forall diag_ok g.
Proof.
  intros Hp Hm Hk Hs. unfold chol_reduce. rewrite initial_ok by assumption. cbn [bind c_idx].
  set (diag := match st with None => _ | Some g => g end).
  assert (D : length diag = length (d_x d) /\ Forall diag_ok diag).
  { unfold diag. destruct st as [g|]; [now apply Hs|]. rewrite map_length. split; auto. apply Forall_forall. intros v Hv.
    apply in_map_iff in Hv as [a [<- Ha]]. now apply Hk. }
  destruct D as [D1 D2].
  destruct (chol_loop p0 s (d_x d) Hp diag Hm D1 D2 (ch_size s) (le_n _)) as [l [Il Ii Ir Id Im Io Iu]].
  rewrite Nat.sub_diag in Ii. cbn [repeat] in Ii. rewrite app_nil_r in Ii.
  set (out := fori _ _ _) in *. exists l, (c_diag out). rewrite Ii.
  unfold cs_build, conv_data. cbn [bind]. unfold cs_init, points, d_getitem, d_len. cbn [d_x c_idx].
  rewrite gather_length, map_length, Il. unfold d_len in Hm.
  destruct (Nat.ltb_spec (length (d_x d)) (ch_size s)); [lia|]. cbn [bind].
  split; [reflexivity|]. split; auto. split; auto. split; [intros U; now apply Iu|]. split; assumption.
Qed.
