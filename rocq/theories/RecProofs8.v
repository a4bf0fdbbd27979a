(** * Tree recombination: the whole reduction *)
From Coq Require Import List Arith ZArith Lia Reals Lra Permutation Sorted Bool.
From Verif Require Import Num RSum Jax JaxFacts DataModel DataProofs DataMeanLemmas GreedyProofs GreedyProofs2
  MetricProofs2 RecSpec RecModel RecProofs RecProofs2 RecProofs3 RecProofs4 RecProofs5 RecProofs6 RecProofs7.
Import ListNotations.
Local Open Scope R_scope.

Lemma foriM_S {S} n (body : nat -> S -> result S) s :
  foriM (Datatypes.S n) body s = (do x <- foriM n body s; body n x).
Proof. unfold foriM. rewrite seq_S, fold_left_app. reflexivity. Qed.

Section Tree.
  Context {P Y : Type} (p0 : P) (y0 : Y).
  Variables (phi : P -> list ER) (f : P -> list R) (m factor : nat).
  Variable null : list (list ER) -> list (list ER) * nat.
  Variable clog : nat -> nat -> nat -> result Z.
  Variables (xs : list P) (ws : list R).
  Let n := length xs.
  Let g i c := nth c (f (nth i xs p0)) 0.
  Hypothesis Hphi : forall x, In x xs -> phi x = map Fin (f x) /\ length (f x) = m.
  Hypothesis Hlen : length ws = length xs.
  Hypothesis Hpos : Forall (fun x => 0 <= x) ws.
  Hypothesis Hsum : 0 < Rsum ws.
  Hypothesis Hfac : (0 < factor)%nat.
  Variable depth : nat.
  Hypothesis Hclog : exists z, clog n (S m) factor = Ok z /\ depth = Z.to_nat (Z.max 1 z).
  Hypothesis Hdepth : (n <= S m * factor ^ depth)%nat.
  Hypothesis Hnull : forall A, length A = (factor * S m)%nat -> matrix (S m) A ->
    (forall a, In a A -> hd 0 a = 1) -> null_basis_at null (S m) A.

  Let F := map f xs.
  Let count := (factor * S m)%nat.
  Let size := (factor ^ (depth - 1))%nat.
  Let pad := (S m * factor ^ depth - n)%nat.
  Let w0 := map (fun a => a / Rsum ws) ws ++ repeat 0 pad.
  Let target c := wsum_at (fun i => g i c) (seq 0 n) ws / Rsum ws.

  Lemma n_pos : (0 < n)%nat.
  Proof. unfold n. destruct xs; [|simpl; lia]. destruct ws; [simpl in Hsum; lra|discriminate]. Qed.
  Lemma depth_pos : (0 < depth)%nat.
  Proof. destruct Hclog as (z & _ & ->). lia. Qed.
  Lemma N_eq : (size * count = S m * factor ^ depth)%nat.
  Proof. unfold size, count. pose proof depth_pos. destruct depth as [|d]; [lia|]. simpl. rewrite Nat.sub_0_r. ring. Qed.
  Lemma N_eq' : (size * count = n + pad)%nat.
  Proof. rewrite N_eq. unfold pad. lia. Qed.
  Lemma F_matrix : matrix m F.
  Proof. apply Forall_forall. intros a Ha. apply in_map_iff in Ha as (x & <- & Hx). now apply Hphi. Qed.
  Lemma F_len : length F = n.
  Proof. unfold F. now rewrite map_length. Qed.
  Lemma F_cols : ncols (map (map Fin) F) = m.
  Proof.
    pose proof n_pos. unfold F, n, ncols in *. destruct xs as [|x l]; [simpl in *; lia|]. cbn [map hd]. rewrite map_length.
    apply Hphi. now left.
  Qed.
  Lemma F_nth i c : (i < n)%nat -> entry F i c = g i c.
  Proof. intros Hi. unfold entry, F. rewrite (nth_map_lt _ _ _ p0) by auto. reflexivity. Qed.
  Lemma w0_nth i : nth i w0 0 = nth i ws 0 / Rsum ws.
  Proof.
    unfold w0. destruct (Nat.lt_ge_cases i n) as [H|H].
    - rewrite app_nth1 by (rewrite map_length, Hlen; auto). now rewrite (nth_map_lt _ _ _ 0) by (rewrite Hlen; auto).
    - rewrite (nth_overflow ws) by (rewrite Hlen; auto). rewrite app_nth2 by (rewrite map_length, Hlen; auto).
      rewrite nth_repeat. unfold Rdiv. ring.
  Qed.
  Lemma w0_len : length w0 = (size * count)%nat.
  Proof. rewrite N_eq'. unfold w0. rewrite app_length, map_length, repeat_length, Hlen. reflexivity. Qed.

  Lemma start_ok : level_ok F m count size ws target (S m * factor ^ depth) w0 (seq 0 (size * count)).
  Proof.
    pose proof n_pos as Hn.
    split; [apply w0_len|]. split; [apply seq_length|]. split; [|split; [|split; [|split; [|split]]]].
    - unfold w0. apply Forall_app. split; apply Forall_forall; intros x Hx.
      + apply in_map_iff in Hx as (y & <- & Hy). rewrite Forall_forall in Hpos. apply Rmult_le_pos; auto.
        apply Rlt_le, Rinv_0_lt_compat; auto.
      + apply repeat_spec in Hx. lra.
    - unfold w0. rewrite Rsum_app, Rsum_repeat, Rsum_normalized by lra. lra.
    - intros c Hc. rewrite wsum_at_seq by (rewrite seq_length; apply w0_len). rewrite seq_length, N_eq', seq_app, map_app, Rsum_app.
      rewrite (Rsum_zero (map _ (seq (0 + n) pad))).
      + unfold target. unfold n. rewrite <- Hlen, wsum_at_iota. rewrite Hlen. fold n. rewrite <- Rsum_map_div, Rplus_0_r.
        apply Rsum_map_ext. intros i Hi. apply in_seq in Hi. rewrite w0_nth.
        rewrite <- seq_app, seq_nth by lia. cbn [Nat.add]. rewrite F_len, Nat.min_l, F_nth by lia. unfold Rdiv. ring.
      + intros a Ha. apply in_map_iff in Ha as (i & <- & Hi). apply in_seq in Hi. rewrite w0_nth.
        rewrite (nth_overflow ws) by (rewrite Hlen; fold n; lia). unfold Rdiv. ring.
    - intros e He Hnz. rewrite seq_nth by auto. cbn [Nat.add]. rewrite w0_nth in Hnz. rewrite F_len.
      destruct (Nat.lt_ge_cases e n) as [H|H].
      + split; auto. rewrite Forall_forall in Hpos. assert (0 <= nth e ws 0) by (apply Hpos, nth_In; rewrite Hlen; auto).
        destruct (Req_EM_T (nth e ws 0) 0) as [Z|Z]; [|lra]. exfalso. apply Hnz. rewrite Z. unfold Rdiv. ring.
      + exfalso. apply Hnz. rewrite nth_overflow by (rewrite Hlen; auto). unfold Rdiv. ring.
    - intros e e' He He' _ _. rewrite !seq_nth by auto. auto.
    - unfold nonzeros. etransitivity; [apply filter_len_le|]. rewrite w0_len, N_eq. lia.
  Qed.

  (** after t levels *)
  Lemma levels t : (t <= depth)%nat ->
    exists w ix, foriM t (fun _ => tree_body EROps null (map (map Fin) F) count) (map Fin w0, seq 0 (size * count)) = Ok (map Fin w, ix) /\
      level_ok F m count size ws target (S m * factor ^ (depth - t)) w ix.
  Proof.
    pose proof n_pos as Hn. induction t; intros Ht.
    - rewrite Nat.sub_0_r. exists w0, (seq 0 (size * count)). split; [reflexivity|]. apply start_ok.
    - destruct IHt as (w & ix & E & HL); [lia|]. rewrite foriM_S, E. cbn [bind].
      replace (S m * factor ^ (depth - t))%nat with (factor ^ (depth - S t) * count)%nat in HL.
      2:{ unfold count. replace (depth - t)%nat with (S (depth - S t)) by lia. simpl. ring. }
      apply (tree_level F m count size ws null) in HL; auto.
      + apply F_matrix.
      + rewrite F_len. auto.
      + unfold count. nia.
  Qed.

  Lemma tree_outcome mode : mode <> MOther ->
    exists idx wt,
      tree_reduce EROps p0 y0 phi null clog factor mode (mkData xs (map Fin ws) None)
        = Ok (mkCS (map Z.of_nat idx) (map Fin wt) (mkData xs (map Fin ws) None)) /\
      length wt = length idx /\
      length idx = mode_size mode n (S m) (nonzeros wt) /\
      Forall (fun a => 0 <= a) wt /\
      Rsum wt = 1 /\
      (forall c, (c < m)%nat -> wsum_at (fun i => g i c) idx wt = target c) /\
      (forall j, (j < length idx)%nat -> nth j wt 0 <> 0 -> (nth j idx 0 < n)%nat /\ 0 < nth (nth j idx 0%nat) ws 0) /\
      (forall j j', (j < length idx)%nat -> (j' < length idx)%nat -> nth j wt 0 <> 0 -> nth j' wt 0 <> 0 ->
         nth j idx 0%nat = nth j' idx 0%nat -> j = j') /\
      (nonzeros wt <= Nat.min n (S m))%nat.
  Proof.
    intros Hm. pose proof n_pos as Hn. unfold tree_reduce, normalize, unpack2. cbn [d_x d_w d_y bind].
    rewrite normalize_any_fin by lra.
    assert (Epf : push_forward EROps phi false xs = map (map Fin) F).
    { unfold push_forward, F. rewrite map_map. apply map_ext_in. intros x Hx. now apply Hphi. }
    rewrite Epf, map_length, F_len. rewrite F_cols.
    destruct Hclog as (z & Ez & Ed). unfold prepare_tree. rewrite Ez. cbn [bind]. rewrite <- Ed.
    replace (Z.of_nat (S m * factor ^ depth) - Z.of_nat n)%Z with (Z.of_nat pad) by (unfold pad; lia).
    destruct (Z.ltb_spec (Z.of_nat pad) 0) as [|_]; [lia|]. rewrite Nat2Z.id. fold count.
    change (f0 EROps) with (Fin 0 : ER). rewrite <- map_Fin_repeat, <- map_app. fold w0. rewrite <- N_eq'.
    destruct (levels depth (le_n _)) as (w & ix & E & HL). rewrite Nat.sub_diag in HL. cbn [Nat.pow] in HL. rewrite Nat.mul_1_r in HL.
    rewrite E. cbn [bind fst snd].
    destruct HL as (L1 & L2 & Pw & Sw & Cw & Iw & Dw & Zw).
    rewrite F_len in *.
    assert (Hn' : (nonzeros w <= n)%nat).
    { rewrite nonzeros_nzpos. rewrite <- (map_length (fun e => nth e ix 0%nat)), <- (seq_length n 0). apply NoDup_incl_length.
      - assert (G : forall l, NoDup l -> (forall e, In e l -> (e < size * count)%nat /\ nth e w 0 <> 0) -> NoDup (map (fun e => nth e ix 0%nat) l)).
        { induction l as [|a l IH]; intros Nl Hl; simpl; constructor.
          - intros I. apply in_map_iff in I as (b & Eb & Hb). inversion Nl; subst.
            assert (b = a); [|congruence]. destruct (Hl a (or_introl eq_refl)), (Hl b (or_intror Hb)). apply Dw; auto.
          - inversion Nl; subst. apply IH; auto. intros; apply Hl; now right. }
        apply G; [apply nzpos_nodup|]. intros e He. apply nzpos_in in He. rewrite L1 in He. auto.
      - intros i Hi. apply in_map_iff in Hi as (e & <- & He). apply nzpos_in in He. rewrite L1 in He. apply in_seq.
        destruct (Iw e); try tauto. lia. }
    destruct (coresubset_nodes_ok (map (map Fin) F) w ix mode false) as (sel & Hsel & Lsel & Esel); auto.
    { rewrite map_length, F_len, L1, N_eq'. lia. }
    { rewrite map_length, F_len. rewrite F_cols. rewrite <- nonzeros_nzpos. lia. }
    rewrite Esel. cbn [bind fst snd].
    rewrite map_length, F_len in Lsel. rewrite F_cols in Lsel.
    set (idx := map (fun i => nth i ix 0%nat) sel). set (wt := map (fun i => nth i w 0) sel).
    exists idx, wt.
    assert (Enz : nonzeros wt = nonzeros w) by (now apply selection_nonzeros).
    assert (Lidx : length idx = length sel) by (unfold idx; now rewrite map_length).
    assert (Lwt : length wt = length sel) by (unfold wt; now rewrite map_length).
    assert (Hsl := selection_lt _ _ Hsel). rewrite L1 in Hsl.
    assert (Hj : forall j, (j < length sel)%nat -> nth j idx 0%nat = nth (nth j sel 0%nat) ix 0%nat /\ nth j wt 0 = nth (nth j sel 0%nat) w 0 /\ (nth j sel 0 < size * count)%nat).
    { intros j Hj. unfold idx, wt. rewrite !(nth_map_lt _ _ _ 0%nat) by auto. split; auto. split; auto.
      now apply (Forall_nth' _ sel 0%nat j) in Hsl. }
    split; [|split; [congruence|split; [|split; [|split; [|split; [|split; [|split]]]]]]].
    - unfold cs_init, points, d_getitem, d_len. cbn [c_idx c_pre c_w d_x d_w]. rewrite gather_length, map_length.
      rewrite Lidx. fold n.
      assert (Hle : (length sel <= n)%nat).
      { rewrite Lsel. unfold mode_size. rewrite <- nonzeros_nzpos. destruct mode; lia. }
      destruct (Nat.ltb_spec n (length sel)); [lia|]. reflexivity.
    - rewrite Lidx, Lsel, Enz, nonzeros_nzpos. reflexivity.
    - apply Forall_forall. intros a Ha. apply in_map_iff in Ha as (i & <- & Hi). rewrite Forall_forall in Hsl.
      apply (Forall_nth' (fun x => 0 <= x)); auto. rewrite L1. auto.
    - rewrite <- (wsum_at_one idx) by lia. unfold idx. rewrite wsum_at_map. unfold wt.
      rewrite (selection_sum w sel (fun _ => 1)) by auto.
      etransitivity; [|exact Sw]. rewrite (Rsum_map_ext _ (fun i => nth i w 0)) by (intros; lra). now rewrite map_nth_seq.
    - intros c Hc. rewrite <- (Cw c Hc).
      transitivity (wsum_at (fun i => entry F (Nat.min i (n - 1)) c) idx wt).
      + rewrite !wsum_at_seq by lia. apply Rsum_map_ext. intros j Hjs. apply in_seq in Hjs.
        destruct (Hj j ltac:(lia)) as (J1 & J2 & J3). destruct (Req_EM_T (nth j wt 0) 0) as [Z|Z]; [rewrite Z; lra|].
        f_equal. rewrite J2 in Z. destruct (Iw _ J3 Z) as [K1 K2]. rewrite J1, Nat.min_l, F_nth by lia. reflexivity.
      + unfold idx. rewrite wsum_at_map. unfold wt.
        rewrite (selection_sum w sel (fun i => entry F (Nat.min (nth i ix 0%nat) (n - 1)) c)) by auto.
        rewrite wsum_at_seq by lia. rewrite L1, L2. reflexivity.
    - intros j Hjs Hz. rewrite Lidx in Hjs. destruct (Hj j Hjs) as (J1 & J2 & J3). rewrite J1. apply Iw; auto. congruence.
    - intros j j' Hjs Hjs' Hz Hz' E'. rewrite Lidx in *. destruct (Hj j Hjs) as (J1 & J2 & J3). destruct (Hj j' Hjs') as (J1' & J2' & J3').
      assert (nth j sel 0%nat = nth j' sel 0%nat) by (apply Dw; auto; congruence).
      symmetry. eapply selection_once; eauto; congruence.
    - lia.
  Qed.
End Tree.
