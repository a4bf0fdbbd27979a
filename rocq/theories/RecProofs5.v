(** * An exact singular value decomposition gives a basis of the left null space *)
From Coq Require Import List Arith ZArith Lia Reals Lra Permutation.
From Verif Require Import Num RSum Jax JaxFacts DataModel GreedyProofs GreedyProofs2
  MetricProofs2 RecSpec RecModel RecProofs RecProofs2 RecProofs3.
Import ListNotations.
Local Open Scope R_scope.

Lemma comb_self (d : list R -> R) Q i : comb (map d Q) Q i = Rsum (map (fun q => d q * nth i q 0) Q).
Proof. induction Q; simpl; auto. rewrite comb_cons, IHQ. reflexivity. Qed.
Lemma comb_seq cs B i : length cs = length B ->
  comb cs B i = Rsum (map (fun j => nth j cs 0 * entry B j i) (seq 0 (length B))).
Proof.
  intros H. unfold comb. f_equal. apply (list_ext _ _ 0).
  - rewrite map2_length, map_length, seq_length. lia.
  - intros j Hj. rewrite map2_length in Hj. rewrite (nth_map2 _ _ _ _ 0 []) by lia.
    rewrite nth_map_seq by lia. reflexivity.
Qed.
Lemma orthonormal_indep n Q : orthonormal n Q -> indep n Q.
Proof.
  intros HQ cs Hc H. apply Forall_forall. intros c Hin. apply (In_nth _ _ 0) in Hin as (j & Hj & <-).
  rewrite Hc in Hj.
  assert (E : Rsum (map (fun i => comb cs Q i * entry Q j i) (seq 0 n)) = 0).
  { apply Rsum_zero. intros x Hx. apply in_map_iff in Hx as (i & <- & Hi). apply in_seq in Hi. rewrite H by lia. lra. }
  rewrite (Rsum_map_ext _ (fun i => Rsum (map (fun l => nth l cs 0 * (entry Q l i * entry Q j i)) (seq 0 (length Q))))) in E.
  2:{ intros i _. rewrite comb_seq by auto. rewrite <- Rsum_map_scal_r. apply Rsum_map_ext. intros; ring. }
  rewrite Rsum_swap in E.
  rewrite (Rsum_map_ext _ (fun l => if Nat.eqb j l then nth l cs 0 else 0)) in E.
  - rewrite Rsum_delta in E by auto. exact E.
  - intros l Hl. apply in_seq in Hl. rewrite Rsum_map_scal.
    change (Rsum (map (fun i => entry Q l i * entry Q j i) (seq 0 n))) with (dot n (nth l Q []) (nth j Q [])).
    rewrite HQ by lia. rewrite Nat.eqb_sym. destruct (Nat.eqb j l); ring.
Qed.

Definition ispos (x : R) : bool := if Rlt_dec 0 x then true else false.
Lemma sorted_prefix s : Forall (fun x => 0 <= x) s ->
  (forall i j, (i <= j)%nat -> (j < length s)%nat -> nth j s 0 <= nth i s 0) ->
  forall j, (j < length s)%nat -> (j < length (filter ispos s))%nat <-> 0 < nth j s 0.
Proof.
  induction s as [|a s IH]; intros Hp Hs j Hj; [simpl in Hj; lia|].
  inversion Hp as [|? ? Ha Hp']; subst.
  assert (Hs' : forall i j, (i <= j)%nat -> (j < length s)%nat -> nth j s 0 <= nth i s 0).
  { intros i j' Hij Hj'. apply (Hs (S i) (S j')); simpl; lia. }
  specialize (IH Hp' Hs'). cbn [filter]. unfold ispos at 1. destruct (Rlt_dec 0 a) as [P|P].
  - destruct j; cbn [length nth]; [split; [auto|lia]|]. simpl in Hj. rewrite <- (IH j) by lia. lia.
  - assert (filter ispos s = []) as ->.
    { destruct (filter ispos s) as [|b l] eqn:E; auto. exfalso.
      assert (Hb : In b (filter ispos s)) by (rewrite E; now left). apply filter_In in Hb as [Hb1 Hb2].
      unfold ispos in Hb2. destruct (Rlt_dec 0 b); [|discriminate].
      apply (In_nth _ _ 0) in Hb1 as (i & Hi & Ei). specialize (Hs 0%nat (S i) ltac:(lia) ltac:(simpl; lia)). simpl in Hs. lra. }
    simpl. split; [lia|]. intros H. exfalso. specialize (Hs 0%nat j ltac:(lia) Hj). simpl in Hs. lra.
Qed.

Section Svd.
  Variables (A qT : list (list R)) (k : nat) (s : list R).
  Hypothesis Hsvd : svd_ok A k qT s.
  Let n := length A.
  Let rk := length (filter ispos s).

  Lemma col_expand v c : (c < k)%nat -> exists vt, length vt = length s /\ orthonormal k vt /\
    (forall c, (c < k)%nat -> column A c v
       = Rsum (map (fun j => dot n v (nth j qT []) * nth j s 0 * entry vt j c) (seq 0 (length s)))).
  Proof.
    intros Hc. destruct Hsvd as (Q1 & Q2 & Q3 & Q4 & S1 & S2 & S3 & (vt & V1 & V2 & V3)). fold n in Q1, Q2, Q3, Q4, S1, V3.
    exists vt. split; auto. split; auto. intros c' Hc'. unfold column. fold n.
    rewrite (Rsum_map_ext _ (fun i => Rsum (map (fun j => nth i v 0 * (entry qT j i * nth j s 0 * entry vt j c')) (seq 0 (length s))))).
    2:{ intros i Hi. apply in_seq in Hi. rewrite V3 by (auto; lia). now rewrite Rsum_map_scal. }
    rewrite Rsum_swap. apply Rsum_map_ext. intros j Hj. unfold dot. rewrite Rmult_assoc, <- Rsum_map_scal_r.
    apply Rsum_map_ext. intros i Hi. unfold entry. ring.
  Qed.

  Lemma rk_le : (rk <= n)%nat.
  Proof.
    destruct Hsvd as (Q1 & Q2 & Q3 & Q4 & S1 & S2 & S3 & _). unfold rk.
    pose proof (filter_len_le ispos s). fold n in Q1, Q2, Q3, Q4, S1. lia.
  Qed.
  Lemma tail_nth j : (j < n - rk)%nat -> nth j (firstn (n - rk) (rev qT)) [] = nth (n - 1 - j) qT [].
  Proof.
    intros Hj. destruct Hsvd as (Q1 & _). fold n in Q1.
    transitivity (nth j (rev qT) []).
    - rewrite <- (firstn_skipn (n - rk) (rev qT)) at 2. rewrite app_nth1; auto.
      rewrite firstn_length, rev_length. lia.
    - rewrite rev_nth by lia. f_equal. lia.
  Qed.
  Lemma tail_len : length (firstn (n - rk) (rev qT)) = (n - rk)%nat.
  Proof. destruct Hsvd as (Q1 & _). fold n in Q1. rewrite firstn_length, rev_length. lia. Qed.

  Lemma svd_null_ok : null_ok A k (rev qT) (n - rk).
  Proof.
    pose proof Hsvd as (Q1 & Q2 & Q3 & Q4 & S1 & S2 & S3 & _). fold n in Q1, Q2, Q3, Q4, S1. pose proof rk_le as Hrk.
    assert (Hpre := sorted_prefix s S2 S3). fold rk in Hpre.
    split; [rewrite rev_length; lia|]. split.
    { apply Forall_forall. intros b Hb. apply in_rev in Hb. rewrite Forall_forall in Q2. auto. }
    split; [|split].
    - intros j Hj. rewrite rev_nth by lia. rewrite Q1. replace (n - S j)%nat with (n - 1 - j)%nat by lia.
      intros c Hc. destruct (col_expand (nth (n - 1 - j) qT []) c Hc) as (vt & V1 & V2 & V3).
      specialize (V3 c Hc). unfold column in V3. rewrite V3. apply Rsum_zero. intros x Hx.
      apply in_map_iff in Hx as (l & <- & Hl). apply in_seq in Hl. rewrite Q3 by lia.
      destruct (Nat.eqb_spec (n - 1 - j) l) as [E|E]; [|ring].
      assert (nth l s 0 = 0) as ->; [|ring].
      assert (~ 0 < nth l s 0) by (rewrite <- Hpre by lia; lia).
      assert (0 <= nth l s 0); [|lra]. rewrite Forall_forall in S2. apply S2, nth_In. lia.
    - apply orthonormal_indep. intros i j Hi Hj. rewrite tail_len in Hi, Hj. rewrite !tail_nth by auto.
      rewrite Q3 by lia. destruct (Nat.eqb_spec i j), (Nat.eqb_spec (n - 1 - i) (n - 1 - j)); auto; lia.
    - intros v Hv Hn. exists (map (fun q => dot n v q) (firstn (n - rk) (rev qT))).
      split; [now rewrite map_length|]. intros i Hi. rewrite (Q4 v Hv i Hi). rewrite !comb_self.
      rewrite <- (firstn_skipn rk qT) at 1. rewrite map_app, Rsum_app.
      assert (E0 : Rsum (map (fun q => dot n v q * nth i q 0) (firstn rk qT)) = 0).
      { apply Rsum_zero. intros x Hx. apply in_map_iff in Hx as (q & <- & Hq).
        apply (In_nth _ _ []) in Hq as (l & Hl & <-). rewrite firstn_length in Hl.
        assert (nth l (firstn rk qT) [] = nth l qT []) as ->.
        { rewrite <- (firstn_skipn rk qT) at 2. rewrite app_nth1; auto. rewrite firstn_length. lia. }
        assert (Hls : (l < length s)%nat).
        { unfold rk in Hl. pose proof (filter_len_le ispos s). lia. }
        assert (Sl : 0 < nth l s 0) by (apply Hpre; auto; lia).
        assert (Hk0 : (0 < k)%nat) by (rewrite S1 in Hls; lia).
        destruct (col_expand v 0%nat ltac:(lia)) as (vt & V1 & V2 & V3).
        assert (Z : Rsum (map (fun c => column A c v * entry vt l c) (seq 0 k)) = 0).
        { apply Rsum_zero. intros x Hx. apply in_map_iff in Hx as (c & <- & Hc). apply in_seq in Hc.
          specialize (Hn c ltac:(lia)). unfold column. rewrite Hn. lra. }
        rewrite (Rsum_map_ext _ (fun c => Rsum (map (fun j => (dot n v (nth j qT []) * nth j s 0) * (entry vt j c * entry vt l c)) (seq 0 (length s))))) in Z.
        2:{ intros c Hc. apply in_seq in Hc. rewrite V3 by lia. rewrite <- Rsum_map_scal_r. apply Rsum_map_ext. intros; ring. }
        rewrite Rsum_swap in Z.
        rewrite (Rsum_map_ext _ (fun j => if Nat.eqb l j then dot n v (nth j qT []) * nth j s 0 else 0)) in Z.
        2:{ intros j Hj. apply in_seq in Hj. rewrite Rsum_map_scal.
            change (Rsum (map (fun c => entry vt j c * entry vt l c) (seq 0 k))) with (dot k (nth j vt []) (nth l vt [])).
            rewrite V2 by lia. rewrite Nat.eqb_sym. destruct (Nat.eqb l j); ring. }
        rewrite Rsum_delta in Z by auto.
        apply Rmult_integral in Z as [Z|Z]; [rewrite Z; ring|lra]. }
      rewrite E0, Rplus_0_l. apply Rsum_perm, Permutation_map.
      assert (E : firstn (n - rk) (rev qT) = rev (skipn rk qT)).
      { rewrite <- (firstn_skipn rk qT) at 1. rewrite rev_app_distr.
        assert (L : length (rev (skipn rk qT)) = (n - rk)%nat) by (rewrite rev_length, skipn_length; lia).
        rewrite firstn_app, L, Nat.sub_diag. simpl. rewrite app_nil_r. apply firstn_all2. lia. }
      rewrite E. apply Permutation_rev.
  Qed.
End Svd.

Lemma fltb_fin a b : fltb EROps (Fin a) (Fin b) = if Rlt_dec a b then true else false.
Proof.
  change (fltb EROps (Fin a) (Fin b)) with (nltb ROps a b). destruct (Rlt_dec a b) as [H|H].
  - now apply (proj2 (Rltb_true a b)).
  - apply (proj2 (Rltb_false a b)). lra.
Qed.

(** the relative condition number used, as a real *)
Definition rcond_value (eps : R) (n k : nat) (rcond : option R) : R :=
  match rcond with None => eps * IZR (Z.of_nat (Nat.max n k)) | Some r => if Rlt_dec r 0 then eps else r end.

Lemma resolve_null_basis_ok svd eps rcond A k qT s :
  svd (map (map Fin) A) = (map (map Fin) qT, map Fin s) -> svd_ok A k qT s -> matrix k A -> A <> [] ->
  0 <= rcond_value eps (length A) k rcond ->
  (forall x, In x s -> 0 < x -> rcond_value eps (length A) k rcond * hd 0 s < x) ->
  null_basis_at (resolve_null_basis EROps svd (Fin eps) (option_map Fin rcond)) k A.
Proof.
  intros E Hs HM HA Hrc Hthr. exists (rev qT), (length A - length (filter ispos s))%nat.
  split; [|now apply svd_null_ok].
  unfold resolve_null_basis. rewrite E, map_length.
  assert (Enc : ncols (map (map Fin) A) = k).
  { unfold ncols. destruct A as [|a A']; [congruence|]. cbn [map hd]. rewrite map_length. now inversion HM. }
  rewrite Enc.
  assert (Erc : resolve_rcond EROps (Fin eps) (length A) k (option_map Fin rcond) = Fin (rcond_value eps (length A) k rcond)).
  { destruct rcond as [r|]; [|reflexivity]. cbn [option_map resolve_rcond rcond_value]. change (f0 EROps) with (Fin 0 : ER).
    rewrite fltb_fin. destruct (Rlt_dec r 0); reflexivity. }
  rewrite Erc. set (rc := rcond_value eps (length A) k rcond) in *.
  rewrite map_rev. f_equal. f_equal. unfold mask_count. rewrite map_map, filter_map_len.
  destruct s as [|s0 s']; [reflexivity|].
  cbn [map]. change (fmul EROps (Fin rc) (Fin s0)) with (Fin (rc * s0) : ER). f_equal. apply filter_ext_in.
  intros x Hx. rewrite fltb_fin. unfold ispos. specialize (Hthr x Hx). simpl in Hthr.
  destruct (Rlt_dec 0 x) as [P|P]; destruct (Rlt_dec (rc * s0) x) as [Q|Q]; auto; exfalso.
  destruct Hs as (_ & _ & _ & _ & _ & S2 & _). inversion S2; subst.
    assert (0 <= rc * s0) by (apply Rmult_le_pos; auto). lra.
Qed.
