(** * MapReduce: the discrepancy of a merged coreset *)
From Coq Require Import List ZArith Reals Lra Lia Bool Permutation.
From Verif Require Import Num Jax RSum JaxFacts MeanSpec GreedySpec MetricSpec MetricProofs RateProofs RateProofs2.
Import ListNotations.
Open Scope R_scope.

Section Norm.
  Context {P : Type} (k : P -> P -> R) (Hk : psd k).
  Notation M := (list (P * R)).
  Definition nrm (a : M) : R := sqrt (bil k a a).
  Lemma nrm_pos a : 0 <= nrm a. Proof. apply sqrt_pos. Qed.
  Lemma nrm_app a b : nrm (a ++ b) <= nrm a + nrm b. Proof. now apply minkowski. Qed.
  Lemma nrm_scal c a : nrm (scal c a) = Rabs c * nrm a.
  Proof.
    unfold nrm. rewrite bil_scal_l, bil_scal_r, <- Rmult_assoc, sqrt_mult_alt by nra.
    f_equal. rewrite <- (sqrt_Rsqr_abs c). reflexivity.
  Qed.
  Lemma nrm_same a b : (forall f, lin a f = lin b f) -> nrm a = nrm b.
  Proof.
    intros H. unfold nrm. f_equal. rewrite !bil_lin. rewrite H. apply lin_ext. intro p. apply H.
  Qed.
  Lemma nrm_concat l : nrm (concat l) <= Rsum (map nrm l).
  Proof.
    induction l as [|a l IH]; cbn [concat map Rsum].
    - unfold nrm. change (bil k [] []) with 0. rewrite sqrt_0. lra.
    - eapply Rle_trans; [apply nrm_app|]. lra.
  Qed.
  Lemma lin_concat (l : list M) f : lin (concat l) f = Rsum (map (fun a => lin a f) l).
  Proof. induction l as [|a l IH]; [reflexivity|]. cbn [concat map Rsum]. now rewrite lin_app, IH. Qed.
  Lemma nrm_mmd xs w ys v : sqrt (mmd2 k xs w ys v) = nrm (nm xs w ++ scal (-1) (nm ys v)).
  Proof. unfold nrm. now rewrite <- mmd2_bil by apply Hk. Qed.
  Lemma nrm_nm (p0 : P) xs w kappa : length w = length xs -> (forall a, In a w -> 0 <= a) -> 0 < Rsum w ->
    (forall a, In a xs -> k a a <= kappa) -> nrm (nm xs w) <= sqrt kappa.
  Proof. intros. apply sqrt_le_1_alt. now apply (A_le p0). Qed.
End Norm.

Lemma lin_ones {P} (ys : list P) f : lin (nm ys (repeat 1 (length ys))) f = Rsum (map f ys) / INR (length ys).
Proof.
  unfold lin, nm. rewrite Rsum_repeat, Rmult_1_r, map_map. cbn [fst snd]. unfold Rdiv. rewrite <- Rsum_map_scal_r.
  generalize (/ INR (length ys)). intro c. induction ys as [|a ys IH]; [reflexivity|]. cbn [length repeat combine map Rsum fst snd].
  rewrite IH. ring.
Qed.
Lemma lin_wsum {P} (xs : list P) w f : Rsum w <> 0 -> Rsum w * lin (nm xs w) f = wsum f xs w.
Proof. intros H. rewrite <- wavg_lin_nm. unfold wavg. now field. Qed.

Section Merge.
  Context {P A : Type} (p0 : P) (k : P -> P -> R) (Hk : psd k) (X : A -> list P) (W : A -> list R) (kappa eps : R) (m p pad : nat).
  Definition leaf_ok (g : list P) (r : A) : Prop :=
    length (W r) = length (X r) /\ (forall v, In v (W r) -> v = 0 \/ v = 1) /\ 0 < Rsum (W r) /\ Rsum (W r) <= INR p /\
    (forall a, In a (X r) -> k a a <= kappa) /\ length g = m /\
    sqrt (mmd2 k (X r) (W r) g (repeat 1 m)) <= eps.
  Lemma merge_bound xs gs rs : Forall2 leaf_ok gs rs -> rs <> [] -> (1 <= m)%nat -> (1 <= p)%nat -> xs <> [] ->
    (forall f, Rsum (map f xs) = Rsum (map (fun r => wsum f (X r) (W r)) rs)) ->
    (length xs + pad = p * length rs)%nat ->
    sqrt (mmd2 k xs (repeat 1 (length xs)) (concat gs) (repeat 1 (length (concat gs))))
    <= eps + 2 * (INR pad / INR (length xs)) * sqrt kappa.
  Proof using p0 Hk.
    intros HF Hrs Hm Hp Hxs HX HN.
    set (n := INR (length xs)). set (N := INR (length rs)). set (q := INR p). set (z := INR pad).
    assert (Hn : 0 < n) by (apply lt_0_INR; destruct xs; [congruence|cbn; lia]).
    assert (HN0 : 0 < N) by (apply lt_0_INR; destruct rs; [congruence|cbn; lia]).
    assert (Hq : 0 < q) by (apply lt_0_INR; lia). assert (Hz : 0 <= z) by apply pos_INR.
    assert (Hmm : 0 < INR m) by (apply lt_0_INR; lia).
    assert (EN : n + z = q * N) by (unfold n, z, q, N; rewrite <- plus_INR, <- mult_INR; now rewrite HN).
    assert (GL : length (concat gs) = (length rs * m)%nat).
    { clear - HF. induction HF as [|g r gs rs H HF IH]; [reflexivity|]. cbn [concat length]. rewrite app_length, IH. destruct H as (_ & _ & _ & _ & _ & -> & _). lia. }
    set (Pm r := nm (X r) (W r)). set (Qm g := nm g (repeat 1 m) : list (P * R)). set (c r := Rsum (W r) / n - / N).
    set (term := fun gr : list P * A => scal (/ N) (Pm (snd gr) ++ scal (-1) (Qm (fst gr))) ++ scal (c (snd gr)) (Pm (snd gr))).
    rewrite (nrm_mmd k Hk).
    rewrite (nrm_same k _ (concat (map term (combine gs rs)))).
    - eapply Rle_trans; [apply (nrm_concat k Hk)|]. rewrite map_map.
      apply Rle_trans with (Rsum (map (fun r => / N * eps + Rabs (c r) * sqrt kappa) rs)).
      + clearbody N. clear - HF HN0 Hk p0. induction HF as [|g r gs rs H HF IH]; [cbn; lra|]. cbn [combine map Rsum].
        apply Rplus_le_compat; [|exact IH]. unfold term. cbn [fst snd]. destruct H as (H1 & H2 & H3 & H3' & H4 & H5 & H6).
        eapply Rle_trans; [apply (nrm_app k Hk)|]. rewrite !nrm_scal.
        apply Rplus_le_compat.
        * rewrite Rabs_right by (apply Rle_ge; left; now apply Rinv_0_lt_compat). apply Rmult_le_compat_l; [left; now apply Rinv_0_lt_compat|].
          rewrite (nrm_mmd k Hk) in H6. exact H6.
        * apply Rmult_le_compat_l; [apply Rabs_pos|]. apply (nrm_nm k Hk p0); auto. intros a Ha. destruct (H2 a Ha); lra.
      + rewrite Rsum_map_add, Rsum_map_const. fold N. rewrite Rsum_map_scal_r.
        replace (N * (/ N * eps)) with eps by (field; lra). apply Rplus_le_compat_l. apply Rmult_le_compat_r; [apply sqrt_pos|].
        (* sum of |p_r / n - 1 / N| *)
        assert (SW : Rsum (map (fun r => Rsum (W r)) rs) = n).
        { specialize (HX (fun _ => 1)). rewrite Rsum_map_const, Rmult_1_r in HX. fold n in HX. rewrite HX.
          clear - HF. induction HF as [|g r gs rs H HF IH]; [reflexivity|]. cbn [map Rsum]. rewrite IH. f_equal. destruct H as (H1 & _).
          unfold wsum. clear - H1. revert H1. generalize (X r). induction (W r) as [|a w IH]; intros [|b x] H; try discriminate; [reflexivity|]. cbn. rewrite <- IH by (cbn in H; lia). lra. }
        apply Rle_trans with (Rsum (map (fun r => (q - Rsum (W r)) / n + z / (n * N)) rs)).
        * clearbody N. clear - HF HN0 Hn Hz EN Hq. 
          assert (EQ : forall r, c r = z / (n * N) - (q - Rsum (W r)) / n).
          { intro r. unfold c. assert (z = q * N - n) as -> by lra. field. lra. }
          induction HF as [|g r gs rs H HF IH]; [cbn; lra|]. cbn [map Rsum]. apply Rplus_le_compat; [|exact IH].
          destruct H as (_ & _ & _ & H & _). fold q in H. rewrite EQ.
          assert (0 <= (q - Rsum (W r)) / n) by (apply Rmult_le_pos; [lra|left; now apply Rinv_0_lt_compat]).
          assert (0 <= z / (n * N)) by (apply Rmult_le_pos; [lra|left; apply Rinv_0_lt_compat; nra]).
          apply Rabs_le. lra.
        * rewrite Rsum_map_add, Rsum_map_const. fold N. unfold Rdiv at 1. rewrite Rsum_map_scal_r.
          rewrite (Rsum_map_ext (fun r => q - Rsum (W r)) (fun r => q + -1 * Rsum (W r))) by (intros; lra).
          rewrite Rsum_map_add, Rsum_map_const, (Rsum_map_scal (-1)), SW. fold N.
          right. assert (N * q = n + z) as -> by lra. field. lra.
    - intro f. rewrite lin_app, lin_scal. rewrite lin_concat, map_map.
      rewrite !lin_ones. rewrite HX. rewrite GL, mult_INR. fold N n.
      assert (E1 : Rsum (map (fun gr => lin (term gr) f) (combine gs rs))
                   = Rsum (map (fun r => wsum f (X r) (W r)) rs) / n - Rsum (map f (concat gs)) / (N * INR m)).
      { clearbody N. clear - HF HN0 Hn Hmm. induction HF as [|g r gs rs H HF IH]; [cbn; field; lra|]. cbn [combine map Rsum concat].
        rewrite IH, map_app, Rsum_app. unfold term at 1. cbn [fst snd]. rewrite !lin_app, !lin_scal, lin_app, lin_scal.
        destruct H as (H1 & H2 & H3 & H3' & H4 & H5 & H6).
        pose proof (lin_wsum (X r) (W r) f ltac:(lra)) as E. fold (Pm r) in E. unfold Qm. rewrite <- H5, lin_ones, H5.
        rewrite <- E. unfold c. field. lra. }
      rewrite E1. field. lra.
  Qed.
End Merge.
