(** * Expected residual of randomly pivoted Cholesky: the loop of the solver *)
From Coq Require Import List ZArith Bool Reals Lia Lra.
From Verif Require Import Num Jax RSum JaxFacts DataModel GreedyModel CholModel CholSpec MetricSpec MetricProofs
  MapReduceProofs3 GreedyProofs CholProofs CholProofs2 HalvingSpec HalvingProofs PivotSpec PivotProofs PivotProofs2.
From Coquelicot Require Import Coquelicot.
Import ListNotations.
Open Scope R_scope.

Section Picks.
  Context {P : Type} (p0 : P).
  Variable s : @rpcholesky ER P.
  Variable k : P -> P -> R.
  Variable x : list P.
  Notation n := (length x).
  Notation m := (ch_size s).
  Notation K := (fun i j => k (nth i x p0) (nth j x p0)).
  Hypothesis Hpick : pick_ok (ch_pick s).
  Hypothesis Hk : forall a b, ch_kernel s a b = Fin (k a b).
  Hypothesis Hpsd : psd k.
  Hypothesis Hm : (m <= n)%nat.
  Notation init := (mkC (map (fun a => ch_kernel s a a) x) (repeat (repeat (f0 EROps) m) n) (repeat (Z.of_nat n + 1)%Z m)).
  Notation live l := (exists i, (i < n)%nat /\ residual K l i i <> 0).

  Lemma valid_live t st l G : tinv p0 s k x t st l G -> live l ->
    valid_residuals EROps (c_diag st) (available n (c_ind st)) = map Fin (dg n K l).
  Proof.
    intros [Tp Td Tm Tg Tz Tr Tw] [i [Hi Ni]].
    assert (E : map Fin (dg n K l) = c_diag st) by (rewrite Td; unfold dg; now rewrite map_map).
    rewrite E. unfold valid_residuals.
    replace (forallb (fun v => feqb EROps v (f0 EROps)) (c_diag st)) with false.
    - replace (existsb (fisnan EROps) (c_diag st)) with false; [reflexivity|].
      symmetry. rewrite Td. clear. induction (seq 0 n); simpl; auto.
    - symmetry. destruct (forallb _ _) eqn:F; auto. rewrite forallb_forall in F.
      specialize (F (Fin (residual K l i i))). exfalso.
      assert (X : feqb EROps (Fin (residual K l i i)) (f0 EROps) = true).
      { apply F. rewrite Td. apply (in_map (fun i => Fin (residual K l i i))). apply in_seq. lia. }
      unfold feqb, fleb in X. cbn in X. apply andb_true_iff in X as [X1 X2].
      apply negb_true_iff in X1, X2. apply Rltb_false in X1, X2. apply Ni. lra.
  Qed.

  Lemma chol_picks : forall t, (t <= m)%nat ->
    exists l, length l = t /\
      c_ind (fori t (chol_body EROps p0 s x) init) = map Z.of_nat l ++ repeat (Z.of_nat n + 1)%Z (m - t) /\
      (forall i, In i l -> (i < n)%nat) /\
      ((forall u, (u < t)%nat -> live (firstn u l)) -> exists G, tinv p0 s k x t (fori t (chol_body EROps p0 s x) init) l G) /\
      (forall u, (u < t)%nat -> (forall v, (v <= u)%nat -> live (firstn v l)) ->
         nth u l 0%nat = ch_pick s u (map Fin (dg n K (firstn u l)))).
  Proof using Hpick Hk Hpsd Hm.
    intro t. induction t as [|t IH]; intros Ht.
    - exists []. cbn [fori length c_ind map app]. rewrite Nat.sub_0_r. split; auto. split; auto. split; [contradiction|]. split; [|intros; lia].
      intros _. eexists. now apply track_init.
    - destruct IH as [l [L1 [L2 [L3 [L4 L5]]]]]; [lia|]. rewrite fori_S.
      set (st := fori t _ _) in *.
      set (p := ch_pick s t (valid_residuals EROps (c_diag st) (available n (c_ind st)))).
      assert (FN : forall u, (u <= t)%nat -> firstn u (l ++ [p]) = firstn u l).
      { intros u Hu. rewrite firstn_app. replace (u - length l)%nat with 0%nat by lia. simpl. apply app_nil_r. }
      exists (l ++ [p]). split; [rewrite app_length; simpl; lia|]. split; [|split; [|split]].
      + unfold chol_body. cbn [c_ind]. fold p. rewrite L2. rewrite <- L1 at 1. rewrite <- (map_length Z.of_nat l).
        rewrite upd_app_repeat by lia. rewrite map_app. simpl. f_equal. f_equal. lia.
      + intros i Hi. apply in_app_iff in Hi as [Hi|[<-|[]]]; auto. unfold p.
        pose proof (chol_loop p0 s x Hpick (map (fun a => ch_kernel s a a) x) Hm) as CL.
        destruct CL with (t := t) as [l' CI]; [apply map_length| |lia|].
        { apply Forall_forall. intros v Hv. apply in_map_iff in Hv as [a [<- _]]. rewrite Hk. right. eexists; split; [reflexivity|]. now apply psd_diag. }
        fold st in CI. now apply (pick_new s x Hpick t st l' CI).
      + intros HX. destruct L4 as [G T].
        { intros u Hu. specialize (HX u ltac:(lia)). now rewrite FN in HX by lia. }
        specialize (HX t ltac:(lia)). rewrite FN, <- L1, firstn_all in HX by lia.
        eexists. apply track_step; [exact Hpick|exact Hk|exact T|lia|exact HX].
      + intros u Hu HX. rewrite FN by lia. destruct (Nat.eq_dec u t) as [->|Ne].
        * rewrite <- L1 at 1. rewrite nth_middle. rewrite <- L1 at 2. rewrite firstn_all.
          destruct L4 as [G T]; [intros v Hv; specialize (HX v ltac:(lia)); now rewrite FN in HX by lia|].
          specialize (HX t ltac:(lia)). rewrite FN, <- L1, firstn_all in HX by lia.
          unfold p. now rewrite (valid_live t st l G T HX).
        * rewrite app_nth1 by lia. apply L5; [lia|]. intros v Hv. specialize (HX v Hv). now rewrite FN in HX by lia.
  Qed.
End Picks.
Lemma live_trace {P} (p0 : P) k x l : psd k -> let K := fun i j => k (nth i x p0) (nth j x p0) in
  tq (length x) (residual K l) <> 0 -> exists i, (i < length x)%nat /\ residual K l i i <> 0.
Proof.
  intros _ K H. unfold tq in H.
  assert (G : exists i, In i (seq 0 (length x)) /\ residual K l i i <> 0).
  { revert H. induction (seq 0 (length x)) as [|a la IH]; intro H; [cbn in H; lra|].
    destruct (Req_dec (residual K l a a) 0) as [Z|Z]; [|exists a; split; [now left|exact Z]].
    destruct IH as (i & Hi & Ni); [cbn [map Rsum] in H; lra|]. exists i. split; [now right|exact Ni]. }
  destruct G as (i & Hi & Ni). exists i. apply in_seq in Hi. split; [lia|exact Ni].
Qed.
