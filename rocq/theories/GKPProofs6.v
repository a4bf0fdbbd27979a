(** * Greedy kernel points: results for reduce and refine *)
From Coq Require Import List ZArith Bool Reals Permutation Lia Lra.
From Verif Require Import Num Jax RSum JaxFacts ArgFacts DataModel GreedyModel UtilModel GKPModel MetricSpec GKPSpec
  DataMeanLemmas MapReduceProofs MapReduceProofs3 GreedyProofs CholProofs GKPProofs GKPProofs2 GKPProofs3 GKPProofs4 GKPProofs5.
Import ListNotations.
Open Scope nat_scope.

Lemma squared_error_loss {P} (p0 : P) k x y c a batch :
  squared_error p0 k x y c a batch = (fit_loss p0 k x y c a batch + Rsum (map (fun l => yz y l ^ 2) batch))%R.
Proof. unfold squared_error, fit_loss. rewrite <- Rsum_map_add. apply Rsum_map_ext. intros. ring. Qed.

Lemma is_mat_gram {P} (p0 : P) k x c : is_mat (length c) (length c) (gram_of p0 k x c).
Proof.
  split; unfold gram_of; [now rewrite map_length|]. intros row H. apply in_map_iff in H as [i [<- _]]. now rewrite map_length.
Qed.
Lemma symmetric_gram {P} (p0 : P) k x c : (forall a b, k a b = k b a) -> symmetric (gram_of p0 k x c).
Proof.
  intros Sy i j. unfold gram_of.
  assert (G : forall u v, nth v (nth u (map (fun i => map (kz p0 k x i) c) c) []) 0%R
     = if (u <? length c) && (v <? length c) then kz p0 k x (nth u c 0%Z) (nth v c 0%Z) else 0%R).
  { intros u v. destruct (Nat.ltb_spec u (length c)); cbn [andb].
    - rewrite (nth_map_lt _ c u 0%Z) by assumption. destruct (Nat.ltb_spec v (length c)).
      + now rewrite (nth_map_lt _ c v 0%Z) by assumption.
      + apply nth_overflow. now rewrite map_length.
    - rewrite (nth_overflow (map _ c)) by (now rewrite map_length). now destruct v. }
  rewrite !G, andb_comm. destruct (_ && _); [|reflexivity]. unfold kz. rewrite orb_comm. destruct (_ || _); [reflexivity|apply Sy].
Qed.

Lemma flag_consistent idx0 t c : length c = length idx0 -> (forall u, t < u -> nth u c 0%Z = nth u idx0 0%Z) -> consistent c (flagR idx0 t).
Proof.
  intros L H. split; [unfold flagR; rewrite map_length, seq_length; lia|]. intros u Hu Nn. unfold flagR.
  rewrite (nth_map_lt _ (seq 0 (length idx0)) u 0) by (rewrite seq_length; lia). rewrite seq_nth by lia. cbn [plus].
  destruct (Nat.leb_spec u t); cbn [orb]; auto. rewrite H in Nn by assumption. destruct (Z.ltb_spec (nth u idx0 0%Z) 0); cbn [negb]; [lia|reflexivity].
Qed.

Lemma active_all c : (forall i, In i c -> (0 <= i)%Z) -> active c = c.
Proof.
  intros H. unfold active. induction c as [|a c IH]; simpl; auto. destruct (Z.leb_spec 0 a); [f_equal; apply IH; intros; apply H; now right|].
  specialize (H a (or_introl eq_refl)). lia.
Qed.

Section Results.
  Context {P K : Type} (p0 : P) (s : gkp (V := ER) (P := P) (K := K)) (k : P -> P -> R) (reg : R)
    (solveR : list (list R) -> R -> list R -> list (list R) -> list R).
  Variables (x : list P) (w : list ER) (y : list R) (idx : list Z) (cw : list ER).
  Notation n := (length x).
  Notation m := (gk_size s).
  Notation d := (mkData x w (Some (map Fin y))).
  Notation idx0 := (initial_indices m idx).
  Notation cb := (batch_size (gk_candidates s) n).
  Notation lb := (batch_size (gk_loss s) n).
  Hypothesis Hy : length y = n.
  Hypothesis Hk : gk_kernel s = fun a b => Fin (k a b).
  Hypothesis Hreg : gk_reg s = Fin reg.
  Hypothesis FS : finite_solver (gk_solve s) solveR.
  Hypothesis Hs : split_ok (gk_split s).
  Hypothesis Hp : permutation_ok (gk_permutation s).
  Hypothesis Hc : batch_arg_ok (gk_candidates s).
  Hypothesis Hl : batch_arg_ok (gk_loss s).
  Hypothesis Hm : m <= n.
  Hypothesis Hn : 0 < n.

  Notation fitted := (fitted p0 k x y reg).
  Notation squared_error := (squared_error p0 k x y).
  Notation objective := (objective p0 s k reg solveR x y idx).
  Notation OUT res := (gkp_refine EROps p0 s (mkCS idx cw d) None = Ok (mkCS res (repeat (Fin 1%R) m) d, padded_gramian EROps (gk_kernel s) x)).

  Lemma objective_fitted su t c : least_squares_ok m solveR -> (forall a b, k a b = k b a) ->
    length c = m -> (forall u, t < u -> nth u c 0%Z = nth u idx0 0%Z) ->
    exists a, fitted (active c) a /\
      (squared_error (active c) a (nth t (su_loss su) []) = objective su t c + Rsum (map (fun l => yz y l ^ 2) (nth t (su_loss su) [])))%R.
  Proof.
    intros LS Sy L T. assert (C : consistent c (flagR idx0 t)) by (apply flag_consistent; [now rewrite initial_indices_length|exact T]).
    assert (M : is_min_norm (Rridge (gram_of p0 k x c) (Rabs reg) (Rdiag (flagR idx0 t))) (responses_of y c)
                 (solveR (gram_of p0 k x c) (Rabs reg) (responses_of y c) (Rdiag (flagR idx0 t)))).
    { apply LS; [rewrite <- L; apply is_mat_gram|now apply symmetric_gram|apply Rabs_pos|unfold responses_of; now rewrite map_length|rewrite (proj1 C); exact L]. }
    destruct (padding_ignored p0 k x y (Rabs reg) c _ _ C M) as [a [A1 A2]]. exists a. split; [exact A1|].
    rewrite squared_error_loss. f_equal. unfold GKPProofs3.objective, fit_loss. apply Rsum_map_ext. intros l Hin. now rewrite <- A2.
  Qed.

  Lemma fitted_unique c a a' : fitted c a -> fitted c a' -> a = a'.
  Proof. apply min_norm_unique. Qed.

  Lemma best_candidate : least_squares_ok m solveR -> (forall a b, k a b = k b a) -> Forall (valid n) idx0 ->
    exists res candidates losses, OUT res /\ length res = m /\
    forall t, t < m ->
      (exists batch : list nat, candidates t = map Z.of_nat batch ++ (if (cb <? Z.of_nat n)%Z then [nth t idx0 0%Z] else []) /\
        length batch = Z.to_nat cb /\ NoDup batch /\ (forall i, In i batch -> i < n)) /\
      (exists batch : list nat, losses t = map Z.of_nat batch /\ NoDup batch /\ (forall i, In i batch -> i < n) /\
        (lb = Z.of_nat n -> Permutation batch (seq 0 n))) /\
      In (nth t res 0%Z) (candidates t) /\
      let with_ b := firstn t res ++ b :: skipn (S t) idx0 in
      let ok b := gk_unique s = true -> ~ In b (firstn t res ++ -1 :: skipn (S t) idx0)%Z in
      forall b, In b (candidates t) -> ok b ->
        ok (nth t res 0%Z) /\
        (exists a, fitted (active (with_ (nth t res 0%Z))) a) /\ (exists a, fitted (active (with_ b)) a) /\
        forall a a', fitted (active (with_ (nth t res 0%Z))) a -> fitted (active (with_ b)) a' ->
          (squared_error (active (with_ (nth t res 0%Z))) a (losses t) <= squared_error (active (with_ b)) a' (losses t))%R.
  Proof.
    intros LS Sy Hv.
    destruct (gkp_run p0 s k reg solveR x w y idx cw Hy Hk Hreg FS Hs Hp Hc Hl Hm Hn Hv) as [su [res [ES [SS [RL [E [VR TR]]]]]]].
    exists res, (fun t => nth t (su_cand su) []), (fun t => nth t (su_loss su) []). split; [exact E|]. split; [exact RL|].
    intros t Ht. split; [|split; [|split]].
    - destruct (ss_row _ _ _ _ SS t Ht) as [b [A [B [C [D _]]]]]. exists b. auto.
    - exact (ss_loss _ _ _ _ SS t Ht).
    - apply (TR t Ht).
    - destruct (TR t Ht) as [TI TB].
      assert (LI := initial_indices_length m idx).
      assert (W : forall b, upd t b (firstn t res ++ skipn t idx0) = firstn t res ++ b :: skipn (S t) idx0).
      { intros b. assert (LF : length (firstn t res) = t) by (rewrite firstn_length; lia).
        assert (NE : exists a, skipn t idx0 = a :: skipn (S t) idx0).
        { exists (nth t idx0 0%Z). clear -Ht LI. revert Ht LI. generalize idx0. revert t. generalize m. intros mm t l Ht LI.
          revert mm t Ht LI. induction l as [|a l IH]; intros mm [|t] Ht LI; simpl in *; try lia; auto. destruct mm; [lia|]. apply (IH mm); lia. }
        destruct NE as [a ->]. rewrite upd_sp by (rewrite app_length; simpl; lia).
        rewrite firstn_app, LF, Nat.sub_diag, firstn_all2 by lia. simpl firstn. rewrite app_nil_r. f_equal. f_equal.
        rewrite skipn_app, skipn_all2 by lia. rewrite LF. replace (S t - t) with 1 by lia. reflexivity. }
      cbn zeta. intros b Ib Ab. unfold others in TB. rewrite W in TB.
      assert (ADM : gk_unique s = false \/ exists b, In b (nth t (su_cand su) []) /\ ~ In b (firstn t res ++ -1 :: skipn (S t) idx0)%Z).
      { destruct (gk_unique s); [right; exists b; auto|now left]. }
      destruct (TB ADM) as [T1 T2]. split; [exact T1|].
      assert (OF : forall b, exists a, fitted (active (firstn t res ++ b :: skipn (S t) idx0)) a /\
        (squared_error (active (firstn t res ++ b :: skipn (S t) idx0)) a (nth t (su_loss su) [])
         = objective su t (firstn t res ++ b :: skipn (S t) idx0) + Rsum (map (fun l => yz y l ^ 2) (nth t (su_loss su) [])))%R).
      { intros b'. apply (objective_fitted su t _ LS Sy).
        - rewrite app_length, firstn_length. cbn [length]. rewrite skipn_length. lia.
        - intros u Hu. rewrite <- W. rewrite nth_upd_neq by lia. rewrite app_nth2 by (rewrite firstn_length; lia).
          rewrite firstn_length, Nat.min_l by lia. rewrite <- (firstn_skipn t idx0) at 2. rewrite app_nth2 by (rewrite firstn_length; lia).
          rewrite firstn_length, Nat.min_l by lia. reflexivity. }
      destruct (OF (nth t res 0%Z)) as [a1 [F1 Q1]]. destruct (OF b) as [a2 [F2 Q2]].
      split; [now exists a1|]. split; [now exists a2|]. intros a a' Fa Fa'.
      rewrite (fitted_unique _ a a1 Fa F1), (fitted_unique _ a' a2 Fa' F2), Q1, Q2.
      apply Rplus_le_compat_r. rewrite <- !W. apply T2; auto.
  Qed.

  (** distinct, in-range indices *)
  Lemma distinct_results : gk_unique s = true -> good n idx0 ->
    ((forall t, t < m -> nth t idx0 0%Z <> (-1)%Z) \/ m <= Z.to_nat cb) ->
    exists res, OUT res /\ length res = m /\ NoDup res /\ Forall (in_range n) res.
  Proof.
    intros U G Big. assert (Hv : Forall (valid n) idx0) by (apply Forall_forall; intros i Hi; apply (proj2 G) in Hi; exact Hi).
    destruct (gkp_run p0 s k reg solveR x w y idx cw Hy Hk Hreg FS Hs Hp Hc Hl Hm Hn Hv) as [su [res [ES [SS [RL [E [VR TR]]]]]]].
    exists res. split; [exact E|]. split; [exact RL|]. rewrite Forall_forall.
    apply (trace_distinct s idx n su Hc SS res RL G Big). intros u Hu. destruct (TR u Hu) as [T1 T2]. split; [exact T1|].
    intros EX. apply T2; auto.
  Qed.

  Lemma in_range_results : Forall (valid n) idx0 ->
    ((forall t, t < m -> nth t idx0 0%Z <> (-1)%Z) \/ cb = Z.of_nat n) ->
    exists res, OUT res /\ length res = m /\ Forall (in_range n) res.
  Proof.
    intros Hv Big.
    destruct (gkp_run p0 s k reg solveR x w y idx cw Hy Hk Hreg FS Hs Hp Hc Hl Hm Hn Hv) as [su [res [ES [SS [RL [E [VR TR]]]]]]].
    exists res. split; [exact E|]. split; [exact RL|]. apply Forall_forall. intros i Hi.
    apply In_nth with (d := 0%Z) in Hi as [t [Ht <-]]. rewrite RL in Ht. destruct (TR t Ht) as [T1 _].
    destruct Big as [Big|Big].
    - destruct (candidate_cases s idx n su t _ SS Ht T1) as [Q|Q]; [exact Q|]. specialize (Big t Ht). rewrite <- Q in Big.
      rewrite Forall_forall in VR. destruct (VR (nth t res 0%Z)); [apply nth_In; lia|assumption|contradiction].
    - destruct (ss_row _ _ _ _ SS t Ht) as [b [E1 [_ [_ [R _]]]]]. rewrite E1, Big, Z.ltb_irrefl, app_nil_r in T1.
      apply in_map_iff in T1 as [i [<- Hi]]. apply R in Hi. unfold in_range. lia.
  Qed.

  (** refining a full-size coreset on the full loss never makes the fit worse *)
  Lemma never_worse : least_squares_ok m solveR -> (forall a b, k a b = k b a) ->
    m <= length idx -> Forall (in_range n) (firstn m idx) -> (gk_unique s = true -> NoDup (firstn m idx)) -> lb = Z.of_nat n ->
    exists res, OUT res /\ length res = m /\ Forall (in_range n) res /\
      (exists a, fitted (firstn m idx) a) /\ (exists a, fitted res a) /\
      forall a a', fitted (firstn m idx) a -> fitted res a' ->
        (squared_error res a' (map Z.of_nat (seq 0 n)) <= squared_error (firstn m idx) a (map Z.of_nat (seq 0 n)))%R.
  Proof.
    intros LS Sy Lm R0 ND FL.
    assert (EI : idx0 = firstn m idx) by (unfold initial_indices; destruct (Nat.ltb_spec (length idx) m); [lia|reflexivity]).
    assert (LI := initial_indices_length m idx).
    rewrite Forall_forall in R0. rewrite <- EI in *.
    assert (Hv : Forall (valid n) idx0) by (apply Forall_forall; intros i Hi; left; auto).
    assert (NM : forall t, t < m -> nth t idx0 0%Z <> (-1)%Z).
    { intros t Ht E. assert (I : in_range n (nth t idx0 0%Z)) by (apply R0, nth_In; lia). unfold in_range in I. lia. }
    destruct (gkp_run p0 s k reg solveR x w y idx cw Hy Hk Hreg FS Hs Hp Hc Hl Hm Hn Hv) as [su [res [ES [SS [RL [E [VR TR]]]]]]].
    assert (IR : forall i, In i res -> in_range n i).
    { intros i Hi. apply In_nth with (d := 0%Z) in Hi as [t [Ht <-]]. rewrite RL in Ht. destruct (TR t Ht) as [T1 _].
      destruct (candidate_cases s idx n su t _ SS Ht T1) as [Q|Q]; [exact Q|]. rewrite Q. apply R0, nth_In. lia. }
    assert (DR : gk_unique s = true -> forall u, u <= m -> NoDup (firstn u res ++ skipn u idx0)).
    { intros U u Hu. assert (G0 : good n idx0).
      { split; [|intros i Hi; left; auto]. apply NoDup_filter. now apply ND. }
      assert (TG := trace_good s idx n su Hc SS res RL G0 (or_introl NM)).
      destruct (TG) with (u := u) as [[G1 G2] _]; [|exact Hu|].
      - intros t Ht. destruct (TR t Ht) as [T1 T2]. split; [exact T1|]. intros EX. apply T2; auto.
      - assert (EQ : occupied (firstn u res ++ skipn u idx0) = firstn u res ++ skipn u idx0).
        { unfold occupied. assert (F : forall l, (forall i, In i l -> in_range n i) -> filter (fun i => negb (i =? -1)%Z) l = l).
          { clear. intros l H. induction l as [|a l IH]; simpl; auto. rewrite IH by (intros; apply H; now right).
            specialize (H a (or_introl eq_refl)). unfold in_range in H. destruct (Z.eqb_spec a (-1)); [lia|reflexivity]. }
          apply F. intros i Hi. apply in_app_iff in Hi as [Hi|Hi].
          - apply IR. rewrite <- (firstn_skipn u res). apply in_app_iff. now left.
          - apply R0. rewrite <- (firstn_skipn u idx0). apply in_app_iff. now right. }
        rewrite EQ in G1. exact G1. }
    exists res. split; [exact E|]. split; [exact RL|]. split; [apply Forall_forall; exact IR|].
    set (all := map Z.of_nat (seq 0 n)).
    (* the objective at step t, on a coreset of in-range indices *)
    assert (OB : forall t c, t < m -> length c = m -> (forall u, t < u -> nth u c 0%Z = nth u idx0 0%Z) -> (forall i, In i c -> in_range n i) ->
       exists a, fitted c a /\ (squared_error c a all = objective su t c + Rsum (map (fun l => yz y l ^ 2) all))%R).
    { intros t c Ht Lc Tc Rc. destruct (objective_fitted su t c LS Sy Lc Tc) as [a [F Q]].
      rewrite active_all in F, Q by (intros i Hi; apply Rc in Hi; unfold in_range in Hi; lia). exists a. split; [exact F|].
      destruct (ss_loss _ _ _ _ SS t Ht) as [b [Eb [_ [_ Pm]]]]. specialize (Pm FL).
      assert (PL : Permutation (nth t (su_loss su) []) all) by (rewrite Eb; now apply Permutation_map).
      assert (S1 : forall f : Z -> R, Rsum (map f (nth t (su_loss su) [])) = Rsum (map f all)) by (intros f; apply Rsum_perm; now apply Permutation_map).
      rewrite <- (S1 (fun l => yz y l ^ 2)%R), <- Q. unfold GKPSpec.squared_error. symmetry. apply S1. }
    assert (CL : forall u, u <= m -> length (firstn u res ++ skipn u idx0) = m) by (intros u Hu; rewrite app_length, firstn_length, skipn_length; lia).
    assert (CR : forall u i, In i (firstn u res ++ skipn u idx0) -> in_range n i).
    { intros u i Hi. apply in_app_iff in Hi as [Hi|Hi].
      - apply IR. rewrite <- (firstn_skipn u res). apply in_app_iff. now left.
      - apply R0. rewrite <- (firstn_skipn u idx0). apply in_app_iff. now right. }
    assert (CN : forall u v, u <= v -> u <= m -> nth v (firstn u res ++ skipn u idx0) 0%Z = nth v idx0 0%Z).
    { intros u v Huv Hu. rewrite app_nth2 by (rewrite firstn_length; lia). rewrite firstn_length, Nat.min_l by lia.
      rewrite <- (firstn_skipn u idx0) at 2. rewrite app_nth2 by (rewrite firstn_length; lia). rewrite firstn_length, Nat.min_l by lia. reflexivity. }
    assert (STEP : forall u, u <= m -> (exists a, fitted (firstn u res ++ skipn u idx0) a) /\
       (m = 0 \/ exists a0 au, fitted idx0 a0 /\ fitted (firstn u res ++ skipn u idx0) au /\
       (squared_error (firstn u res ++ skipn u idx0) au all <= squared_error idx0 a0 all)%R)).
    { induction u as [|u IH]; intros Hu.
      - cbn [firstn skipn app]. destruct (Nat.eq_dec m 0) as [Z|Z].
        + split; [|now left]. assert (idx0 = []) as -> by (destruct idx0; [reflexivity|simpl in LI; lia]). exists [].
          split; [reflexivity|]. intros [|z z'] Hz; [|discriminate]. split; intros; lra.
        + destruct (OB 0 idx0) as [a [F Q]]; try lia; auto.
          split; [now exists a|]. right. exists a, a. split; [exact F|]. split; [exact F|lra].
      - destruct IH as [_ [IH|[a0 [au [F0 [Fu LE]]]]]]; [lia|lia|].
        set (cur := firstn u res ++ skipn u idx0) in *.
        assert (ES2 : firstn (S u) res ++ skipn (S u) idx0 = upd u (nth u res 0%Z) cur).
        { apply (cur_S s idx n res RL (or_introl NM)). lia. }
        assert (UC : upd u (nth u cur 0%Z) cur = cur) by (apply upd_same).
        destruct (OB u cur) as [a1 [F1 Q1]]; [lia|apply CL; lia|intros v Hv'; apply CN; lia|apply CR|].
        destruct (OB u (upd u (nth u res 0%Z) cur)) as [a2 [F2 Q2]]; [lia|rewrite upd_length; apply CL; lia|..].
        + intros v Hv'. rewrite nth_upd_neq by lia. apply CN; lia.
        + rewrite <- ES2. apply CR.
        + rewrite ES2. split; [now exists a2|]. right. exists a0, a2. split; [exact F0|]. split; [exact F2|].
          rewrite (fitted_unique _ au a1 Fu F1) in LE. apply Rle_trans with (squared_error cur a1 all); [|exact LE].
          rewrite Q1, Q2. apply Rplus_le_compat_r. destruct (TR u ltac:(lia)) as [T1 T2]. fold cur in T2.
          assert (OWN : In (nth u cur 0%Z) (nth u (su_cand su) [])).
          { unfold cur. rewrite CN by lia. apply (own_candidate s idx n Hc su u SS); [lia|]. apply R0, nth_In. lia. }
          assert (ADM : gk_unique s = true -> ~ In (nth u cur 0%Z) (others u cur)).
          { intros U I. unfold others in I. assert (LC : length cur = m) by (apply CL; lia). rewrite upd_sp in I by lia.
            assert (NDc : NoDup cur) by (apply DR; [exact U|lia]).
            rewrite <- UC in NDc. rewrite upd_sp in NDc by lia. apply NoDup_remove_2 in NDc.
            apply in_app_iff in I as [I|[I|I]].
            - apply NDc, in_app_iff. now left.
            - assert (RR : in_range n (nth u cur 0%Z)) by (unfold cur; apply (CR u), nth_In; fold cur; lia). unfold in_range in RR. lia.
            - apply NDc, in_app_iff. now right. }
          rewrite <- UC at 2. apply T2; auto. destruct (gk_unique s); [right|now left]. exists (nth u cur 0%Z). auto. }
    destruct (STEP 0) as [[a0 F0] _]; [lia|]. cbn [firstn skipn app] in F0.
    assert (FIN : firstn m res ++ skipn m idx0 = res) by (rewrite firstn_all2, skipn_all2, app_nil_r by lia; reflexivity).
    destruct (STEP m) as [[am Fm] LE]; [lia|]. rewrite FIN in Fm, LE.
    split; [now exists a0|]. split; [now exists am|]. intros a a' Fa Fa'.
    destruct LE as [Z|[b0 [bm [G0 [Gm LE]]]]].
    - assert (res = idx0) as -> by (destruct res, idx0; simpl in *; auto; lia). rewrite (fitted_unique _ a a' Fa Fa'). lra.
    - rewrite (fitted_unique _ a b0 Fa G0), (fitted_unique _ a' bm Fa' Gm). exact LE.
  Qed.
End Results.
