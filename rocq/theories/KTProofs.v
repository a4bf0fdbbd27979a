(** * Proofs about kernel halving: the partition *)
From Coq Require Import List ZArith Lia Bool Permutation.
From Verif Require Import Num Jax JaxFacts DataModel MeanModel GreedyModel MetricModel CholModel MapReduceModel
  MapReduceProofs CholProofs KTModel KTSpec.
Import ListNotations.
Open Scope nat_scope.

Lemma pairs_perm fl n :
  Permutation (map (fun i => pair_first (fl i) i) (seq 0 n) ++ map (fun i => pair_second (fl i) i) (seq 0 n))
              (seq 0 (2 * n)).
Proof.
  induction n as [|n IH]; [constructor|].
  rewrite !seq_S. cbn [plus]. rewrite !map_app. cbn [map].
  replace (2 * S n) with (2 * n + 2) by lia. rewrite seq_app. cbn [seq plus].
  set (A := map (fun i => pair_first (fl i) i) (seq 0 n)) in *. set (B := map (fun i => pair_second (fl i) i) (seq 0 n)) in *.
  transitivity ((A ++ B) ++ [pair_first (fl n) n; pair_second (fl n) n]).
  { rewrite <- !app_assoc. apply Permutation_app_head. cbn [app].
apply Permutation_middle. }
  apply Permutation_app; [exact IH|]. unfold pair_first, pair_second.
  destruct (fl n).
  - rewrite perm_swap. replace (S (2 * n)) with (2 * n + 1) by lia. reflexivity.
  - replace (S (2 * n)) with (2 * n + 1) by lia. reflexivity.
Qed.

Lemma map_nth_id {A} (d : A) l : map (fun i => nth i l d) (seq 0 (length l)) = l.
Proof.
  assert (E : forall pre, map (fun i => nth i (pre ++ l) d) (seq (length pre) (length l)) = l).
  { induction l as [|a l IH]; intros pre; [reflexivity|]. cbn [length seq map].
    rewrite app_nth2, Nat.sub_diag by lia. cbn [nth]. f_equal.
    specialize (IH (pre ++ [a])). rewrite <- app_assoc in IH. rewrite app_length in IH. cbn [length app] in IH.
    rewrite Nat.add_1_r in IH. exact IH. }
  exact (E []).
Qed.
Lemma map_nth_perm {A} (d : A) l is : Permutation is (seq 0 (length l)) ->
  Permutation (map (fun i => nth i l d) is) l.
Proof.
  intros H. etransitivity; [apply Permutation_map, H|]. now rewrite map_nth_id.
Qed.

Section Halving.
  Context {V : Type} (O : FOps V) {P Y K : Type} (p0 : P) (y0 : Y).
  Notation data := (Data P Y V).
  Notation cs := (Coresubset P Y V).

  (** the decision of one step *)
  Definition decision (s : kthin V P K) (orig : list P) (i : nat) (st : hstate V K) : bool :=
    let e := (2 * Z.of_nat i)%Z in
    let x1 := jget p0 orig e in
    let x2 := jget p0 orig (e + 1) in
    fst (should_swap O s (fst (a_and_sigma O (kt_log s) (kt_delta s) (kernel_distance O (kt_sqrt s) x1 x2) (h_sigma st)))
           (get_alpha O p0 (kt_sqrt s) orig x1 x2 (h_first st) (h_mask st) (h_cmask st)) (h_key st)).
  Lemma body_first s orig i st :
    h_first (kt_body O p0 s orig i st) = jset (h_first st) (Z.of_nat i) (Z.of_nat (pair_first (decision s orig i st) i)) /\
    h_second (kt_body O p0 s orig i st) = jset (h_second st) (Z.of_nat i) (Z.of_nat (pair_second (decision s orig i st) i)).
  Proof.
    unfold kt_body, decision. cbv zeta.
    destruct (a_and_sigma O (kt_log s) (kt_delta s) _ (h_sigma st)) as [a sg]. cbn [fst].
    destruct (should_swap O s a _ (h_key st)) as [sw key]. cbn [fst].
    destruct sw; cbn [h_first h_second]; unfold pair_first, pair_second; split; f_equal; lia.
  Qed.
  Definition start (s : kthin V P K) (n : nat) : hstate V K :=
    mkH (repeat 0%Z n) (repeat 0%Z n) (f0 O) (repeat (f0 O) (2 * n)) (repeat (f0 O) n) (kt_key s).
  (** decision taken at step [i] of a run *)
  Definition run_decision s orig n (i : nat) : bool :=
    decision s orig i (fori i (kt_body O p0 s orig) (start s n)).

  Lemma half_indices s orig n i : i <= n ->
    h_first (fori i (kt_body O p0 s orig) (start s n))
    = map Z.of_nat (map (fun j => pair_first (run_decision s orig n j) j) (seq 0 i)) ++ repeat 0%Z (n - i) /\
    h_second (fori i (kt_body O p0 s orig) (start s n))
    = map Z.of_nat (map (fun j => pair_second (run_decision s orig n j) j) (seq 0 i)) ++ repeat 0%Z (n - i).
  Proof.
    induction i as [|i IH]; intros H.
    - cbn. rewrite Nat.sub_0_r. auto.
    - destruct IH as [IH1 IH2]; [lia|]. rewrite fori_S.
      destruct (body_first s orig i (fori i (kt_body O p0 s orig) (start s n))) as [E1 E2].
      rewrite E1, E2, IH1, IH2. fold (run_decision s orig n i).
      assert (U : forall (f : nat -> nat) v,
        jset (map Z.of_nat (map f (seq 0 i)) ++ repeat 0%Z (n - i)) (Z.of_nat i) (Z.of_nat v)
        = (map Z.of_nat (map f (seq 0 i)) ++ [Z.of_nat v]) ++ repeat 0%Z (n - S i)).
      { intros f v. rewrite jset_in_range by (rewrite app_length, !map_length, seq_length, repeat_length; lia).
        rewrite Nat2Z.id. replace i with (length (map Z.of_nat (map f (seq 0 i)))) at 1
          by (rewrite !map_length, seq_length; reflexivity).
        rewrite upd_app_repeat by lia. f_equal. f_equal. lia. }
      rewrite !U, seq_S, !map_app. cbn [plus map]. auto.
  Qed.
  Lemma half_loop_indices s orig :
    let n := length orig / 2 in
    h_first (kt_half_loop O p0 s orig) = map Z.of_nat (map (fun j => pair_first (run_decision s orig n j) j) (seq 0 n)) /\
    h_second (kt_half_loop O p0 s orig) = map Z.of_nat (map (fun j => pair_second (run_decision s orig n j) j) (seq 0 n)).
  Proof.
    intros n. unfold kt_half_loop. fold n. fold (start s n).
    destruct (half_indices s orig n n (le_n _)) as [A B]. rewrite A, B, Nat.sub_diag. cbn [repeat].
    now rewrite !app_nil_r.
  Qed.

  Lemma kt_half_run (s : kthin V P K) (d : data) h : d_len d = 2 * h ->
    let fl := run_decision s (d_x d) h in
    let a := map (fun i => pair_first (fl i) i) (seq 0 h) in
    let b := map (fun i => pair_second (fl i) i) (seq 0 h) in
    kt_half O p0 y0 s d = Ok (mkCS (map Z.of_nat a) (repeat (f1 O) h) d, mkCS (map Z.of_nat b) (repeat (f1 O) h) d).
  Proof.
    intros L. cbv zeta.
    unfold kt_half. rewrite L.
    assert (OD : Nat.odd (2 * h) = false) by (rewrite <- Nat.negb_even, Nat.even_mul; reflexivity).
    rewrite OD. cbv zeta.
    pose proof (half_loop_indices s (d_x d)) as [A B]. fold (d_len d) in A, B. rewrite L in A, B.
    replace (2 * h / 2) with h in A, B by (rewrite Nat.mul_comm, Nat.div_mul; lia).
    rewrite A, B. unfold cs_build, conv_data. cbn [bind]. unfold cs_init.
    set (la := map (fun j => pair_first _ j) (seq 0 h)). set (lb := map (fun j => pair_second _ j) (seq 0 h)).
    assert (La : length (map Z.of_nat la) = h) by (unfold la; now rewrite !map_length, seq_length).
    assert (Lb : length (map Z.of_nat lb) = h) by (unfold lb; now rewrite !map_length, seq_length).
    assert (PL : forall idx w, length idx = h -> d_len (points O p0 y0 (mkCS idx w d)) = h).
    { intros idx w E. unfold points, d_len, d_getitem. cbn [d_x c_pre c_idx]. now rewrite gather_length. }
    rewrite !PL by assumption. rewrite L, (proj2 (Nat.ltb_ge (2 * h) h)) by lia. cbn [bind].
    now rewrite La, Lb.
  Qed.
  Lemma kt_half_ok (s : kthin V P K) (d : data) h : d_len d = 2 * h -> exists fl,
    let a := map (fun i => pair_first (fl i) i) (seq 0 h) in
    let b := map (fun i => pair_second (fl i) i) (seq 0 h) in
    kt_half O p0 y0 s d = Ok (mkCS (map Z.of_nat a) (repeat (f1 O) h) d, mkCS (map Z.of_nat b) (repeat (f1 O) h) d) /\
    Permutation (a ++ b) (seq 0 (2 * h)).
  Proof.
    intros L. exists (run_decision s (d_x d) h). cbv zeta. split; [exact (kt_half_run s d h L)|apply pairs_perm].
  Qed.

  Lemma concat_splits {A} (l1 l2 : list (list A)) c1 c2 sz a1 a2 :
    splits l1 c1 sz a1 -> splits l2 c2 sz a2 -> splits (l1 ++ l2) (c1 + c2) sz (a1 ++ a2).
  Proof.
    intros [A1 [B1 C1]] [A2 [B2 C2]]. split; [rewrite app_length; lia|]. split.
    - intros l H. apply in_app_iff in H as [H|H]; auto.
    - rewrite concat_app. now apply Permutation_app.
  Qed.
  Lemma splits_perm {A} (l : list (list A)) c sz a b : Permutation a b -> splits l c sz a -> splits l c sz b.
  Proof. intros H [A1 [B1 C1]]. split; [|split]; auto. now rewrite C1. Qed.

  Lemma gather_of_nat (l : list nat) is : (forall i, In i is -> i < length l) ->
    gather 0%Z (map Z.of_nat l) (map Z.of_nat is) = map Z.of_nat (map (fun i => nth i l 0) is).
  Proof.
    intros H. unfold gather. rewrite !map_map. apply map_ext_in. intros i Hi.
    rewrite jget_nat by (rewrite map_length; auto).
    change 0%Z with (Z.of_nat 0). now rewrite map_nth.
  Qed.

  (** halving a coresubset of the original data *)
  Lemma half_rec_ok (s : kthin V P K) size m orig : forall l w, length l = size * 2 ^ m ->
    exists parts,
      kt_half_rec O p0 y0 s (inr (mkCS (map Z.of_nat l) w orig)) m orig = Ok parts /\
      (forall c, In c parts -> c_pre c = orig) /\
      exists lists, map c_idx parts = map (map Z.of_nat) lists /\ splits lists (2 ^ m) size l.
  Proof.
    induction m as [|m IH]; intros l w L.
    - cbn [kt_half_rec]. eexists; split; [reflexivity|]. split; [intros c [<-|[]]; reflexivity|].
      exists [l]. split; [reflexivity|]. unfold splits. cbn [length concat]. rewrite app_nil_r.
      repeat split; auto. intros l' [<-|[]]. cbn in L. lia.
    - cbn [kt_half_rec]. set (c0 := mkCS (map Z.of_nat l) w orig).
      assert (L2 : d_len (points O p0 y0 c0) = 2 * (size * 2 ^ m)).
      { unfold points, d_len, d_getitem, c0. cbn [d_x c_pre c_idx]. rewrite gather_length, map_length, L. cbn. lia. }
      destruct (kt_half_ok s _ _ L2) as [fl [E PM]]. cbv zeta in E, PM. rewrite E. cbn [bind fst snd c_idx c_w].
      set (a := map (fun i => pair_first (fl i) i) _) in *. set (b := map (fun i => pair_second (fl i) i) _) in *.
      assert (LL : length l = 2 * (size * 2 ^ m)) by (rewrite L; cbn; lia).
      assert (R : forall i, In i (a ++ b) -> i < length l).
      { intros i Hi. apply (Permutation_in _ PM) in Hi. apply in_seq in Hi. lia. }
      unfold c0. cbn [c_idx]. rewrite !gather_of_nat by (intros i Hi; apply R, in_app_iff; auto).
      destruct (IH (map (fun i => nth i l 0) a) (repeat (f1 O) (size * 2 ^ m))) as [p1 [E1 [Q1 [l1 [M1 S1]]]]].
      { unfold a. now rewrite !map_length, seq_length. }
      destruct (IH (map (fun i => nth i l 0) b) (repeat (f1 O) (size * 2 ^ m))) as [p2 [E2 [Q2 [l2 [M2 S2]]]]].
      { unfold b. now rewrite !map_length, seq_length. }
      rewrite E1, E2. cbn [bind]. eexists; split; [reflexivity|]. split.
      { intros c Hc. apply in_app_iff in Hc as [Hc|Hc]; auto. }
      exists (l1 ++ l2). rewrite !map_app, M1, M2. split; [reflexivity|].
      replace (2 ^ S m) with (2 ^ m + 2 ^ m) by (cbn; lia).
      eapply splits_perm; [|apply concat_splits; eassumption].
      rewrite <- map_app. apply map_nth_perm. now rewrite LL.
  Qed.

  Lemma partition_ok (s : kthin V P K) (d : data) size m : size * 2 ^ m <= d_len d ->
    exists parts,
      kt_half_rec O p0 y0 s (inl (d_take d (size * 2 ^ m))) m d = Ok parts /\
      (forall c, In c parts -> c_pre c = d) /\
      exists lists, map c_idx parts = map (map Z.of_nat) lists /\ splits lists (2 ^ m) size (seq 0 (size * 2 ^ m)).
  Proof.
    intros H.
    assert (LT : forall q, q <= d_len d -> d_len (d_take d q) = q).
    { intros q Hq. unfold d_len, d_take in *. cbn [d_x]. rewrite firstn_length. lia. }
    destruct m as [|m].
    - cbn [kt_half_rec]. rewrite LT by assumption. unfold cs_init.
      replace (d_len (points O p0 y0 _)) with (size * 2 ^ 0)
        by (unfold points, d_len, d_getitem; cbn [d_x c_pre c_idx]; now rewrite gather_length, map_length, seq_length).
      rewrite (proj2 (Nat.ltb_ge _ _)) by lia. cbn [bind].
      eexists; split; [reflexivity|]. split; [intros c [<-|[]]; reflexivity|].
      exists [seq 0 (size * 2 ^ 0)]. split; [reflexivity|]. unfold splits. cbn [concat]. rewrite app_nil_r.
      repeat split; auto. intros l' [<-|[]]. rewrite seq_length. cbn. lia.
    - cbn [kt_half_rec].
      assert (L2 : d_len (d_take d (size * 2 ^ S m)) = 2 * (size * 2 ^ m)).
      { rewrite LT by assumption. cbn. lia. }
      destruct (kt_half_ok s _ _ L2) as [fl [E PM]]. cbv zeta in E, PM. rewrite E. cbn [bind fst snd c_idx c_w].
      destruct (half_rec_ok s size m d (map (fun i => pair_first (fl i) i) (seq 0 (size * 2 ^ m)))
        (repeat (f1 O) (size * 2 ^ m))) as [p1 [E1 [Q1 [l1 [M1 S1]]]]]; [now rewrite map_length, seq_length|].
      destruct (half_rec_ok s size m d (map (fun i => pair_second (fl i) i) (seq 0 (size * 2 ^ m)))
        (repeat (f1 O) (size * 2 ^ m))) as [p2 [E2 [Q2 [l2 [M2 S2]]]]]; [now rewrite map_length, seq_length|].
      rewrite E1, E2. cbn [bind]. eexists; split; [reflexivity|]. split.
      { intros c Hc. apply in_app_iff in Hc as [Hc|Hc]; auto. }
      exists (l1 ++ l2). rewrite !map_app, M1, M2. split; [reflexivity|].
      replace (2 ^ S m) with (2 ^ m + 2 ^ m) by (cbn; lia).
      eapply splits_perm; [|apply concat_splits; eassumption].
      rewrite PM. replace (2 * (size * 2 ^ m)) with (size * (2 ^ m + 2 ^ m)) by lia. reflexivity.
  Qed.
End Halving.
