(** * Caratheodory elimination: invariants of the loop *)
From Coq Require Import List Arith ZArith Lia Reals Lra Permutation.
From Verif Require Import Num RSum Jax JaxFacts ArgFacts RecSpec RecModel RecProofs.
Import ListNotations.
Local Open Scope R_scope.

Lemma fgt0_fin x : fgt0 EROps (Fin x) = if Rlt_dec 0 x then true else false.
Proof.
  unfold fgt0. cbn. destruct (Rlt_dec 0 x) as [H|H].
  - apply (proj2 (Rltb_true 0 x)). exact H.
  - apply (proj2 (Rltb_false 0 x)). lra.
Qed.
Lemma nth_map_fin (l : list R) i : nth i (map Fin l) (Fin 0) = Fin (nth i l 0).
Proof. apply (map_nth Fin). Qed.
Lemma upd_same {A} k (l : list A) d : (k < length l)%nat -> upd k (nth k l d) l = l.
Proof. revert k. induction l; intros [|k] H; simpl in *; auto; try lia. f_equal. apply IHl. lia. Qed.

(** the scores of the elimination: w/v where v > 0, otherwise infinity *)
Definition scores (w v : list R) : list ER :=
  map2 (fun a b => if Rlt_dec 0 b then Fin (a / b) else PInf) w v.
Lemma scores_nth w v j : length v = length w -> (j < length w)%nat ->
  nth j (scores w v) NaN = if Rlt_dec 0 (nth j v 0) then Fin (nth j w 0 / nth j v 0) else PInf.
Proof. intros H Hj. unfold scores. now rewrite (nth_map2 _ _ _ _ 0 0) by lia. Qed.
Lemma scores_length w v : length v = length w -> length (scores w v) = length w.
Proof. intros H. unfold scores. rewrite map2_length. lia. Qed.

Lemma elim_pick w v : length v = length w -> (exists j, (j < length w)%nat /\ 0 < nth j v 0) ->
  let k := argmin EROps (scores w v) in
  (k < length w)%nat /\ 0 < nth k v 0 /\
  forall j, (j < length w)%nat -> 0 < nth j v 0 -> nth k w 0 / nth k v 0 <= nth j w 0 / nth j v 0.
Proof.
  intros H (p & Hp & Pp) k.
  destruct (argmin_spec ROps ROps_laws (scores w v)) as [R1 [R2 _]].
  - intros E. apply (f_equal (@length ER)) in E. rewrite scores_length in E by auto. simpl in E. lia.
  - apply Forall_forall. intros x Hx. apply (In_nth _ _ NaN) in Hx as (j & Hj & <-).
    rewrite scores_length in Hj by auto. rewrite scores_nth by auto.
    destruct (Rlt_dec _ _); discriminate.
  - change (argmin (extOps ROps) (scores w v)) with k in R1, R2. rewrite scores_length in R1, R2 by auto.
    assert (Hk : 0 < nth k v 0).
    { specialize (R2 p Hp). rewrite !scores_nth in R2 by auto.
      destruct (Rlt_dec 0 (nth p v 0)); [|lra]. destruct (Rlt_dec 0 (nth k v 0)); [auto|]. discriminate. }
    split; auto. split; auto. intros j Hj Pj. specialize (R2 j Hj). rewrite !scores_nth in R2 by auto.
    destruct (Rlt_dec 0 (nth j v 0)); [|lra]. destruct (Rlt_dec 0 (nth k v 0)); [|lra].
    now apply (proj1 (Rltb_false _ _)) in R2.
Qed.

Lemma eliminate_fin i w (B : list (list R)) :
  let v := nth i B [] in
  Forall (fun b => length b = length w) B -> (i < length B)%nat ->
  (exists j, (j < length w)%nat /\ 0 < nth j v 0) ->
  exists k, (k < length w)%nat /\ 0 < nth k v 0 /\
    (forall j, (j < length w)%nat -> 0 < nth j v 0 -> nth k w 0 / nth k v 0 <= nth j w 0 / nth j v 0) /\
    eliminate EROps i (map Fin w, map (map Fin) B) =
      (map Fin (red v (nth k w 0 / nth k v 0) w),
       map (map Fin) (map (fun b => red v (nth k b 0 / nth k v 0) b) B)).
Proof.
  intros v HB Hi Hex.
  assert (Hv : length v = length w).
  { rewrite Forall_forall in HB. apply HB, nth_In, Hi. }
  destruct (elim_pick w v Hv Hex) as (K1 & K2 & K3). set (k := argmin EROps (scores w v)) in *.
  exists k. split; auto. split; auto. split; auto.
  unfold eliminate.
  replace (nth i (map (map Fin) B) []) with (map Fin v) by (symmetry; exact (map_nth (map Fin) B [] i)).
  assert (EC : map2 (fun a b => if fgt0 EROps b then fdiv EROps a b else finf EROps) (map Fin w) (map Fin v) = scores w v).
  { rewrite map2_map. unfold scores. apply map2_ext. intros a b _. rewrite fgt0_fin.
    destruct (Rlt_dec 0 b); [|reflexivity]. rewrite fdiv_fin by lra. reflexivity. }
  rewrite EC. fold k.
  assert (EA : nth k (scores w v) (f0 EROps) = Fin (nth k w 0 / nth k v 0)).
  { rewrite nth_indep with (d' := NaN) by (rewrite scores_length; auto). rewrite scores_nth by auto.
    destruct (Rlt_dec _ _); [reflexivity|lra]. }
  rewrite EA. change (f0 EROps) with (Fin 0 : ER). rewrite nth_map_fin.
  f_equal.
  - rewrite map2_map. cbn [fsub fmul EROps extOps].
    rewrite <- (upd_same k (red v (nth k w 0 / nth k v 0) w) 0) by (rewrite red_length; auto).
    rewrite red_nth by auto. replace (nth k w 0 - nth k w 0 / nth k v 0 * nth k v 0) with 0 by (field; lra).
    rewrite map_upd. f_equal. unfold red. rewrite map_map2. apply map2_ext. intros a b _. reflexivity.
  - rewrite !map_map. apply map_ext_in. intros b Hb. rewrite Forall_forall in HB. specialize (HB b Hb).
    rewrite nth_map_fin.
    rewrite <- (upd_same k (red v (nth k b 0 / nth k v 0) b) 0) by (rewrite red_length; lia).
    rewrite red_nth by lia. replace (nth k b 0 - nth k b 0 / nth k v 0 * nth k v 0) with 0 by (field; lra).
    rewrite map_upd. f_equal. rewrite map2_map. unfold red. rewrite map_map2. apply map2_ext.
    intros x y _. rewrite fdiv_fin by lra. cbn. f_equal. field. lra.
Qed.

Lemma column_red A c v a w : length w = length v ->
  column A c (red v a w) = column A c w - a * column A c v.
Proof.
  intros H. unfold column. rewrite <- Rsum_map_scal, <- Rsum_map_sub. apply Rsum_map_ext. intros i _.
  rewrite red_nth by auto. ring.
Qed.

(** the state after [i] eliminations: [E] are the eliminated positions *)
Definition elim_inv (A : list (list R)) (k : nat) (w0 : list R) (lB r i : nat) (w : list R) (B : list (list R)) (E : list nat) : Prop :=
  (length w = length A /\ Forall (fun x => 0 <= x) w /\
   (forall c, (c < k)%nat -> column A c w = column A c w0)) /\
  (length B = lB /\ Forall (fun b => length b = length A) B) /\
  (length E = i /\ NoDup E /\ forall e, In e E -> (e < length A)%nat /\ nth e w 0 = 0) /\
  (let T := skipn i (firstn r B) in
   Forall (null_vec A k) T /\ indep (length A) T /\
   Forall (fun b => forall e, In e E -> nth e b 0 = 0) T /\
   spans (length A) T (fun v => null_vec A k v /\ forall e, In e E -> nth e v 0 = 0)).

Lemma indep_nonzero n v T : indep n (v :: T) -> exists j, (j < n)%nat /\ nth j v 0 <> 0.
Proof.
  intros H. destruct (Forall_dec (fun j => nth j v 0 = 0) (fun j => Req_EM_T (nth j v 0) 0) (seq 0 n)) as [Hz|Hz].
  - exfalso. assert (Hf : Forall (fun c => c = 0) (1 :: repeat 0 (length T))).
    { apply H; [simpl; now rewrite repeat_length|]. intros i Hi. rewrite comb_cons, comb_zero.
      - rewrite Forall_forall in Hz. rewrite Hz by (apply in_seq; lia). lra.
      - apply Forall_forall. intros c Hc. now apply repeat_spec in Hc. }
    inversion Hf. lra.
  - apply neg_Forall_Exists_neg in Hz; [|intros; apply Req_EM_T]. apply Exists_exists in Hz as (x & Hx & Hn).
    apply in_seq in Hx. exists x. split; auto. lia.
Qed.
Lemma pos_entry A k v : (0 < k)%nat -> (forall i, (i < length A)%nat -> entry A i 0 = 1) ->
  null_vec A k v -> (exists j, (j < length A)%nat /\ nth j v 0 <> 0) ->
  exists j, (j < length A)%nat /\ 0 < nth j v 0.
Proof.
  intros Hk H1 Hn (p & Hp & Np). specialize (Hn 0%nat Hk).
  rewrite (Rsum_map_ext _ (fun i => nth i v 0)) in Hn.
  2:{ intros i Hi. apply in_seq in Hi. rewrite H1 by lia. lra. }
  destruct (Forall_dec (fun j => nth j v 0 <= 0) (fun j => Rle_dec (nth j v 0) 0) (seq 0 (length A))) as [Hz|Hz].
  - exfalso. rewrite Forall_forall in Hz.
    assert (Hs : Rsum (map (fun i => - nth i v 0) (seq 0 (length A))) = 0).
    { rewrite (Rsum_map_ext _ (fun i => (-1) * nth i v 0)) by (intros; lra). rewrite Rsum_map_scal, Hn. lra. }
    destruct (Rlt_dec 0 (- nth p v 0)) as [Hlt|Hge].
    + assert (Hle : - nth p v 0 <= Rsum (map (fun i => - nth i v 0) (seq 0 (length A)))).
      { assert (Hin : In p (seq 0 (length A))) by (apply in_seq; lia).
        clear - Hz Hin. induction (seq 0 (length A)) as [|a l IH]; [contradiction|].
        cbn [map Rsum]. assert (0 <= Rsum (map (fun i => - nth i v 0) l)).
        { apply Rsum_nonneg. intros x Hx. apply in_map_iff in Hx as (i & <- & Hi). specialize (Hz i (or_intror Hi)). lra. }
        destruct Hin as [->|Hin]; [lra|]. specialize (Hz a (or_introl eq_refl)) as Ha.
        assert (- nth p v 0 <= Rsum (map (fun i => - nth i v 0) l)) by (apply IH; auto; intros; apply Hz; now right). lra. }
      lra.
    + specialize (Hz p ltac:(apply in_seq; lia)). lra.
  - apply neg_Forall_Exists_neg in Hz; [|intros; apply Rle_dec]. apply Exists_exists in Hz as (x & Hx & Hl).
    apply in_seq in Hx. exists x. split; [lia|]. lra.
Qed.

Lemma skipn_nth_cons {A} i (l : list A) d : (i < length l)%nat -> skipn i l = nth i l d :: skipn (S i) l.
Proof. revert l. induction i; intros [|a l] H; simpl in *; try lia; auto. apply IHi. lia. Qed.

Lemma elim_step A k w0 lB r i w B E :
  (0 < k)%nat -> (forall i, (i < length A)%nat -> entry A i 0 = 1) ->
  (i < r)%nat -> (r <= lB)%nat -> elim_inv A k w0 lB r i w B E ->
  exists w' B' e, eliminate EROps i (map Fin w, map (map Fin) B) = (map Fin w', map (map Fin) B') /\
    elim_inv A k w0 lB r (S i) w' B' (e :: E).
Proof.
  intros Hk H1 Hir HrB ((W1 & W2 & W3) & (B1 & B2) & (E1 & E2 & E3) & (T1 & T2 & T3 & T4)).
  set (v := nth i B []).
  assert (HT : skipn i (firstn r B) = v :: skipn (S i) (firstn r B)).
  { rewrite (skipn_nth_cons i _ []) by (rewrite firstn_length; lia). f_equal.
    unfold v. rewrite <- (firstn_skipn r B) at 2. rewrite app_nth1; [reflexivity|]. rewrite firstn_length; lia. }
  rewrite HT in T1, T2, T3, T4. set (T := skipn (S i) (firstn r B)) in *.
  assert (Hn : null_vec A k v) by (now inversion T1).
  assert (Hlv : length v = length A).
  { rewrite Forall_forall in B2. apply B2, nth_In. lia. }
  assert (HTl : Forall (fun b => length b = length A) (v :: T)).
  { constructor; auto. rewrite Forall_forall in *. intros b Hb. apply B2.
    assert (In b (skipn (S i) (firstn r B))) as Hs by exact Hb.
    rewrite <- (firstn_skipn r B). apply in_or_app. left.
    rewrite <- (firstn_skipn (S i) (firstn r B)). apply in_or_app. now right. }
  destruct (pos_entry A k v Hk H1 Hn (indep_nonzero _ _ _ T2)) as (p & Hp & Pp).
  destruct (eliminate_fin i w B) as (e & He & Pe & Me & Ee).
  { now rewrite W1. } { lia. } { exists p. rewrite W1. auto. }
  fold v in Pe, Me, Ee. rewrite W1 in He, Me.
  exists (red v (nth e w 0 / nth e v 0) w), (map (fun b => red v (nth e b 0 / nth e v 0) b) B), e.
  split; [exact Ee|].
  set (L := fun b : list R => nth e b 0).
  assert (HL : linear_fun (length A) L) by (now apply coord_linear).
  assert (EG : gstep L (v :: T) = map (fun b => red v (nth e b 0 / nth e v 0) b) T).
  { cbn [gstep]. destruct (Req_EM_T (L v) 0) as [Z|Z]; [unfold L in Z; lra|reflexivity]. }
  assert (ET : skipn (S i) (firstn r (map (fun b => red v (nth e b 0 / nth e v 0) b) B)) = gstep L (v :: T)).
  { rewrite EG, firstn_map, skipn_map. reflexivity. }
  set (al := nth e w 0 / nth e v 0) in *.
  assert (Hal : 0 <= al).
  { unfold al. apply Rmult_le_pos; [|apply Rlt_le, Rinv_0_lt_compat; auto].
    rewrite Forall_forall in W2. apply W2, nth_In. lia. }
  assert (Hev : ~ In e E).
  { intros I. pose proof (Forall_inv T3 e I) as Hz. cbv beta in Hz. lra. }
  split; [|split; [|split]].
  - split; [rewrite red_length; lia|]. split.
    + apply Forall_forall. intros x Hx. apply (In_nth _ _ 0) in Hx as (j & Hj & <-).
      rewrite red_length in Hj by lia. rewrite red_nth by lia.
      rewrite Forall_forall in W2. assert (Wj : 0 <= nth j w 0) by (apply W2, nth_In; lia).
      destruct (Rlt_dec 0 (nth j v 0)) as [P|P].
      * specialize (Me j ltac:(lia) P).
        apply (Rmult_le_compat_r (nth j v 0)) in Me; [|lra].
        replace (nth j w 0 / nth j v 0 * nth j v 0) with (nth j w 0) in Me by (field; lra). lra.
      * pose proof (Rmult_le_compat_l al (nth j v 0) 0 Hal ltac:(lra)) as Q. rewrite Rmult_0_r in Q. lra.
    + intros c Hc. rewrite column_red by lia. rewrite W3 by auto.
      assert (column A c v = 0) as -> by (apply Hn; auto). lra.
  - split; [now rewrite map_length|]. apply Forall_forall. intros b Hb.
    apply in_map_iff in Hb as (y & <- & Hy). rewrite Forall_forall in B2.
    rewrite red_length; [now apply B2|]. rewrite (B2 y Hy). auto.
  - split; [simpl; lia|]. split; [now constructor|]. intros x [<-|Hx].
    + split; auto. rewrite red_nth by lia. unfold al. field. lra.
    + destruct (E3 x Hx) as [X1 X2]. split; auto. rewrite red_nth by lia. rewrite X2.
      rewrite (Forall_inv T3 x Hx). lra.
  - cbv zeta. rewrite ET. split; [|split; [|split]].
    + apply Forall_forall. intros b Hb c Hc.
      pose proof (weighted_linear (length A) (fun i => entry A i c)) as HLc.
      assert (Hz : Forall (fun b => column A c b = 0) (v :: T)).
      { rewrite Forall_forall in *. intros b' Hb'. apply (T1 b' Hb'). auto. }
      pose proof (gstep_keeps _ L (column A c) _ HLc HTl Hz) as G. rewrite Forall_forall in G. exact (G b Hb).
    + now apply gstep_indep.
    + apply Forall_forall. intros b Hb x [<-|Hx].
      * pose proof (gstep_kills _ L _ HL HTl) as G. rewrite Forall_forall in G. exact (G b Hb).
      * destruct (E3 x Hx) as [X1 _].
        assert (Hz : Forall (fun b => nth x b 0 = 0) (v :: T)).
        { rewrite Forall_forall in *. intros b' Hb'. apply (T3 b' Hb'). auto. }
        pose proof (gstep_keeps _ L _ _ (coord_linear _ x X1) HTl Hz) as G. rewrite Forall_forall in G. exact (G b Hb).
    + intros y Hy [Y1 Y2]. destruct (gstep_spans _ L _ _ HL HTl T4 y Hy) as (cs & C1 & C2).
      * split; [split; auto; intros x Hx; apply Y2; now right|]. apply Y2. now left.
      * now exists cs.
Qed.

Lemma elim_loop A k w B r :
  (0 < k)%nat -> (forall i, (i < length A)%nat -> entry A i 0 = 1) ->
  length w = length A -> Forall (fun x => 0 <= x) w -> null_ok A k B r ->
  exists w', eliminate_all EROps (map Fin w) (map (map Fin) B) r = map Fin w' /\
    length w' = length A /\ Forall (fun x => 0 <= x) w' /\
    (forall c, (c < k)%nat -> column A c w' = column A c w) /\
    (exists E, length E = r /\ NoDup E /\ forall e, In e E -> (e < length A)%nat /\ nth e w' 0 = 0) /\
    (forall v, length v = length A -> null_vec A k v ->
       (forall j, (j < length A)%nat -> nth j w' 0 = 0 -> nth j v 0 = 0) ->
       forall j, (j < length A)%nat -> nth j v 0 = 0).
Proof.
  intros Hk H1 Hw Hp (N1 & N2 & N3 & N4 & N5).
  assert (G : forall i, (i <= r)%nat -> exists w' B' E,
    fori i (eliminate EROps) (map Fin w, map (map Fin) B) = (map Fin w', map (map Fin) B') /\
    elim_inv A k w (length B) r i w' B' E).
  { induction i; intros Hi.
    - exists w, B, []. split; [reflexivity|]. split; [auto|]. split; [auto|]. split.
      + split; auto. split; [constructor|]. intros e [].
      + cbv zeta. cbn [skipn]. split; [|split; [|split]].
        * apply Forall_forall. intros b Hb. apply (In_nth _ _ []) in Hb as (j & Hj & <-).
          rewrite firstn_length in Hj. specialize (N3 j ltac:(lia)).
          rewrite <- (firstn_skipn r B) in N3. rewrite app_nth1 in N3; auto. rewrite firstn_length; lia.
        * auto.
        * apply Forall_forall. intros b _ e [].
        * intros v Hv [Hn _]. apply N5; auto.
    - destruct IHi as (w1 & B1 & E1 & F1 & I1); [lia|].
      destruct (elim_step A k w (length B) r i w1 B1 E1 Hk H1 ltac:(lia) N1 I1) as (w2 & B2 & e & F2 & I2).
      exists w2, B2, (e :: E1). split; auto. rewrite fori_S, F1. exact F2. }
  destruct (G r (le_n r)) as (w' & B' & E & F & ((W1 & W2 & W3) & (B1 & B2) & (E1 & E2 & E3) & (T1 & T2 & T3 & T4))).
  exists w'. unfold eliminate_all. rewrite F. cbn [fst]. split; auto. split; auto. split; auto. split; auto.
  split; [exists E; auto|].
  intros v Hv Hn Hz j Hj.
  destruct (T4 v Hv) as (cs & C1 & C2).
  { split; auto. intros e He. destruct (E3 e He). apply Hz; auto. }
  rewrite C2 by auto. rewrite skipn_all2 in C1 by (rewrite firstn_length; lia).
  destruct cs; [|discriminate]. reflexivity.
Qed.
