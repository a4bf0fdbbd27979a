(** * Proofs about MapReduce *)
From Coq Require Import List ZArith Bool Arith Reals Lia Lra Permutation.
From Verif Require Import Num Jax JaxFacts RSum DataModel GreedySpec MapReduceModel MapReduceSpec.
Import ListNotations.
Open Scope nat_scope.

(** ** arithmetic of the tree shape *)
Lemma half_pos leaf : 1 <= mr_half leaf. Proof. unfold mr_half. lia. Qed.
Lemma nleaves_pos leaf n : 1 <= mr_nleaves leaf n.
Proof. unfold mr_nleaves. pose proof (Nat.pow_nonzero 2 (Nat.log2 ((n - 1) / mr_half leaf))). lia. Qed.
Lemma half_le leaf : 2 <= leaf -> 2 * mr_half leaf <= leaf < 2 * mr_half leaf + 2.
Proof.
  intros H. unfold mr_half. pose proof (Nat.div_mod leaf 2 ltac:(lia)). pose proof (Nat.mod_upper_bound leaf 2 ltac:(lia)).
  assert (1 <= leaf / 2) by lia. lia.
Qed.
Lemma nleaves_bounds leaf n : leaf < n -> 2 <= leaf ->
  mr_nleaves leaf n * mr_half leaf < n /\ 2 <= mr_nleaves leaf n.
Proof.
  intros Hn Hl. pose proof (half_le leaf Hl). pose proof (half_pos leaf).
  assert (Q : 2 <= (n - 1) / mr_half leaf).
  { apply Nat.div_le_lower_bound; lia. }
  unfold mr_nleaves. destruct (Nat.log2_spec ((n - 1) / mr_half leaf) ltac:(lia)) as [A B].
  split.
  - pose proof (Nat.mul_div_le (n - 1) (mr_half leaf) ltac:(lia)).
    assert (2 ^ Nat.log2 ((n - 1) / mr_half leaf) * mr_half leaf <= mr_half leaf * ((n - 1) / mr_half leaf)).
    { rewrite Nat.mul_comm. apply Nat.mul_le_mono_l. exact A. }
    lia.
  - assert (1 <= Nat.log2 ((n - 1) / mr_half leaf)) by (apply (Nat.log2_le_mono 2 ((n - 1) / mr_half leaf)); lia).
    change 2 with (2 ^ 1) at 1. apply Nat.pow_le_mono_r; lia.
Qed.
Lemma padded_shape leaf n : n + mr_padding leaf n = mr_partition leaf n * mr_nleaves leaf n.
Proof.
  pose proof (nleaves_pos leaf n) as Hp. unfold mr_partition, mr_padding.
  pose proof (cdiv_spec n (mr_nleaves leaf n) ltac:(lia)).
  replace (n + (cdiv n (mr_nleaves leaf n) * mr_nleaves leaf n - n)) with (cdiv n (mr_nleaves leaf n) * mr_nleaves leaf n) by lia.
  now rewrite Nat.div_mul by lia.
Qed.
Lemma padding_small leaf n : mr_padding leaf n < mr_nleaves leaf n.
Proof.
  pose proof (nleaves_pos leaf n) as Hp. unfold mr_padding.
  pose proof (cdiv_spec n (mr_nleaves leaf n) ltac:(lia)). lia.
Qed.
(** the model's layout is the specified one *)
Lemma leaf_count_eq leaf n : leaf_count leaf n = mr_nleaves leaf n.
Proof. reflexivity. Qed.
Lemma padded_rows_eq leaf n : padded_rows leaf n = mr_padding leaf n.
Proof.
  pose proof (nleaves_pos leaf n) as Hp. unfold padded_rows, mr_padding. rewrite leaf_count_eq. set (c := mr_nleaves leaf n) in *.
  destruct (cdiv_spec n c ltac:(lia)) as [A B]. pose proof (Nat.div_mod n c ltac:(lia)) as D. pose proof (Nat.mod_upper_bound n c ltac:(lia)) as U.
  destruct (Nat.eq_dec (n mod c) 0) as [Z|Z].
  - rewrite Z, Nat.sub_0_r, Nat.mod_same by lia. assert (cdiv n c = n / c) by nia. nia.
  - rewrite Nat.mod_small by lia. assert (cdiv n c = n / c + 1) by nia. nia.
Qed.
Lemma leaf_rows_eq leaf n : leaf_rows leaf n = mr_partition leaf n.
Proof. unfold leaf_rows, mr_partition. now rewrite padded_rows_eq, leaf_count_eq. Qed.
Lemma partition_large leaf n : leaf < n -> 2 <= leaf -> mr_half leaf < mr_partition leaf n.
Proof.
  intros Hn Hl. destruct (nleaves_bounds leaf n Hn Hl) as [A B]. pose proof (padded_shape leaf n).
  destruct (Nat.le_gt_cases (mr_partition leaf n) (mr_half leaf)) as [C|C]; [|assumption].
  exfalso. assert (mr_partition leaf n * mr_nleaves leaf n <= mr_half leaf * mr_nleaves leaf n) by now apply Nat.mul_le_mono_r.
  lia.
Qed.

(** ** reshaping *)
Lemma chunks_fuel_mult {A} p q fuel (l : list A) : 0 < p -> length l = p * q -> q <= fuel ->
  length (chunks_fuel fuel p l) = q /\ forall c, In c (chunks_fuel fuel p l) -> length c = p.
Proof.
  intros Hp. revert l fuel. induction q as [|q IH]; intros l fuel Hl Hf.
  - rewrite Nat.mul_0_r in Hl. destruct l; [|discriminate]. destruct fuel; simpl; split; auto; contradiction.
  - destruct fuel; [lia|]. simpl. destruct l as [|a l]; [simpl in Hl; lia|].
    destruct (IH (skipn p (a :: l)) fuel) as [A1 A2].
    + rewrite skipn_length, Hl. lia.
    + lia.
    + split; [simpl; now rewrite A1|]. intros c [<-|Hc]; [|now apply A2].
      rewrite firstn_length. rewrite Hl. lia.
Qed.
Lemma chunks_mult {A} p q (l : list A) : 0 < p -> length l = p * q ->
  length (chunks p l) = q /\ forall c, In c (chunks p l) -> length c = p.
Proof. intros Hp Hl. apply chunks_fuel_mult; auto. rewrite Hl. nia. Qed.

Lemma mapM_ok {A B} (f : A -> result B) l (Q : A -> B -> Prop) :
  (forall a, In a l -> exists b, f a = Ok b /\ Q a b) -> exists bs, mapM f l = Ok bs /\ Forall2 Q l bs.
Proof.
  induction l as [|a l IH]; intros H; simpl; [eexists; split; [reflexivity|constructor]|].
  destruct (H a (or_introl eq_refl)) as [b [E1 E2]]. rewrite E1. simpl.
  destruct IH as [bs [E3 E4]]; [intros; apply H; now right|]. rewrite E3. simpl.
  eexists; split; [reflexivity|]. now constructor.
Qed.
Lemma mapM_inv {A B} (f : A -> result B) l bs : mapM f l = Ok bs -> Forall2 (fun a b => f a = Ok b) l bs.
Proof.
  revert bs; induction l as [|a l IH]; intros bs E; simpl in E; [injection E as <-; constructor|].
  destruct (f a) eqn:Ea; simpl in E; [|discriminate]. destruct (mapM f l) eqn:El; simpl in E; [|discriminate].
  injection E as <-. constructor; auto.
Qed.
Lemma concat_length_const {A B} (f : A -> list B) l m : (forall a, In a l -> length (f a) = m) ->
  length (concat (map f l)) = length l * m.
Proof.
  induction l; intros H; simpl; auto. rewrite app_length, IHl by (intros; apply H; now right).
  rewrite (H a) by now left. reflexivity.
Qed.
Lemma map2_map_length_const {A B C} (f : A -> B -> list C) l l' m : length l = length l' ->
  (forall a b, In b l' -> length (f a b) = m) -> length (concat (map2 f l l')) = length l' * m.
Proof.
  revert l'. induction l; intros [|b l'] HL H; simpl in *; try discriminate; auto.
  rewrite app_length, IHl by (auto; lia). rewrite (H a b) by now left. lia.
Qed.

Lemma Forall2_len {A B} (R : A -> B -> Prop) l l' : Forall2 R l l' -> length l = length l'.
Proof. induction 1; simpl; auto. Qed.
Lemma Forall2_In_r {A B} (R : A -> B -> Prop) l l' b : Forall2 R l l' -> In b l' -> exists a, In a l /\ R a b.
Proof.
  induction 1 as [|x y l l' H1 H2 IH]; intros Hb; [contradiction|]. destruct Hb as [<-|Hb]; [exists x; split; auto; now left|].
  destruct (IH Hb) as [a [Ha1 Ha2]]. exists a. split; auto. now right.
Qed.

(** ** sizes and termination *)
Section Term.
  Context {V : Type} (O : FOps V) {P Y : Type} (p0 : P) (y0 : Y).
  Notation data := (Data P Y V).
  Notation cs := (Coresubset P Y V).
  Lemma getitem_wf (d : data) rows : wfd (d_getitem O p0 y0 d rows) /\ d_len (d_getitem O p0 y0 d rows) = length rows
    /\ is_sup (d_getitem O p0 y0 d rows) = is_sup d.
  Proof.
    unfold d_getitem, wfd, d_len, is_sup. cbn [d_x d_w d_y]. rewrite !gather_length. split; [split; [reflexivity|]|split; [reflexivity|]].
    - intros y. destruct (d_y d); simpl; [|discriminate]. intros E. injection E as <-. apply gather_length.
    - now destruct (d_y d).
  Qed.
  Lemma points_wf (c : cs) : length (c_w c) = length (c_idx c) ->
    wfd (points O p0 y0 c) /\ d_len (points O p0 y0 c) = length (c_idx c) /\ is_sup (points O p0 y0 c) = is_sup (c_pre c).
  Proof.
    intros H. unfold points. destruct (getitem_wf (c_pre c) (c_idx c)) as [[W1 W2] [L S]].
    unfold wfd, d_len, is_sup in *. cbn [d_x d_w d_y].
    repeat split; auto. congruence.
  Qed.
  Lemma cat_wf (l : list data) sup m : l <> [] -> (forall d, In d l -> wfd d /\ is_sup d = sup /\ d_len d = m) ->
    wfd (cat_data l) /\ is_sup (cat_data l) = sup /\ d_len (cat_data l) = length l * m.
  Proof.
    intros Hn H. destruct l as [|d0 l]; [congruence|]. clear Hn.
    assert (L : length (concat (map d_x (d0 :: l))) = length (d0 :: l) * m).
    { apply concat_length_const. intros a Ha. apply H in Ha as [_ [_ E]]. exact E. }
    unfold wfd, is_sup, d_len, cat_data. cbn [d_x d_w d_y]. rewrite L. split; [split|split; [|reflexivity]].
    - apply concat_length_const. intros a Ha. apply H in Ha as [[E1 _] [_ E2]]. unfold d_len in E2. congruence.
    - destruct (H d0 (or_introl eq_refl)) as [_ [S0 _]].
      destruct (d_y d0) eqn:E0; [|discriminate]. intros y E. injection E as <-.
      apply (concat_length_const (fun e => match d_y e with Some y => y | None => [] end) (d0 :: l)).
      intros a Ha. apply H in Ha as [[_ E1] [E2 E3]]. unfold is_sup in *. rewrite E0 in S0. subst sup.
      destruct (d_y a) eqn:Ea; [|discriminate]. rewrite (E1 _ eq_refl). exact E3.
    - destruct (H d0 (or_introl eq_refl)) as [_ [S0 _]]. unfold is_sup in S0. destruct (d_y d0); auto.
  Qed.
  Lemma pad_wf (d : data) k : wfd d -> wfd (zero_pad O p0 y0 d k) /\ is_sup (zero_pad O p0 y0 d k) = is_sup d
    /\ d_len (zero_pad O p0 y0 d k) = d_len d + k.
  Proof.
    intros [W1 W2]. unfold wfd, is_sup, d_len, zero_pad. cbn [d_x d_w d_y]. rewrite !app_length, ?repeat_length, W1.
    repeat split; auto.
    - destruct (d_y d); simpl; [|discriminate]. intros y E. injection E as <-. rewrite app_length, repeat_length.
      now rewrite (W2 _ eq_refl).
    - now destruct (d_y d).
  Qed.
  Lemma jit_tree_shape tree leaf (d : data) : wfd d -> tree_sized tree -> leaf < d_len d -> 2 <= leaf ->
    let n := d_len d in
    length (fst (jit_tree O p0 y0 tree leaf d)) = mr_nleaves leaf n /\
    length (snd (jit_tree O p0 y0 tree leaf d)) = mr_nleaves leaf n /\
    (forall p, In p (fst (jit_tree O p0 y0 tree leaf d)) -> wfd p /\ is_sup p = is_sup d /\ d_len p = mr_partition leaf n).
  Proof.
    intros Hw Ht Hn Hl n. unfold jit_tree. cbn [fst snd]. rewrite !map_length. fold n.
    set (pd := zero_pad O p0 y0 d (mr_padding leaf n)).
    destruct (pad_wf d (mr_padding leaf n) Hw) as [P1 [P2 P3]]. fold pd in P1, P2, P3.
    destruct (chunks_mult (mr_partition leaf n) (mr_nleaves leaf n) (map Z.of_nat (tree (d_x pd) (d_w pd) (mr_half leaf)))) as [C1 C2].
    - pose proof (partition_large leaf n Hn Hl). lia.
    - rewrite map_length, Ht. unfold d_len in P3. rewrite P3. apply padded_shape.
    - split; [exact C1|]. split; [exact C1|]. intros p Hp. apply in_map_iff in Hp as [rows [<- Hr]].
      destruct (getitem_wf pd rows) as [G1 [G2 G3]]. split; [exact G1|]. split; [congruence|]. rewrite G2. now apply C2.
  Qed.

  Lemma reduce_terminates sup m base tree leaf :
    sized sup m base -> tree_sized tree -> 1 <= m -> 2 * m <= leaf ->
    forall fuel d idx, wfd d -> is_sup d = sup -> m <= d_len d -> d_len d < fuel ->
      exists c ix, reduce_coreset O p0 y0 base tree leaf fuel d idx = Ok (c, ix) /\ length (c_idx c) = m /\ length (c_w c) = m
        /\ (forall i, ix = Some i -> length i = m).
  Proof.
    intros HB HT Hm Hl. induction fuel as [|fuel IH]; intros d idx Hw Hs Hn Hf; [lia|]. cbn [reduce_coreset].
    destruct (Nat.leb_spec (d_len d) leaf) as [Hle|Hgt].
    - destruct (HB d Hw Hs Hn) as [c [E [L1 [L2 L3]]]]. rewrite E. simpl. eexists _, _. split; [reflexivity|]. split; [assumption|].
      split; [assumption|]. intros i. destruct idx; [|discriminate]. intros Ei. injection Ei as <-. now rewrite gather_length.
    - assert (2 <= leaf) by lia.
      destruct (jit_tree_shape tree leaf d Hw HT Hgt ltac:(lia)) as [J1 [J2 J3]].
      destruct (jit_tree O p0 y0 tree leaf d) as [parts pidx] eqn:EJ. cbn [fst snd] in *.
      assert (half_m : m <= mr_half leaf) by (pose proof (half_le leaf ltac:(lia)); lia).
      pose proof (partition_large leaf (d_len d) Hgt ltac:(lia)) as PL.
      destruct (mapM_ok base parts (fun p c => length (c_idx c) = m /\ length (c_w c) = m /\ c_pre c = p)) as [outs [EO FO]].
      { intros p Hp. destruct (J3 p Hp) as [A1 [A2 A3]]. apply HB; [assumption|congruence|lia]. }
      rewrite EO. simpl.
      destruct (cat_wf (map (points O p0 y0) outs) sup m) as [W1 [W2 W3]].
      { intros Eo. apply map_eq_nil in Eo. apply Forall2_len in FO. rewrite Eo in FO. simpl in FO.
        pose proof (nleaves_pos leaf (d_len d)). lia. }
      { intros d' Hd'. apply in_map_iff in Hd' as [c [<- Hc]].
        destruct (Forall2_In_r _ _ _ c FO Hc) as [p [Hp [Q1 [Q2 Q3]]]].
        destruct (points_wf c ltac:(congruence)) as [B1 [B2 B3]]. split; [exact B1|].
        destruct (J3 p Hp) as [_ [A2 _]]. split; [congruence|]. lia. }
      rewrite map_length in W3. rewrite <- (Forall2_len _ _ _ FO), J1 in W3.
      destruct (nleaves_bounds leaf (d_len d) Hgt ltac:(lia)) as [N1 N2].
      assert (mr_nleaves leaf (d_len d) * m <= mr_nleaves leaf (d_len d) * mr_half leaf) by now apply Nat.mul_le_mono_l.
      apply IH; auto; nia.
  Qed.

  Lemma map_reduce_terminates sup m base tree leaf fuel d :
    sized sup m base -> tree_sized tree -> 1 <= m -> 2 * m <= leaf ->
    wfd d -> is_sup d = sup -> m <= d_len d -> d_len d < fuel ->
    exists c, map_reduce O p0 y0 base tree leaf fuel d = Ok c /\ length (c_idx c) = m /\ length (c_w c) = m /\ c_pre c = d.
  Proof.
    intros HB HT Hm Hl Hw Hs Hn Hf.
    destruct (reduce_terminates sup m base tree leaf HB HT Hm Hl fuel d None Hw Hs Hn Hf) as [c [ix [E [L1 [L2 L3]]]]].
    unfold map_reduce. rewrite E. cbn [bind]. eexists. split; [reflexivity|]. cbn [c_idx c_w c_pre]. repeat split; auto.
    destruct ix; auto.
  Qed.

  Lemma jit_tree_count tree leaf d : tree_sized tree -> leaf < d_len d -> 2 <= leaf ->
    length (fst (jit_tree O p0 y0 tree leaf d)) = mr_nleaves leaf (d_len d).
  Proof.
    intros Ht Hn Hl. unfold jit_tree. cbn [fst snd]. rewrite !map_length.
    apply chunks_mult; [pose proof (partition_large leaf (d_len d) Hn Hl); lia|].
    rewrite map_length, Ht. unfold zero_pad. cbn [d_x]. rewrite app_length, repeat_length. apply padded_shape.
  Qed.

  (** a coreset larger than half a leaf can never be reached from more than one leaf *)
  Lemma reduce_never m base tree leaf :
    (forall d c, base d = Ok c -> length (c_idx c) = m) -> tree_sized tree -> 2 <= leaf -> leaf / 2 < m ->
    forall fuel d idx, leaf < d_len d -> exists e, reduce_coreset O p0 y0 base tree leaf fuel d idx = Err e.
  Proof.
    intros HB HT Hl Hm. induction fuel as [|fuel IH]; intros d idx Hn; [eexists; reflexivity|].
    cbn [reduce_coreset]. destruct (Nat.leb_spec (d_len d) leaf) as [Hle|Hgt]; [lia|].
    pose proof (jit_tree_count tree leaf d HT Hgt Hl) as JC.
    destruct (jit_tree O p0 y0 tree leaf d) as [parts pidx]. cbn [fst] in JC.
    destruct (mapM base parts) as [outs|e] eqn:EO; cbn [bind]; [|eexists; reflexivity].
    apply mapM_inv in EO. apply IH.
    unfold d_len, cat_data. cbn [d_x]. rewrite map_map.
    rewrite (concat_length_const (fun c => d_x (points O p0 y0 c)) outs m).
    - rewrite <- (Forall2_len _ _ _ EO), JC. destruct (nleaves_bounds leaf (d_len d) Hgt Hl) as [_ N2].
      pose proof (Nat.div_mod leaf 2 ltac:(lia)). pose proof (Nat.mod_upper_bound leaf 2 ltac:(lia)). nia.
    - intros c Hc. destruct (Forall2_In_r _ _ _ c EO Hc) as [p [_ Ep]]. apply HB in Ep.
      unfold points, d_getitem. cbn [d_x]. now rewrite gather_length.
  Qed.

  (** with a leaf of [2 h] rows and [h + 1] points per leaf the recursion never ends *)
  Lemma nleaves_fixed h q : 2 <= h -> mr_nleaves (2 * h) (2 ^ q * (h + 1)) = 2 ^ q.
  Proof.
    intros Hh. unfold mr_nleaves, mr_half. rewrite (Nat.mul_comm 2 h), Nat.div_mul by lia. rewrite Nat.max_r by lia.
    f_equal. pose proof (Nat.pow_nonzero 2 q ltac:(lia)) as Hq.
    apply Nat.log2_unique; [lia|]. split.
    - apply Nat.div_le_lower_bound; nia.
    - apply Nat.div_lt_upper_bound; [lia|]. simpl. nia.
  Qed.
  Lemma reduce_diverges sup h base tree : sized sup (h + 1) base -> tree_sized tree -> 2 <= h ->
    forall fuel d idx q, wfd d -> is_sup d = sup -> 1 <= q -> d_len d = 2 ^ q * (h + 1) ->
      reduce_coreset O p0 y0 base tree (2 * h) fuel d idx = Err RecursionLimit.
  Proof.
    intros HB HT Hh. induction fuel as [|fuel IH]; intros d idx q Hw Hs Hq Hn; [reflexivity|].
    assert (Q2 : 2 <= 2 ^ q) by (change 2 with (2 ^ 1) at 1; apply Nat.pow_le_mono_r; lia).
    assert (Hgt : 2 * h < d_len d) by nia.
    cbn [reduce_coreset]. destruct (Nat.leb_spec (d_len d) (2 * h)) as [Hle|_]; [lia|].
    destruct (jit_tree_shape tree (2 * h) d Hw HT Hgt ltac:(lia)) as [J1 [J2 J3]].
    pose proof (partition_large (2 * h) (d_len d) Hgt ltac:(lia)) as PL.
    assert (NL : mr_nleaves (2 * h) (d_len d) = 2 ^ q) by (rewrite Hn; now apply nleaves_fixed).
    destruct (jit_tree O p0 y0 tree (2 * h) d) as [parts pidx]. cbn [fst snd] in *.
    assert (HL : mr_half (2 * h) = h).
    { unfold mr_half. rewrite (Nat.mul_comm 2 h), Nat.div_mul by lia. lia. }
    destruct (mapM_ok base parts (fun p c => length (c_idx c) = h + 1 /\ length (c_w c) = h + 1 /\ c_pre c = p)) as [outs [EO FO]].
    { intros p Hp. destruct (J3 p Hp) as [A1 [A2 A3]]. apply HB; [assumption|congruence|lia]. }
    rewrite EO. cbn [bind].
    destruct (cat_wf (map (points O p0 y0) outs) sup (h + 1)) as [W1 [W2 W3]].
    { intros Eo. apply map_eq_nil in Eo. apply Forall2_len in FO. rewrite Eo in FO. simpl in FO. lia. }
    { intros d' Hd'. apply in_map_iff in Hd' as [c [<- Hc]].
      destruct (Forall2_In_r _ _ _ c FO Hc) as [p [Hp [Q1 [Q2' Q3]]]].
      destruct (points_wf c ltac:(congruence)) as [B1 [B2 B3]]. split; [exact B1|].
      destruct (J3 p Hp) as [_ [A2 _]]. split; [congruence|]. lia. }
    apply (IH _ _ q); auto. rewrite W3, map_length, <- (Forall2_len _ _ _ FO), J1, NL. reflexivity.
  Qed.

  (** ** provenance of the reported indices *)
  Lemma jget_map {A B} (f : A -> B) (a : A) (b : B) l i : l <> [] -> jget b (map f l) i = f (jget a l i).
  Proof.
    intros H. unfold jget. rewrite map_length.
    pose proof (clamp_lt (length l) i) as C. destruct l; [congruence|].
    rewrite nth_indep with (d' := f a) by (rewrite map_length; apply C; simpl; lia). apply map_nth.
  Qed.
  Lemma gather_gather {A} (a : A) xs ix jx : ix <> [] -> gather a (gather a xs ix) jx = gather a xs (gather 0%Z ix jx).
  Proof.
    intros H. unfold gather. rewrite map_map. apply map_ext. intros j.
    now rewrite (jget_map (jget a xs) 0%Z).
  Qed.
  Lemma gather_iota {A} (a : A) xs rows : xs <> [] ->
    gather a xs (gather 0%Z (map Z.of_nat (seq 0 (length xs))) rows) = gather a xs rows.
  Proof.
    intros H. unfold gather. rewrite map_map. apply map_ext. intros j.
    assert (L : 0 < length xs) by (destruct xs; [congruence|simpl; lia]).
    rewrite (jget_map Z.of_nat 0) by (intros E; apply (f_equal (@length _)) in E; rewrite seq_length in E; simpl in E; lia).
    unfold jget at 2. rewrite seq_length, seq_nth by now apply clamp_lt. simpl.
    rewrite jget_nat by now apply clamp_lt. reflexivity.
  Qed.

  (** the rows of [d] are the rows of [d0] numbered [ix] *)
  Definition rows_of (d0 : data) (ix : list Z) (d : data) : Prop :=
    d_x d = gather p0 (d_x d0) ix /\ d_y d = option_map (fun y => gather y0 y ix) (d_y d0).

  Lemma rows_of_trans d0 ix d jx d' : ix <> [] -> rows_of d0 ix d -> rows_of d jx d' -> rows_of d0 (gather 0%Z ix jx) d'.
  Proof.
    intros H [A1 A2] [B1 B2]. split.
    - rewrite B1, A1. now apply gather_gather.
    - rewrite B2, A2. destruct (d_y d0); simpl; auto. f_equal. now apply gather_gather.
  Qed.
  Lemma concat_gather {A} (a : A) xs jxs : concat (map (gather a xs) jxs) = gather a xs (concat jxs).
  Proof. unfold gather. rewrite <- (concat_map (jget a xs)). reflexivity. Qed.
  Lemma rows_of_cat d jxs ds : jxs <> [] -> Forall2 (rows_of d) jxs ds -> rows_of d (concat jxs) (cat_data ds).
  Proof.
    intros Hn F.
    assert (E1 : map d_x ds = map (gather p0 (d_x d)) jxs).
    { clear Hn. induction F as [|j e jxs ds [H1 H2] F IH]; simpl; auto. now rewrite IH, H1. }
    split; unfold cat_data; cbn [d_x d_y].
    - rewrite E1. apply concat_gather.
    - destruct F as [|j e jxs ds [H1 H2] F]; [congruence|]. rewrite H2. destruct (d_y d) as [yd|] eqn:Ey; simpl; auto.
      f_equal. rewrite H2. cbn [option_map]. unfold gather at 2. rewrite map_app. f_equal.
      change (concat (map (fun e => match d_y e with Some y => y | None => [] end) ds) = gather y0 yd (concat jxs)).
      rewrite <- concat_gather. f_equal. clear -F Ey. induction F as [|j' e' jxs ds [H1 H2] F IH]; simpl; auto.
      rewrite IH, H2, Ey. reflexivity.
  Qed.
  Lemma zero_pad_0 d : zero_pad O p0 y0 d 0 = d.
  Proof. destruct d as [x w y]. unfold zero_pad; simpl. rewrite !app_nil_r. f_equal. destruct y; simpl; auto. now rewrite app_nil_r. Qed.

  Lemma points_rows (c : cs) : rows_of (c_pre c) (c_idx c) (points O p0 y0 c).
  Proof. unfold points, d_getitem, rows_of. cbn [d_x d_y]. split; reflexivity. Qed.
  Lemma getitem_rows d rows : wfd d -> 0 < d_len d ->
    rows_of d (gather 0%Z (map Z.of_nat (seq 0 (d_len d))) rows) (d_getitem O p0 y0 d rows).
  Proof.
    intros [W1 W2] Hn. unfold d_getitem, rows_of, d_len in *. cbn [d_x d_y]. split.
    - rewrite gather_iota; auto. intros E; rewrite E in Hn; simpl in Hn; lia.
    - destruct (d_y d) as [y|]; simpl; auto. f_equal. specialize (W2 y eq_refl). rewrite <- W2. rewrite gather_iota; auto.
      intros E; rewrite E in W2; simpl in W2. lia.
  Qed.

  Definition tracked (d0 : data) (idx : option (list Z)) (d : data) : Prop :=
    match idx with None => d = d0 | Some ix => length ix = d_len d /\ rows_of d0 ix d end.

  Lemma tree_perm_sized (tree : list P -> list V -> nat -> list nat) : tree_perm tree -> tree_sized tree.
  Proof. intros H xs w l. rewrite (Permutation_length (H xs w l)). apply seq_length. Qed.
  Lemma flat_map_concat {A B} (f : A -> list B) l : concat (map f l) = flat_map f l.
  Proof. induction l; simpl; congruence. Qed.
  Lemma merged_cat l : merged l (cat_data l : data).
  Proof.
    unfold merged, cat_data. cbn [d_x d_w d_y]. rewrite !flat_map_concat. split; [|split]; auto.
  Qed.

  Lemma reduce_provenance sup m base tree leaf d0 :
    (forall d c, base d = Ok c -> c_pre c = d /\ length (c_idx c) = m /\ length (c_w c) = m) ->
    tree_perm tree -> 1 <= m -> 2 <= leaf ->
    forall fuel d idx c ix, wfd d -> is_sup d = sup -> 0 < d_len d -> reached O p0 y0 base d0 d -> tracked d0 idx d -> no_padding leaf m fuel (d_len d) = true ->
      reduce_coreset O p0 y0 base tree leaf fuel d idx = Ok (c, ix) ->
      base (c_pre c) = Ok c /\
      reached O p0 y0 base d0 (c_pre c) /\
      rows_of d0 (match ix with Some i => i | None => c_idx c end) (points O p0 y0 c).
  Proof.
    intros HB HTP Hm Hl. pose proof (tree_perm_sized tree HTP) as HT.
    induction fuel as [|fuel IH]; intros d idx c ix Hw Hs Hn Hre Htr Hnp E; [discriminate|].
    cbn [reduce_coreset] in E. cbn [no_padding] in Hnp. rewrite padded_rows_eq, leaf_count_eq in Hnp. destruct (Nat.leb_spec (d_len d) leaf) as [Hle|Hgt].
    - destruct (base d) as [c'|] eqn:Eb; cbn [bind] in E; [|discriminate]. injection E as <- <-.
      destruct (HB _ _ Eb) as [B1 [B2 B3]]. rewrite B1. split; [assumption|].
      pose proof (points_rows c') as PR. rewrite B1 in PR. destruct idx as [i|]; simpl in Htr.
      + destruct Htr as [T1 T2]. split; [assumption|]. apply (rows_of_trans d0 i d); auto.
        intros Ei; subst i; simpl in T1; lia.
      + subst d. split; [assumption|]. exact PR.
    - apply andb_true_iff in Hnp as [NP1 NP2]. apply Nat.eqb_eq in NP1.
      destruct (jit_tree_shape tree leaf d Hw HT Hgt Hl) as [J1 [J2 J3]].
      assert (JR : Forall2 (rows_of d) (snd (jit_tree O p0 y0 tree leaf d)) (fst (jit_tree O p0 y0 tree leaf d))
                   /\ Forall (fun j => j <> []) (snd (jit_tree O p0 y0 tree leaf d))).
      { unfold jit_tree in *. cbn [fst snd] in *. rewrite NP1, zero_pad_0 in *.
        pose proof (partition_large leaf (d_len d) Hgt Hl) as PL.
        destruct (chunks_mult (mr_partition leaf (d_len d)) (mr_nleaves leaf (d_len d)) (map Z.of_nat (tree (d_x d) (d_w d) (mr_half leaf)))) as [C1 C2].
        { lia. } { rewrite map_length, HT. rewrite <- padded_shape, NP1. unfold d_len. lia. }
        revert C2. generalize (chunks (mr_partition leaf (d_len d)) (map Z.of_nat (tree (d_x d) (d_w d) (mr_half leaf)))).
        intros cl C2. split.
        - clear C2. induction cl; simpl; constructor; auto. now apply getitem_rows.
        - apply Forall_forall. intros j Hj. apply in_map_iff in Hj as [r [<- Hr]]. apply C2 in Hr.
          intros Er. apply (f_equal (@length _)) in Er. rewrite gather_length in Er. simpl in Er. lia. }
      assert (RS : exists rows, Permutation (concat rows) (seq 0 (d_len d)) /\
        fst (jit_tree O p0 y0 tree leaf d) = map (fun r => d_getitem O p0 y0 d (map Z.of_nat r)) rows).
      { unfold jit_tree. cbn [fst]. rewrite NP1, zero_pad_0, map_chunks, map_map.
        exists (chunks (mr_partition leaf (d_len d)) (tree (d_x d) (d_w d) (mr_half leaf))). split; [|reflexivity].
        rewrite chunks_concat by (pose proof (partition_large leaf (d_len d) Hgt Hl); lia). apply HTP. }
      destruct RS as [rows [RS1 RS2]].
      destruct (jit_tree O p0 y0 tree leaf d) as [parts pidx]. cbn [fst snd] in *. destruct JR as [JR JN].
      destruct (mapM base parts) as [outs|e] eqn:EO; cbn [bind] in E; [|discriminate].
      apply mapM_inv in EO.
      assert (LO : length outs = mr_nleaves leaf (d_len d)) by (rewrite <- (Forall2_len _ _ _ EO); assumption).
      destruct (cat_wf (map (points O p0 y0) outs) sup m) as [W1 [W2 W3]].
      { intros Eo. apply map_eq_nil in Eo. rewrite Eo in LO. simpl in LO. pose proof (nleaves_pos leaf (d_len d)). lia. }
      { intros d' Hd'. apply in_map_iff in Hd' as [c' [<- Hc]].
        destruct (Forall2_In_r _ _ _ c' EO Hc) as [p [Hp Q1]]. destruct (HB _ _ Q1) as [B1 [B2 B3]].
        destruct (points_wf c' ltac:(congruence)) as [B4 [B5 B6]]. split; [exact B4|].
        destruct (J3 p Hp) as [_ [A2 _]]. split; [congruence|]. lia. }
      rewrite map_length, LO in W3.
      set (cat := concat (map2 (fun i c0 => gather 0%Z i (c_idx c0)) pidx outs)) in *.
      assert (LC : length cat = mr_nleaves leaf (d_len d) * m).
      { unfold cat. rewrite (map2_map_length_const _ pidx outs m).
        - now rewrite LO.
        - lia.
        - intros a b Hb. rewrite gather_length. destruct (Forall2_In_r _ _ _ b EO Hb) as [p [_ Q1]]. now apply HB in Q1. }
      assert (RC : rows_of d cat (cat_data (map (points O p0 y0) outs))).
      { unfold cat. apply rows_of_cat.
        - intros E0. apply (f_equal (@length _)) in E0. rewrite map2_length in E0. simpl in E0.
          pose proof (nleaves_pos leaf (d_len d)). lia.
        - clear -HB EO JR JN. revert pidx JR JN. induction EO as [|p c parts outs Ep EO IH]; intros pidx JR JN.
          + inversion JR; subst. constructor.
          + inversion JR as [|j p' pidx' parts' JR1 JR2]; subst. inversion JN; subst. simpl. constructor; auto.
            apply (rows_of_trans d j p); auto. destruct (HB _ _ Ep) as [<- _]. apply points_rows. }
      apply (IH (cat_data (map (points O p0 y0) outs)) (Some (match idx with Some i => gather 0%Z i cat | None => cat end))) in E; auto.
      + pose proof (nleaves_pos leaf (d_len d)). nia.
      + apply (reached_step O p0 y0 base d0 d rows outs); auto; [|apply merged_cat].
        rewrite RS2 in EO. clear -EO. remember (map _ rows) as ps eqn:Ep. revert rows Ep.
        induction EO; intros [|r rows] Ep; try discriminate; constructor; injection Ep as -> ->; auto.
      + simpl. split; [destruct idx; [rewrite gather_length|]; lia|].
        destruct idx as [i|]; simpl in Htr.
        * destruct Htr as [T1 T2]. apply (rows_of_trans d0 i d); auto. intros Ei; subst i; simpl in T1; lia.
        * now subst d.
      + now rewrite W3.
  Qed.
End Term.
