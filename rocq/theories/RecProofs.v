(** * Linear algebra behind recombination: eliminating a functional from a basis *)
From Coq Require Import List Arith Lia Reals Lra Permutation.
From Verif Require Import Num RSum Jax JaxFacts RecSpec.
Import ListNotations.
Local Open Scope R_scope.

Lemma comb_nil i : comb [] [] i = 0.
Proof. reflexivity. Qed.
Lemma comb_cons c cs b B i : comb (c :: cs) (b :: B) i = c * nth i b 0 + comb cs B i.
Proof. reflexivity. Qed.
Lemma comb_zero cs B i : Forall (fun c => c = 0) cs -> comb cs B i = 0.
Proof.
  revert B. induction cs as [|c cs IH]; intros [|b B] H; try reflexivity.
  inversion H; subst. rewrite comb_cons, IH; auto. lra.
Qed.
Lemma Rsum_map2_lin cs (B : list (list R)) f : Rsum (map2 (fun c b => c * f b) cs B) = Rdot cs (map f B).
Proof. unfold Rdot. f_equal. revert B. induction cs; intros [|b B]; simpl; auto. now rewrite IHcs. Qed.

(** a linear functional on vectors of length n *)
Definition linear_fun (n : nat) (L : list R -> R) : Prop :=
  forall v cs B, length v = n -> Forall (fun b => length b = n) B -> length cs = length B ->
    (forall i, (i < n)%nat -> nth i v 0 = comb cs B i) ->
    L v = Rsum (map2 (fun c b => c * L b) cs B).

Lemma coord_linear n k : (k < n)%nat -> linear_fun n (fun v => nth k v 0).
Proof. intros Hk v cs B Hv HB Hc H. now rewrite H. Qed.
Lemma weighted_linear n (a : nat -> R) :
  linear_fun n (fun v => Rsum (map (fun i => nth i v 0 * a i) (seq 0 n))).
Proof.
  intros v cs B Hv HB Hc H.
  rewrite (Rsum_map_ext _ (fun i => comb cs B i * a i)).
  2:{ intros i Hi. apply in_seq in Hi. rewrite H by lia. reflexivity. }
  clear H Hv v. revert B HB Hc. induction cs as [|c cs IH]; intros [|b B] HB Hc; try discriminate.
  - simpl. apply Rsum_zero. intros x Hx. apply in_map_iff in Hx as (i & <- & _). rewrite comb_nil. lra.
  - cbn [map2 Rsum]. inversion HB; subst. rewrite <- IH by (auto; simpl in Hc; lia).
    rewrite <- Rsum_map_scal, <- Rsum_map_add. apply Rsum_map_ext. intros i _. rewrite comb_cons. ring.
Qed.

Definition red (p : list R) (c : R) (b : list R) : list R := map2 (fun x y => x - c * y) b p.
Lemma red_length p c b : length b = length p -> length (red p c b) = length b.
Proof. intros H. unfold red. rewrite map2_length. lia. Qed.
Lemma red_nth p c b i : length b = length p -> nth i (red p c b) 0 = nth i b 0 - c * nth i p 0.
Proof.
  intros H. destruct (Nat.lt_ge_cases i (length b)).
  - unfold red. rewrite (nth_map2 _ _ _ _ 0 0) by lia. reflexivity.
  - rewrite !nth_overflow; try lia; [lra|]. rewrite red_length; lia.
Qed.

(** remove the first vector on which [L] does not vanish and reduce the later ones *)
Fixpoint gstep (L : list R -> R) (B : list (list R)) : list (list R) :=
  match B with
  | [] => []
  | b :: T => if Req_EM_T (L b) 0 then b :: gstep L T
              else map (fun x => red b (L x / L b) x) T
  end.
Lemma gstep_length L B : (length B - 1 <= length (gstep L B) <= length B)%nat.
Proof. induction B as [|b T IH]; simpl; [lia|]. destruct (Req_EM_T _ _); simpl; [lia|]. rewrite map_length. lia. Qed.
Lemma gstep_len n L B : Forall (fun b => length b = n) B -> Forall (fun b => length b = n) (gstep L B).
Proof.
  induction B as [|b T IH]; intros H; simpl; auto. inversion H; subst.
  destruct (Req_EM_T _ _); [constructor; auto|]. rewrite Forall_forall in *. intros x Hx.
  apply in_map_iff in Hx as (y & <- & Hy). rewrite red_length; auto.
Qed.

Lemma comb_red b L cs T i : Forall (fun x => length x = length b) T -> length cs = length T ->
  comb cs (map (fun x => red b (L x / L b) x) T) i =
  comb cs T i - Rsum (map2 (fun c x => c * L x) cs T) / L b * nth i b 0.
Proof.
  revert T. induction cs as [|c cs IH]; intros [|x T] HT Hc; try discriminate.
  - simpl. rewrite !comb_nil. lra.
  - cbn [map]. inversion HT; subst. simpl in Hc. rewrite !comb_cons, IH by (auto; lia). cbn [map2 Rsum].
    rewrite red_nth by auto. unfold Rdiv. ring.
Qed.

(** combinations of the reduced basis are combinations of the basis *)
Lemma gstep_sub n L B : Forall (fun b => length b = n) B ->
  forall cs, length cs = length (gstep L B) ->
  exists cs', length cs' = length B /\ (forall i, comb cs (gstep L B) i = comb cs' B i) /\
    (Forall (fun c => c = 0) cs' -> Forall (fun c => c = 0) cs).
Proof.
  induction B as [|b T IH]; intros HB cs Hc.
  - exists []. simpl in *. destruct cs; [|discriminate]. auto.
  - inversion HB as [|? ? Hb HT]; subst. simpl in *. destruct (Req_EM_T _ _) as [E|E].
    + destruct cs as [|c cs]; [discriminate|]. simpl in Hc.
      destruct (IH HT cs) as (cs' & Hl & He & Hz); [lia|].
      exists (c :: cs'). simpl. split; [lia|]. split.
      * intros i. rewrite !comb_cons, He. reflexivity.
      * intros H. inversion H; subst. constructor; auto.
    + rewrite map_length in Hc.
      exists (- (Rsum (map2 (fun c x => c * L x) cs T) / L b) :: cs). simpl. split; [lia|]. split.
      * intros i. rewrite comb_red, comb_cons by auto. ring.
      * intros H. now inversion H.
Qed.
Lemma gstep_indep n L B : Forall (fun b => length b = n) B -> indep n B -> indep n (gstep L B).
Proof.
  intros HB HI cs Hc H. destruct (gstep_sub n L B HB cs Hc) as (cs' & Hl & He & Hz).
  apply Hz, HI; auto. intros i Hi. now rewrite <- He, H.
Qed.

Lemma gstep_kills n L B : linear_fun n L -> Forall (fun b => length b = n) B ->
  Forall (fun b => L b = 0) (gstep L B).
Proof.
  intros HL. induction B as [|b T IH]; intros HB; simpl; auto.
  inversion HB as [|? ? Hb HT]; subst. destruct (Req_EM_T _ _) as [E|E]; [constructor; auto|].
  rewrite Forall_forall. intros y Hy. apply in_map_iff in Hy as (x & <- & Hx).
  rewrite Forall_forall in HT. specialize (HT x Hx).
  rewrite (HL _ [1; - (L x / L b)] [x; b]).
  - simpl. field. exact E.
  - rewrite red_length; auto.
  - repeat constructor; auto.
  - reflexivity.
  - intros i Hi. rewrite red_nth, !comb_cons, comb_nil by auto. ring.
Qed.

(** a combination on which [L] vanishes is a combination of the reduced basis *)
Lemma gstep_sup n L B : linear_fun n L -> Forall (fun b => length b = n) B ->
  forall cs, length cs = length B -> Rsum (map2 (fun c x => c * L x) cs B) = 0 ->
  exists cs', length cs' = length (gstep L B) /\ forall i, comb cs B i = comb cs' (gstep L B) i.
Proof.
  intros HL. induction B as [|b T IH]; intros HB cs Hc H.
  - exists []. simpl. destruct cs; [|discriminate]. auto.
  - inversion HB as [|? ? Hb HT]; subst. destruct cs as [|c cs]; [discriminate|]. simpl in *.
    destruct (Req_EM_T _ _) as [E|E].
    + destruct (IH HT cs) as (cs' & Hl & He); [lia| rewrite E in H; lra |].
      exists (c :: cs'). simpl. split; [lia|]. intros i. now rewrite !comb_cons, He.
    + exists cs. rewrite map_length. split; [lia|]. intros i.
      rewrite comb_red, comb_cons by (auto; lia).
      replace c with (- Rsum (map2 (fun c x => c * L x) cs T) / L b).
      * unfold Rdiv. ring.
      * apply (Rmult_eq_reg_r (L b)); auto. field_simplify; auto. lra.
Qed.
Lemma gstep_spans n L B S : linear_fun n L -> Forall (fun b => length b = n) B ->
  spans n B S -> spans n (gstep L B) (fun v => S v /\ L v = 0).
Proof.
  intros HL HB HS v Hv [Hs H0]. destruct (HS v Hv Hs) as (cs & Hc & He).
  destruct (gstep_sup n L B HL HB cs Hc) as (cs' & Hc' & He').
  - rewrite <- (HL v cs B); auto.
  - exists cs'. split; auto. intros i Hi. rewrite He by auto. apply He'.
Qed.
(** a linear functional vanishing on B vanishes on its combinations *)
Lemma lin_comb_zero n L B cs v : linear_fun n L -> Forall (fun b => length b = n) B ->
  length v = n -> length cs = length B -> (forall i, (i < n)%nat -> nth i v 0 = comb cs B i) ->
  Forall (fun b => L b = 0) B -> L v = 0.
Proof.
  intros HL HB Hv Hc H Hz. rewrite (HL v cs B) by auto. clear - Hz Hc. revert cs Hc.
  induction Hz; intros [|c cs] Hc; try discriminate; auto. cbn [map2 Rsum]. rewrite IHHz, H; auto. lra.
Qed.
(** the reduced vectors are still in the kernel of any linear functional that vanished on B *)
Lemma gstep_keeps n L L' B : linear_fun n L' -> Forall (fun b => length b = n) B ->
  Forall (fun b => L' b = 0) B -> Forall (fun b => L' b = 0) (gstep L B).
Proof.
  intros HL'. induction B as [|b T IH]; intros HB HZ; simpl; auto.
  inversion HB as [|? ? Hb HT]; subst. inversion HZ as [|? ? Zb ZT]; subst.
  destruct (Req_EM_T _ _) as [E|E]; [constructor; auto|].
  rewrite Forall_forall in *. intros y Hy. apply in_map_iff in Hy as (x & <- & Hx).
  rewrite (HL' _ [1; - (L x / L b)] [x; b]).
  - simpl. rewrite Zb, (ZT x Hx). ring.
  - rewrite red_length; auto.
  - repeat constructor; auto.
  - reflexivity.
  - intros i Hi. rewrite red_nth, !comb_cons, comb_nil by auto. ring.
Qed.

(** ** a basis of the null space by elimination of the columns *)
Definition unitv (n k : nat) : list R := map (fun i => if Nat.eqb i k then 1 else 0) (seq 0 n).
Definition identity (n : nat) : list (list R) := map (unitv n) (seq 0 n).
Definition column (A : list (list R)) (c : nat) (v : list R) : R :=
  Rsum (map (fun i => nth i v 0 * entry A i c) (seq 0 (length A))).
Fixpoint gauss (A : list (list R)) (k : nat) : list (list R) :=
  match k with
  | O => identity (length A)
  | S k' => gstep (column A k') (gauss A k')
  end.

Lemma unitv_length n k : length (unitv n k) = n.
Proof. unfold unitv. now rewrite map_length, seq_length. Qed.
Lemma nth_map_seq' (f : nat -> R) n i d : (i < n)%nat -> nth i (map f (seq 0 n)) d = f i.
Proof. intros H. rewrite nth_indep with (d' := f 0%nat) by (rewrite map_length, seq_length; lia).
  rewrite map_nth, seq_nth by lia. reflexivity. Qed.
Lemma unitv_nth n k i : (i < n)%nat -> nth i (unitv n k) 0 = if Nat.eqb i k then 1 else 0.
Proof. intros H. unfold unitv. now rewrite nth_map_seq'. Qed.
Lemma comb_units n i a : (i < n)%nat -> forall cs, length cs = a ->
  forall s, comb cs (map (unitv n) (seq s a)) i = if (Nat.leb s i && Nat.ltb i (s + a))%bool then nth (i - s) cs 0 else 0.
Proof.
  intros Hi. induction a; intros cs Hc s.
  - destruct cs; [|discriminate]. simpl. rewrite comb_nil. destruct (Nat.leb_spec s i), (Nat.ltb_spec i (s+0)); simpl; auto; lia.
  - destruct cs as [|c cs]; [discriminate|]. cbn [seq map]. rewrite comb_cons, IHa by (simpl in Hc; lia).
    rewrite unitv_nth by auto.
    destruct (Nat.eqb_spec i s); subst.
    + rewrite Nat.sub_diag. destruct (Nat.leb_spec (S s) s), (Nat.leb_spec s s), (Nat.ltb_spec s (s + S a)); simpl; try lia. lra.
    + destruct (Nat.leb_spec s i), (Nat.leb_spec (S s) i), (Nat.ltb_spec i (s + S a)), (Nat.ltb_spec i (S s + a)); simpl; try lia; try lra.
      replace (i - s)%nat with (S (i - S s)) by lia. lra.
Qed.
Lemma comb_identity n cs i : (i < n)%nat -> length cs = n -> comb cs (identity n) i = nth i cs 0.
Proof.
  intros Hi Hc. unfold identity. rewrite (comb_units n i n Hi cs Hc 0). simpl.
  destruct (Nat.ltb_spec i n); [|lia]. now rewrite Nat.sub_0_r.
Qed.
Lemma identity_length n : length (identity n) = n.
Proof. unfold identity. now rewrite map_length, seq_length. Qed.
Lemma identity_len n : Forall (fun b => length b = n) (identity n).
Proof. rewrite Forall_forall. intros b Hb. apply in_map_iff in Hb as (i & <- & _). apply unitv_length. Qed.
Lemma identity_indep n : indep n (identity n).
Proof.
  intros cs Hc H. rewrite identity_length in Hc. apply Forall_forall. intros c Hi.
  apply (In_nth _ _ 0) in Hi as (i & Hi & <-). rewrite <- (comb_identity n) by lia. apply H. lia.
Qed.
Lemma identity_spans n : spans n (identity n) (fun _ => True).
Proof.
  intros v Hv _. exists v. rewrite identity_length. split; auto. intros i Hi. now rewrite comb_identity.
Qed.

Lemma gauss_ok A k :
  Forall (fun b => length b = length A) (gauss A k) /\
  (length A - k <= length (gauss A k) <= length A)%nat /\
  Forall (null_vec A k) (gauss A k) /\ indep (length A) (gauss A k) /\
  spans (length A) (gauss A k) (null_vec A k).
Proof.
  induction k as [|k (H1 & H2 & H3 & H4 & H5)].
  - cbn [gauss]. repeat split.
    + apply identity_len.
    + rewrite identity_length; lia.
    + rewrite identity_length; lia.
    + apply Forall_forall. intros v _ c Hc. lia.
    + apply identity_indep.
    + intros v Hv _. now apply identity_spans.
  - cbn [gauss]. set (L := column A k). pose proof (weighted_linear (length A) (fun i => entry A i k)) as HL.
    fold L in HL. change (linear_fun (length A) L) in HL.
    pose proof (gstep_length L (gauss A k)). repeat split; try lia.
    + now apply gstep_len.
    + apply Forall_forall. intros v Hv c Hc.
      destruct (Nat.eq_dec c k) as [->|Hne].
      * pose proof (gstep_kills _ L _ HL H1) as Hk. rewrite Forall_forall in Hk. exact (Hk v Hv).
      * pose proof (weighted_linear (length A) (fun i => entry A i c)) as HLc.
        assert (Hz : Forall (fun b => column A c b = 0) (gauss A k)).
        { rewrite Forall_forall in *. intros b Hb. apply (H3 b Hb). lia. }
        pose proof (gstep_keeps _ L (column A c) _ HLc H1 Hz) as Hk. rewrite Forall_forall in Hk. exact (Hk v Hv).
    + now apply gstep_indep.
    + intros v Hv Hn. destruct (gstep_spans _ L _ _ HL H1 H5 v Hv) as (cs & Hc & He).
      * split; [intros c Hc; apply Hn; lia|]. apply Hn. lia.
      * now exists cs.
Qed.

(** more than k vectors of length k are dependent *)
Lemma dependent (A : list (list R)) k : (k < length A)%nat ->
  exists v, length v = length A /\ null_vec A k v /\ exists i, (i < length A)%nat /\ nth i v 0 <> 0.
Proof.
  intros H. destruct (gauss_ok A k) as (H1 & H2 & H3 & H4 & _).
  destruct (gauss A k) as [|v B]; [simpl in H2; lia|].
  inversion H1; inversion H3; subst. exists v. split; auto. split; auto.
  destruct (Forall_dec (fun x => x = 0) (fun x => Req_EM_T x 0) v) as [Hz|Hz].
  - exfalso. specialize (H4 (1 :: repeat 0 (length B))).
    assert (Hf : Forall (fun c => c = 0) (1 :: repeat 0 (length B))).
    { apply H4; [simpl; now rewrite repeat_length|]. intros i Hi. rewrite comb_cons, comb_zero.
      - rewrite Forall_forall in Hz. rewrite (Hz (nth i v 0)); [lra|]. apply nth_In. lia.
      - apply Forall_forall. intros c Hc. now apply repeat_spec in Hc. }
    inversion Hf. lra.
  - apply neg_Forall_Exists_neg in Hz; [|intros; apply Req_EM_T]. apply Exists_exists in Hz as (x & Hx & Hn).
    apply (In_nth _ _ 0) in Hx as (i & Hi & <-). exists i. split; auto. lia.
Qed.
