(** * Greedy kernel points: the selection loop *)
From Coq Require Import List ZArith Bool Reals Permutation Lia Lra.
From Verif Require Import Num Jax RSum JaxFacts ArgFacts DataModel GreedyModel UtilModel GKPModel
  MapReduceProofs3 GreedyProofs CholProofs.
Import ListNotations.
Open Scope nat_scope.

Lemma upd_upd {A} n (u v : A) l : upd n u (upd n v l) = upd n u l.
Proof. revert n; induction l; intros [|n]; simpl; auto. now rewrite IHl. Qed.
Lemma upd_oob {A} n (v : A) l : length l <= n -> upd n v l = l.
Proof. revert n; induction l; intros [|n] H; simpl in *; auto; try lia. now rewrite IHl by lia. Qed.
Lemma upd_same {A} n (d : A) l : upd n (nth n l d) l = l.
Proof. revert n; induction l; intros [|n]; simpl; auto. now rewrite IHl. Qed.
Lemma upd_comm {A} i j (u v : A) l : i <> j -> upd i u (upd j v l) = upd j v (upd i u l).
Proof. revert i j; induction l; intros [|i] [|j] H; simpl; auto; try congruence. now rewrite IHl by congruence. Qed.
Lemma map2_map_l {A A' B C} (f : A' -> B -> C) (g : A -> A') l m : map2 f (map g l) m = map2 (fun a b => f (g a) b) l m.
Proof. revert m; induction l; destruct m; simpl; auto. now rewrite IHl. Qed.
Lemma map2_const_l {A B C} (f : B -> C) (l : list A) m : length l = length m -> map2 (fun _ b => f b) l m = map f m.
Proof. revert m; induction l; destruct m; simpl; intros H; try lia; auto. f_equal. apply IHl. lia. Qed.

(** ** the identity matrix *)
Section Diag.
  Context {V : Type} (O : FOps V).
  Lemma diag_length v : length (diag O v) = length v.
  Proof. unfold diag. now rewrite map_length, seq_length. Qed.
  Lemma diag_nth v i : i < length v -> nth i (diag O v) [] = upd i (nth i v (f0 O)) (repeat (f0 O) (length v)).
  Proof. intros H. unfold diag. rewrite (nth_map_lt _ (seq 0 (length v)) i 0) by (rewrite seq_length; lia). now rewrite seq_nth by lia. Qed.
  Lemma diag_upd v i a : upd i (upd i a (nth i (diag O v) [])) (diag O v) = diag O (upd i a v).
  Proof.
    destruct (Nat.lt_ge_cases i (length v)) as [H|H].
    - apply list_ext with (d := []); [now rewrite upd_length, !diag_length, upd_length|].
      rewrite upd_length, diag_length. intros j Hj. rewrite (diag_nth (upd i a v)) by now rewrite upd_length.
      rewrite nth_upd, diag_length, upd_length. rewrite nth_upd. rewrite (proj2 (Nat.ltb_lt i (length v)) H), !andb_true_r.
      destruct (Nat.eqb_spec j i) as [->|Ne].
      + rewrite diag_nth by assumption. now rewrite upd_upd.
      + now rewrite diag_nth.
    - rewrite !upd_oob; auto. now rewrite diag_length.
  Qed.
  (** the flags after [t] steps *)
  Definition flags (v0 : list V) (t : nat) : list V := fold_left (fun v i => upd i (f1 O) v) (seq 0 t) v0.
  Lemma flags_S v0 t : flags v0 (S t) = upd t (f1 O) (flags v0 t).
  Proof. unfold flags. rewrite seq_S, fold_left_app. reflexivity. Qed.
  Lemma flags_length v0 t : length (flags v0 t) = length v0.
  Proof. induction t; [reflexivity|]. now rewrite flags_S, upd_length. Qed.
  Lemma flags_nth v0 t j d : j < length v0 -> nth j (flags v0 t) d = if j <? t then f1 O else nth j v0 d.
  Proof.
    intros H. induction t; [reflexivity|]. rewrite flags_S, nth_upd, IHt, flags_length.
    destruct (Nat.eqb_spec j t) as [->|Ne].
    - rewrite (proj2 (Nat.ltb_lt t (length v0)) H). simpl. now rewrite (proj2 (Nat.ltb_lt t (S t))) by lia.
    - simpl. destruct (Nat.ltb_spec j t), (Nat.ltb_spec j (S t)); auto; lia.
  Qed.
  Lemma flags_ones v0 t : (forall j, j < length v0 -> nth j v0 (f0 O) = f1 O) -> flags v0 t = v0.
  Proof.
    intros H. apply list_ext with (d := f0 O); rewrite flags_length; auto. intros j Hj. rewrite flags_nth by assumption.
    destruct (_ <? _); auto. symmetry. auto.
  Qed.
End Diag.

(** ** one selection *)
Section Select.
  Variables (unique : bool) (i : nat) (idx : list Z) (B : list Z) (loss : Z -> R).
  Hypothesis HB : B <> [].
  Hypothesis Hi : i < length idx.
  Notation coresets := (map (fun b => upd i b idx) B).
  Notation masked := (mask_losses EROps unique i coresets idx (map (fun b => Fin (loss b)) B)).
  Notation r := (argmin EROps masked).
  Definition others : list Z := upd i (-1)%Z idx.

  Lemma masked_eq : masked = map (fun b => if unique && existsb (Z.eqb b) others then PInf else Fin (loss b)) B.
  Proof.
    unfold mask_losses. destruct unique; [|reflexivity]. rewrite map2_map. rewrite <- (map_id B) at 2. rewrite map2_diag.
    apply map_ext. intros b. rewrite nth_upd_eq by assumption. unfold others. cbn [andb].
    destruct (existsb _ _); cbn; [reflexivity|]. f_equal. lra.
  Qed.
  Lemma masked_nn : Forall (fun v => v <> NaN) masked.
  Proof. rewrite masked_eq. apply Forall_forall. intros v Hv. apply in_map_iff in Hv as [b [<- _]]. destruct (_ && _); discriminate. Qed.
  Lemma select_spec :
    let ch := nth i (nth r coresets []) 0%Z in
    In ch B /\
    (unique = false \/ (exists b, In b B /\ ~ In b others) ->
     (unique = true -> ~ In ch others) /\
     forall b, In b B -> (unique = true -> ~ In b others) -> (loss ch <= loss b)%R).
  Proof.
    intros ch.
    assert (ML : length masked = length B) by (rewrite masked_eq; apply map_length).
    destruct (argmin_spec ROps ROps_laws masked) as [R1 [R2 _]].
    { intros E. rewrite E in ML. destruct B; [congruence|discriminate]. }
    { apply masked_nn. }
    change (argmin (extOps ROps)) with (argmin EROps) in *. rewrite ML in R1.
    assert (Ech : ch = nth r B 0%Z).
    { unfold ch. rewrite (nth_map_lt _ B r 0%Z) by assumption. now rewrite nth_upd_eq. }
    assert (MN : forall j, j < length B -> nth j masked NaN = if unique && existsb (Z.eqb (nth j B 0%Z)) others then PInf else Fin (loss (nth j B 0%Z))).
    { intros j Hj. rewrite masked_eq. now rewrite (nth_map_lt _ B j 0%Z). }
    assert (EX : forall b, existsb (Z.eqb b) others = true <-> In b others).
    { intros b. rewrite existsb_exists. split.
      - intros [z [I E]]. apply Z.eqb_eq in E. now subst.
      - intros I. exists b. split; auto. apply Z.eqb_refl. }
    split; [rewrite Ech; now apply nth_In|]. intros A.
    assert (FIN : unique && existsb (Z.eqb (nth r B 0%Z)) others = false).
    { destruct A as [->|[b [Ib Nb]]]; [reflexivity|].
      destruct (unique && existsb (Z.eqb (nth r B 0%Z)) others) eqn:E; auto.
      apply In_nth with (d := 0%Z) in Ib as [j [Hj Ej]].
      specialize (R2 j ltac:(rewrite ML; assumption)). rewrite (MN j Hj), (MN r R1), E, Ej in R2.
      replace (existsb (Z.eqb b) others) with false in R2; [rewrite andb_false_r in R2; discriminate|].
      symmetry. destruct (existsb (Z.eqb b) others) eqn:F; auto. apply EX in F. contradiction. }
    split.
    - intros U I. rewrite U in FIN. cbn [andb] in FIN. rewrite Ech in I. apply EX in I. congruence.
    - intros b Ib Nb. apply In_nth with (d := 0%Z) in Ib as [j [Hj Ej]].
      specialize (R2 j ltac:(rewrite ML; assumption)). rewrite (MN j Hj), (MN r R1), FIN, Ej in R2.
      replace (unique && existsb (Z.eqb b) others) with false in R2.
      + cbn in R2. apply Rltb_false in R2. now rewrite Ech.
      + symmetry. destruct unique; auto. cbn [andb]. destruct (existsb (Z.eqb b) others) eqn:F; auto. apply EX in F. now apply Nb in F.
  Qed.
End Select.

(** ** the loop *)
Section Loop.
  Context {P K : Type}.
  Variable s : gkp (V := ER) (P := P) (K := K).
  Variable su : @setup ER.
  Variables (responses : list ER) (gram : list (list ER)) (v0 : list ER) (w : nat).
  Notation m := (gk_size s).
  Notation idx0 := (su_idx su).
  Notation rows := (su_cand su).
  (** the loss used in step [t] *)
  Definition loss_at (t : nat) : list Z -> ER :=
    gkp_loss EROps (gk_solve s) (gk_reg s) responses gram (diag EROps (flags EROps v0 (S t))) (nth t (su_loss su) []).
  Variable lossR : nat -> list Z -> R.
  Hypothesis Hloss : forall t c, t < m -> loss_at t c = Fin (lossR t c).
  Hypothesis Hidx : length idx0 = m.
  Hypothesis Hrows : length rows = m.
  Hypothesis Hw : 0 < w.
  Hypothesis Hshape : forall r, In r rows -> length r = w.
  Hypothesis Hid : su_identity su = diag EROps v0.
  Hypothesis Hcs : su_coresets su = map (fun b => upd 0 b idx0) (nth 0 rows []).
  Notation st0 := (mkK idx0 (su_identity su) (su_coresets su)).

  Record linv (t : nat) (st : @kstate ER) : Prop := mkL {
    l_len : length (k_idx st) = m;
    l_tail : skipn t (k_idx st) = skipn t idx0;
    l_id : k_identity st = diag EROps (flags EROps v0 t);
    l_cs : t < m -> k_coresets st = map (fun b => upd t b (k_idx st)) (nth t rows []);
    l_trace : forall u, u < t ->
      let cur := firstn u (k_idx st) ++ skipn u idx0 in
      let ch := nth u (k_idx st) 0%Z in
      let B := nth u rows [] in
      In ch B /\
      (gk_unique s = false \/ (exists b, In b B /\ ~ In b (others u cur)) ->
       (gk_unique s = true -> ~ In ch (others u cur)) /\
       forall b, In b B -> (gk_unique s = true -> ~ In b (others u cur)) -> (lossR u (upd u ch cur) <= lossR u (upd u b cur))%R) }.

  Lemma firstn_upd_ge {A} (l : list A) u t a : u <= t -> firstn u (upd t a l) = firstn u l.
  Proof. clear. revert u t. induction l; intros [|u] [|t] H; simpl; auto; try lia. rewrite IHl; auto. lia. Qed.
  Lemma skipn_upd_lt {A} (l : list A) u t a : t < u -> skipn u (upd t a l) = skipn u l.
  Proof. clear. revert u t. induction l; intros [|u] [|t] H; simpl; auto; try lia. apply IHl. lia. Qed.
  Lemma skipn_S_eq {A} (l l' : list A) t : skipn t l = skipn t l' -> skipn (S t) l = skipn (S t) l'.
  Proof.
    clear. intros H. assert (E : forall k : list A, skipn (S t) k = tl (skipn t k)).
    { clear. induction t; intros [|a k]; auto. simpl in *. apply (IHt k). }
    rewrite !E. now rewrite H.
  Qed.

  Lemma gkp_step t st : t < m -> linv t st -> linv (S t) (gkp_body EROps s su responses gram t st).
  Proof.
    intros Ht [Ll Lt Li Lc Lr]. unfold gkp_body. rewrite Li, diag_upd, <- flags_S.
    fold (loss_at t). unfold update_candidates. rewrite Lc by assumption.
    set (idx := k_idx st) in *. set (B := nth t rows []) in *.
    assert (IB : In B rows) by (apply nth_In; lia).
    assert (BL : length B = w) by now apply Hshape.
    assert (EL : map (loss_at t) (map (fun b => upd t b idx) B) = map (fun b => Fin (lossR t (upd t b idx))) B).
    { rewrite map_map. apply map_ext. intros. now apply Hloss. }
    rewrite EL.
    destruct (select_spec (gk_unique s) t idx B (fun b => lossR t (upd t b idx))) as [S1 S2].
    { intros E. rewrite E in BL. simpl in BL. lia. }
    { lia. }
    set (ch := nth t (nth (argmin EROps (mask_losses EROps (gk_unique s) t _ idx _)) _ []) 0%Z) in *.
    assert (CUR : firstn t idx ++ skipn t idx0 = idx) by (rewrite <- Lt; apply firstn_skipn).
    constructor; cbn [k_idx k_identity k_coresets].
    - now rewrite upd_length.
    - rewrite skipn_upd_lt by lia. now apply skipn_S_eq.
    - reflexivity.
    - intros HS. rewrite (nth_indep rows (last rows []) []) by lia.
      rewrite map2_map_l. rewrite <- (map2_const_l _ B).
      + clearbody ch idx B. clear. revert idx. generalize (nth (S t) rows []). induction B as [|b B IH]; intros [|c l] idx; simpl; auto. f_equal; [now rewrite upd_upd|apply IH].
      + rewrite BL. symmetry. apply Hshape, nth_In. lia.
    - intros u Hu. destruct (Nat.eq_dec u t) as [->|Ne].
      + rewrite firstn_upd_ge by lia. rewrite CUR, nth_upd_eq by lia. split; auto.
      + rewrite firstn_upd_ge by lia. rewrite nth_upd_neq by assumption. apply Lr. lia.
  Qed.
  Lemma gkp_loop : linv m (fori m (gkp_body EROps s su responses gram) st0).
  Proof.
    apply (fori_ind linv m).
    - constructor; cbn [k_idx k_identity k_coresets]; auto; try lia; intros; lia.
    - intros t st Ht I. now apply gkp_step.
  Qed.
End Loop.
