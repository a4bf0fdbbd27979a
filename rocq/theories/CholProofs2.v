(** * RPCholesky tracks the exact residual of its factorisation *)
From Coq Require Import List ZArith Bool Reals Permutation Lia Lra.
From Verif Require Import Num Jax RSum JaxFacts DataModel GreedyModel CholModel CholSpec MetricSpec MetricProofs
  MapReduceProofs3 GreedyProofs CholProofs.
Import ListNotations.
Open Scope R_scope.

(** ** elimination *)
Lemma bil1 {I} (k : I -> I -> R) p c : bil k [(p, c)] [(p, c)] = c * c * k p p.
Proof. unfold bil. simpl. ring. Qed.
Lemma psd_diag {I} (k : I -> I -> R) p : psd k -> 0 <= k p p.
Proof. intros [_ H]. specialize (H [(p, 1)]). rewrite bil1 in H. lra. Qed.
Lemma bil_eliminate {I} (k : I -> I -> R) p ms : (forall a b, k a b = k b a) -> k p p <> 0 ->
  bil (eliminate k p) ms ms = bil k (ms ++ [(p, - lin ms (fun i => k i p) / k p p)]) (ms ++ [(p, - lin ms (fun i => k i p) / k p p)]).
Proof.
  intros Sy Hp. rewrite bil_app_l, !bil_app_r, bil1.
  set (L := lin ms (fun i => k i p)).
  assert (E1 : bil (eliminate k p) ms ms = bil k ms ms - L * L / k p p).
  { rewrite !bil_lin. unfold eliminate.
    assert (A : lin ms (fun a => lin ms (fun q => k a q - k a p * k q p / k p p))
              = lin ms (fun a => lin ms (fun q => k a q) + (- L / k p p) * k a p)).
    { apply lin_ext. intros a. unfold L, Rminus. rewrite lin_add. f_equal.
      rewrite (lin_ext ms _ (fun q => (- k a p / k p p) * k q p)) by (intros; field; assumption). rewrite lin_mul. field. assumption. }
    rewrite A, lin_add, lin_mul. fold L. field. assumption. }
  assert (E2 : bil k ms [(p, - L / k p p)] = - L * L / k p p).
  { rewrite bil_lin. unfold lin at 2. simpl.
    rewrite (lin_ext ms _ (fun q => (- L / k p p) * k q p)) by (intros; ring). rewrite lin_mul. fold L. field. assumption. }
  rewrite (bil_sym k [_] ms Sy), E1, E2. field. assumption.
Qed.
Lemma eliminate_sym {I} (k : I -> I -> R) p : (forall a b, k a b = k b a) -> forall a b, eliminate k p a b = eliminate k p b a.
Proof. intros Sy a b. unfold eliminate. rewrite (Sy a b). unfold Rdiv. ring. Qed.
Lemma eliminate_psd {I} (k : I -> I -> R) p : psd k -> 0 < k p p -> psd (eliminate k p).
Proof.
  intros [Sy Po] Hp. split; [now apply eliminate_sym|]. intros ms. rewrite bil_eliminate by (auto; lra). apply Po.
Qed.
Lemma eliminate_row {I} (k : I -> I -> R) p j : (forall a b, k a b = k b a) -> k p p <> 0 -> eliminate k p p j = 0.
Proof. intros Sy H. unfold eliminate. rewrite (Sy j p). field. assumption. Qed.
Lemma eliminate_zero_row {I} (k : I -> I -> R) p q : (forall j, k q j = 0) -> forall j, eliminate k p q j = 0.
Proof. intros H j. unfold eliminate. rewrite !H. unfold Rdiv. ring. Qed.
Lemma residual_snoc {I} (k : I -> I -> R) l p : residual k (l ++ [p]) = eliminate (residual k l) p.
Proof. unfold residual. rewrite fold_left_app. reflexivity. Qed.
Lemma psd_zero {I} (k : I -> I -> R) i j : psd k -> k i i = 0 -> k i j = 0.
Proof.
  intros H Z. destruct H as [Sy Po].
  destruct (Req_dec (k i j) 0) as [E|E]; auto. exfalso.
  (* energy of  c e_i + e_j  is 2 c k_ij + k_jj, unbounded below in c *)
  specialize (Po [(i, - (k j j + 1) / (2 * k i j)); (j, 1)]). unfold bil in Po. simpl in Po.
  rewrite Z, (Sy j i) in Po.
  replace (_ + _) with (-1 : R) in Po; [lra|]. field. assumption.
Qed.

Section Track.
  Context {P Y : Type} (p0 : P) (y0 : Y).
  Variable s : @rpcholesky ER P.
  Variable k : P -> P -> R.
  Variable x : list P.
  Notation n := (length x).
  Notation m := (ch_size s).
  Notation K := (fun i j => k (nth i x p0) (nth j x p0)).
  Hypothesis Hpick : pick_ok (ch_pick s).
  Hypothesis Hk : forall a b, ch_kernel s a b = Fin (k a b).

  Record tinv (t : nat) (st : @cstate ER) (l : list nat) (G : list (list R)) : Prop := mkT {
    t_psd : psd (residual K l);
    t_diag : c_diag st = map (fun i => Fin (residual K l i i)) (seq 0 n);
    t_mat : c_mat st = map (map Fin) G;
    t_G : is_mat n m G;
    t_zero : forall i j, (t <= j)%nat -> nth j (nth i G []) 0 = 0;
    t_res : forall i j, (i < n)%nat -> (j < n)%nat -> residual K l i j = K i j - Rdot (nth i G []) (nth j G []);
    t_rows : forall p j, In p l -> residual K l p j = 0 }.

  Lemma Rdot_upd a b t c d : length a = length b -> (t < length a)%nat -> nth t a 0 = 0 -> nth t b 0 = 0 ->
    Rdot (upd t c a) (upd t d b) = Rdot a b + c * d.
  Proof.
    clear. unfold Rdot. revert b t. induction a as [|u a IH]; intros [|v b] t L Ht Ha Hb; simpl in *; try lia.
    destruct t; simpl in *.
    - subst. lra.
    - rewrite IH by (auto; lia). lra.
  Qed.

  Lemma nth_fin_rows (G : list (list R)) i : nth i (map (map (@Fin R)) G) [] = map Fin (nth i G []).
  Proof. clear. change (@nil (ext R)) with (map (@Fin R) []) at 1. apply map_nth. Qed.

  Lemma track_pick t st l G : tinv t st l G -> (exists i, (i < n)%nat /\ residual K l i i <> 0) ->
    let p := ch_pick s t (valid_residuals EROps (c_diag st) (available n (c_ind st))) in
    (p < n)%nat /\ 0 < residual K l p p.
  Proof.
    intros [Tp Td Tm Tg Tz Tr Tw] [i [Hi Ni]] p.
    assert (DN : forall j, (j < n)%nat -> nth j (c_diag st) NaN = Fin (residual K l j j)).
    { intros j Hj. rewrite Td, (nth_map_lt _ (seq 0 n) j 0%nat) by (rewrite seq_length; lia). now rewrite seq_nth. }
    assert (DL : length (c_diag st) = n) by (rewrite Td, map_length; apply seq_length).
    assert (V : valid_residuals EROps (c_diag st) (available n (c_ind st)) = c_diag st).
    { unfold valid_residuals.
      replace (forallb (fun v => feqb EROps v (f0 EROps)) (c_diag st)) with false.
      - replace (existsb (fisnan EROps) (c_diag st)) with false; [reflexivity|].
        symmetry. rewrite Td. clear. induction (seq 0 n); simpl; auto.
      - symmetry. destruct (forallb _ _) eqn:E; auto. rewrite forallb_forall in E.
        specialize (E (Fin (residual K l i i))). exfalso.
        assert (X : feqb EROps (Fin (residual K l i i)) (f0 EROps) = true).
        { apply E. rewrite <- DN by assumption. apply nth_In. lia. }
        unfold feqb, fleb in X. cbn in X. apply andb_true_iff in X as [X1 X2].
        apply negb_true_iff in X1, X2. apply Rltb_false in X1, X2. apply Ni. lra. }
    unfold p. rewrite V.
    destruct (Hpick t (c_diag st)) as [P1 P2].
    { intros E. rewrite E in DL. simpl in DL. lia. }
    rewrite DL in P1. split; auto.
    destruct P2 as [r [E Hr]].
    - intros v Hv. rewrite Td in Hv. apply in_map_iff in Hv as [j [<- _]]. eexists; split; [reflexivity|]. now apply psd_diag.
    - exists (residual K l i i). split.
      + rewrite <- DN by assumption. apply nth_In. lia.
      + pose proof (psd_diag _ i Tp). lra.
    - rewrite DN in E by assumption. injection E as E. lra.
  Qed.

  Lemma track_step t st l G : tinv t st l G -> (t < m)%nat -> (exists i, (i < n)%nat /\ residual K l i i <> 0) ->
    let p := ch_pick s t (valid_residuals EROps (c_diag st) (available n (c_ind st))) in
    tinv (S t) (chol_body EROps p0 s x t st) (l ++ [p])
      (map2 (fun i row => upd t (residual K l i p / sqrt (residual K l p p)) row) (seq 0 n) G).
  Proof.
    intros T Ht Hx p. destruct (track_pick t st l G T Hx) as [Hp Pos]. fold p in Hp, Pos.
    destruct T as [Tp Td Tm Tg Tz Tr Tw]. destruct Tg as [GL GR].
    set (Q := residual K l) in *.
    assert (Sq : 0 < sqrt (Q p p)) by now apply sqrt_lt_R0.
    assert (COL : chol_column EROps p0 (ch_kernel s) x (c_mat st) p = map (fun i => Fin (Q i p)) (seq 0 n)).
    { apply list_ext with (d := NaN).
      - unfold chol_column. rewrite map2_length, Tm, !map_length, seq_length. lia.
      - unfold chol_column at 1. rewrite map2_length, Tm, map_length, GL, Nat.min_id. intros i Hi.
        unfold chol_column. rewrite (nth_map2 _ _ _ _ p0 []) by (rewrite ?map_length; lia).
        rewrite !nth_fin_rows, fdot_fin, Hk. rewrite (nth_map_lt _ (seq 0 n) i 0%nat) by (rewrite seq_length; lia).
        rewrite seq_nth by lia. cbn [plus]. rewrite Tr by assumption. reflexivity. }
    assert (C1 : map (fun v => fdiv EROps v (fsqrt EROps (nth p (chol_column EROps p0 (ch_kernel s) x (c_mat st) p) (f0 EROps))))
                   (chol_column EROps p0 (ch_kernel s) x (c_mat st) p) = map (fun i => Fin (Q i p / sqrt (Q p p))) (seq 0 n)).
    { rewrite COL. rewrite (nth_map_lt _ (seq 0 n) p 0%nat) by (rewrite seq_length; lia). rewrite seq_nth by lia. cbn [plus].
      rewrite fsqrt_fin by lra. rewrite map_map. apply map_ext. intros i. apply fdiv_fin. lra. }
    set (G' := map2 _ _ _).
    assert (Gn : forall i, (i < n)%nat -> nth i G' [] = upd t (Q i p / sqrt (Q p p)) (nth i G [])).
    { intros i Hi. unfold G'. rewrite (nth_map2 _ _ _ _ 0%nat []) by (rewrite ?seq_length; lia). now rewrite seq_nth by lia. }
    assert (RL : forall i, (i < n)%nat -> length (nth i G []) = m) by (intros; apply GR, nth_In; lia).
    assert (EL : residual K (l ++ [p]) = eliminate Q p) by apply residual_snoc.
    unfold chol_body. fold p. rewrite C1.
    constructor; cbn [c_diag c_mat c_ind]; rewrite ?EL.
    - now apply eliminate_psd.
    - assert (PS : psd (eliminate Q p)) by now apply eliminate_psd.
      assert (E : map2 (fun r c => fmax EROps (fsub EROps r (fmul EROps c c)) (f0 EROps)) (c_diag st)
                     (map (fun i => Fin (Q i p / sqrt (Q p p))) (seq 0 n)) = map (fun i => Fin (eliminate Q p i i)) (seq 0 n)).
      { rewrite Td, map2_map. rewrite <- (map_id (seq 0 n)) at 2. rewrite map2_diag. apply map_ext. intros i.
        pose proof (psd_diag _ i PS) as NN.
        cbn. assert (X : Q i i - Q i p / sqrt (Q p p) * (Q i p / sqrt (Q p p)) = eliminate Q p i i).
        { unfold eliminate. f_equal. rewrite <- (sqrt_sqrt (Q p p)) at 3 by lra. field. lra. }
        rewrite X. unfold fmax. cbn. destruct (nltb ROps (eliminate Q p i i) 0) eqn:E; [|reflexivity].
        apply Rltb_true in E. lra. }
      rewrite E. destruct (ch_unique s); [|reflexivity].
      apply list_ext with (d := NaN); [now rewrite upd_length|]. rewrite upd_length, map_length, seq_length. intros i Hi.
      rewrite nth_upd, map_length, seq_length. destruct (Nat.eqb_spec i p) as [->|Ne]; [|reflexivity].
      rewrite (proj2 (Nat.ltb_lt _ _)) by lia. cbn [andb].
      rewrite (nth_map_lt _ (seq 0 n) p 0%nat) by (rewrite seq_length; lia). rewrite seq_nth by lia. cbn [plus].
      rewrite eliminate_row; [reflexivity|apply Tp|lra].
    - rewrite Tm. apply list_ext with (d := []).
      + unfold G'. rewrite !map_length, !map2_length, !map_length, !seq_length. reflexivity.
      + rewrite map2_length, !map_length, seq_length, GL, Nat.min_id. intros i Hi.
        rewrite (nth_map2 _ _ _ _ NaN []) by (rewrite ?map_length, ?seq_length; lia).
        rewrite !nth_fin_rows, Gn by assumption. rewrite (nth_map_lt _ (seq 0 n) i 0%nat) by (rewrite seq_length; lia).
        rewrite seq_nth by lia. cbn [plus]. now rewrite map_upd.
    - split; [unfold G'; rewrite map2_length, seq_length; lia|]. intros row Hr.
      apply In_nth with (d := []) in Hr as [i [Hi <-]]. unfold G' in Hi. rewrite map2_length, seq_length in Hi.
      rewrite Gn, upd_length by lia. apply RL. lia.
    - intros i j Hj. destruct (Nat.lt_ge_cases i n) as [Hi|Hi].
      + rewrite Gn by assumption. rewrite nth_upd_neq by lia. apply Tz. lia.
      + rewrite nth_overflow with (l := G'); [destruct j; reflexivity|]. unfold G'. rewrite map2_length, seq_length. lia.
    - intros i j Hi Hj. rewrite !Gn by assumption.
      rewrite Rdot_upd by (rewrite ?RL by assumption; auto). unfold eliminate. fold (Q i j). rewrite Tr by assumption.
      rewrite <- (sqrt_sqrt (Q p p)) at 1 by lra. field. lra.
    - intros q j Hq. apply in_app_iff in Hq as [Hq|[<-|[]]].
      + apply eliminate_zero_row. intros j'. now apply Tw.
      + apply eliminate_row; [apply Tp|lra].
  Qed.

  Lemma track_init : psd k -> tinv 0 (mkC (map (fun a => ch_kernel s a a) x) (repeat (repeat (f0 EROps) m) n) (repeat (Z.of_nat n + 1)%Z m))
    [] (repeat (repeat 0 m) n).
  Proof.
    intros [Sy Po]. constructor; cbn [c_diag c_mat c_ind residual fold_left].
    - split; [intros; apply Sy|]. intros ms. specialize (Po (map (fun q => (nth (fst q) x p0, snd q)) ms)).
      unfold bil in *. rewrite map_map in Po. cbn [fst snd] in Po.
      erewrite Rsum_map_ext; [exact Po|]. intros a _. cbn. f_equal. rewrite map_map. reflexivity.
    - clear -Hk. apply list_ext with (d := NaN); [now rewrite !map_length, seq_length|]. rewrite map_length. intros i Hi.
      rewrite (nth_map_lt _ x i p0) by assumption. rewrite (nth_map_lt _ (seq 0 n) i 0%nat) by (rewrite seq_length; lia).
      rewrite Hk, seq_nth by lia. reflexivity.
    - clear. rewrite !DataMeanLemmas.map_repeat. reflexivity.
    - split; [apply repeat_length|]. intros row Hr. apply repeat_spec in Hr. subst. apply repeat_length.
    - intros i j _. clear. destruct (Nat.lt_ge_cases i n).
      + rewrite nth_repeat_lt by assumption. apply nth_repeat.
      + rewrite nth_overflow with (n := i) by (rewrite repeat_length; lia). destruct j; reflexivity.
    - intros i j Hi Hj. rewrite !nth_repeat_lt by assumption.
      replace (Rdot (repeat 0 m) (repeat 0 m)) with 0; [lra|]. clear. unfold Rdot. induction m; simpl; lra.
    - contradiction.
  Qed.

  Notation init := (mkC (map (fun a => ch_kernel s a a) x) (repeat (repeat (f0 EROps) m) n) (repeat (Z.of_nat n + 1)%Z m)).

  (** all prefixes of the loop at once *)
  Lemma chol_prefix : psd k -> (m <= n)%nat -> forall t, (t <= m)%nat ->
    exists l, length l = t /\
      c_ind (fori t (chol_body EROps p0 s x) init) = map Z.of_nat l ++ repeat (Z.of_nat n + 1)%Z (m - t) /\
      (forall i, In i l -> (i < n)%nat) /\
      ((forall u, (u < t)%nat -> exists i, (i < n)%nat /\ residual K (firstn u l) i i <> 0) ->
       (exists G, tinv t (fori t (chol_body EROps p0 s x) init) l G) /\
       forall u, (u < t)%nat -> 0 < residual K (firstn u l) (nth u l 0%nat) (nth u l 0%nat)).
  Proof.
    intros Hpsd Hm t. induction t as [|t IH]; intros Ht.
    - exists []. cbn [fori length c_ind map app]. rewrite Nat.sub_0_r. split; auto. split; auto. split; [contradiction|]. intros _. split; [|intros; lia].
      eexists. now apply track_init.
    - destruct IH as [l [L1 [L2 [L3 L4]]]]; [lia|]. rewrite fori_S.
      set (st := fori t _ _) in *.
      set (p := ch_pick s t (valid_residuals EROps (c_diag st) (available n (c_ind st)))).
      exists (l ++ [p]). split; [rewrite app_length; simpl; lia|]. split; [|split].
      + unfold chol_body. cbn [c_ind]. fold p. rewrite L2. rewrite <- L1 at 1. rewrite <- (map_length Z.of_nat l).
        rewrite upd_app_repeat by lia. rewrite map_app. simpl. f_equal. f_equal. lia.
      + intros i Hi. apply in_app_iff in Hi as [Hi|[<-|[]]]; auto. unfold p.
        pose proof (chol_loop p0 s x Hpick (map (fun a => ch_kernel s a a) x) Hm) as CL.
        destruct CL with (t := t) as [l' CI]; [apply map_length| |lia|].
        { apply Forall_forall. intros v Hv. apply in_map_iff in Hv as [a [<- _]]. rewrite Hk. right. eexists; split; [reflexivity|]. now apply psd_diag. }
        fold st in CI. now apply (pick_new s x Hpick t st l' CI).
      + intros HX.
        assert (FN : forall u, (u <= t)%nat -> firstn u (l ++ [p]) = firstn u l).
        { intros u Hu. rewrite firstn_app. replace (u - length l)%nat with 0%nat by lia. simpl. apply app_nil_r. }
        destruct L4 as [[G T] Pos].
        { intros u Hu. destruct (HX u) as [i Hi]; [lia|]. exists i. now rewrite FN in Hi by lia. }
        destruct (HX t) as [i [Hi Ni]]; [lia|]. rewrite FN, <- L1, firstn_all in Ni by lia.
        split.
        * eexists. apply track_step; [exact T|lia|]. now exists i.
        * intros u Hu. rewrite FN by lia. destruct (Nat.eq_dec u t) as [->|Ne].
          -- rewrite <- L1 at 2 3. rewrite nth_middle. rewrite <- L1 at 1. rewrite firstn_all.
             now apply (track_pick t st l G T (ex_intro _ i (conj Hi Ni))).
          -- rewrite app_nth1 by lia. apply Pos. lia.
  Qed.

  Lemma chol_run : psd k -> (m <= n)%nat ->
    exists l, length l = m /\ c_ind (fori m (chol_body EROps p0 s x) init) = map Z.of_nat l /\
      ((forall u, (u < m)%nat -> exists i, (i < n)%nat /\ residual K (firstn u l) i i <> 0) ->
       (exists G, tinv m (fori m (chol_body EROps p0 s x) init) l G) /\
       forall u, (u < m)%nat -> 0 < residual K (firstn u l) (nth u l 0%nat) (nth u l 0%nat)).
  Proof.
    intros Hpsd Hm. destruct (chol_prefix Hpsd Hm m (le_n _)) as [l [A [B [_ C]]]]. exists l. split; auto. split; auto.
    now rewrite B, Nat.sub_diag, app_nil_r.
  Qed.
End Track.
