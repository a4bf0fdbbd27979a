(** * Proofs about regularised kernel systems, AMCMD and the weight optimisers *)
From Coq Require Import List ZArith Reals Lra Lia Bool Permutation.
From Verif Require Import Num Jax RSum JaxFacts DataModel MeanModel MeanProofs DataMeanLemmas DataProofs
  MeanSpec GreedySpec MetricSpec MetricModel GreedyProofs GreedyProofs2 GreedyProofs3 MetricProofs.
Import ListNotations.
Open Scope R_scope.

Notation mm := (map (map (@Fin R))).

(** ** sums over index ranges *)
Lemma list_seq {A} (l : list A) d : l = map (fun i => nth i l d) (seq 0 (length l)).
Proof. symmetry. apply map_nth_seq. Qed.
Lemma map2_map_same {A B C D} (f : B -> C -> D) (g : A -> B) (h : A -> C) l :
  map2 f (map g l) (map h l) = map (fun a => f (g a) (h a)) l.
Proof. induction l; simpl; auto. now f_equal. Qed.
Lemma Rdot_seq n u v : length u = n -> length v = n ->
  Rdot u v = Rsum (map (fun i => nth i u 0 * nth i v 0) (seq 0 n)).
Proof.
  intros Hu Hv. unfold Rdot. f_equal.
  rewrite (list_seq u 0), (list_seq v 0) at 1. rewrite Hu, Hv. apply map2_map_same.
Qed.
Lemma combine_map_same {A B C} (g : A -> B) (h : A -> C) l :
  combine (map g l) (map h l) = map (fun a => (g a, h a)) l.
Proof. induction l; simpl; auto. now f_equal. Qed.
Lemma lin_seq {P} (p0 : P) n xs v f : length xs = n -> length v = n ->
  lin (combine xs v) f = Rsum (map (fun i => nth i v 0 * f (nth i xs p0)) (seq 0 n)).
Proof.
  intros Hx Hv. unfold lin.
  rewrite (list_seq xs p0), (list_seq v 0) at 1. rewrite Hx, Hv, combine_map_same, map_map. reflexivity.
Qed.
Lemma Rsum_delta_gen f i n a : Rsum (map (fun j => if Nat.eqb i j then f j else 0) (seq a n))
  = if (Nat.leb a i && Nat.ltb i (a + n))%bool then f i else 0.
Proof.
  revert a. induction n; intros a; simpl.
  - destruct (Nat.leb_spec a i), (Nat.ltb_spec i (a + 0)); simpl; auto; lia.
  - rewrite IHn. replace (S a + n)%nat with (a + S n)%nat by lia. destruct (Nat.eqb_spec i a) as [->|E].
    + destruct (Nat.leb_spec a a), (Nat.leb_spec (S a) a), (Nat.ltb_spec a (a + S n));
        cbn [andb]; try lia; lra.
    + destruct (Nat.leb_spec a i), (Nat.leb_spec (S a) i), (Nat.ltb_spec i (a + S n));
        cbn [andb]; try lia; lra.
Qed.
Lemma Rsum_delta f i n : (i < n)%nat -> Rsum (map (fun j => if Nat.eqb i j then f j else 0) (seq 0 n)) = f i.
Proof.
  intros H. rewrite Rsum_delta_gen. simpl. destruct (Nat.ltb_spec i n); [reflexivity|lia].
Qed.
Lemma nth_map_seq {B} (f : nat -> B) n i d : (i < n)%nat -> nth i (map f (seq 0 n)) d = f i.
Proof.
  intros H. rewrite (nth_map_lt f (seq 0 n) i 0%nat d) by (now rewrite seq_length). now rewrite seq_nth.
Qed.

(** ** the regularised Gramian *)
Section Gram.
  Context {P : Type} (p0 : P) (k : P -> P -> R).
  Notation kE := (fun a b => Fin (k a b) : ER).
  Definition rgram (e : R) (xs : list P) : list (list R) :=
    let n := length xs in
    map (fun i => map (fun j => k (nth i xs p0) (nth j xs p0) + (if Nat.eqb i j then e else 0)) (seq 0 n)) (seq 0 n).
  Lemma pairwise_seq {Q V} (q0 : Q) (g : P -> Q -> V) (xs : list P) (ys : list Q) :
    pairwise g xs ys = map (fun i => map (fun j => g (nth i xs p0) (nth j ys q0)) (seq 0 (length ys))) (seq 0 (length xs)).
  Proof.
    unfold pairwise. rewrite (list_seq xs p0) at 1. rewrite map_map. apply map_ext. intros i.
    rewrite (list_seq ys q0) at 1. now rewrite map_map.
  Qed.
  Lemma reg_gram_fin e xs :
    mat2 (fadd EROps) (pairwise kE xs xs) (scaled_eye EROps (length xs) (Fin e)) = mm (rgram e xs).
  Proof.
    rewrite (pairwise_seq p0). unfold mat2, scaled_eye, rgram. rewrite map2_map_same, map_map.
    apply map_ext. intros i. rewrite map2_map_same, map_map. apply map_ext. intros j.
    destruct (Nat.eqb i j); cbn; f_equal; lra.
  Qed.
  Lemma rgram_mat e xs : is_mat (length xs) (length xs) (rgram e xs).
  Proof.
    split; unfold rgram.
    - now rewrite map_length, seq_length.
    - intros row H. apply in_map_iff in H as [i [<- _]]. now rewrite map_length, seq_length.
  Qed.
  Lemma rgram_mv e xs v : length v = length xs ->
    Rmv (rgram e xs) v = map (fun i => lin (combine xs v) (fun q => k (nth i xs p0) q) + e * nth i v 0) (seq 0 (length xs)).
  Proof.
    intros Hv. unfold Rmv, rgram. rewrite map_map. apply map_ext_in. intros i Hi. apply in_seq in Hi.
    rewrite (Rdot_seq (length xs)) by (rewrite ?map_length, ?seq_length; auto).
    rewrite (lin_seq p0 (length xs)) by auto.
    rewrite <- (Rsum_delta (fun j => e * nth j v 0) i (length xs)) by lia.
    rewrite <- Rsum_map_add. apply Rsum_map_ext. intros j Hj. apply in_seq in Hj.
    rewrite nth_map_seq by lia. destruct (Nat.eqb i j); lra.
  Qed.
  Lemma rgram_quad e xs u v : length u = length xs -> length v = length xs ->
    Rdot u (Rmv (rgram e xs) v) = bil k (combine xs u) (combine xs v) + e * Rdot u v.
  Proof.
    intros Hu Hv. rewrite rgram_mv by assumption.
    rewrite (Rdot_seq (length xs)) by (rewrite ?map_length, ?seq_length; auto).
    rewrite bil_lin, (lin_seq p0 (length xs) xs u) by auto.
    rewrite (Rdot_seq (length xs) u v) by auto. rewrite <- Rsum_map_scal, <- Rsum_map_add.
    apply Rsum_map_ext. intros i Hi. apply in_seq in Hi. rewrite nth_map_seq by lia. lra.
  Qed.
  Lemma Rdot_self v : Rdot v v = Rsum (map (fun a => a * a) v).
  Proof. unfold Rdot. now rewrite map2_diag with (g := fun a => a * a) || (induction v; simpl in *; [reflexivity|now rewrite IHv]). Qed.
  Lemma Rdot_self_nonneg v : 0 <= Rdot v v.
  Proof.
    rewrite Rdot_self. apply Rsum_nonneg. intros a H. apply in_map_iff in H as [b [<- _]]. apply Rle_0_sqr.
  Qed.
  Lemma Rdot_self_zero v : Rdot v v <= 0 -> forall a, In a v -> a = 0.
  Proof.
    induction v as [|b v IH]; intros H a Ha; [destruct Ha|].
    assert (E : Rdot (b :: v) (b :: v) = b * b + Rdot v v) by reflexivity.
    pose proof (Rdot_self_nonneg v). pose proof (Rle_0_sqr b). unfold Rsqr in *. rewrite E in H.
    destruct Ha as [<-|Ha]; [|apply IH; [lra|assumption]].
    assert (b * b = 0) by lra. destruct (Rmult_integral _ _ H2); assumption.
  Qed.
  Lemma Rdot_zeros u v : (forall a, In a v -> a = 0) -> Rdot u v = 0.
  Proof.
    revert v; induction u; intros [|b v] H; try reflexivity.
    change (a * b + Rdot u v = 0). rewrite IHu by (intros; apply H; now right). rewrite (H b) by now left. lra.
  Qed.
  Lemma rgram_nonsingular e xs : psd k -> 0 < e -> nonsingular (length xs) (rgram e xs).
  Proof.
    intros [Hs Hp] He v Hv Hz a Ha.
    pose proof (rgram_quad e xs v v Hv Hv) as Q. rewrite (Rdot_zeros v) in Q by assumption.
    pose proof (Hp (combine xs v)). apply (Rdot_self_zero v); [|assumption].
    assert (e * Rdot v v <= 0) by lra. 
    apply Rmult_le_reg_l with e; lra.
  Qed.
End Gram.

(** ** SBQ *)
Section Sbq.
  Context {P Y : Type} (p0 : P) (y0 : Y) (k : P -> P -> R).
  Notation kE := (fun a b => Fin (k a b) : ER).
  (** [jnp.linalg.solve(A, b)] returned an exact solution *)
  Definition solves_vector (linsolve : list (list ER) -> list ER -> list ER) (A : list (list R)) (b : list R) : Prop :=
    exists x, linsolve (mm A) (map Fin b) = map Fin x /\ length x = length b /\ Rmv A x = b.

  Lemma wavg_ones f (xs : list P) : xs <> [] -> wavg f xs (repeat 1 (length xs)) = lin (uniform xs) f.
  Proof.
    intros H. unfold wavg, wsum, lin, uniform. rewrite Rsum_repeat, map_map. cbn [fst snd].
    rewrite Rmult_1_r. set (c := INR (length xs)). unfold Rdiv. rewrite <- Rsum_map_scal_r.
    clearbody c. clear H. induction xs; simpl; auto. rewrite IHxs. lra.
  Qed.
  Lemma as_data_fin (xs : list P) : as_data EROps xs = mkData xs (map Fin (repeat 1 (length xs))) (@None (list Y)).
  Proof. unfold as_data. now rewrite map_repeat. Qed.
  Lemma prepare_value xd (wd : list ER) xc (wc : list ER) e bs : (forall a b, k a b = k b a) -> xd <> [] -> xc <> [] ->
    prepare_kernel_system EROps p0 y0 kE (mkData xd wd None) (mkData xc wc None) (Fin e) bs
    = Ok (map Fin (map (fun c => lin (uniform xd) (fun x => k x c)) xc), mm (rgram p0 k e xc)).
  Proof.
    intros Hs Hd Hc. unfold prepare_kernel_system. cbn [d_y d_x].
    rewrite !as_data_fin. rewrite row_mean_spec; try assumption.
    - cbn [bind]. rewrite (reg_gram_fin p0). do 2 f_equal. rewrite map_map. apply map_ext. intros c. f_equal.
      now apply wavg_ones.
    - now rewrite repeat_length.
    - now rewrite repeat_length.
    - rewrite Rsum_repeat, Rmult_1_r. apply not_0_INR. destruct xd; [congruence|discriminate].
  Qed.
  Lemma Rdot_lin (xs : list P) v f : Rdot (map f xs) v = lin (combine xs v) f.
  Proof.
    unfold lin. revert v. induction xs; intros [|b v]; try reflexivity.
    change (f a * b + Rdot (map f xs) v = b * f a + Rsum (map (fun n => snd n * f (fst n)) (combine xs v))).
    rewrite IHxs. lra.
  Qed.
  Lemma Rdot_add_r u v w : length v = length w -> Rdot u (map2 Rplus v w) = Rdot u v + Rdot u w.
  Proof.
    revert v w; induction u as [|a u IH]; intros [|b v] [|c w] H; simpl in H; try discriminate; try (cbn; lra).
    change (a * (b + c) + Rdot u (map2 Rplus v w) = a * b + Rdot u v + (a * c + Rdot u w)).
    rewrite IH by lia. lra.
  Qed.
  (** J(v) in terms of the regularised Gramian and the mean embedding *)
  Lemma ridge_gram e D (xc : list P) v : length v = length xc ->
    ridge_mmd2 k e D xc v
    = bil k D D + Rdot v (Rmv (rgram p0 k e xc) v) - 2 * Rdot (map (fun c => lin D (fun x => k x c)) xc) v.
  Proof.
    intros Hv. unfold ridge_mmd2. rewrite rgram_quad by assumption. rewrite <- Rdot_self.
    rewrite Rdot_lin. rewrite (bil_swap k D (combine xc v)). lra.
  Qed.
  Lemma quad_complete e (xc : list P) w v : (forall a b, k a b = k b a) -> length w = length xc -> length v = length xc ->
    Rdot v (Rmv (rgram p0 k e xc) v) - 2 * Rdot (Rmv (rgram p0 k e xc) w) v
    = Rdot w (Rmv (rgram p0 k e xc) w) - 2 * Rdot (Rmv (rgram p0 k e xc) w) w
      + (bil k (combine xc v ++ scal (-1) (combine xc w)) (combine xc v ++ scal (-1) (combine xc w))
         + e * (Rdot v v - 2 * Rdot w v + Rdot w w)).
  Proof.
    intros Hs Hw Hv. rewrite !(Rdot_comm (Rmv _ _)), !rgram_quad by assumption.
    rewrite bil_app_l, !bil_app_r, !bil_scal_l, !bil_scal_r.
    rewrite (bil_sym k (combine xc w) (combine xc v) Hs). rewrite (Rdot_comm v w). lra.
  Qed.
  Lemma sq_diff w v : length w = length v -> 0 <= Rdot v v - 2 * Rdot w v + Rdot w w.
  Proof.
    revert v; induction w as [|a w IH]; intros [|b v] H; simpl in H; try discriminate; [cbn; lra|].
    change (0 <= (b * b + Rdot v v) - 2 * (a * b + Rdot w v) + (a * a + Rdot w w)).
    pose proof (IH v ltac:(lia)). pose proof (Rle_0_sqr (a - b)). unfold Rsqr in *. lra.
  Qed.
  Lemma sbq_optimal linsolve xd (wd : list ER) xc (wc : list ER) e bs :
    psd k -> 0 <= e -> xd <> [] -> xc <> [] ->
    solves_vector linsolve (rgram p0 k e xc) (map (fun c => lin (uniform xd) (fun x => k x c)) xc) ->
    exists w, sbq_solve EROps p0 y0 linsolve kE (mkData xd wd None) (mkData xc wc None) (Fin e) bs = Ok (map Fin w)
      /\ length w = length xc
      /\ forall v, length v = length xc ->
           ridge_mmd2 k e (uniform xd) xc w <= ridge_mmd2 k e (uniform xd) xc v.
  Proof.
    intros Hp He Hd Hc [w [E [Lw Ew]]]. unfold sbq_solve. rewrite prepare_value by (try assumption; apply Hp). cbn [bind].
    rewrite map_length in Lw. exists w. rewrite E. split; [reflexivity|]. split; [assumption|]. intros v Lv.
      rewrite !ridge_gram by assumption. rewrite <- Ew.
      pose proof (quad_complete e xc w v (proj1 Hp) Lw Lv) as Q.
      pose proof (proj2 Hp (combine xc v ++ scal (-1) (combine xc w))).
      pose proof (sq_diff w v ltac:(congruence)).
      assert (0 <= e * (Rdot v v - 2 * Rdot w v + Rdot w w)) by now apply Rmult_le_pos.
      lra.
  Qed.

  (** ** MMD weights *)
  (** OSQP returned an exact minimiser of the problem *)
  Definition solves_qp (osqp : @qp_solver ER) q c a b g h : Prop :=
    exists x, osqp (mm q) (map Fin c) (mm a) (map Fin b) (mm g) (map Fin h) = map Fin x
              /\ qp_minimiser q c a b g h x.
  Lemma solve_qp_simplex (osqp : @qp_solver ER) kmm grm x :
    (let n := length kmm in
     osqp kmm (map (fun v => fneg EROps v) grm) [repeat (f1 EROps) n] [f1 EROps]
       (map (map (fun v => fmul EROps v (fofZ EROps (-1)))) (scaled_eye EROps n (f1 EROps)))
       (repeat (f0 EROps) n) = map Fin x) ->
    (exists a, In a x /\ 0 < a) ->
    solve_qp EROps osqp kmm grm = map Fin (map (fun a => Rmax 0 a / Rsum (map (Rmax 0) x)) x)
    /\ simplex (map (fun a => Rmax 0 a / Rsum (map (Rmax 0) x)) x).
  Proof.
    intros E [a [Ha Pa]]. set (S := Rsum (map (Rmax 0) x)).
    assert (HS : 0 < S).
    { subst S. clear E. induction x as [|b x IH]; [destruct Ha|]. simpl.
      assert (0 <= Rsum (map (Rmax 0) x)).
      { apply Rsum_nonneg. intros c Hc. apply in_map_iff in Hc as [d [<- _]]. apply Rmax_l. }
      pose proof (Rmax_l 0 b). destruct Ha as [->|Ha].
      - rewrite Rmax_right by lra. lra.
      - specialize (IH Ha). lra. }
    split; [|split].
    - unfold solve_qp. cbn zeta in E |- *. rewrite E.
      rewrite (map_map Fin (fun v => fmax EROps (f0 EROps) v)).
      rewrite (map_ext (fun x0 => fmax EROps (f0 EROps) (Fin x0)) (fun x0 => Fin (Rmax 0 x0))) by (intros; apply fmax0_fin).
      rewrite <- (map_map (Rmax 0) Fin), fsum_fin. fold S. rewrite !map_map. apply map_ext. intros b.
      apply fdiv_fin. lra.
    - intros b Hb. apply in_map_iff in Hb as [c [<- _]]. unfold Rdiv. apply Rmult_le_pos; [apply Rmax_l|].
      left. now apply Rinv_0_lt_compat.
    - rewrite (Rsum_map_div S (Rmax 0) x) || (unfold Rdiv; rewrite Rsum_map_scal_r). fold S. field. lra.
  Qed.
  Definition neg_eye (n : nat) : list (list R) :=
    map (fun i => map (fun j => if Nat.eqb i j then -1 else 0) (seq 0 n)) (seq 0 n).
  Lemma neg_eye_fin n :
    map (map (fun v => fmul EROps v (fofZ EROps (-1)))) (scaled_eye EROps n (f1 EROps)) = mm (neg_eye n).
  Proof.
    unfold scaled_eye, neg_eye. rewrite !map_map. apply map_ext. intros i. rewrite !map_map. apply map_ext. intros j.
    destruct (Nat.eqb i j); cbn; f_equal; lra.
  Qed.
  Lemma neg_eye_mv n x : length x = n -> Rmv (neg_eye n) x = map (fun i => - nth i x 0) (seq 0 n).
  Proof.
    intros Hx. unfold Rmv, neg_eye. rewrite map_map. apply map_ext_in. intros i Hi. apply in_seq in Hi.
    rewrite (Rdot_seq n) by (rewrite ?map_length, ?seq_length; auto).
    rewrite <- (Rsum_delta (fun j => - nth j x 0) i n) by lia.
    apply Rsum_map_ext. intros j Hj. apply in_seq in Hj. rewrite nth_map_seq by lia. destruct (Nat.eqb i j); lra.
  Qed.
  Lemma ones_mv n x : length x = n -> Rmv [repeat 1 n] x = [Rsum x].
  Proof.
    intros <-. unfold Rmv. simpl. f_equal. induction x; [reflexivity|].
    change (1 * a + Rdot (repeat 1 (length x)) x = a + Rsum x). rewrite IHx. lra.
  Qed.
  Lemma simplex_feasible n x : length x = n ->
    (qp_feasible [repeat 1 n] [1] (neg_eye n) (repeat 0 n) x <-> simplex x).
  Proof.
    intros Hx. unfold qp_feasible, simplex. rewrite neg_eye_mv, ones_mv by assumption. split.
    - intros [H1 H2]. split; [|now injection H1].
      intros a Ha. apply (In_nth _ _ 0) in Ha as [i [Hi <-]].
      assert (forall l m i, Forall2 Rle l m -> (i < length l)%nat -> nth i l 0 <= nth i m 0) as F.
      { clear. intros l m i H. revert i. induction H; intros i Hi; simpl in *; [lia|]. destruct i; [assumption|]. apply IHForall2. lia. }
      pose proof (F _ _ i H2 ltac:(rewrite map_length, seq_length; lia)) as G.
      rewrite nth_map_seq, nth_repeat in G by lia. lra.
    - intros [H1 H2]. split; [now rewrite H2|].
      assert (F : forall l, (forall i, In i l -> (i < n)%nat) -> Forall2 Rle (map (fun i => - nth i x 0) l) (repeat 0 (length l))).
      { induction l; intros HI; simpl; constructor; [|apply IHl; intros; apply HI; now right].
        assert (In (nth a x 0) x) by (apply nth_In; rewrite Hx; apply HI; now left). apply H1 in H. lra. }
      rewrite <- (seq_length n 0) at 2. apply F. intros i Hi. apply in_seq in Hi. lia.
  Qed.
  Lemma Rmax_nonneg_id x : (forall a, In a x -> 0 <= a) -> map (Rmax 0) x = x.
  Proof.
    intros H. rewrite <- (map_id x) at 2. apply map_ext_in. intros a Ha. apply Rmax_right. now apply H.
  Qed.
  Lemma ridge_objective e D (xc : list P) v : length v = length xc ->
    ridge_mmd2 k e D xc v
    = bil k D D + 2 * qp_objective (rgram p0 k e xc) (map Ropp (map (fun c => lin D (fun x => k x c)) xc)) v.
  Proof.
    intros Hv. rewrite ridge_gram by assumption. unfold qp_objective.
    replace (Rdot (map Ropp (map (fun c : P => lin D (fun x : P => k x c)) xc)) v)
      with (- Rdot (map (fun c : P => lin D (fun x : P => k x c)) xc) v); [lra|].
    rewrite (map_ext Ropp (fun a => -1 * a)) by (intros; lra). rewrite Rdot_scal. lra.
  Qed.
  Lemma mmdw_optimal osqp xd (wd : list ER) xc (wc : list ER) e bs :
    (forall a b, k a b = k b a) -> xd <> [] -> xc <> [] ->
    (let n := length xc in
     solves_qp osqp (rgram p0 k e xc) (map Ropp (map (fun c => lin (uniform xd) (fun x => k x c)) xc))
       [repeat 1 n] [1] (neg_eye n) (repeat 0 n)) ->
    exists w, mmdw_solve EROps p0 y0 osqp kE (mkData xd wd None) (mkData xc wc None) (Fin e) bs = Ok (map Fin w)
      /\ length w = length xc /\ simplex w
      /\ forall v, length v = length xc -> simplex v ->
           ridge_mmd2 k e (uniform xd) xc w <= ridge_mmd2 k e (uniform xd) xc v.
  Proof.
    intros Hs Hd Hc HO. unfold mmdw_solve. rewrite prepare_value by assumption. cbn [bind].
    set (z := map (fun c => lin (uniform xd) (fun x => k x c)) xc).
    set (n := length xc).
    assert (Lz : length (map Ropp z) = n) by (unfold z; now rewrite !map_length).
    cbn zeta in HO. fold n z in HO. destruct HO as [x [Ex [Lx [Fx Mx]]]].
    rewrite Lz in Lx, Mx. apply simplex_feasible in Fx; [|assumption].
    assert (Pos : exists a, In a x /\ 0 < a) by (apply Rsum_pos_ex; rewrite (proj2 Fx); lra).
    destruct (solve_qp_simplex osqp (mm (rgram p0 k e xc)) (map Fin z) x) as [E _].
    { cbn zeta. rewrite map_length, (proj1 (rgram_mat p0 k e xc)). fold n.
      rewrite neg_eye_fin.
      replace (map (fun v => fneg EROps v) (map Fin z)) with (map (@Fin R) (map Ropp z)).
      2:{ rewrite !map_map. apply map_ext. intros a. cbn. f_equal. lra. }
      rewrite <- Ex. simpl. now rewrite !map_repeat. }
    { assumption. }
    exists x. rewrite E. rewrite (Rmax_nonneg_id x) by apply Fx. rewrite (proj2 Fx).
    split.
    { do 2 f_equal. rewrite <- (map_id x) at 2. apply map_ext_in. intros a Ha. rewrite Rmax_right by now apply Fx. field. }
    split; [assumption|]. split; [assumption|].
    intros v Lv Sv. rewrite !ridge_objective by assumption. fold z.
    pose proof (Mx v Lv ltac:(now apply simplex_feasible)). lra.
  Qed.
End Sbq.
