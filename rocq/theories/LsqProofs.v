(** * Real linear algebra for the least-squares solvers *)
From Coq Require Import List Reals Lra Lia Bool.
From Verif Require Import Num Jax RSum JaxFacts MetricModel MetricSpec MetricProofs2 KernelSpec KernelProofs4 GKPSpec LsqModel LsqSpec.
Import ListNotations.
Open Scope R_scope.

Definition tmv (c : nat) (A : list (list R)) (u : list R) : list R := map (fun j => Rdot (Rcol A j) u) (seq 0 c).
Definition Rmm (c : nat) (a b : list (list R)) : list (list R) :=
  map (fun row => map (fun j => Rdot row (Rcol b j)) (seq 0 c)) a.
Definition Rtr (c : nat) (m : list (list R)) : list (list R) := map (Rcol m) (seq 0 c).
Notation FF := (map (map (@Fin R))).

Lemma tmv_len c A u : length (tmv c A u) = c.
Proof. unfold tmv. now rewrite map_length, seq_length. Qed.
Lemma nth_tmv c A u j d : (j < c)%nat -> nth j (tmv c A u) d = Rdot (Rcol A j) u.
Proof. intro H. unfold tmv. now rewrite nth_map_seq. Qed.
Lemma Rmv_len A x : length (Rmv A x) = length A.
Proof. apply map_length. Qed.
Lemma Rcol_len A j : length (Rcol A j) = length A.
Proof. apply map_length. Qed.
Lemma col_proj_tmv r U v : col_proj r U v = Rmv U (tmv r U v).
Proof. reflexivity. Qed.

Lemma Rdot_zeros_r u n : Rdot u (zeros n) = 0.
Proof. apply Rdot_zero_r. Qed.
Lemma Rmv_zeros A n : Rmv A (zeros n) = zeros (length A).
Proof.
  unfold Rmv, zeros. induction A as [|a A IH]; cbn; [reflexivity|]. rewrite Rdot_zero_r. f_equal. exact IH.
Qed.
Lemma Rcol_nth A i j d : (i < length A)%nat -> nth i (Rcol A j) d = nth j (nth i A []) 0.
Proof.
  intro H. unfold Rcol. rewrite (nth_indep _ d ((fun row => nth j row 0) [])) by now rewrite map_length.
  apply (map_nth (fun row => nth j row 0)).
Qed.
Lemma Rmv_nth A x i d : (i < length A)%nat -> nth i (Rmv A x) d = Rdot (nth i A []) x.
Proof.
  intro H. unfold Rmv. rewrite (nth_indep _ d ((fun row => Rdot row x) [])) by now rewrite map_length.
  apply (map_nth (fun row => Rdot row x)).
Qed.
Lemma row_len n c A i : is_mat n c A -> (i < n)%nat -> length (nth i A []) = c.
Proof. intros [L R] H. apply R, nth_In. now rewrite L. Qed.

(** u . (A x) = (A^T u) . x *)
Lemma adj n c A u x : is_mat n c A -> length u = n -> length x = c -> Rdot (tmv c A u) x = Rdot u (Rmv A x).
Proof.
  intros M Lu Lx. rewrite (Rdot_seq c) by (try apply tmv_len; assumption).
  rewrite (Rdot_seq n u) by (try assumption; rewrite Rmv_len; apply M).
  rewrite (Rsum_map_ext _ (fun j => Rsum (map (fun i => nth j x 0 * (nth i u 0 * nth j (nth i A []) 0)) (seq 0 n)))).
  2:{ intros j Hj. apply in_seq in Hj. rewrite nth_tmv by lia.
      rewrite (Rdot_seq n) by (try assumption; rewrite Rcol_len; apply M).
      rewrite Rmult_comm, <- Rsum_map_scal. apply Rsum_map_ext. intros i Hi. apply in_seq in Hi.
      rewrite Rcol_nth by (rewrite (proj1 M); lia). ring. }
  rewrite Rsum_swap. apply Rsum_map_ext. intros i Hi. apply in_seq in Hi.
  rewrite Rmv_nth by (rewrite (proj1 M); lia). rewrite (Rdot_seq c) by (assumption || (apply (row_len n); [exact M|lia])).
  rewrite <- Rsum_map_scal. apply Rsum_map_ext. intros j Hj. ring.
Qed.
Lemma dot_cols_mv m c b row x : is_mat m c b -> length row = m -> length x = c ->
  Rdot (map (fun j => Rdot row (Rcol b j)) (seq 0 c)) x = Rdot row (Rmv b x).
Proof.
  intros M Lr Lx. rewrite <- (adj m c) by assumption. unfold tmv. f_equal. apply map_ext. intro j. apply Rdot_comm.
Qed.
Lemma Rmm_mat n m c a b : is_mat n m a -> is_mat n c (Rmm c a b).
Proof.
  intros [L H]. split; [unfold Rmm; now rewrite map_length|]. intros row Hr. unfold Rmm in Hr.
  apply in_map_iff in Hr. destruct Hr as (r & <- & _). now rewrite map_length, seq_length.
Qed.
Lemma Rmm_mv n m c a b x : is_mat n m a -> is_mat m c b -> length x = c -> Rmv (Rmm c a b) x = Rmv a (Rmv b x).
Proof.
  intros [La Ha] Mb Lx. unfold Rmv, Rmm. rewrite map_map. apply map_ext_in. intros row Hr.
  apply (dot_cols_mv m); auto.
Qed.
Lemma Rcol_mm c a b j : (j < c)%nat -> Rcol (Rmm c a b) j = Rmv a (Rcol b j).
Proof.
  intro H. unfold Rcol, Rmm, Rmv. rewrite map_map. apply map_ext. intro row. now rewrite nth_map_seq.
Qed.
Lemma Rtr_mat n c m : is_mat n c m -> is_mat c n (Rtr c m).
Proof.
  intros [L H]. split; [unfold Rtr; now rewrite map_length, seq_length|]. intros row Hr. unfold Rtr in Hr.
  apply in_map_iff in Hr. destruct Hr as (j & <- & _). now rewrite Rcol_len.
Qed.
Lemma Rtr_mv c m u : Rmv (Rtr c m) u = tmv c m u.
Proof. unfold Rmv, Rtr, tmv. now rewrite map_map. Qed.
Lemma Rcol_tr n c m j : is_mat n c m -> (j < n)%nat -> Rcol (Rtr c m) j = nth j m [].
Proof.
  intros M H. apply (list_ext _ _ 0); [rewrite Rcol_len; unfold Rtr; rewrite map_length, seq_length; symmetry; now apply (row_len n)|].
  intros i Hi. rewrite Rcol_len in Hi. rewrite Rcol_nth by exact Hi. unfold Rtr in *. rewrite map_length, seq_length in Hi.
  rewrite nth_map_seq by exact Hi. rewrite Rcol_nth by (rewrite (proj1 M); exact H). reflexivity.
Qed.
Lemma tmv_tr n c m u : is_mat n c m -> tmv n (Rtr c m) u = Rmv m u.
Proof.
  intros M. apply (list_ext _ _ 0); [rewrite tmv_len, Rmv_len; symmetry; apply M|].
  intros i Hi. rewrite tmv_len in Hi. rewrite nth_tmv by exact Hi. rewrite Rmv_nth by (rewrite (proj1 M); exact Hi).
  now rewrite (Rcol_tr n).
Qed.
Lemma tmv_mm n m c a b w : is_mat n m a -> is_mat m c b -> length w = n -> tmv c (Rmm c a b) w = tmv c b (tmv m a w).
Proof.
  intros Ma Mb Lw. unfold tmv at 1 2. apply map_ext_in. intros j Hj. apply in_seq in Hj.
  rewrite Rcol_mm by lia. rewrite Rdot_comm, <- (adj n m) by (try assumption; rewrite Rcol_len; apply Mb). apply Rdot_comm.
Qed.

(** linearity *)
Lemma vsub_len' n x y : length x = n -> length y = n -> length (vsub x y) = n.
Proof. intros <- E. apply vsub_len. congruence. Qed.
Lemma Rdot_sub_r u x y : length x = length y -> Rdot u (vsub x y) = Rdot u x - Rdot u y.
Proof.
  intros E. unfold vsub, Rdot. revert x y E. induction u as [|a u IH]; intros [|b x] [|c y] E; cbn in *; try lra; try discriminate.
  rewrite IH by lia. ring.
Qed.
Lemma Rmv_sub A x y : length x = length y -> Rmv A (vsub x y) = vsub (Rmv A x) (Rmv A y).
Proof.
  intros E. unfold Rmv. induction A as [|a A IH]; [reflexivity|]. cbn [map].
  rewrite Rdot_sub_r by exact E. rewrite IH. reflexivity.
Qed.
Lemma tmv_sub c A x y : length x = length y -> tmv c A (vsub x y) = vsub (tmv c A x) (tmv c A y).
Proof.
  intro E. rewrite <- !Rtr_mv. now apply Rmv_sub.
Qed.
Lemma vsub_self x : vsub x x = zeros (length x).
Proof. unfold vsub, zeros. induction x as [|a x IH]; cbn; [reflexivity|]. f_equal; [lra|exact IH]. Qed.
Lemma vsub_zero x y : length x = length y -> vsub x y = zeros (length x) -> x = y.
Proof.
  revert y. unfold vsub, zeros. induction x as [|a x IH]; intros [|b y] L E; cbn in *; try discriminate; [reflexivity|].
  injection E as E1 E2. f_equal; [lra|]. apply IH; [lia|exact E2].
Qed.
Lemma norm_zero v : Rdot v v = 0 -> v = zeros (length v).
Proof.
  intro H. unfold zeros. assert (Z : forall a, In a v -> a = 0) by (apply Rdot_self_zero; lra).
  clear H. induction v as [|a v IH]; cbn; [reflexivity|]. f_equal; [apply Z; now left|]. apply IH. intros; apply Z; now right.
Qed.
Lemma Rdot_zero_l v n : Rdot (zeros n) v = 0.
Proof. rewrite Rdot_comm. apply Rdot_zeros_r. Qed.

Section Span.
  Context (n r : nat) (Q : list (list R)) (MQ : is_mat n r Q) (OQ : ortho_cols r Q).
  Lemma tmv_cols j : (j < r)%nat -> tmv r Q (Rcol Q j) = map (fun i => if Nat.eqb i j then 1 else 0) (seq 0 r).
  Proof. intro H. unfold tmv. apply map_ext_in. intros i Hi. apply in_seq in Hi. apply OQ; lia. Qed.
  Lemma tmv_mv c : length c = r -> tmv r Q (Rmv Q c) = c.
  Proof.
    intro L. apply (list_ext _ _ 0); [now rewrite tmv_len|]. intros j Hj. rewrite tmv_len in Hj.
    rewrite nth_tmv by exact Hj. rewrite <- (adj n r) by (try assumption; rewrite Rcol_len; apply MQ).
    rewrite tmv_cols by exact Hj. rewrite (Rdot_seq r) by (try assumption; now rewrite map_length, seq_length).
    rewrite (Rsum_map_ext _ (fun i => if Nat.eqb j i then nth i c 0 else 0)); [now apply (Rsum_delta (fun i => nth i c 0))|].
    intros i Hi. apply in_seq in Hi. rewrite nth_map_seq by lia. rewrite (Nat.eqb_sym j i). destruct (Nat.eqb i j); ring.
  Qed.
  Lemma proj_len v : length (col_proj r Q v) = n.
  Proof. rewrite col_proj_tmv, Rmv_len. apply MQ. Qed.
  Lemma dot_mv_mv c d : length c = r -> length d = r -> Rdot (Rmv Q c) (Rmv Q d) = Rdot c d.
  Proof.
    intros Lc Ld. rewrite <- (adj n r) by (try assumption; rewrite Rmv_len; apply MQ). now rewrite tmv_mv.
  Qed.
  Lemma span_perp w v : length w = n -> length v = n -> tmv r Q w = zeros r -> col_proj r Q v = v -> Rdot w v = 0.
  Proof.
    intros Lw Lv Z E. rewrite <- E, col_proj_tmv, <- (adj n r) by (try assumption; apply tmv_len). rewrite Z. apply Rdot_zero_l.
  Qed.
  Lemma tmv_residual v : length v = n -> tmv r Q (vsub v (col_proj r Q v)) = zeros r.
  Proof.
    intro L. rewrite tmv_sub by (rewrite proj_len; exact L). rewrite col_proj_tmv, tmv_mv by apply tmv_len.
    rewrite vsub_self, tmv_len. reflexivity.
  Qed.
  (** the columns of [Y] lie in the span of [Q], and [w] is orthogonal to it *)
  Lemma tmv_perp c Y w : length Y = n -> length w = n -> (forall j, col_proj r Q (Rcol Y j) = Rcol Y j) -> tmv r Q w = zeros r -> tmv c Y w = zeros c.
  Proof.
    intros LY Lw S Z. unfold tmv at 1, zeros. rewrite <- (seq_length c 0) at 2. generalize (seq 0 c). intro l.
    induction l as [|j l IH]; cbn; [reflexivity|]. f_equal; [|exact IH]. rewrite Rdot_comm.
    apply span_perp; auto. now rewrite Rcol_len.
  Qed.
End Span.

(** one power iteration keeps the range of [A] captured *)
Lemma power_step n A Q c1 Q1 r r1 r2 Q2 : is_mat n n A -> is_mat n r Q -> captures n r Q A ->
  is_mat n r1 Q1 -> (forall j, col_proj r1 Q1 (Rcol (Rmm c1 (Rtr n A) Q) j) = Rcol (Rmm c1 (Rtr n A) Q) j) -> c1 = r ->
  is_mat n r2 Q2 -> ortho_cols r2 Q2 -> (forall j, col_proj r2 Q2 (Rcol (Rmm r1 A Q1) j) = Rcol (Rmm r1 A Q1) j) ->
  captures n r2 Q2 A.
Proof.
  intros MA MQ CQ M1 S1 -> M2 O2 S2 y Ly. set (v := Rmv A y). assert (Lv : length v = n) by (unfold v; rewrite Rmv_len; apply MA).
  set (w := vsub v (col_proj r2 Q2 v)). assert (Lp : length (col_proj r2 Q2 v) = n) by (apply (proj_len n); assumption).
  assert (Lw : length w = n) by (apply vsub_len'; assumption).
  assert (Z2 : tmv r2 Q2 w = zeros r2) by (apply (tmv_residual n); assumption).
  assert (Z1 : tmv r1 Q1 (tmv n A w) = zeros r1).
  { rewrite <- (tmv_mm n n r1) by assumption. apply (tmv_perp n r2 Q2); try assumption. apply (Rmm_mat n n r1 A Q1 MA). }
  assert (Z0 : tmv r Q (Rmv A (tmv n A w)) = zeros r).
  { rewrite <- (tmv_tr n n A) by exact MA. rewrite <- (tmv_mm n n r) by (try assumption; try apply tmv_len; now apply Rtr_mat).
    apply (tmv_perp n r1 Q1); try assumption; try apply tmv_len. now apply (Rmm_mat n n), Rtr_mat. }
  assert (ZA : Rmv A (tmv n A w) = zeros n).
  { rewrite <- (CQ (tmv n A w)) by apply tmv_len. rewrite col_proj_tmv, Z0, Rmv_zeros. f_equal. apply MQ. }
  assert (Zt : tmv n A w = zeros n).
  { rewrite <- (tmv_len n A w) at 2. apply norm_zero. rewrite (adj n n) by (try assumption; apply tmv_len). rewrite ZA. apply Rdot_zeros_r. }
  assert (W : w = zeros n).
  { rewrite <- Lw. apply norm_zero. unfold w at 2. rewrite Rdot_sub_r by congruence.
    unfold v at 1. rewrite <- (adj n n) by assumption. rewrite Zt, Rdot_zero_l, col_proj_tmv, <- (adj n r2) by (try assumption; apply tmv_len).
    rewrite Z2, Rdot_zero_l. ring. }
  symmetry. apply vsub_zero; [congruence|]. rewrite Lv. exact W.
Qed.

(** ** Spectral functions: D f = U diag(f) U^T *)
Section Spectral.
  Context (n r : nat) (U : list (list R)) (MU : is_mat n r U) (OU : ortho_cols r U).
  Definition spec (f : nat -> R) (v : list R) : list R := Rmv U (map (fun j => f j * Rdot (Rcol U j) v) (seq 0 r)).
  Lemma coef_len (g : nat -> R) : length (map g (seq 0 r)) = r.
  Proof. now rewrite map_length, seq_length. Qed.
  Lemma spec_len f v : length (spec f v) = n.
  Proof. unfold spec. rewrite Rmv_len. apply MU. Qed.
  Lemma spec_coef f v j : (j < r)%nat -> Rdot (Rcol U j) (spec f v) = f j * Rdot (Rcol U j) v.
  Proof.
    intro H. rewrite <- (nth_tmv r U _ j 0) by exact H. unfold spec. rewrite (tmv_mv n) by (try assumption; apply coef_len).
    now rewrite nth_map_seq.
  Qed.
  Lemma spec_comp f g v : spec f (spec g v) = spec (fun j => f j * g j) v.
  Proof.
    change (Rmv U (map (fun j => f j * Rdot (Rcol U j) (spec g v)) (seq 0 r)) = Rmv U (map (fun j => f j * g j * Rdot (Rcol U j) v) (seq 0 r))).
    f_equal. apply map_ext_in. intros j Hj. apply in_seq in Hj. rewrite spec_coef by lia. ring.
  Qed.
  Lemma spec_ext f g v : (forall j, (j < r)%nat -> f j = g j) -> spec f v = spec g v.
  Proof. intro H. unfold spec. f_equal. apply map_ext_in. intros j Hj. apply in_seq in Hj. rewrite H by lia. reflexivity. Qed.
  Lemma spec_sym f u v : length u = n -> length v = n -> Rdot u (spec f v) = Rdot v (spec f u).
  Proof.
    intros Lu Lv. unfold spec. rewrite <- !(adj n r) by (try assumption; apply coef_len).
    rewrite !(Rdot_seq r) by (try apply tmv_len; apply coef_len). apply Rsum_map_ext. intros j Hj. apply in_seq in Hj.
    rewrite !nth_tmv, !nth_map_seq by lia. ring.
  Qed.
  Lemma spec_sub f u v : length u = n -> length v = n -> spec f (vsub u v) = vsub (spec f u) (spec f v).
  Proof.
    intros Lu Lv. unfold spec. rewrite <- Rmv_sub by (now rewrite !coef_len). f_equal.
    unfold vsub at 2. rewrite map2_map_same. apply map_ext. intro j. rewrite Rdot_sub_r by congruence. ring.
  Qed.
  Lemma spec_col f j : (j < r)%nat -> spec f (Rcol U j) = vscal (f j) (Rcol U j).
  Proof.
    intro H. apply (list_ext _ _ 0); [unfold vscal; rewrite spec_len, map_length, Rcol_len; symmetry; apply MU|].
    intros i Hi. rewrite spec_len in Hi. unfold spec. rewrite Rmv_nth by (rewrite (proj1 MU); exact Hi).
    rewrite (Rdot_seq r) by (try apply coef_len; now apply (row_len n)).
    rewrite (Rsum_map_ext _ (fun a => if Nat.eqb j a then f j * nth a (nth i U []) 0 else 0)).
    2:{ intros a Ha. apply in_seq in Ha. rewrite nth_map_seq by lia. rewrite OU by lia. rewrite (Nat.eqb_sym j a).
        destruct (Nat.eqb_spec a j); [subst; ring|ring]. }
    rewrite (Rsum_delta (fun a => f j * nth a (nth i U []) 0)) by exact H.
    unfold vscal. rewrite (nth_indep (map (Rmult (f j)) (Rcol U j)) 0 (Rmult (f j) 0)) by (rewrite map_length, Rcol_len, (proj1 MU); exact Hi).
    rewrite map_nth. rewrite Rcol_nth by (rewrite (proj1 MU); exact Hi). reflexivity.
  Qed.
  Lemma spec_perp f v : tmv r U v = zeros r -> spec f v = zeros n.
  Proof.
    intro Z. unfold spec. replace (map _ (seq 0 r)) with (zeros r); [rewrite Rmv_zeros; f_equal; apply MU|].
    apply (list_ext _ _ 0); [now rewrite coef_len; unfold zeros; rewrite repeat_length|].
    unfold zeros at 1. rewrite repeat_length. intros j Hj. rewrite nth_map_seq by exact Hj.
    rewrite <- (nth_tmv r U v j 0) by exact Hj. rewrite Z. unfold zeros. rewrite nth_repeat_lt by exact Hj. ring.
  Qed.

  (** A = U diag(lam) U^T; mu the pseudo-inverse of lam *)
  Context (A : list (list R)) (MA : is_mat n n A) (lam mu : nat -> R).
  Hypothesis SA : forall y, length y = n -> Rmv A y = spec lam y.
  Hypothesis Hmu : forall j, (j < r)%nat -> lam j * mu j * lam j = lam j /\ mu j = lam j * (mu j * mu j).
  Lemma pinv_min_norm b : length b = n -> is_min_norm A b (spec mu b).
  Proof.
    intro Lb. set (z := spec mu b). assert (Lz : length z = n) by apply spec_len.
    assert (Az : Rmv A z = spec (fun j => lam j * mu j) b) by (unfold z; rewrite SA by apply spec_len; apply spec_comp).
    assert (LA : forall y, length (Rmv A y) = n) by (intro; rewrite Rmv_len; apply MA).
    set (e := vsub (Rmv A z) b). assert (Le : length e = n) by (apply vsub_len'; [apply LA|exact Lb]).
    assert (NE : spec lam e = zeros n).
    { unfold e. rewrite spec_sub by (try apply LA; exact Lb). rewrite Az, spec_comp.
      rewrite (spec_ext _ lam) by (intros j Hj; destruct (Hmu j Hj) as [E _]; lra).
      rewrite vsub_self. f_equal. apply spec_len. }
    assert (RES : forall y, length y = n -> sq_residual A b y = Rdot (vsub (Rmv A y) b) (vsub (Rmv A y) b)).
    { intros y Ly. unfold sq_residual. rewrite Rdot_self. unfold vsub. rewrite map_map2. f_equal. apply map2_ext. intros; ring. }
    assert (PY : forall y, length y = n ->
      Rdot (vsub (Rmv A y) b) (vsub (Rmv A y) b) = Rdot e e + Rdot (Rmv A (vsub y z)) (Rmv A (vsub y z))).
    { intros y Ly. set (h := vsub y z). assert (Lh : length h = n) by (apply vsub_len'; assumption).
      assert (X : Rdot e (Rmv A h) = 0).
      { rewrite SA by exact Lh. rewrite spec_sym by assumption. rewrite NE. apply Rdot_zeros_r. }
      assert (Y : vsub (Rmv A y) b = map2 Rplus e (Rmv A h)).
      { unfold h. rewrite Rmv_sub by congruence. unfold e. generalize (Rmv A y) (Rmv A z) (LA y) (LA z) Lb.
        clear. intros u v Lu Lv Lb. apply (list_ext _ _ 0); unfold vsub; rewrite ?map2_length; rewrite ?map2_length; [lia|].
        intros i Hi. rewrite ?map2_length in Hi. rewrite !(nth_map2 _ _ _ i 0 0 0) by (rewrite ?map2_length; lia). ring. }
      rewrite Y. rewrite Rdot_add_r by (rewrite LA; exact Le).
      rewrite (Rdot_comm _ e), (Rdot_comm _ (Rmv A h)), !Rdot_add_r by (rewrite LA; exact Le).
      rewrite (Rdot_comm (Rmv A h) e), X. ring. }
    split; [congruence|]. intros y Ly. rewrite Lb in Ly. rewrite !RES by assumption. rewrite (PY y Ly). fold e.
    pose proof (Rdot_self_nonneg (Rmv A (vsub y z))) as P. split; [lra|]. intro Q.
    assert (KZ : Rmv A (vsub y z) = zeros n) by (rewrite <- (LA (vsub y z)); apply norm_zero; lra).
    assert (Lh : length (vsub y z) = n) by (apply vsub_len'; assumption).
    assert (ZH : Rdot z (vsub y z) = 0).
    { assert (E : z = spec lam (spec (fun j => mu j * mu j) b)).
      { unfold z. rewrite spec_comp. apply spec_ext. intros j Hj. now destruct (Hmu j Hj). }
      rewrite Rdot_comm. rewrite E at 2. rewrite spec_sym by (try assumption; apply spec_len).
      rewrite <- SA by exact Lh. rewrite KZ. apply Rdot_zeros_r. }
    pose proof (Rdot_self_nonneg (vsub y z)) as P2.
    rewrite (Rdot_sub_r (vsub y z)) in P2 by congruence. rewrite Rdot_comm, (Rdot_comm _ z), ZH in P2.
    rewrite Rdot_sub_r in P2 by congruence. rewrite Rdot_sub_r in ZH by congruence.
    rewrite (Rdot_comm y z) in P2. lra.
  Qed.
End Spectral.
