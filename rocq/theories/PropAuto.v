(** * Methods a kernel inherits from the base class (automatic differentiation): C91 *)
From Coq Require Import List ZArith Reals Lia Lra Bool.
From Coquelicot Require Import Coquelicot.
From Verif Require Import Num Jax RSum JaxFacts MetricProofs MetricProofs2 UtilModel KernelModel KernelSpec
  KernelProofs KernelProofs2 KernelProofs3 KernelProofs4 KernelProofs5 KernelProofs6 KernelProofs7 KernelProofs8 PropKernel.
Import ListNotations.
Open Scope R_scope.

(** [x'] has the length of [x] and each coordinate is less than [eps] away *)
Definition near (eps : R) (x x' : list R) : Prop :=
  length x' = length x /\ forall i, (i < length x)%nat -> Rabs (nth i x' 0 - nth i x 0) < eps.
(** [jgrad f] is right at [x]: when [f] computes a real function [g] near [x] and [g] has a
    gradient at [x], that gradient is returned.  This is assumed of the library's automatic
    differentiation at the points used, not everywhere: it is known to return NaN where an
    intermediate result is not differentiable although the whole function is. *)
Definition autodiff_at (jgrad : (list ER -> ER) -> list ER -> list ER) (f : list ER -> ER) (x : list R) : Prop :=
  forall eps g dg, 0 < eps -> (forall x', near eps x x' -> f (map Fin x') = Fin (g x')) ->
  is_gradient g x dg -> jgrad f (map Fin x) = map Fin dg.
(** the number in a scalar result, the array in a vector result *)
Definition scalar (t : ten ER) : ER := match t with Sc v => v | _ => NaN end.
Definition vector (t : ten ER) : list ER := match t with Vec l => l | _ => [] end.
(** the classes that define only the value *)
Definition inherits {V} (k : kern V) : Prop := match k with KMatern _ _ _ | KStein _ _ => True | _ => False end.

Lemma near_refl eps x : 0 < eps -> near eps x x.
Proof. intros H. split; [reflexivity|]. intros i _. rewrite Rminus_eq_0, Rabs_R0. exact H. Qed.
Lemma near_set eps x i t : (i < length x)%nat -> 0 < eps -> Rabs (t - nth i x 0) < eps -> near eps x (set_coord i x t).
Proof.
  intros Hi He H. split; [apply set_len|]. intros j Hj. unfold set_coord. destruct (Nat.eq_dec j i) as [->|N].
  - rewrite nth_upd_eq by exact Hi. exact H.
  - rewrite nth_upd_neq by auto. rewrite Rminus_eq_0, Rabs_R0. exact He.
Qed.
Lemma near_loc eps x i : (i < length x)%nat -> 0 < eps -> locally (nth i x 0) (fun t => near eps x (set_coord i x t)).
Proof. intros Hi He. exists (mkposreal eps He). intros t Ht. apply near_set; auto. Qed.
Lemma auto_of jgrad keq k : inherits k -> exists val, methods EROps ERT jgrad keq k = auto_meth EROps jgrad val.
Proof. destruct k; try contradiction; intros _; eexists; reflexivity. Qed.

(** ** C91.  Gradients: for an arbitrary function [kf] (not assumed symmetric) computed by the
    kernel near [(x, y)], the inherited methods return its gradient in the first and in the
    second argument. *)
Theorem C91_inherited_gradients :
  forall jgrad keq k (kf : list R -> list R -> R) x y eps,
  let K := methods EROps ERT jgrad keq k in
  inherits k -> 0 < eps ->
  (forall x' y', near eps x x' -> near eps y y' -> m_val K (map Fin x') (map Fin y') = Sc (Fin (kf x' y'))) ->
  (forall g, autodiff_at jgrad (fun x' => scalar (m_val K x' (map Fin y))) x ->
     is_gradient (fun x' => kf x' y) x g -> m_gx K (map Fin x) (map Fin y) = Vec (map Fin g)) /\
  (forall g, autodiff_at jgrad (fun y' => scalar (m_val K (map Fin x) y')) y ->
     is_gradient (fun y' => kf x y') y g -> m_gy K (map Fin x) (map Fin y) = Vec (map Fin g)).
Proof.
  intros jgrad keq k kf x y eps K Hi He Hv. unfold K in *. destruct (auto_of jgrad keq k Hi) as [val E]. rewrite E in *.
  cbn [auto_meth m_val m_gx m_gy] in *. pose proof (Hv x y (near_refl eps x He) (near_refl eps y He)) as V0. split; intros g HA HG.
  - unfold auto_gx. rewrite V0. f_equal. apply (HA eps (fun x' => kf x' y)); auto.
    intros x' Hx. rewrite Hv; auto. now apply near_refl.
  - unfold auto_gy. rewrite V0. f_equal. apply (HA eps (fun y' => kf x y')); auto.
    intros y' Hy. rewrite Hv; auto. now apply near_refl.
Qed.
Print Assumptions C91_inherited_gradients.

(** ** C91.  Divergence: sum_i d/dx_i d/dy_i *)
Theorem C91_inherited_divergence :
  forall jgrad keq k (kf : list R -> list R -> R) (gy : list R -> list R) x y eps,
  let K := methods EROps ERT jgrad keq k in
  inherits k -> 0 < eps -> length x = length y ->
  (forall x' y', near eps x x' -> near eps y y' -> m_val K (map Fin x') (map Fin y') = Sc (Fin (kf x' y'))) ->
  (forall x', near eps x x' -> is_gradient (fun y' => kf x' y') y (gy x') /\
     autodiff_at jgrad (fun y' => scalar (m_val K (map Fin x') y')) y) ->
  forall gi : nat -> list R,
  (forall i, (i < length x)%nat -> is_gradient (fun x' => nth i (gy x') 0) x (gi i) /\
     autodiff_at jgrad (fun x' => nth i (vector (m_gy K x' (map Fin y))) (Fin 0)) x) ->
  exists D, m_div K (map Fin x) (map Fin y) = Sc (Fin D) /\ is_mixed_divergence kf x y D.
Proof.
  intros jgrad keq k kf gy x y eps K Hi He HL Hv Hg gi Hgi. unfold K in *. destruct (auto_of jgrad keq k Hi) as [val E]. rewrite E in *.
  cbn [auto_meth m_val m_gx m_gy m_div] in *.
  assert (GY : forall x', near eps x x' -> auto_gy EROps jgrad val (map Fin x') (map Fin y) = Vec (map Fin (gy x'))).
  { intros x' Hx. unfold auto_gy. rewrite (Hv x' y Hx (near_refl eps y He)). f_equal. destruct (Hg x' Hx) as [G A].
    apply (A eps (fun y' => kf x' y')); auto. intros y' Hy. now rewrite Hv. }
  assert (GL : forall x', near eps x x' -> length (gy x') = length x).
  { intros x' Hx. destruct (Hg x' Hx) as [[G _] _]. lia. }
  exists (Rsum (map (fun i => nth i (gi i) 0) (seq 0 (length x)))). split.
  - unfold auto_div. rewrite (GY x (near_refl eps x He)). rewrite map_length, (GL x (near_refl eps x He)). f_equal.
    rewrite (map_ext_in _ (fun i => Fin (nth i (gi i) 0))).
    + rewrite <- (map_map (fun i => nth i (gi i) 0) Fin). apply fsum_fin.
    + intros i Hin. apply in_seq in Hin. destruct (Hgi i ltac:(lia)) as [G A].
      change (f0 EROps) with (Fin 0).
      replace (jgrad (fun x' => nth i (unvec (auto_gy EROps jgrad val x' (map Fin y))) (Fin 0)) (map Fin x)) with (map Fin (gi i)).
      * change (Fin 0) with (Fin (0:R)). apply (map_nth Fin).
      * symmetry. apply (A eps (fun x' => nth i (gy x') 0)); auto. intros x' Hx. rewrite (GY x' Hx). cbn [vector]. apply (map_nth Fin).
  - exists (map (fun i => nth i (gi i) 0) (seq 0 (length x))). split; [now rewrite map_length, seq_length|]. split; [reflexivity|].
    intros i Hin. rewrite nth_map_seq by exact Hin.
    assert (A : locally (nth i x 0) (fun t => is_derive (fun u => kf (set_coord i x t) (set_coord i y u)) (nth i y 0) (nth i (gy (set_coord i x t)) 0))).
    { eapply filter_imp; [|exact (near_loc eps x i Hin He)]. cbv beta. intros t Ht. destruct (Hg _ Ht) as [[_ G] _]. apply G. lia. }
    split.
    + eapply filter_imp; [|exact A]. intros t Ht. eexists; exact Ht.
    + destruct (Hgi i Hin) as [[_ G] _]. eapply is_derive_ext_loc; [|exact (G i Hin)].
      eapply filter_imp; [|exact A]. cbv beta. intros t Ht. symmetry. now apply is_derive_unique.
Qed.
Print Assumptions C91_inherited_divergence.

(** ** C91.  Matern kernels: the gradients and the divergence exist at distinct points *)
(** functions of the form exp(c r) * sum_k a_k r^(n_k) *)
Definition pe (c : R) (ts : list (R * nat)) (r : R) : R := exp (c * r) * Rsum (map (fun t => fst t * r ^ snd t) ts).
Definition dpe (c : R) (ts : list (R * nat)) : list (R * nat) :=
  flat_map (fun t => [(c * fst t, snd t); (INR (snd t) * fst t, pred (snd t))]) ts.
Lemma sum_derive ts r : is_derive (fun r => Rsum (map (fun t : R * nat => fst t * r ^ snd t) ts)) r
  (Rsum (map (fun t => INR (snd t) * fst t * r ^ pred (snd t)) ts)).
Proof.
  induction ts as [|[a n] ts IH]; cbn [map Rsum fst snd]; [apply @is_derive_const|].
  change (Rsum (?u :: map ?f ts)) with (u + Rsum (map f ts)).
  apply (is_derive_plus (fun r => a * r ^ n) (fun r => Rsum (map (fun t : R * nat => fst t * r ^ snd t) ts))); [|exact IH].
  auto_derive; auto. ring.
Qed.
Lemma pe_derive c ts r : is_derive (pe c ts) r (pe c (dpe c ts) r).
Proof.
  unfold pe. evar (l : R). replace (exp (c * r) * Rsum (map (fun t => fst t * r ^ snd t) (dpe c ts))) with l; unfold l.
  - apply (is_derive_mult (fun r => exp (c * r)) (fun r => Rsum (map (fun t : R * nat => fst t * r ^ snd t) ts))).
    + instantiate (1 := c * exp (c * r)). auto_derive; auto. ring.
    + apply sum_derive.
    + intros n m. apply Rmult_comm.
  - unfold plus, mult. cbn. unfold mult. cbn.
    transitivity (exp (c * r) * (c * Rsum (map (fun t => fst t * r ^ snd t) ts) + Rsum (map (fun t => INR (snd t) * fst t * r ^ pred (snd t)) ts))); [ring|].
    f_equal. induction ts as [|[a n] ts IH]; cbn [dpe flat_map app map fst snd]; [cbn; ring|].
    change (Rsum (?u :: ?v :: ?w)) with (u + (v + Rsum w)). fold (dpe c ts). rewrite <- IH.
    change (Rsum (?u :: map ?f ts)) with (u + Rsum (map f ts)). ring.
Qed.
Definition matern_terms (l s : R) (p : nat) : list (R * nat) :=
  map (fun i => (s ^ 2 * (INR (fact p) / INR (fact (2 * p))) * (INR (fact (p + i)) / (INR (fact i) * INR (fact (p - i)))) *
    (2 * (sqrt (2 * INR p + 1) / l)) ^ (p - i), (p - i)%nat)) (seq 0 (p + 1)).
Lemma matern_pe l s p x y : matern_fun l s p x y = pe (- (sqrt (2 * INR p + 1) / l)) (matern_terms l s p) (dist2 x y).
Proof.
  unfold matern_fun, pe, matern_terms. set (q := sqrt (2 * INR p + 1)). set (d := dist2 x y).
  replace (- (q / l) * d) with (- (q * d / l)) by (unfold Rdiv; ring).
  rewrite map_map. cbn [fst snd]. rewrite (Rmult_comm (s ^ 2)), !Rmult_assoc. f_equal.
  set (C := INR (fact p) / INR (fact (2 * p))). rewrite <- Rmult_assoc.
  assert (SC : forall (g h : nat -> R) is, (forall i, h i = s ^ 2 * C * g i) -> s ^ 2 * C * Rsum (map g is) = Rsum (map h is)).
  { intros g h is Hgh. induction is as [|i is IH]; cbn [map]; [unfold Rsum; cbn; ring|].
    change (Rsum (?u :: ?w)) with (u + Rsum w). rewrite <- IH, Hgh. ring. }
  apply SC. intros i. replace (2 * (q * d / l)) with (2 * (q / l) * d) by (unfold Rdiv; ring). rewrite (Rpow_mult_distr (2 * (q / l)) d). ring.
Qed.

Section Radial.
  Variables (M M1 M2 : R -> R).
  Hypothesis D1 : forall r, is_derive M r (M1 r).
  Hypothesis D2 : forall r, is_derive M1 r (M2 r).
  Variables (x y : list R).
  Hypothesis HL : length x = length y.
  Hypothesis HN : x <> y.
  Definition rad_gy : list R := map (fun j => M1 (dist2 x y) * ((nth j y 0 - nth j x 0) / dist2 x y)) (seq 0 (length y)).
  Definition rad_gx : list R := map (fun j => M1 (dist2 x y) * ((nth j x 0 - nth j y 0) / dist2 x y)) (seq 0 (length x)).
  Lemma sq_pos : 0 < sqdist x y.
  Proof. pose proof (dist_pos x y HL HN). rewrite sqdist_dist. apply pow_lt. auto. Qed.
  Lemma rad_d1 A b t : 0 < A + (t - b) ^ 2 ->
    is_derive (fun t => M (sqrt (A + (t - b) ^ 2))) t (M1 (sqrt (A + (t - b) ^ 2)) * ((t - b) / sqrt (A + (t - b) ^ 2))).
  Proof.
    intros H. assert (S := sqrt_lt_R0 _ H).
    evar (w : R). replace (M1 (sqrt (A + (t - b) ^ 2)) * ((t - b) / sqrt (A + (t - b) ^ 2))) with w; unfold w.
    - apply (is_derive_comp M (fun t => sqrt (A + (t - b) ^ 2))); [apply D1|].
      instantiate (1 := (t - b) / sqrt (A + (t - b) ^ 2)). auto_derive; [replace (A + (t + - b) * ((t + - b) * 1)) with (A + (t - b) ^ 2) by ring; auto|].
      replace (A + (t + - b) * ((t + - b) * 1)) with (A + (t - b) ^ 2) by ring. field. lra.
    - unfold scal. cbn. unfold mult. cbn. ring.
  Qed.
  Lemma rad_grad_x : is_gradient (fun x' => M (dist2 x' y)) x rad_gx.
  Proof.
    split; [unfold rad_gx; now rewrite map_length, seq_length|]. intros i Hi. unfold rad_gx. rewrite nth_map_seq by auto.
    set (A := sqdist x y - (nth i x 0 - nth i y 0) ^ 2).
    assert (E : sqdist x y = A + (nth i x 0 - nth i y 0) ^ 2) by (unfold A; ring).
    unfold dist2. rewrite E. eapply is_derive_ext; [|apply rad_d1; rewrite <- E; apply sq_pos].
    intros t. cbv beta. rewrite sqdist_set by auto. reflexivity.
  Qed.
  Lemma rad_grad_y : is_gradient (fun y' => M (dist2 x y')) y rad_gy.
  Proof.
    split; [unfold rad_gy; now rewrite map_length, seq_length|]. intros i Hi. unfold rad_gy. rewrite nth_map_seq by auto.
    set (A := sqdist x y - (nth i x 0 - nth i y 0) ^ 2).
    assert (E : sqdist x y = A + (nth i y 0 - nth i x 0) ^ 2) by (unfold A; ring).
    unfold dist2. rewrite E. eapply is_derive_ext; [|apply rad_d1; rewrite <- E; apply sq_pos].
    intros t. cbv beta. rewrite sqdist_set_y by lia. unfold A. do 2 f_equal. ring.
  Qed.
End Radial.
Section Radial2.
  Variables (M1 M2 : R -> R).
  Hypothesis D2 : forall r, is_derive M1 r (M2 r).
  Variables (x y : list R).
  Hypothesis HL : length x = length y.
  Hypothesis HN : x <> y.
  Lemma rad_mixed i : (i < length x)%nat -> exists g, is_gradient (fun x' => nth i (rad_gy M1 x' y) 0) x g.
  Proof.
    intros Hi.
    assert (X : forall j, (j < length x)%nat -> ex_derive (fun t => nth i (rad_gy M1 (set_coord j x t) y) 0) (nth j x 0)).
    { intros j Hj. set (A := sqdist x y - (nth j x 0 - nth j y 0) ^ 2). set (b := nth j y 0).
      assert (E : sqdist x y = A + (nth j x 0 - b) ^ 2) by (unfold A, b; ring).
      assert (P : 0 < A + (nth j x 0 - b) ^ 2) by (rewrite <- E; apply sq_pos; auto). assert (S := sqrt_lt_R0 _ P).
      apply (ex_derive_ext (fun t => M1 (sqrt (A + (t - b) ^ 2)) * ((nth i y 0 - nth i (set_coord j x t) 0) / sqrt (A + (t - b) ^ 2)))).
      { intros t. unfold rad_gy. rewrite nth_map_seq by lia. unfold dist2. rewrite sqdist_set by auto. reflexivity. }
      assert (Q : ex_derive (fun t => sqrt (A + (t - b) ^ 2)) (nth j x 0)).
      { auto_derive. replace (A + (nth j x 0 + - b) * ((nth j x 0 + - b) * 1)) with (A + (nth j x 0 - b) ^ 2) by ring. auto. }
      apply (ex_derive_mult (fun t => M1 (sqrt (A + (t - b) ^ 2))) (fun t => (nth i y 0 - nth i (set_coord j x t) 0) / sqrt (A + (t - b) ^ 2))).
      - apply (ex_derive_comp M1); [eexists; apply D2|exact Q].
      - apply (ex_derive_div (fun t => nth i y 0 - nth i (set_coord j x t) 0)); [|exact Q|lra].
        destruct (Nat.eq_dec i j) as [->|N].
        + apply (ex_derive_ext (fun t => nth j y 0 - t)); [intros t; unfold set_coord; now rewrite nth_upd_eq|]. auto_derive. auto.
        + apply (ex_derive_ext (fun t => nth i y 0 - nth i x 0)); [intros t; unfold set_coord; now rewrite nth_upd_neq|]. apply ex_derive_const. }
    exists (map (fun j => Derive (fun t => nth i (rad_gy M1 (set_coord j x t) y) 0) (nth j x 0)) (seq 0 (length x))).
    split; [now rewrite map_length, seq_length|]. intros j Hj. rewrite nth_map_seq by auto. apply Derive_correct. now apply X.
  Qed.
  Lemma near_apart : exists eps, 0 < eps /\ forall x', near eps x x' -> x' <> y.
  Proof.
    assert (W : exists i, (i < length x)%nat /\ nth i x 0 <> nth i y 0).
    { clear D2. revert y HL HN. induction x as [|a l IH]; intros [|b m] L N; try discriminate; [congruence|].
      destruct (Req_dec a b) as [->|NE]; [|exists O; cbn; split; [lia|auto]].
      destruct (IH m) as [i [Hi Ni]]; [cbn in L; lia|congruence|]. exists (S i). cbn. split; [lia|auto]. }
    destruct W as [i [Hi Ni]]. exists (Rabs (nth i y 0 - nth i x 0)). split; [apply Rabs_pos_lt; lra|].
    intros x' [_ H] ->. specialize (H i Hi). lra.
  Qed.
End Radial2.

(** at distinct points, when automatic differentiation is right at distinct points *)
Theorem C91_matern :
  forall jgrad keq l s p x y,
  let K := methods EROps ERT jgrad keq (KMatern (Fin l) (Fin s) p) in
  let f := matern_fun l s (Z.to_nat p) in
  0 < l -> (0 <= p)%Z -> length x = length y -> x <> y ->
  (forall x', length x' = length x -> x' <> y ->
     autodiff_at jgrad (fun x' => scalar (m_val K x' (map Fin y))) x' /\
     autodiff_at jgrad (fun y' => scalar (m_val K (map Fin x') y')) y /\
     forall i, autodiff_at jgrad (fun x' => nth i (vector (m_gy K x' (map Fin y))) (Fin 0)) x') ->
  exists gx gy D,
    m_gx K (map Fin x) (map Fin y) = Vec (map Fin gx) /\ is_gradient (fun x' => f x' y) x gx /\
    m_gy K (map Fin x) (map Fin y) = Vec (map Fin gy) /\ is_gradient (fun y' => f x y') y gy /\
    m_div K (map Fin x) (map Fin y) = Sc (Fin D) /\ is_mixed_divergence f x y D.
Proof.
  intros jgrad keq l s p x y K f Hl Hp HL HN HA.
  set (c := - (sqrt (2 * INR (Z.to_nat p) + 1) / l)). set (ts := matern_terms l s (Z.to_nat p)).
  assert (EF : forall x y, f x y = pe c ts (dist2 x y)) by (intros; apply matern_pe).
  set (M1 := pe c (dpe c ts)). set (M2 := pe c (dpe c (dpe c ts))).
  assert (D1 : forall r, is_derive (pe c ts) r (M1 r)) by (intros; apply pe_derive).
  assert (D2 : forall r, is_derive M1 r (M2 r)) by (intros; apply pe_derive).
  destruct (near_apart x y HL HN) as [eps [He NA]].
  assert (GE : forall g h x dg, (forall x, g x = h x) -> is_gradient h x dg -> is_gradient g x dg).
  { intros g h z dg Hgh [A B]. split; [exact A|]. intros i Hi. eapply is_derive_ext; [|apply B; exact Hi]. intros t. symmetry. apply Hgh. }
  assert (Hv : forall x' y', near eps x x' -> near eps y y' -> m_val K (map Fin x') (map Fin y') = Sc (Fin (f x' y'))).
  { intros x' y' _ _. unfold K. cbn [methods auto_meth m_val]. now rewrite matern_eval. }
  destruct (HA x eq_refl HN) as [A1 [A2 A3]].
  assert (GX : is_gradient (fun x' => f x' y) x (rad_gx M1 x y)).
  { eapply GE; [intros; apply EF|]. apply rad_grad_x; auto. }
  assert (GY : forall x', near eps x x' -> is_gradient (fun y' => f x' y') y (rad_gy M1 x' y)).
  { intros x' Hx. eapply GE; [intros; apply EF|]. apply rad_grad_y; auto. destruct Hx as [L _]. lia. }
  destruct (C91_inherited_gradients jgrad keq (KMatern (Fin l) (Fin s) p) f x y eps I He Hv) as [B1 B2].
  assert (GI : exists gi, forall i, (i < length x)%nat -> is_gradient (fun x' => nth i (rad_gy M1 x' y) 0) x (gi i)).
  { exists (fun i => map (fun j => Derive (fun t => nth i (rad_gy M1 (set_coord j x t) y) 0) (nth j x 0)) (seq 0 (length x))).
    intros i Hi. destruct (rad_mixed M1 M2 D2 x y HL HN i Hi) as [g [Lg G]]. split; [now rewrite map_length, seq_length|].
    intros j Hj. rewrite nth_map_seq by auto. apply Derive_correct. eexists. now apply G. }
  destruct GI as [gi GI].
  destruct (C91_inherited_divergence jgrad keq (KMatern (Fin l) (Fin s) p) f (fun x' => rad_gy M1 x' y) x y eps I He HL Hv) with (gi := gi) as [D [E ED]].
  - intros x' Hx. split; [now apply GY|]. apply HA; [apply Hx|now apply NA].
  - intros i Hi. split; [now apply GI|apply A3].
  - exists (rad_gx M1 x y), (rad_gy M1 x y), D. assert (GYx := GY x (near_refl eps x He)).
    split; [now apply B1|]. split; [exact GX|]. split; [now apply B2|]. split; [exact GYx|]. split; [exact E|exact ED].
Qed.
Print Assumptions C91_matern.

(** exact differentiation meets the assumption at every point *)
Definition real_part (v : ER) : R := match v with Fin r => r | _ => 0 end.
Definition exact_grad (f : list ER -> ER) (x : list ER) : list ER :=
  map (fun i => Fin (Derive (fun t => real_part (f (map Fin (set_coord i (map real_part x) t)))) (nth i (map real_part x) 0))) (seq 0 (length x)).
Lemma exact_autodiff f x : autodiff_at exact_grad f x.
Proof.
  intros eps g dg He Hf [HL HG]. unfold exact_grad. rewrite map_length, map_map. cbn [real_part]. rewrite map_id.
  apply (nth_ext _ _ (Fin 0) (Fin 0)); [rewrite !map_length, seq_length; auto|]. intros i Hi. rewrite map_length, seq_length in Hi.
  rewrite nth_map_seq by auto. rewrite (map_nth Fin). f_equal. rewrite <- (is_derive_unique _ _ _ (HG i Hi)).
  apply Derive_ext_loc. eapply filter_imp; [|exact (near_loc eps x i Hi He)]. intros t Ht. cbv beta in *. now rewrite Hf.
Qed.
Example C91_applies : let K := methods EROps ERT exact_grad ex_keq (KMatern (Fin (1 / 2)) (Fin 3) 2) in
  exists gx gy D, m_gx K [Fin 1; Fin 0] [Fin 0; Fin 2] = Vec (map Fin gx) /\ m_gy K [Fin 1; Fin 0] [Fin 0; Fin 2] = Vec (map Fin gy) /\
    m_div K [Fin 1; Fin 0] [Fin 0; Fin 2] = Sc (Fin D) /\ is_gradient (fun x' => matern_fun (1 / 2) 3 2 x' [0; 2]) [1; 0] gx.
Proof.
  destruct (C91_matern exact_grad ex_keq (1 / 2) 3 2 [1; 0] [0; 2]) as (gx & gy & D & A & B & C & _ & E & _); try lra; try lia; auto.
  - intros H. injection H. intros. lra.
  - intros. repeat split; intros; apply exact_autodiff.
  - exists gx, gy, D. auto.
Qed.
