(** * Limits of the selection probabilities *)
From Coq Require Import List ZArith Reals Lra Lia Bool.
From Verif Require Import Num Jax RSum JaxFacts DataModel MeanModel GreedyModel GreedyProofs GreedyProofs2 GreedyProofs4 TempSpec.
From Coquelicot Require Import Coquelicot.
Import ListNotations.
Open Scope R_scope.

Definition metricE (s : option R) : ER := match s with Some r => Fin r | None => NInf end.
Lemma boltz_nonneg T s : 0 <= boltzmann T s. Proof. destruct s; cbn; [left; apply exp_pos|lra]. Qed.
Lemma boltz_sum_pos T (s : scores) r : In (Some r) s -> 0 < Rsum (map (boltzmann T) s).
Proof.
  intro H. apply in_split in H. destruct H as (a & b & ->). rewrite map_app, Rsum_app. cbn [map Rsum].
  assert (N : forall l, 0 <= Rsum (map (boltzmann T) l)).
  { intro l. apply Rsum_nonneg. intros x Hx. apply in_map_iff in Hx. destruct Hx as (o & <- & _). apply boltz_nonneg. }
  pose proof (N a). pose proof (N b). assert (0 < boltzmann T (Some r)) by apply exp_pos. lra.
Qed.
Lemma softmax_share (s : scores) T r : In (Some r) s ->  0 < T ->
  softmax EROps expE (map (fun v => fdiv EROps v (Fin T)) (map metricE s)) = map (fun j => Fin (share s T j)) (seq 0 (length s)).
Proof.
  intros Hr HT. rewrite map_map. unfold softmax. change (fninf EROps) with (NInf : ER).
  assert (E : map (fun o => fdiv EROps (metricE o) (Fin T)) s = map (fun o => match o with Some x => Fin (x / T) | None => NInf end) s).
  { apply map_ext. intros [x|]; [apply fdiv_fin; lra|]. unfold metricE. cbn. rewrite nsign_R. destruct (Rlt_dec 0 T); [reflexivity|lra]. }
  rewrite E. destruct (fold_fmax_ninf (map (fun o => match o with Some x => Fin (x / T) | None => NInf end) s)) as [b ->].
  { intros v Hv. apply in_map_iff in Hv. destruct Hv as ([x|] & <- & _); split; discriminate. }
  { exists (r / T). apply in_map_iff. exists (Some r). auto. }
  assert (F : map (fun v => expE (fsub EROps v (Fin b))) (map (fun o => match o with Some x => Fin (x / T) | None => NInf end) s)
    = map Fin (map (fun o => exp (- b) * boltzmann T o) s)).
  { rewrite !map_map. apply map_ext. intros [x|]; cbn; f_equal; [|ring]. unfold Rminus. rewrite exp_plus. ring. }
  cbv zeta. rewrite F, fsum_fin, !map_map. pose proof (boltz_sum_pos T s r Hr) as Pz. pose proof (exp_pos (- b)) as Pb.
  assert (G : Rsum (map (fun o => exp (- b) * boltzmann T o) s) = exp (- b) * Rsum (map (boltzmann T) s)).
  { clear. induction s as [|o s IH]; cbn [map Rsum]; [ring|]. rewrite IH. ring. }
  rewrite G. unfold share. set (Z := Rsum (map (boltzmann T) s)) in *. clearbody Z.
  transitivity (map (fun o => Fin (boltzmann T o / Z) : ER) s).
  - apply map_ext. intro o. rewrite fdiv_fin by nra. f_equal. field. split; lra.
  - clear. rewrite <- (map_nth_seq s None) at 1. apply map_map.
Qed.

Definition rel (T r : R) (o : option R) : R := match o with Some x => exp ((x - r) / T) | None => 0 end.
Lemma share_rel (s : scores) T j r : nth j s None = Some r -> In (Some r) s ->
  share s T j = / Rsum (map (rel T r) s).
Proof.
  intros Hj Hr. unfold share. rewrite Hj. cbn [boltzmann].
  assert (G : Rsum (map (boltzmann T) s) = exp (r / T) * Rsum (map (rel T r) s)).
  { clear. induction s as [|o s IH]; cbn [map Rsum]; [ring|]. rewrite IH, Rmult_plus_distr_l. f_equal.
    destruct o as [x|]; cbn; [|ring]. rewrite <- exp_plus. f_equal. unfold Rdiv. ring. }
  pose proof (boltz_sum_pos T s r Hr) as Pz. rewrite G in *. pose proof (exp_pos (r / T)).
  field. split; nra.
Qed.
Lemma nth_some_in (s : scores) j r : nth j s None = Some r -> In (Some r) s.
Proof. intro H. rewrite <- H. apply nth_In. destruct (le_lt_dec (length s) j); [|assumption]. rewrite nth_overflow in H by lia. discriminate. Qed.

(** limits of finite sums *)
Lemma sum_lim (F : (R -> Prop) -> Prop) {FF : Filter F} (f : R -> option R -> R) (g : option R -> R) (s : scores) :
  (forall o, In o s -> filterlim (fun T => f T o) F (locally (g o))) ->
  filterlim (fun T => Rsum (map (f T) s)) F (locally (Rsum (map g s))).
Proof.
  induction s as [|o s IH]; intro H; cbn [map Rsum]; [apply filterlim_const|].
  apply (filterlim_comp_2 (H := locally (Rsum (map g s))) (G := locally (g o)) (fun T => f T o) (fun T => Rsum (map (f T) s)) Rplus).
  - apply H. now left.
  - apply IH. intros o' Ho. apply H. now right.
  - apply (filterlim_plus (K := R_AbsRing) (V := R_NormedModule)).
Qed.
Lemma inv_lim (F : (R -> Prop) -> Prop) {FF : Filter F} (f : R -> R) (l : R) : l <> 0 ->
  filterlim f F (locally l) -> filterlim (fun T => / f T) F (locally (/ l)).
Proof.
  intros Hl H. apply (filterlim_comp _ _ _ f Rinv _ (locally l) _ H).
  apply (continuous_Rinv l Hl).
Qed.
Lemma exp_lim (F : (R -> Prop) -> Prop) {FF : Filter F} (f : R -> R) (l : R) :
  filterlim f F (locally l) -> filterlim (fun T => exp (f T)) F (locally (exp l)).
Proof. intros H. apply (filterlim_comp _ _ _ f exp _ (locally l) _ H). apply continuous_exp. Qed.
Lemma quot_inf c : filterlim (fun T => c / T) (Rbar_locally p_infty) (locally 0).
Proof.
  assert (H : is_lim (fun T => c * / T) p_infty (Rbar_mult c (Rbar_inv p_infty))).
  { apply is_lim_scal_l. apply is_lim_inv; [apply is_lim_id|discriminate]. }
  cbn in H. rewrite Rmult_0_r in H. exact H.
Qed.
Lemma exp_quot_zero c : c < 0 -> filterlim (fun T => exp (c / T)) (at_right 0) (locally 0).
Proof.
  intros Hc. apply (filterlim_comp _ _ _ (fun T => c / T) exp _ (Rbar_locally m_infty)).
  - apply (filterlim_comp _ _ _ Rinv (fun y => c * y) _ (Rbar_locally p_infty)).
    + apply filterlim_Rinv_0_right.
    + assert (H : is_lim (fun y => c * y) p_infty (Rbar_mult c p_infty)) by apply is_lim_scal_l, is_lim_id.
      unfold Rbar_mult, Rbar_mult' in H. destruct (Rle_dec 0 c); [lra|]. exact H.
  - apply is_lim_exp_m.
Qed.

Lemma sum_avail (s : scores) : Rsum (map (fun o => match o with Some _ => 1 | None => 0 end) s) = INR (selectable s).
Proof.
  unfold selectable. induction s as [|[x|] s IH]; cbn [map Rsum filter length]; [reflexivity| |lra].
  rewrite S_INR, IH. ring.
Qed.
Lemma sum_ties (s : scores) r : Rsum (map (fun o => match o with Some x => if Req_EM_T x r then 1 else 0 | None => 0 end) s) = INR (ties s r).
Proof.
  unfold ties. induction s as [|[x|] s IH]; cbn [map Rsum filter length]; [reflexivity| |lra].
  destruct (Req_EM_T x r); cbn [length]; [rewrite S_INR|]; rewrite IH; ring.
Qed.
Lemma selectable_pos (s : scores) r : In (Some r) s -> (0 < selectable s)%nat.
Proof.
  intro H. unfold selectable. assert (In (Some r) (filter (fun o => match o with Some _ => true | None => false end) s)) by now apply filter_In.
  destruct (filter _ s); [contradiction|cbn; lia].
Qed.
Lemma ties_pos (s : scores) r : In (Some r) s -> (0 < ties s r)%nat.
Proof.
  intro H. unfold ties. assert (In (Some r) (filter (fun o => match o with Some x => if Req_EM_T x r then true else false | None => false end) s)).
  { apply filter_In. split; [assumption|]. now destruct (Req_EM_T r r). }
  destruct (filter _ s); [contradiction|cbn; lia].
Qed.

Lemma share_hot (s : scores) j r : nth j s None = Some r ->
  filterlim (fun T => share s T j) (Rbar_locally p_infty) (locally (/ INR (selectable s))).
Proof.
  intro Hj. pose proof (nth_some_in s j r Hj) as Hr. pose proof (selectable_pos s r Hr) as P.
  apply (filterlim_ext (fun T => / Rsum (map (rel T r) s))).
  { intro T. symmetry. now apply share_rel. }
  apply (inv_lim (Rbar_locally p_infty)); [apply Rgt_not_eq, lt_0_INR, P|]. rewrite <- sum_avail.
  apply (sum_lim (Rbar_locally p_infty)). intros [x|] _; [|exact (filterlim_const (F := Rbar_locally p_infty) (T := R) (U := R_UniformSpace) 0)].
  cbn [rel]. rewrite <- exp_0. apply (exp_lim (Rbar_locally p_infty)). apply quot_inf.
Qed.
Lemma share_cold_best (s : scores) j r : nth j s None = Some r -> best s r ->
  filterlim (fun T => share s T j) (at_right 0) (locally (/ INR (ties s r))).
Proof.
  intros Hj [Hr Hb]. pose proof (ties_pos s r Hr) as P.
  apply (filterlim_ext (fun T => / Rsum (map (rel T r) s))).
  { intro T. symmetry. now apply share_rel. }
  apply (inv_lim (at_right 0)); [apply Rgt_not_eq, lt_0_INR, P|]. rewrite <- sum_ties.
  apply (sum_lim (at_right 0)). intros [x|] Hx; [|exact (filterlim_const (F := at_right 0) (T := R) (U := R_UniformSpace) 0)].
  cbn [rel]. destruct (Req_EM_T x r) as [->|N].
  - apply (filterlim_ext (fun _ => 1)); [|apply filterlim_const].
    intro T. replace ((r - r) / T) with 0 by (unfold Rdiv; ring). now rewrite exp_0.
  - apply exp_quot_zero. specialize (Hb x Hx). lra.
Qed.
Lemma share_cold_other (s : scores) j r b : nth j s None = Some r -> best s b -> r < b ->
  filterlim (fun T => share s T j) (at_right 0) (locally 0).
Proof.
  intros Hj [Hb _] L. pose proof (nth_some_in s j r Hj) as Hr.
  apply (filterlim_le_le (F := at_right 0) (fun _ => 0) _ (fun T => exp ((r - b) / T)) 0).
  - exists (mkposreal 1 Rlt_0_1). intros T _ HT. rewrite (share_rel s T j r Hj Hr).
    assert (N : exp ((b - r) / T) <= Rsum (map (rel T r) s)).
    { change (exp ((b - r) / T)) with (rel T r (Some b)). clear - Hb.
      assert (P : forall o, 0 <= rel T r o) by (intros [x|]; cbn; [left; apply exp_pos|lra]).
      induction s as [|o l IH]; [contradiction|]. cbn [map Rsum].
      assert (0 <= Rsum (map (rel T r) l)).
      { apply Rsum_nonneg. intros x Hx. apply in_map_iff in Hx. destruct Hx as (y & <- & _). apply P. }
      destruct Hb as [->|Hb]; [lra|]. specialize (IH Hb). specialize (P o). lra. }
    pose proof (exp_pos ((b - r) / T)) as Pe. split; [left; apply Rinv_0_lt_compat; lra|].
    replace ((r - b) / T) with (- ((b - r) / T)) by (unfold Rdiv; ring). rewrite exp_Ropp.
    apply Rinv_le_contravar; assumption.
  - apply filterlim_const.
  - apply exp_quot_zero. lra.
Qed.
Lemma share_sum (s : scores) T r : In (Some r) s -> Rsum (map (share s T) (seq 0 (length s))) = 1.
Proof.
  intro Hr. pose proof (boltz_sum_pos T s r Hr) as P. unfold share. set (Z := Rsum (map (boltzmann T) s)) in *.
  assert (G : forall l, Rsum (map (fun j => boltzmann T (nth j s None) / Z) l) = Rsum (map (fun j => boltzmann T (nth j s None)) l) / Z).
  { induction l as [|a l IH]; cbn [map Rsum]; [unfold Rdiv; ring|]. rewrite IH. unfold Rdiv. ring. }
  rewrite G. rewrite <- (map_map (fun j => nth j s None) (boltzmann T)), map_nth_seq. fold Z. field. lra.
Qed.
