(** * Sliced score matching: the network is differentiable; sign vectors are isotropic *)
From Coq Require Import List ZArith Reals Lra Lia Bool.
From Verif Require Import Num Jax JaxFacts RSum GreedyProofs GreedyProofs2 SSMModel SSMSpec SSMProofs.
From Coquelicot Require Import Coquelicot.
Import ListNotations.
Open Scope R_scope.

(** ** The network on real numbers *)
Definition softplusE (x : ER) : ER := match x with Fin r => Fin (softplus r) | PInf => PInf | NInf => Fin 0 | NaN => NaN end.
Lemma dense_fin l x : dense EROps (fin_layer l) (map Fin x) = map Fin (layerR l x).
Proof.
  unfold dense, fin_layer, layerR. destruct l as [K b]. cbn [fst snd]. rewrite map_length, map_map. apply map_ext_in. intros j Ij. apply in_seq in Ij.
  assert (C : map (fun row => nth j row (f0 EROps)) (map (map Fin) K) = map Fin (map (fun row => nth j row 0) K)).
  { rewrite !map_map. apply map_ext. intro row. change (f0 EROps) with (Fin 0 : ER). apply map_nth. }
  rewrite C, fdot_fin. change (f0 EROps) with (Fin 0 : ER). rewrite (map_nth Fin). reflexivity.
Qed.
Lemma network_fin softplus' hidden output x : (forall r, softplus' (Fin r) = Fin (softplus r)) ->
  score_network EROps softplus' (map fin_layer hidden, fin_layer output) (map Fin x) = map Fin (networkR hidden output x).
Proof.
  intro Hs. unfold score_network. cbn [fst snd]. revert x. induction hidden as [|l hidden IH]; intro x; cbn [map fold_left networkR].
  - apply dense_fin.
  - rewrite dense_fin, map_map. rewrite (map_ext _ (fun r => Fin (softplus r)) Hs). rewrite <- (map_map softplus Fin). apply IH.
Qed.
Lemma network_length hidden output x : length (networkR hidden output x) = length (snd output).
Proof. revert x. induction hidden as [|l hidden IH]; intro x; cbn [networkR]; [unfold layerR; now rewrite map_length, seq_length|apply IH]. Qed.

(** ** Forward differentiation: a curve of vectors and its velocity at 0 *)
Definition moves (c : R -> list R) (u : list R) : Prop :=
  (forall t, length (c t) = length u) /\ forall a, (a < length u)%nat -> is_derive (fun t => nth a (c t) 0) 0 (nth a u 0).
Lemma is_derive_Rsum {A} (f : A -> R -> R) (g : A -> R) l x :
  (forall a, In a l -> is_derive (f a) x (g a)) -> is_derive (fun t => Rsum (map (fun a => f a t) l)) x (Rsum (map g l)).
Proof.
  induction l as [|a l IH]; intro H; cbn [map Rsum]; [apply @is_derive_const|].
  apply @is_derive_plus; [apply H; now left|]. apply IH. intros; apply H; now right.
Qed.
Lemma moves_along x v : length x = length v -> moves (along x v) v.
Proof.
  intro L. split; [intro t; unfold along; rewrite map2_length; lia|]. intros a Ha.
  apply (is_derive_ext (fun t => nth a x 0 + t * nth a v 0)).
  - intro t. unfold along. rewrite (map2_seq _ _ _ 0 0) by exact L. rewrite (nth_map_lt _ _ _ 0%nat) by (rewrite seq_length; lia).
    now rewrite seq_nth by lia.
  - auto_derive; [trivial|ring].
Qed.
Definition layer_velocity (l : list (list R) * list R) (u : list R) : list R :=
  map (fun j => Rdot u (map (fun row => nth j row 0) (fst l))) (seq 0 (length (snd l))).
Definition sigmoid (x : R) : R := exp x / (1 + exp x).
Lemma softplus_derive x : is_derive softplus x (sigmoid x).
Proof.
  unfold softplus, sigmoid. pose proof (exp_pos x). auto_derive; [lra|]. field. lra.
Qed.
Lemma moves_layer l c u : moves c u -> moves (fun t => layerR l (c t)) (layer_velocity l u).
Proof.
  intros [L D]. unfold layerR, layer_velocity. split.
  - intro t. now rewrite !map_length.
  - intros a Ha. rewrite map_length, seq_length in Ha.
    rewrite (nth_map_lt _ _ _ 0%nat) by now rewrite seq_length. rewrite seq_nth by exact Ha. cbn [Nat.add].
    apply (is_derive_ext (fun t => Rsum (map (fun i => nth i (c t) 0 * nth i (map (fun row => nth a row 0) (fst l)) 0) (seq 0 (length u))) + nth a (snd l) 0)).
    { intro t. rewrite (nth_map_lt _ _ _ 0%nat) by now rewrite seq_length. rewrite seq_nth by exact Ha. cbn [Nat.add].
      now rewrite Rdot_seq, L. }
    rewrite Rdot_seq.
    replace (Rsum (map (fun i : nat => nth i u 0 * nth i (map (fun row : list R => nth a row 0) (fst l)) 0) (seq 0 (length u))))
      with (plus (Rsum (map (fun i : nat => nth i u 0 * nth i (map (fun row : list R => nth a row 0) (fst l)) 0) (seq 0 (length u)))) 0)
      by (unfold plus; cbn; ring).
    apply @is_derive_plus; [|apply @is_derive_const].
    apply (is_derive_Rsum (fun i t => nth i (c t) 0 * nth i (map (fun row : list R => nth a row 0) (fst l)) 0)).
    intros i Ii. apply in_seq in Ii. set (k := nth i (map _ _) 0).
    apply (is_derive_ext (fun t => k * nth i (c t) 0)); [intro t; apply Rmult_comm|]. rewrite Rmult_comm. apply is_derive_scal. apply D. lia.
Qed.
Lemma moves_softplus c u : moves c u -> moves (fun t => map softplus (c t)) (map2 (fun y v => sigmoid y * v) (c 0) u).
Proof.
  intros [L D]. assert (LU : length (map2 (fun y v => sigmoid y * v) (c 0) u) = length u) by (rewrite map2_length, L; lia).
  split; [intro t; now rewrite map_length, L, LU|]. intros a Ha. rewrite LU in Ha.
  rewrite (map2_seq _ _ _ 0 0) by apply L. rewrite (nth_map_lt _ _ _ 0%nat) by (rewrite seq_length, L; lia). rewrite seq_nth by (rewrite L; lia). cbn [Nat.add].
  apply (is_derive_ext (fun t => softplus (nth a (c t) 0))).
  { intro t. now rewrite (nth_map_lt _ _ _ 0) by (rewrite L; lia). }
  rewrite Rmult_comm. apply (is_derive_comp softplus (fun t => nth a (c t) 0)); [apply softplus_derive|now apply D].
Qed.
Fixpoint network_velocity (hidden : list (list (list R) * list R)) output (x u : list R) : list R :=
  match hidden with
  | [] => layer_velocity output u
  | l :: hidden => network_velocity hidden output (map softplus (layerR l x)) (map2 (fun y v => sigmoid y * v) (layerR l x) (layer_velocity l u))
  end.
Lemma moves_network hidden output : forall c u, moves c u ->
  moves (fun t => networkR hidden output (c t)) (network_velocity hidden output (c 0) u).
Proof.
  induction hidden as [|l hidden IH]; intros c u H; cbn [networkR network_velocity].
  - now apply moves_layer.
  - apply (IH (fun t => map softplus (layerR l (c t)))). apply (moves_softplus (fun t => layerR l (c t))). now apply moves_layer.
Qed.
(** velocities depend linearly on the direction *)
Definition lin (d : nat) (U : list R -> list R) (e : nat) : Prop :=
  exists J : nat -> nat -> R, forall v, length v = d ->
    length (U v) = e /\ forall a, (a < e)%nat -> nth a (U v) 0 = Rsum (map (fun b => J a b * nth b v 0) (seq 0 d)).
Lemma lin_id d : lin d (fun v => v) d.
Proof.
  exists (fun a b => if Nat.eqb a b then 1 else 0). intros v L. split; [exact L|]. intros a Ha.
  rewrite <- (Rsum_delta (fun b => nth b v 0) d a Ha). apply Rsum_map_ext. intros; ring.
Qed.
Lemma lin_layer d U e l : lin d U e -> lin d (fun v => layer_velocity l (U v)) (length (snd l)).
Proof.
  intros [J H]. exists (fun a b => Rsum (map (fun i => J i b * nth i (map (fun row => nth a row 0) (fst l)) 0) (seq 0 e))).
  intros v Lv. destruct (H v Lv) as [LU HU]. unfold layer_velocity. split; [now rewrite map_length, seq_length|]. intros a Ha.
  rewrite (nth_map_lt _ _ _ 0%nat) by now rewrite seq_length. rewrite seq_nth by exact Ha. cbn [Nat.add]. rewrite Rdot_seq, LU.
  transitivity (Rsum (map (fun i => Rsum (map (fun b => J i b * nth i (map (fun row => nth a row 0) (fst l)) 0 * nth b v 0) (seq 0 d))) (seq 0 e))).
  - apply Rsum_map_ext. intros i Ii. apply in_seq in Ii. rewrite HU by lia. rewrite <- Rsum_map_scal_r. apply Rsum_map_ext. intros; ring.
  - rewrite Rsum_swap. apply Rsum_map_ext. intros b _. now rewrite Rsum_map_scal_r.
Qed.
Lemma lin_scale d U e y : length y = e -> lin d U e -> lin d (fun v => map2 (fun y v => sigmoid y * v) y (U v)) e.
Proof.
  intros Ly [J H]. exists (fun a b => sigmoid (nth a y 0) * J a b). intros v Lv. destruct (H v Lv) as [LU HU].
  split; [rewrite map2_length; lia|]. intros a Ha. rewrite (map2_seq _ _ _ 0 0) by lia.
  rewrite (nth_map_lt _ _ _ 0%nat) by (rewrite seq_length; lia). rewrite seq_nth by lia. cbn [Nat.add]. rewrite HU by exact Ha.
  rewrite <- Rsum_map_scal. apply Rsum_map_ext. intros; ring.
Qed.
Lemma lin_network d hidden output : forall x U e, lin d U e ->
  lin d (fun v => network_velocity hidden output x (U v)) (length (snd output)).
Proof.
  induction hidden as [|l hidden IH]; intros x U e H; cbn [network_velocity]; [eapply lin_layer; exact H|].
  apply (IH _ (fun v => map2 (fun y w => sigmoid y * w) (layerR l x) (layer_velocity l (U v))) (length (snd l))).
  apply (lin_scale d (fun v => layer_velocity l (U v))); [unfold layerR; now rewrite map_length, seq_length|]. eapply lin_layer; exact H.
Qed.
Lemma network_differentiable d hidden output x : length x = d -> length (snd output) = d -> differentiable d (networkR hidden output) x.
Proof.
  intros Lx Lo. destruct (lin_network d hidden output x (fun v => v) d (lin_id d)) as [J H]. exists J. intros v a Lv Ha.
  destruct (H v Lv) as [L1 H1]. rewrite <- H1 by lia.
  pose proof (moves_network hidden output (along x v) v (moves_along x v ltac:(lia))) as [_ D].
  assert (A0 : along x v 0 = x).
  { unfold along. clear - Lx Lv. revert v d Lx Lv. induction x as [|a x IH]; intros [|b v] d L1 L2; cbn in *; try reflexivity; subst; try discriminate.
    f_equal; [ring|]. eapply IH; [reflexivity|]. now injection L2. }
  rewrite A0 in D. apply D. rewrite L1. lia.
Qed.

(** ** Sign vectors *)
Lemma signs_length_elt d v : In v (signs d) -> length v = d.
Proof.
  revert v. induction d as [|d IH]; intros v H; cbn in H; [destruct H as [<-|[]]; reflexivity|].
  apply in_app_iff in H. destruct H as [H|H]; apply in_map_iff in H; destruct H as (w & <- & Hw); cbn; f_equal; auto.
Qed.
Lemma signs_count d : INR (length (signs d)) = 2 ^ d.
Proof. induction d as [|d IH]; [reflexivity|]. cbn [signs]. rewrite app_length, !map_length, plus_INR, IH. cbn [Rpow_def.pow]. ring. Qed.
Lemma signs_pos d : 0 < INR (length (signs d)).
Proof. rewrite signs_count. apply pow_lt. lra. Qed.
Lemma rademacher_expectation d : expectation (rademacher d).
Proof.
  pose proof (signs_pos d). unfold rademacher. constructor.
  - intros f g Hfg. f_equal. apply Rsum_map_ext. auto.
  - intros f g. rewrite Rsum_map_add. field. lra.
  - intros c f. rewrite Rsum_map_scal. field. lra.
  - rewrite Rsum_map_const. field. lra.
Qed.
Lemma signs_split d f : Rsum (map f (signs (S d))) = Rsum (map (fun v => f (1 :: v)) (signs d)) + Rsum (map (fun v => f (-1 :: v)) (signs d)).
Proof. cbn [signs]. now rewrite map_app, Rsum_app, !map_map. Qed.
Lemma signs_first d : forall b, (b < d)%nat -> Rsum (map (fun v => nth b v 0) (signs d)) = 0.
Proof.
  induction d as [|d IH]; intros b Hb; [lia|]. rewrite signs_split. destruct b as [|b]; cbn [nth].
  - rewrite !Rsum_map_const. ring.
  - rewrite IH by lia. ring.
Qed.
Lemma signs_second d : forall a b, (a < d)%nat -> (b < d)%nat ->
  Rsum (map (fun v => nth a v 0 * nth b v 0) (signs d)) = if Nat.eqb a b then 2 ^ d else 0.
Proof.
  induction d as [|d IH]; intros a b Ha Hb; [lia|]. rewrite signs_split. destruct a as [|a], b as [|b]; cbn [nth Nat.eqb].
  - rewrite !Rsum_map_const, signs_count. cbn [Rpow_def.pow]. ring.
  - rewrite !Rsum_map_scal, signs_first by lia. ring.
  - rewrite !Rsum_map_scal_r, signs_first by lia. ring.
  - rewrite IH by lia. destruct (Nat.eqb a b); cbn [Rpow_def.pow]; ring.
Qed.
Definition pad (d : nat) (v : list R) : list R := map (fun a => nth a v 0) (seq 0 d).
Lemma pad_length d v : length (pad d v) = d.
Proof. unfold pad. now rewrite map_length, seq_length. Qed.
Lemma rademacher_isotropic d : isotropic (rademacher d) d (pad d).
Proof.
  split; [apply pad_length|]. intros a b Ha Hb. unfold rademacher.
  rewrite (Rsum_map_ext _ (fun v => nth a v 0 * nth b v 0)).
  - rewrite signs_second by assumption. pose proof (signs_pos d). rewrite signs_count in *. destruct (Nat.eqb a b); field; lra.
  - intros v _. unfold pad. rewrite !(nth_map_lt _ _ _ 0%nat) by now rewrite seq_length. now rewrite !seq_nth by assumption.
Qed.

(** ** A [jvp] that meets its specification *)
Definition ex_jvp (f : list ER -> list ER) (x v : list ER) : list ER * list ER :=
  let real (a : ER) : R := match a with Fin r => r | _ => 0 end in
  let F (y : list R) : list R := map real (f (map Fin y)) in
  (f x, map (fun a => Fin (Derive (fun t => nth a (F (along (map real x) (map real v) t)) 0) 0)) (seq 0 (length (f x)))).
Lemma ex_jvp_ok : jvp_spec ex_jvp.
Proof.
  intros d f F x v Hf Hx Hv _. unfold ex_jvp. destruct (Hf x Hx) as [E1 L1]. rewrite E1, map_length, L1. f_equal.
  assert (R : forall l, map (fun a : ER => match a with Fin r => r | _ => 0 end) (map Fin l) = l) by (intro l; rewrite map_map; apply map_id).
  rewrite !R. apply map_ext. intro a. f_equal. apply Derive_ext. intro t.
  assert (La : length (along x v t) = d) by (unfold along; rewrite map2_length; lia).
  destruct (Hf (along x v t) La) as [E2 L2]. now rewrite E2, R.
Qed.
