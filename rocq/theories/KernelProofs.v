(** * Derivatives of the documented kernel formulas *)
From Coq Require Import List ZArith Reals Lia Lra.
From Coquelicot Require Import Coquelicot.
From Verif Require Import Num Jax RSum JaxFacts KernelModel KernelSpec.
Import ListNotations.
Open Scope R_scope.

Lemma set_same i x : set_coord i x (nth i x 0) = x.
Proof.
  revert i. induction x as [|a x IH]; intros [|i]; cbn; auto. f_equal. apply IH.
Qed.
Lemma set_len i x t : length (set_coord i x t) = length x.
Proof. apply upd_length. Qed.
Lemma nth_set i x t : (i < length x)%nat -> nth i (set_coord i x t) 0 = t.
Proof. intro H. apply nth_upd_eq; auto. Qed.
Lemma nth_set_neq i j x t : i <> j -> nth j (set_coord i x t) 0 = nth j x 0.
Proof. intro H. apply nth_upd_neq; auto. Qed.

Lemma Rsum_set (f : R -> R -> R) x y i t : length x = length y -> (i < length x)%nat ->
  Rsum (map2 f (set_coord i x t) y) = Rsum (map2 f x y) - f (nth i x 0) (nth i y 0) + f t (nth i y 0).
Proof.
  revert y i. induction x as [|a x IH]; intros [|b y] [|i] L H; cbn in *; try lia; try (unfold Rsum; cbn; lra).
  specialize (IH y i ltac:(lia) ltac:(lia)). unfold set_coord, Rsum in *. cbn. rewrite IH. lra.
Qed.
Lemma Rdot_set x y i t : length x = length y -> (i < length x)%nat ->
  Rdot (set_coord i x t) y = Rdot x y - nth i x 0 * nth i y 0 + t * nth i y 0.
Proof. intros. unfold Rdot. apply Rsum_set; auto. Qed.
Lemma sqdist_map2 x y : sqdist x y = Rsum (map2 (fun a b => (a - b) ^ 2) x y).
Proof.
  unfold sqdist, Rdot, vsub. f_equal. revert y.
  induction x as [|a x IH]; intros [|b y]; cbn; auto. f_equal; auto. ring.
Qed.
Lemma dist1_map2 x y : dist1 x y = Rsum (map2 (fun a b => Rabs (a - b)) x y).
Proof. unfold dist1, vsub. f_equal. apply map_map2. Qed.
Lemma map2_swap {A B C} (f : A -> B -> C) l m : map2 f l m = map2 (fun b a => f a b) m l.
Proof. revert m. induction l as [|a l IH]; intros [|b m]; cbn; auto. f_equal; auto. Qed.
Lemma sqdist_sym x y : sqdist x y = sqdist y x.
Proof. rewrite !sqdist_map2, map2_swap. f_equal. apply map2_ext. intros. ring. Qed.
Lemma dist2_sym x y : dist2 x y = dist2 y x.
Proof. unfold dist2. now rewrite sqdist_sym. Qed.
Lemma dist1_sym x y : dist1 x y = dist1 y x.
Proof. rewrite !dist1_map2, map2_swap. f_equal. apply map2_ext. intros. apply Rabs_minus_sym. Qed.
Lemma sqdist_set x y i t : length x = length y -> (i < length x)%nat ->
  sqdist (set_coord i x t) y = sqdist x y - (nth i x 0 - nth i y 0) ^ 2 + (t - nth i y 0) ^ 2.
Proof. intros. rewrite !sqdist_map2. apply Rsum_set with (f := fun a b => (a - b) ^ 2); auto. Qed.
Lemma sqdist_set_y x y i u : length x = length y -> (i < length x)%nat ->
  sqdist x (set_coord i y u) = sqdist x y - (nth i x 0 - nth i y 0) ^ 2 + (nth i x 0 - u) ^ 2.
Proof. intros. rewrite sqdist_sym, sqdist_set by lia. rewrite (sqdist_sym y x). ring. Qed.
Lemma Rdot_set_y x y i t : length x = length y -> (i < length x)%nat ->
  Rdot x (set_coord i y t) = Rdot x y - nth i x 0 * nth i y 0 + t * nth i x 0.
Proof. intros. rewrite Rdot_comm, Rdot_set by lia. rewrite (Rdot_comm y x). ring. Qed.
Lemma dist1_set x y i t : length x = length y -> (i < length x)%nat ->
  dist1 (set_coord i x t) y = dist1 x y - Rabs (nth i x 0 - nth i y 0) + Rabs (t - nth i y 0).
Proof. intros. rewrite !dist1_map2. apply Rsum_set with (f := fun a b => Rabs (a - b)); auto. Qed.
Lemma dist1_set_y x y i t : length x = length y -> (i < length x)%nat ->
  dist1 x (set_coord i y t) = dist1 x y - Rabs (nth i x 0 - nth i y 0) + Rabs (nth i x 0 - t).
Proof.
  intros. rewrite dist1_sym, dist1_set by lia. rewrite (dist1_sym y x).
  rewrite (Rabs_minus_sym (nth i y 0)), (Rabs_minus_sym t). ring.
Qed.
Lemma sqdist_nonneg x y : 0 <= sqdist x y.
Proof.
  rewrite sqdist_map2. apply Rsum_nonneg. intros a H.
  revert y H. induction x as [|b x IH]; intros [|c y]; cbn; try tauto.
  intros [<-|H]; [apply Rle_trans with (Rsqr (b - c)); [apply Rle_0_sqr|unfold Rsqr; lra]|eauto].
Qed.
Lemma sqdist_pos x y : length x = length y -> x <> y -> 0 < sqdist x y.
Proof.
  intros L N. destruct (Rle_lt_or_eq_dec _ _ (sqdist_nonneg x y)) as [|E]; auto. exfalso. apply N. clear N.
  rewrite sqdist_map2 in E. symmetry in E. revert y L E.
  induction x as [|a x IH]; intros [|b y] L E; cbn [length] in *; try lia; auto.
  assert (H := sqdist_nonneg x y). rewrite sqdist_map2 in H.
  cbn [map2 Rsum] in E.
  assert (0 <= (a - b) ^ 2) by (apply pow2_ge_0).
  f_equal; [|apply IH; [lia|lra]]. assert (Z : (a - b) ^ 2 = 0) by lra.
  cbn in Z. rewrite Rmult_1_r in Z. apply Rmult_integral in Z. lra.
Qed.
Lemma sqdist_refl x : sqdist x x = 0.
Proof.
  rewrite sqdist_map2. apply Rsum_zero. intros a H. induction x as [|b x IH]; cbn in H; [tauto|].
  destruct H as [<-|H]; [ring|auto].
Qed.
