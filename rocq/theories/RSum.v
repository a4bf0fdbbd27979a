(** * Finite sums of reals over lists, and lifting of finite values to [ext R] *)

From Coq Require Import List ZArith Reals Lra Lia Bool Permutation.
From Verif Require Import Num Jax.
Import ListNotations.
Open Scope R_scope.

Fixpoint Rsum (l : list R) : R := match l with [] => 0 | a :: t => a + Rsum t end.
Definition Rdot (l m : list R) : R := Rsum (map2 Rmult l m).

Lemma Rsum_app l m : Rsum (l ++ m) = Rsum l + Rsum m.
Proof. induction l; simpl; lra. Qed.
Lemma Rsum_repeat c n : Rsum (repeat c n) = INR n * c.
Proof. induction n; [simpl; lra|]. cbn [repeat Rsum]. rewrite IHn, S_INR. lra. Qed.
Lemma Rsum_map_ext {A} (f g : A -> R) l :
  (forall a, In a l -> f a = g a) -> Rsum (map f l) = Rsum (map g l).
Proof. induction l; simpl; intros H; [reflexivity|]. rewrite H by auto. rewrite IHl; auto. Qed.
Lemma Rsum_map_add {A} (f g : A -> R) l :
  Rsum (map (fun a => f a + g a) l) = Rsum (map f l) + Rsum (map g l).
Proof. induction l; simpl; lra. Qed.
Lemma Rsum_map_sub {A} (f g : A -> R) l :
  Rsum (map (fun a => f a - g a) l) = Rsum (map f l) - Rsum (map g l).
Proof. induction l; simpl; lra. Qed.
Lemma Rsum_map_scal {A} c (f : A -> R) l :
  Rsum (map (fun a => c * f a) l) = c * Rsum (map f l).
Proof. induction l; simpl; lra. Qed.
Lemma Rsum_map_scal_r {A} c (f : A -> R) l :
  Rsum (map (fun a => f a * c) l) = Rsum (map f l) * c.
Proof. induction l; simpl; lra. Qed.
Lemma Rsum_map_div {A} c (f : A -> R) l :
  Rsum (map (fun a => f a / c) l) = Rsum (map f l) / c.
Proof. unfold Rdiv. apply Rsum_map_scal_r. Qed.
Lemma Rsum_map_const0 {A} (l : list A) : Rsum (map (fun _ => 0) l) = 0.
Proof. induction l; simpl; lra. Qed.
Lemma Rsum_map_const {A} c (l : list A) : Rsum (map (fun _ => c) l) = INR (length l) * c.
Proof.
  induction l; [simpl; lra|]. cbn [map Rsum length]. rewrite IHl, S_INR. lra.
Qed.
Lemma Rsum_zero l : (forall a, In a l -> a = 0) -> Rsum l = 0.
Proof. induction l; simpl; intros H; [reflexivity|]. rewrite (H a), IHl; auto; lra. Qed.
Lemma Rsum_nonneg l : (forall a, In a l -> 0 <= a) -> 0 <= Rsum l.
Proof.
  induction l; simpl; intros H; [lra|].
  assert (0 <= a) by auto. assert (0 <= Rsum l) by auto. lra.
Qed.
Lemma Rsum_le {A} (f g : A -> R) l :
  (forall a, In a l -> f a <= g a) -> Rsum (map f l) <= Rsum (map g l).
Proof.
  induction l; simpl; intros H; [lra|].
  assert (f a <= g a) by auto. assert (Rsum (map f l) <= Rsum (map g l)) by auto. lra.
Qed.
Lemma Rsum_pos_ex l : 0 < Rsum l -> exists a, In a l /\ 0 < a.
Proof.
  induction l; simpl; intros H; [lra|].
  destruct (Rlt_dec 0 a); [exists a; auto|].
  destruct IHl as [b [? ?]]; [lra|]. exists b; auto.
Qed.
Lemma Rsum_swap {A B} (f : A -> B -> R) (l : list A) (m : list B) :
  Rsum (map (fun a => Rsum (map (fun b => f a b) m)) l)
  = Rsum (map (fun b => Rsum (map (fun a => f a b) l)) m).
Proof.
  induction l; simpl.
  - symmetry. apply Rsum_map_const0.
  - rewrite IHl, <- Rsum_map_add. reflexivity.
Qed.
Lemma Rsum_perm l m : Permutation l m -> Rsum l = Rsum m.
Proof. induction 1; simpl; lra. Qed.
Lemma Rsum_concat ls : Rsum (concat ls) = Rsum (map Rsum ls).
Proof. induction ls; simpl; [reflexivity|]. rewrite Rsum_app. lra. Qed.

(** ** [map2] *)
Lemma map2_length {A B C} (f : A -> B -> C) l m :
  length (map2 f l m) = Nat.min (length l) (length m).
Proof. revert m; induction l; destruct m; simpl; auto. Qed.
Lemma map2_app {A B C} (f : A -> B -> C) l l' m m' :
  length l = length m -> map2 f (l ++ l') (m ++ m') = map2 f l m ++ map2 f l' m'.
Proof.
  revert m; induction l; destruct m; simpl; intros H; try discriminate; auto.
  now rewrite IHl by congruence.
Qed.
Lemma map2_map {A A' B B' C} (f : A' -> B' -> C) (g : A -> A') (h : B -> B') l m :
  map2 f (map g l) (map h m) = map2 (fun a b => f (g a) (h b)) l m.
Proof. revert m; induction l; destruct m; simpl; auto. now rewrite IHl. Qed.
Lemma map_map2 {A B C D} (h : C -> D) (f : A -> B -> C) l m :
  map h (map2 f l m) = map2 (fun a b => h (f a b)) l m.
Proof. revert m; induction l; destruct m; simpl; auto. now rewrite IHl. Qed.
Lemma map2_combine {A B C} (f : A -> B -> C) l m :
  map2 f l m = map (fun p => f (fst p) (snd p)) (combine l m).
Proof. revert m; induction l; destruct m; simpl; auto. now rewrite IHl. Qed.
Lemma map2_diag {A B C} (f : A -> B -> C) (g : A -> B) l :
  map2 f l (map g l) = map (fun a => f a (g a)) l.
Proof. induction l; simpl; auto. now rewrite IHl. Qed.
Lemma map2_ext {A B C} (f g : A -> B -> C) l m :
  (forall a b, In (a,b) (combine l m) -> f a b = g a b) -> map2 f l m = map2 g l m.
Proof.
  revert m; induction l; destruct m; simpl; intros H; auto.
  rewrite H by auto. rewrite IHl; auto.
Qed.
Lemma nth_map2 {A B C} (f : A -> B -> C) l m i da db dc :
  (i < length l)%nat -> (i < length m)%nat ->
  nth i (map2 f l m) dc = f (nth i l da) (nth i m db).
Proof.
  revert m i; induction l; destruct m; simpl; intros i H1 H2; try lia.
  destruct i; auto. apply IHl; lia.
Qed.

Lemma Rdot_app l l' m m' :
  length l = length m -> Rdot (l ++ l') (m ++ m') = Rdot l m + Rdot l' m'.
Proof. intros H. unfold Rdot. now rewrite map2_app, Rsum_app by assumption. Qed.
Lemma Rdot_combine l m : Rdot l m = Rsum (map (fun p => fst p * snd p) (combine l m)).
Proof. unfold Rdot. now rewrite map2_combine. Qed.
Lemma Rdot_comm l m : Rdot l m = Rdot m l.
Proof.
  unfold Rdot. revert m; induction l; destruct m; simpl; auto. rewrite IHl. lra.
Qed.
Lemma Rdot_zero_r l n : Rdot l (repeat 0 n) = 0.
Proof.
  unfold Rdot. revert n; induction l; destruct n; simpl; auto.
  rewrite IHl. lra.
Qed.
Lemma Rdot_scal c l m : Rdot (map (fun a => c * a) l) m = c * Rdot l m.
Proof.
  unfold Rdot. revert m; induction l; destruct m; simpl; try lra. rewrite IHl. lra.
Qed.
Lemma Rdot_map_div c l m : Rdot l (map (fun a => a / c) m) = Rdot l m / c.
Proof.
  unfold Rdot. revert m; induction l; destruct m; simpl; try lra. rewrite IHl. lra.
Qed.

(** ** Lifting *)
Lemma fold_fadd_fin l a : fold_left (fadd EROps) (map Fin l) (Fin a) = Fin (a + Rsum l).
Proof.
  revert a; induction l; intros b; simpl; [f_equal; lra|].
  rewrite IHl. f_equal. lra.
Qed.
Lemma fsum_fold l : fsum EROps l = fold_left (fadd EROps) l (f0 EROps).
Proof. reflexivity. Qed.
Lemma fsum_fin l : fsum EROps (map Fin l) = Fin (Rsum l).
Proof. rewrite fsum_fold. simpl f0. rewrite fold_fadd_fin. f_equal. lra. Qed.
Lemma fdot_fin l m : fdot EROps (map Fin l) (map Fin m) = Fin (Rdot l m).
Proof.
  unfold fdot. rewrite map2_map. simpl fmul. unfold emul.
  change (fun a b : R => Fin (nmul ROps a b)) with (fun a b : R => Fin (a * b)).
  rewrite <- (map_map2 Fin Rmult). rewrite fsum_fin. reflexivity.
Qed.

Lemma Rleb_true a b : Rleb a b = true <-> a <= b.
Proof. unfold Rleb. destruct (Rle_dec a b); split; intros; auto; try discriminate; lra. Qed.
Lemma Rleb_false a b : Rleb a b = false <-> b < a.
Proof. unfold Rleb. destruct (Rle_dec a b); split; intros; auto; try discriminate; lra. Qed.
Lemma Rltb_true a b : nltb ROps a b = true <-> a < b.
Proof.
  unfold nltb; simpl. destruct (Rleb b a) eqn:E; simpl.
  - apply Rleb_true in E. split; [discriminate|lra].
  - apply Rleb_false in E. split; auto.
Qed.
Lemma Rltb_false a b : nltb ROps a b = false <-> b <= a.
Proof.
  unfold nltb; simpl. destruct (Rleb b a) eqn:E; simpl.
  - apply Rleb_true in E. split; auto.
  - apply Rleb_false in E. split; [discriminate|lra].
Qed.

Lemma nsign_R x : nsign ROps x = if Rlt_dec 0 x then Some true
                                  else if Rlt_dec x 0 then Some false else None.
Proof.
  unfold nsign. simpl n0.
  destruct (nltb ROps 0 x) eqn:E; [apply Rltb_true in E|apply Rltb_false in E];
  destruct (Rlt_dec 0 x); try lra; auto.
  destruct (nltb ROps x 0) eqn:E2; [apply Rltb_true in E2|apply Rltb_false in E2];
  destruct (Rlt_dec x 0); try lra; auto.
Qed.
Lemma fdiv_fin x y : y <> 0 -> fdiv EROps (Fin x) (Fin y) = Fin (x / y).
Proof.
  intros H. simpl. rewrite nsign_R.
  destruct (Rlt_dec 0 y); auto. destruct (Rlt_dec y 0); auto. lra.
Qed.
Lemma fdiv_zero_zero : fdiv EROps (Fin 0) (Fin 0) = NaN.
Proof.
  simpl. rewrite nsign_R. destruct (Rlt_dec 0 0); [lra|]. destruct (Rlt_dec 0 0); [lra|].
  reflexivity.
Qed.

Lemma ROps_laws : NumLaws ROps.
Proof.
  constructor; simpl; intros.
  - apply Rleb_true; lra.
  - apply Rleb_true in H, H0. apply Rleb_true; lra.
  - destruct (Rle_dec a b); [left|right]; apply Rleb_true; lra.
  - apply Rleb_false; lra.
Qed.
Lemma QOps_laws : NumLaws QOps.
Proof.
  constructor; simpl; intros.
  - apply QArith_base.Qle_bool_iff, QArith_base.Qle_refl.
  - rewrite QArith_base.Qle_bool_iff in *. eapply QArith_base.Qle_trans; eauto.
  - rewrite !QArith_base.Qle_bool_iff.
    destruct (QArith_base.Qlt_le_dec a b) as [H|H]; [left|right]; auto.
    now apply QArith_base.Qlt_le_weak.
  - reflexivity.
Qed.
