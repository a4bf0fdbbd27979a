(** * Facts about the JAX fragment *)

From Coq Require Import List ZArith Bool Lia Permutation.
From Verif Require Import Num Jax.
Import ListNotations.

(** ** Lists *)
Lemma nth_repeat_lt {A} (a d : A) n i : i < n -> nth i (repeat a n) d = a.
Proof. revert i; induction n; simpl; intros i H; [lia|]. destruct i; auto. apply IHn; lia. Qed.
Lemma upd_length {A} n (v : A) l : length (upd n v l) = length l.
Proof. revert n; induction l; destruct n; simpl; auto. Qed.
Lemma nth_upd {A} (l : list A) n v i d :
  nth i (upd n v l) d = if (i =? n)%nat && (n <? length l)%nat then v else nth i l d.
Proof.
  revert n i; induction l; intros n i; simpl.
  - destruct (Nat.ltb_spec n 0); [lia|]. rewrite andb_false_r. now destruct i.
  - destruct n; simpl.
    + destruct i; simpl; auto.
    + destruct i; simpl; auto. rewrite IHl.
      reflexivity.
Qed.
Lemma nth_upd_eq {A} (l : list A) n v d : n < length l -> nth n (upd n v l) d = v.
Proof.
  intros H. rewrite nth_upd, Nat.eqb_refl. apply Nat.ltb_lt in H. now rewrite H.
Qed.
Lemma nth_upd_neq {A} (l : list A) n v i d : i <> n -> nth i (upd n v l) d = nth i l d.
Proof. intros H. rewrite nth_upd. apply Nat.eqb_neq in H. now rewrite H. Qed.
Lemma list_ext {A} (l m : list A) d :
  length l = length m -> (forall i, i < length l -> nth i l d = nth i m d) -> l = m.
Proof.
  revert m; induction l; destruct m; simpl; intros HL H; try discriminate; auto.
  f_equal; [apply (H 0); lia|]. apply IHl; [lia|]. intros i Hi. apply (H (S i)); lia.
Qed.
Lemma upd_split {A} (l : list A) n v d :
  n < length l -> upd n v l = firstn n l ++ v :: skipn (S n) l /\
                  l = firstn n l ++ nth n l d :: skipn (S n) l.
Proof.
  revert n; induction l; simpl; intros n H; [lia|].
  destruct n; simpl; auto. destruct (IHl n) as [H1 H2]; [lia|]. split; f_equal; auto.
Qed.
Lemma map_upd {A B} (f : A -> B) l n v : map f (upd n v l) = upd n (f v) (map f l).
Proof. revert n; induction l; destruct n; simpl; auto. now rewrite IHl. Qed.

(** ** gather / scatter *)
Lemma wrap_in_range n i : (0 <= i)%Z -> wrap n i = i.
Proof. unfold wrap. intros. destruct (Z.ltb_spec i 0); lia. Qed.
Lemma clamp_in_range n i : (0 <= i < Z.of_nat n)%Z -> clamp n i = Z.to_nat i.
Proof. intros H. unfold clamp. rewrite wrap_in_range by lia. f_equal. lia. Qed.
Lemma clamp_lt n i : 0 < n -> clamp n i < n.
Proof. unfold clamp. intros. lia. Qed.
Lemma clamp_of_nat n i : i < n -> clamp n (Z.of_nat i) = i.
Proof. intros. rewrite clamp_in_range by lia. lia. Qed.
Lemma jget_nat {A} (d : A) l i : i < length l -> jget d l (Z.of_nat i) = nth i l d.
Proof. intros. unfold jget. now rewrite clamp_of_nat. Qed.
Lemma jget_in_range {A} (d : A) l i :
  (0 <= i < Z.of_nat (length l))%Z -> jget d l i = nth (Z.to_nat i) l d.
Proof. intros. unfold jget. now rewrite clamp_in_range. Qed.
Lemma jget_In {A} (d : A) l i : l <> [] -> In (jget d l i) l.
Proof. intros. unfold jget. apply nth_In. apply clamp_lt. destruct l; simpl; [congruence|lia]. Qed.
Lemma gather_length {A} (d : A) l idx : length (gather d l idx) = length idx.
Proof. apply map_length. Qed.
Lemma jset_length {A} (l : list A) i v : length (jset l i v) = length l.
Proof. unfold jset. destruct (_ && _); auto. apply upd_length. Qed.
Lemma jset_in_range {A} (l : list A) i v :
  (0 <= i < Z.of_nat (length l))%Z -> jset l i v = upd (Z.to_nat i) v l.
Proof.
  intros H. unfold jset. rewrite wrap_in_range by lia.
  destruct (Z.leb_spec 0 i); [|lia]. destruct (Z.ltb_spec i (Z.of_nat (length l))); [|lia].
  reflexivity.
Qed.
Lemma jset_oob {A} (l : list A) i v : (Z.of_nat (length l) <= i)%Z -> jset l i v = l.
Proof.
  intros H. unfold jset. rewrite wrap_in_range by lia.
  destruct (Z.ltb_spec i (Z.of_nat (length l))); [lia|]. now rewrite andb_false_r.
Qed.
Lemma scatter_length {A} ord (d : A) l idx vals : length (scatter ord d l idx vals) = length l.
Proof.
  unfold scatter. revert l; induction ord; simpl; intros l; auto.
  rewrite IHord. apply jset_length.
Qed.
(** Every entry of a scattered array is the old entry or one of the values written
    to that position. *)
Lemma scatter_nth {A} ord (d dd : A) l idx vals i :
  nth i (scatter ord d l idx vals) dd = nth i l dd \/
  exists p, In p ord /\ wrap (length l) (nth p idx 0%Z) = Z.of_nat i /\ (i < length l) /\
            nth i (scatter ord d l idx vals) dd = nth p vals d.
Proof.
  unfold scatter. revert l; induction ord as [|p ord IH]; simpl; intros l; auto.
  specialize (IH (jset l (nth p idx 0%Z) (nth p vals d))).
  rewrite jset_length in IH.
  destruct IH as [IH|[q [Hq [Hw [Hi Hv]]]]].
  - rewrite IH. unfold jset.
    destruct ((0 <=? wrap (length l) (nth p idx 0%Z))%Z &&
              (wrap (length l) (nth p idx 0%Z) <? Z.of_nat (length l))%Z) eqn:E; auto.
    apply andb_true_iff in E. destruct E as [E1 E2].
    apply Z.leb_le in E1. apply Z.ltb_lt in E2.
    rewrite nth_upd.
    destruct (Nat.eqb_spec i (Z.to_nat (wrap (length l) (nth p idx 0%Z)))); simpl; auto.
    destruct (Nat.ltb_spec (Z.to_nat (wrap (length l) (nth p idx 0%Z))) (length l)); simpl; auto.
    right. exists p. repeat split; auto; lia.
  - right. exists q. repeat split; auto.
Qed.
(** Positions that are not written keep their value. *)
Lemma scatter_nth_other {A} ord (d dd : A) l idx vals i :
  (forall p, In p ord -> wrap (length l) (nth p idx 0%Z) <> Z.of_nat i) ->
  nth i (scatter ord d l idx vals) dd = nth i l dd.
Proof.
  intros H. destruct (scatter_nth ord d dd l idx vals i) as [E|[p [Hp [Hw _]]]]; auto.
  exfalso. exact (H p Hp Hw).
Qed.
(** A written position holds one of the values written to it. *)
Lemma scatter_nth_written {A} ord (d dd : A) l idx vals i p :
  In p ord -> wrap (length l) (nth p idx 0%Z) = Z.of_nat i -> i < length l ->
  exists q, In q ord /\ wrap (length l) (nth q idx 0%Z) = Z.of_nat i /\
            nth i (scatter ord d l idx vals) dd = nth q vals d.
Proof.
  unfold scatter. revert l; induction ord as [|o ord IH]; simpl; intros l Hp Hw Hi; [tauto|].
  destruct (in_dec Nat.eq_dec p ord) as [Hin|Hout].
  - destruct (IH (jset l (nth o idx 0%Z) (nth o vals d)) Hin) as [q [Hq [Hqw Hqv]]];
      try (rewrite jset_length); auto.
    rewrite jset_length in Hqw. exists q; auto.
  - destruct Hp as [->|Hp]; [|tauto].
    destruct (scatter_nth ord d dd (jset l (nth p idx 0%Z) (nth p vals d)) idx vals i)
      as [E|[q [Hq [Hqw [_ Hqv]]]]]; unfold scatter in *.
    + exists p. repeat split; auto. rewrite E. unfold jset.
      destruct (Z.leb_spec 0 (wrap (length l) (nth p idx 0%Z))); [|lia].
      destruct (Z.ltb_spec (wrap (length l) (nth p idx 0%Z)) (Z.of_nat (length l))); [|lia].
      simpl. rewrite Hw, Nat2Z.id. now apply nth_upd_eq.
    + rewrite jset_length in Hqw. exists q. repeat split; auto.
Qed.

(** ** fori *)
Lemma fori_S {S} n (body : nat -> S -> S) s :
  fori (Datatypes.S n) body s = body n (fori n body s).
Proof. unfold fori. rewrite seq_S, fold_left_app. reflexivity. Qed.
Lemma fori_ind {S} (Inv : nat -> S -> Prop) n (body : nat -> S -> S) s :
  Inv 0%nat s -> (forall i s, i < n -> Inv i s -> Inv (Datatypes.S i) (body i s)) ->
  Inv n (fori n body s).
Proof.
  intros H0 HS. induction n.
  - exact H0.
  - rewrite fori_S. apply HS; [lia|]. apply IHn. intros; apply HS; auto.
Qed.

(** ** chunks *)
Lemma chunks_fuel_concat {A} b fuel (l : list A) :
  0 < b -> length l <= fuel -> concat (chunks_fuel fuel b l) = l.
Proof.
  intros Hb. revert l; induction fuel; intros l Hl; simpl.
  - destruct l; simpl in *; auto; lia.
  - destruct l as [|a l]; auto. cbn [concat].
    rewrite IHfuel.
    + apply firstn_skipn.
    + rewrite skipn_length. cbn [length] in *. lia.
Qed.
Lemma chunks_concat {A} b (l : list A) : 0 < b -> concat (chunks b l) = l.
Proof. intros. apply chunks_fuel_concat; auto. Qed.
Lemma chunks_fuel_shape {A B} b fuel (l : list A) (m : list B) :
  length l = length m ->
  map (@length A) (chunks_fuel fuel b l) = map (@length B) (chunks_fuel fuel b m).
Proof.
  revert l m; induction fuel; intros l m H; simpl; auto.
  destruct l, m; simpl in H; try discriminate; auto.
  cbn [map]. f_equal.
  - rewrite !firstn_length. cbn [length]. lia.
  - apply IHfuel. rewrite !skipn_length. cbn [length]. lia.
Qed.
Lemma chunks_shape {A B} b (l : list A) (m : list B) :
  length l = length m -> map (@length A) (chunks b l) = map (@length B) (chunks b m).
Proof. intros H. unfold chunks. rewrite <- H. now apply chunks_fuel_shape. Qed.
Lemma map_chunks_fuel {A B} (f : A -> B) b fuel l :
  chunks_fuel fuel b (map f l) = map (map f) (chunks_fuel fuel b l).
Proof.
  revert l; induction fuel; intros l; simpl; auto.
  destruct l; auto. cbn [map].
  change (f a :: map f l) with (map f (a :: l)).
  rewrite firstn_map, skipn_map, IHfuel. reflexivity.
Qed.
Lemma map_chunks {A B} (f : A -> B) b l : chunks b (map f l) = map (map f) (chunks b l).
Proof. unfold chunks. rewrite map_length. apply map_chunks_fuel. Qed.

Lemma cdiv_spec a b : 0 < b -> a <= cdiv a b * b < a + b.
Proof.
  intros Hb. unfold cdiv.
  pose proof (Nat.div_mod (a + (b - 1)) b ltac:(lia)).
  pose proof (Nat.mod_upper_bound (a + (b - 1)) b ltac:(lia)). nia.
Qed.
