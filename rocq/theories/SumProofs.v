(** * Facts about sums evaluated in an arbitrary order *)
From Coq Require Import List Permutation Lia.
From Verif Require Import SumSpec.
Import ListNotations.

(** from left to right is one way *)
Lemma left_fold_summed {V} (add : V -> V -> V) zero l : summed add zero l (fold_left add l zero).
Proof.
  induction l as [|v l IH] using rev_ind; [constructor|].
  rewrite fold_left_app. cbn [fold_left]. apply summed_add with l [v]; auto. constructor.
Qed.

(** a property of the entries and of zero that additions preserve *)
Lemma summed_closed {V} (add : V -> V -> V) zero (Q : V -> Prop) l v :
  Q zero -> (forall a b, Q a -> Q b -> Q (add a b)) -> Forall Q l -> summed add zero l v -> Q v.
Proof.
  intros Q0 QA F H. induction H as [|v|l1 l2 l a b H1 IH1 H2 IH2 HP]; auto; [now inversion F|].
  assert (F' : Forall Q (l1 ++ l2)) by (eapply Permutation_Forall; [symmetry; exact HP|exact F]).
  apply Forall_app in F' as [F1 F2]. auto.
Qed.
(** ... and one that an entry passes on to the sum *)
Lemma summed_absorb {V} (add : V -> V -> V) zero (Q : V -> Prop) l v :
  (forall a b, Q a \/ Q b -> Q (add a b)) -> Exists Q l -> summed add zero l v -> Q v.
Proof.
  intros QA E H. induction H as [|v|l1 l2 l a b H1 IH1 H2 IH2 HP]; [inversion E|inversion E as [? ? H|? ? H]; subst; [exact H|inversion H]|].
  apply QA. apply Exists_exists in E as [x [Hx Q1]]. apply (Permutation_in _ (Permutation_sym HP)) in Hx. apply in_app_or in Hx as [Hx|Hx].
  - left. apply IH1. apply Exists_exists. eauto.
  - right. apply IH2. apply Exists_exists. eauto.
Qed.
(** induction over the way a sum of images is evaluated *)
Lemma summed_map_ind {A V} (add : V -> V -> V) zero (f : A -> V) (Q : list A -> V -> Prop) :
  Q [] zero -> (forall a, Q [a] (f a)) -> (forall l1 l2 a b, Q l1 a -> Q l2 b -> Q (l1 ++ l2) (add a b)) ->
  (forall l l' v, Permutation l l' -> Q l v -> Q l' v) ->
  forall l v, summed add zero (map f l) v -> Q l v.
Proof.
  intros Q0 Q1 QA QP l v H. remember (map f l) as m eqn:E. revert l E.
  induction H as [|v|l1 l2 m a b H1 IH1 H2 IH2 HP]; intros l E.
  - destruct l; [exact Q0|discriminate].
  - destruct l as [|a [|b l]]; try discriminate. injection E as ->. apply Q1.
  - subst m. apply Permutation_map_inv in HP as (l' & E & HP). symmetry in E. apply map_eq_app in E as (a1 & a2 & -> & <- & <-).
    eapply QP; [apply Permutation_sym; exact HP|]. apply QA; [now apply IH1|now apply IH2].
Qed.
