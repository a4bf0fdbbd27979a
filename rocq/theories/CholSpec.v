(** * What is assumed of [jax.random.choice] *)
From Coq Require Import List ZArith Reals Permutation.
From Verif Require Import Num Jax RSum.
Import ListNotations.
Open Scope R_scope.

(** [jr.choice(key, n, (draws,), p=p, replace=replace)]: raises ValueError when more
    values than available are drawn without replacement or when drawing from
    nothing; otherwise it returns [draws] numbers below [n], distinct when drawn
    without replacement.  Nothing is assumed about their distribution. *)
Definition choice_ok {V} (choice : nat -> nat -> option (list V) -> bool -> result (list nat)) : Prop :=
  forall n draws p replace,
    (((replace = false /\ draws > n) \/ (n = 0 /\ draws > 0))%nat -> choice n draws p replace = Err ValueError) /\
    (((replace = true \/ draws <= n) /\ (n > 0 \/ draws = 0))%nat ->
       exists l, choice n draws p replace = Ok l /\ length l = draws /\
         (forall i, In i l -> (i < n)%nat) /\ (replace = false -> NoDup l)).

(** [jr.choice(key, n, (), p=p, replace=False)] draws one index.  It is always below
    [n]; if [p] consists of finite non-negative numbers and one of them is positive
    then the drawn index has positive probability. *)
Definition pick_ok (pick : nat -> list ER -> nat) : Prop :=
  forall i p, p <> [] ->
    (pick i p < length p)%nat /\
    ((forall v, In v p -> exists r, v = Fin r /\ 0 <= r) ->
     (exists r, In (Fin r) p /\ 0 < r) ->
     exists r, nth (pick i p) p NaN = Fin r /\ 0 < r).

(** One step of symmetric elimination: what is left of the kernel [k] once the row and
    column of [p] are explained; and the residual after a sequence of pivots (the
    Schur complement of the pivots in [k]). *)
Definition eliminate {I} (k : I -> I -> R) (p : I) : I -> I -> R :=
  fun i j => k i j - k i p * k j p / k p p.
Definition residual {I} (k : I -> I -> R) (pivots : list I) : I -> I -> R :=
  fold_left eliminate pivots k.

(** a kernel diagonal entry: a non-negative number, or not-a-number *)
Definition diag_ok (v : ER) : Prop := v = NaN \/ exists r, v = Fin r /\ 0 <= r.
