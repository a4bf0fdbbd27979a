(** * Specification vocabulary for the accuracy of MapReduce (C79) *)
From Coq Require Import List ZArith Reals.
From Verif Require Import Num Jax DataModel GreedySpec.
Import ListNotations.
Open Scope R_scope.

Section Accurate.
  Context {P Y : Type} (p0 : P).
  Notation data := (Data P Y ER).
  Notation cs := (Coresubset P Y ER).
  Notation unsup xs dw := (@mkData P Y ER xs (map Fin dw) None).
  (** on equally weighted rows (and padding rows of weight zero) with [k x x <= kappa] the base
      solver selects [m] rows of positive weight, each with weight one, whose MMD to the data is
      at most [eps] *)
  Definition accurate (k : P -> P -> R) (kappa : R) (m : nat) (eps : R) (base : data -> result cs) : Prop :=
    forall xs w, length w = length xs -> (forall v, In v w -> v = 0 \/ v = 1) -> (m <= npos w)%nat ->
      (forall a, In a xs -> k a a <= kappa) ->
      exists s, base (unsup xs w) = Ok (mkCS (map Z.of_nat s) (repeat (Fin 1) m) (unsup xs w)) /\
        length s = m /\ (forall i, In i s -> (i < length xs)%nat /\ 0 < nth i w 0) /\
        sqrt (mmd2 k xs w (map (fun i => nth i xs p0) s) (repeat 1 m)) <= eps.
End Accurate.
