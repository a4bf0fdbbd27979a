(** * What it means to add up a list in some order *)
From Coq Require Import List Permutation.
Import ListNotations.

(** [summed add zero l v]: [v] is the value of some bracketing of some rearrangement of
    [l], with any number of additions of the initial value [zero]. *)
Inductive summed {V} (add : V -> V -> V) (zero : V) : list V -> V -> Prop :=
| summed_nil : summed add zero [] zero
| summed_one v : summed add zero [v] v
| summed_add l1 l2 l a b : summed add zero l1 a -> summed add zero l2 b -> Permutation (l1 ++ l2) l ->
    summed add zero l (add a b).
