(** * Specification of weighted kernel means (independent of the model) *)
From Coq Require Import List Reals.
From Verif Require Import RSum.
Import ListNotations.
Open Scope R_scope.

(** sum_j w_j f(y_j) over a weighted point set *)
Definition wsum {P} (f : P -> R) (ys : list P) (ws : list R) : R :=
  Rsum (map (fun p => snd p * f (fst p)) (combine ys ws)).
(** weighted average: sum_j w_j f(y_j) / sum_j w_j *)
Definition wavg {P} (f : P -> R) (ys : list P) (ws : list R) : R :=
  wsum f ys ws / Rsum ws.
