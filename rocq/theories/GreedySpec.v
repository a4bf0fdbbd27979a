(** * Specification vocabulary for the subset-selection solvers *)
From Coq Require Import List Reals.
From Verif Require Import RSum MeanSpec.
Import ListNotations.
Open Scope R_scope.

(** number of strictly positive weights *)
Definition npos (w : list R) : nat :=
  length (filter (fun a => if Rlt_dec 0 a then true else false) w).

(** [res] is built greedily: its t-th entry is, among the candidates allowed
    after the first t choices, one of largest score, the first such index.
    The score may depend on the choices made so far. *)
Definition greedy_argmax (cand : list nat -> nat -> Prop) (score : list nat -> nat -> R)
    (res : list nat) : Prop :=
  forall t, (t < length res)%nat ->
    let chosen := firstn t res in
    let c := nth t res 0%nat in
    cand chosen c /\
    forall j, cand chosen j ->
      score chosen j <= score chosen c /\ (score chosen j = score chosen c -> (c <= j)%nat).

(** candidates: rows of positive weight, not yet chosen if [unique] *)
Definition candidate (w : list R) (unique : bool) (chosen : list nat) (j : nat) : Prop :=
  (j < length w)%nat /\ 0 < nth j w 0 /\ (unique = true -> ~ In j chosen).

(** Equation 8 of Chen et al. 2012: E[k(x, .)] - 1/(T+1) sum_t k(x, x_t) *)
Definition herding_score {P} (k : P -> P -> R) (mean : nat -> R) (x : nat -> P)
    (chosen : list nat) (j : nat) : R :=
  mean j - Rsum (map (fun c => k (x j) (x c)) chosen) / INR (length chosen + 1).

(** Section 3.1 of Benard et al. 2023, negated so that it is maximised:
    k(x,x) + lap(x) - lambda t log p(x) + 2 sum_j k(x, x_j) *)
Definition stein_score {P} (k : P -> P -> R) (lap rlogp : nat -> R) (x : nat -> P)
    (chosen : list nat) (j : nat) : R :=
  - (k (x j) (x j) + lap j - INR (length chosen + 1) * rlogp j
     + 2 * Rsum (map (fun c => k (x j) (x c)) chosen)).

(** squared maximum mean discrepancy between two weighted point sets *)
Definition mmd2 {P} (k : P -> P -> R) (xs : list P) (w : list R) (ys : list P) (v : list R) : R :=
  wavg (fun a => wavg (fun b => k a b) xs w) xs w
  + wavg (fun a => wavg (fun b => k a b) ys v) ys v
  - 2 * wavg (fun a => wavg (fun b => k a b) ys v) xs w.
