(** * Specification vocabulary for probabilistic herding *)
From Coq Require Import List ZArith Reals.
From Verif Require Import Num Jax RSum GreedySpec.
Import ListNotations.
Open Scope R_scope.

(** the herding metric of each row; [None] for a row that may not be selected *)
Definition scores := list (option R).
Definition boltzmann (T : R) (s : option R) : R := match s with Some r => exp (r / T) | None => 0 end.
(** softmax(metric / T): the probability of row [j] at temperature [T] *)
Definition share (s : scores) (T : R) (j : nat) : R := boltzmann T (nth j s None) / Rsum (map (boltzmann T) s).
(** number of rows that may be selected *)
Definition selectable (s : scores) : nat := length (filter (fun o => match o with Some _ => true | None => false end) s).
(** [r] is the highest metric *)
Definition best (s : scores) (r : R) : Prop := In (Some r) s /\ forall r', In (Some r') s -> r' <= r.
(** number of rows with metric [r] *)
Definition ties (s : scores) (r : R) : nat :=
  length (filter (fun o => match o with Some x => if Req_EM_T x r then true else false | None => false end) s).

(** a penalty as it is shown to the selection function: infinite on the rows that may not be selected *)
Definition penE (o : option R) : ER := match o with Some p => Fin p | None => PInf end.
(** KHMetric: mean minus penalty / size *)
Definition score_list (mean : list R) (penalties : list (option R)) (size : Z) : scores :=
  map2 (fun g o => option_map (fun p => g - p / IZR size) o) mean penalties.

(** what is assumed of a sampler with fixed randomness: a row whose probability
    is close enough to one is drawn *)
Definition choice_concentrates (choice : nat -> list ER -> Z) : Prop :=
  forall i n, exists eps, 0 < eps /\ forall (p : list R) j, length p = n -> (forall q, In q p -> 0 <= q) -> Rsum p = 1 ->
    (j < n)%nat -> 1 - eps < nth j p 0 -> choice i (map Fin p) = Z.of_nat j.

(** greedy selection in which every choice beats all other candidates strictly *)
Definition strict_argmax (cand : list nat -> nat -> Prop) (score : list nat -> nat -> R) (res : list nat) : Prop :=
  forall t, (t < length res)%nat ->
    let chosen := firstn t res in
    let c := nth t res 0%nat in
    cand chosen c /\ forall j, cand chosen j -> j <> c -> score chosen j < score chosen c.

(** the sampler that inverts the cumulative distribution at [u] *)
Fixpoint inverse_cdf (u : R) (p : list R) : nat :=
  match p with [] => 0%nat | a :: p => if Rle_dec u a then 0%nat else S (inverse_cdf (u - a) p) end.
