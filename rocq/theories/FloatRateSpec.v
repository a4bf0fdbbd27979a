(** * Specification of greedy choices up to a tolerance *)
From Coq Require Import List ZArith Reals.
From Flocq Require Import Core.Core.
Import ListNotations.
Open Scope R_scope.

(** like [greedy_argmax], but the t-th entry may fall short of the best score by [tol t] *)
Definition near_greedy (cand : list nat -> nat -> Prop) (score : list nat -> nat -> R) (tol : nat -> R)
    (res : list nat) : Prop :=
  forall t, (t < length res)%nat ->
    let chosen := firstn t res in
    let c := nth t res 0%nat in
    cand chosen c /\ forall j, cand chosen j -> score chosen j <= score chosen c + tol t.

(** how far from optimal the choices of kernel herding are allowed to be, in a format of
    precision [prec]: [n] points, coreset of size [m], kernel values of size at most [2^e]
    computed with error at most [eps] *)
Definition herding_tolerance (prec e : Z) (eps : R) (n m : nat) : R :=
  9 * INR (2 * n + m + 5) * bpow radix2 (e - prec) + 4 * eps.
(** the same for Stein thinning, whose penalties are sums, not means *)
Definition stein_tolerance (prec e : Z) (eps : R) (m : nat) : R :=
  4 * INR (3 * m + 1) * INR (m + 3) * bpow radix2 (e - prec) + 4 * INR m * eps.
