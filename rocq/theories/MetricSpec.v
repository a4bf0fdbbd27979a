(** * Specification vocabulary for discrepancies *)
From Coq Require Import List Reals Permutation.
From Verif Require Import RSum MeanSpec GreedySpec.
Import ListNotations.
Open Scope R_scope.

(** sum_i sum_j a_i b_j k(p_i, q_j) for weighted points [(p_i, a_i)], [(q_j, b_j)] *)
Definition bil {P} (k : P -> P -> R) (ms ns : list (P * R)) : R :=
  Rsum (map (fun m => snd m * Rsum (map (fun n => snd n * k (fst m) (fst n)) ns)) ms).

(** positive semi-definite kernel: symmetric, and every weighted point set has
    non-negative energy *)
Definition psd {P} (k : P -> P -> R) : Prop :=
  (forall a b, k a b = k b a) /\ (forall ms, 0 <= bil k ms ms).

(** two weighted point sets represent the same distribution: all weighted averages
    agree *)
Definition same_dist {P} (xs : list P) (w : list R) (ys : list P) (v : list R) : Prop :=
  forall f : P -> R, wavg f xs w = wavg f ys v.

(** ** matrices over R, as lists of rows *)
Definition is_mat (n c : nat) (m : list (list R)) : Prop :=
  length m = n /\ forall row, In row m -> length row = c.
Definition Rmv (m : list (list R)) (x : list R) : list R := map (fun row => Rdot row x) m.
Definition Rcol (m : list (list R)) (j : nat) : list R := map (fun row => nth j row 0) m.
(** no non-zero vector is mapped to zero *)
Definition nonsingular (n : nat) (m : list (list R)) : Prop :=
  forall x, length x = n -> (forall y, In y (Rmv m x) -> y = 0) -> forall a, In a x -> a = 0.

(** minimisers of 1/2 x.q.x + c.x subject to a x = b and g x <= h *)
Definition qp_objective (q : list (list R)) (c x : list R) : R := / 2 * Rdot x (Rmv q x) + Rdot c x.
Definition qp_feasible (a : list (list R)) (b : list R) (g : list (list R)) (h : list R) (x : list R) : Prop :=
  Rmv a x = b /\ Forall2 Rle (Rmv g x) h.
Definition qp_minimiser q c a b g h (x : list R) : Prop :=
  length x = length c /\ qp_feasible a b g h x /\
  forall y, length y = length c -> qp_feasible a b g h y -> qp_objective q c x <= qp_objective q c y.

(** the squared MMD between the uniformly weighted data and the coreset points carrying
    (unnormalised) weights [v], plus the ridge penalty *)
Definition uniform {P} (xs : list P) : list (P * R) := map (fun x => (x, / INR (length xs))) xs.
Definition ridge_mmd2 {P} (k : P -> P -> R) (eps : R) (data : list (P * R)) (coreset : list P) (v : list R) : R :=
  bil k data data + bil k (combine coreset v) (combine coreset v) - 2 * bil k data (combine coreset v)
  + eps * Rsum (map (fun a => a * a) v).
Definition simplex (v : list R) : Prop := (forall a, In a v -> 0 <= a) /\ Rsum v = 1.
