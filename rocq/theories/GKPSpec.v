(** * Specification vocabulary for greedy kernel points *)
From Coq Require Import List ZArith Bool Reals Permutation.
From Verif Require Import Num Jax RSum MetricSpec.
Import ListNotations.
Open Scope R_scope.

(** [l] lists data indices below [n]; -1 stands for an empty place *)
Definition in_range (n : nat) (i : Z) : Prop := (0 <= i < Z.of_nat n)%Z.
Definition occupied (l : list Z) : list Z := filter (fun i => negb (i =? -1)%Z) l.

(** [jr.split] and [jr.permutation] *)
Definition split_ok {K} (split : K -> nat -> list K) : Prop := forall k n, length (split k n) = n.
Definition permutation_ok {K} (perm : K -> nat -> list nat) : Prop := forall k n, Permutation (perm k n) (seq 0 n).
(** batch sizes a user may pass *)
Definition batch_arg_ok (b : option Z) : Prop := match b with None => True | Some k => (0 <= k)%Z end.

(** the least-squares solver returns finite numbers, those of [solveR], on finite input *)
Definition finite_solver (solve : list (list ER) -> ER -> list ER -> list (list ER) -> list ER)
    (solveR : list (list R) -> R -> list R -> list (list R) -> list R) : Prop :=
  forall A r b I, solve (map (map Fin) A) (Fin r) (map Fin b) (map (map Fin) I) = map Fin (solveR A r b I).

Section Fit.
  Context {P : Type} (p0 : P) (k : P -> P -> R) (x : list P) (y : list R).
  (** kernel values and responses; empty places have kernel and response zero *)
  Definition kz (i j : Z) : R :=
    if ((i <? 0) || (j <? 0))%Z then 0 else k (nth (Z.to_nat i) x p0) (nth (Z.to_nat j) x p0).
  Definition yz (i : Z) : R := if (i <? 0)%Z then 0 else nth (Z.to_nat i) y 0.
  (** the fitted function sum_i alpha_i k(x_{c_i}, .) at data point [l] *)
  Definition prediction (c : list Z) (alpha : list R) (l : Z) : R := Rdot (map (fun i => kz i l) c) alpha.
  (** sum_l (f(x_l) - 2 y_l) f(x_l): the squared error minus its constant part *)
  Definition fit_loss (c : list Z) (alpha : list R) (batch : list Z) : R :=
    Rsum (map (fun l => (prediction c alpha l - 2 * yz l) * prediction c alpha l) batch).
  Definition gram_of (c : list Z) : list (list R) := map (fun i => map (kz i) c) c.
  Definition responses_of (c : list Z) : list R := map yz c.
  (** squared prediction error *)
  Definition squared_error (c : list Z) (alpha : list R) (batch : list Z) : R :=
    Rsum (map (fun l => (yz l - prediction c alpha l) ^ 2) batch).
End Fit.

(** diagonal matrix *)
Definition Rdiag (v : list R) : list (list R) :=
  map (fun i => upd i (nth i v 0) (repeat 0 (length v))) (seq 0 (length v)).
(** [A + r I] *)
Definition Rridge (A : list (list R)) (r : R) (I : list (list R)) : list (list R) :=
  map2 (map2 (fun a e => a + r * e)) A I.

(** minimal-norm least-squares solutions *)
Definition sq_residual (A : list (list R)) (b z : list R) : R := Rsum (map2 (fun u v => (u - v) ^ 2) (Rmv A z) b).
Definition is_min_norm (A : list (list R)) (b z : list R) : Prop :=
  length z = length b /\
  forall z', length z' = length b ->
    sq_residual A b z <= sq_residual A b z' /\
    (sq_residual A b z' <= sq_residual A b z -> Rdot z z <= Rdot z' z').

Section Fitted.
  Context {P : Type} (p0 : P) (k : P -> P -> R) (x : list P) (y : list R) (reg : R).
  (** the regularised least-squares fit on the points with indices [c]: the minimal-norm
      least-squares solution of (K_cc + |reg| I) alpha = y_c *)
  Definition fitted (c : list Z) (alpha : list R) : Prop :=
    is_min_norm (Rridge (gram_of p0 k x c) (Rabs reg) (Rdiag (repeat 1 (length c)))) (responses_of y c) alpha.
  (** the kernel ridge regression equations *)
  Definition ridge_equations (c : list Z) (alpha : list R) : Prop :=
    length alpha = length c /\
    forall i, (i < length c)%nat ->
      Rdot (map (kz p0 k x (nth i c 0%Z)) c) alpha + Rabs reg * nth i alpha 0 = yz y (nth i c 0%Z).
End Fitted.
(** the places of a partly filled coreset that hold an index *)
Definition active (c : list Z) : list Z := filter (fun i => 0 <=? i)%Z c.

(** what is assumed of the least-squares solver on symmetric [m] by [m] systems *)
Definition symmetric (A : list (list R)) : Prop := forall i j, nth j (nth i A []) 0 = nth i (nth j A []) 0.
Definition least_squares_ok (m : nat) (solveR : list (list R) -> R -> list R -> list (list R) -> list R) : Prop :=
  forall A r b v, is_mat m m A -> symmetric A -> 0 <= r -> length b = m -> length v = m ->
    is_min_norm (Rridge A r (Rdiag v)) b (solveR A r b (Rdiag v)).
