(** * Specification vocabulary for the least-squares solvers *)
From Coq Require Import List Reals.
From Verif Require Import Num Jax RSum MetricSpec GKPSpec.
Import ListNotations.
Open Scope R_scope.

(** the columns of the n x r matrix [U] are orthonormal *)
Definition ortho_cols (r : nat) (U : list (list R)) : Prop :=
  forall i j, (i < r)%nat -> (j < r)%nat -> Rdot (Rcol U i) (Rcol U j) = if Nat.eqb i j then 1 else 0.
(** c * v and zero vectors *)
Definition vscal (c : R) (v : list R) : list R := map (Rmult c) v.
Definition zeros (n : nat) : list R := repeat 0 n.
(** [big] is the largest entry *)
Definition largest (big : R) (l : list R) : Prop := In big l /\ forall x, In x l -> x <= big.
(** [v] is a linear combination of the columns of [U] with coefficients [cs] *)
Definition col_comb (U : list (list R)) (cs : list R) : list R := Rmv U cs.
(** [U U^T v]: projection of [v] on the span of the orthonormal columns of [U] *)
Definition col_proj (r : nat) (U : list (list R)) (v : list R) : list R :=
  Rmv U (map (fun j => Rdot (Rcol U j) v) (seq 0 r)).
(** the columns of U span the range of A *)
Definition captures (n r : nat) (U A : list (list R)) : Prop :=
  forall y, length y = n -> col_proj r U (Rmv A y) = Rmv A y.
(** an exact QR factor: orthonormal columns spanning the columns of the n-row matrix [Y] *)
Definition qr_factor (n : nat) (Y Q : list (list R)) : Prop :=
  exists r, (0 < r)%nat /\ is_mat n r Q /\ ortho_cols r Q /\ forall j, col_proj r Q (Rcol Y j) = Rcol Y j.
(** an exact eigendecomposition of the symmetric r x r matrix [S]: orthonormal columns of
    [W], complete, with eigenvalues [l] *)
Definition eigen_decomposition (r : nat) (S : list (list R)) (l : list R) (W : list (list R)) : Prop :=
  length l = r /\ is_mat r r W /\ ortho_cols r W /\
  (forall v, length v = r -> col_proj r W v = v) /\
  forall j, (j < r)%nat -> Rmv S (Rcol W j) = vscal (nth j l 0) (Rcol W j).
(** Q^T A Q *)
Definition compress (r : nat) (Q A : list (list R)) : list (list R) :=
  map (fun i => map (fun j => Rdot (Rcol Q i) (Rmv A (Rcol Q j))) (seq 0 r)) (seq 0 r).
(** [qr] returns an exact Q factor of every matrix with [n] rows *)
Definition qr_exact (n : nat) (qr : list (list ER) -> list (list ER)) : Prop :=
  forall Y, length Y = n -> exists Q, qr (map (map Fin) Y) = map (map Fin) Q /\ qr_factor n Y Q.
(** the columns of [A D] span the range of [A] *)
Definition sees_range (n c : nat) (A D : list (list R)) : Prop :=
  forall y, length y = n -> exists z, length z = c /\ Rmv A y = Rmv A (Rmv D z).
(** the cut-off [rc * largest eigenvalue] separates the zero eigenvalues from the others *)
Definition separates (rc : R) (l : list R) : Prop :=
  exists big, largest big l /\ forall x, In x l -> (x <> 0 <-> rc * big <= x).
