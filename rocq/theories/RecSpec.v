(** * Specification vocabulary for recombination *)
From Coq Require Import List Reals.
From Verif Require Import Num RSum.
Import ListNotations.
Local Open Scope R_scope.

(** entry (i, c) of a matrix given as a list of rows *)
Definition entry (A : list (list R)) (i c : nat) : R := nth c (nth i A []) 0.
(** [v] is a left null vector of the n x k matrix A: sum_i v_i A_ic = 0 for every column *)
Definition null_vec (A : list (list R)) (k : nat) (v : list R) : Prop :=
  forall c, (c < k)%nat ->
    Rsum (map (fun i => nth i v 0 * entry A i c) (seq 0 (length A))) = 0.
(** coordinate i of the linear combination with coefficients [cs] of the vectors [B] *)
Definition comb (cs : list R) (B : list (list R)) (i : nat) : R :=
  Rsum (map2 (fun c b => c * nth i b 0) cs B).
(** the vectors (of length n) are linearly independent *)
Definition indep (n : nat) (B : list (list R)) : Prop :=
  forall cs, length cs = length B -> (forall i, (i < n)%nat -> comb cs B i = 0) ->
    Forall (fun c => c = 0) cs.
(** every vector of length n with property [S] is a combination of the vectors of [B] *)
Definition spans (n : nat) (B : list (list R)) (S : list R -> Prop) : Prop :=
  forall v, length v = n -> S v ->
    exists cs, length cs = length B /\ forall i, (i < n)%nat -> nth i v 0 = comb cs B i.

(** [B], [r]: the first [r] rows of [B] are a basis of the left null space of A *)
Definition null_ok (A : list (list R)) (k : nat) (B : list (list R)) (r : nat) : Prop :=
  (r <= length B)%nat /\ Forall (fun b => length b = length A) B /\
  (forall j, (j < r)%nat -> null_vec A k (nth j B [])) /\
  indep (length A) (firstn r B) /\
  spans (length A) (firstn r B) (null_vec A k).
(** an n x k matrix, n rows *)
Definition matrix (k : nat) (A : list (list R)) : Prop := Forall (fun a => length a = k) A.

(** an exact full singular value decomposition of the n x k matrix A: [qT] holds the left
    singular vectors, an orthonormal basis of R^n; [s] the min(n,k) singular values in
    decreasing order *)
Definition dot (n : nat) (u v : list R) : R :=
  Rsum (map (fun i => nth i u 0 * nth i v 0) (seq 0 n)).
Definition orthonormal (n : nat) (Q : list (list R)) : Prop :=
  forall i j, (i < length Q)%nat -> (j < length Q)%nat ->
    dot n (nth i Q []) (nth j Q []) = if Nat.eqb i j then 1 else 0.
Definition svd_ok (A : list (list R)) (k : nat) (qT : list (list R)) (s : list R) : Prop :=
  let n := length A in
  length qT = n /\ Forall (fun q => length q = n) qT /\ orthonormal n qT /\
  (forall v, length v = n -> forall i, (i < n)%nat ->
     nth i v 0 = comb (map (fun q => dot n v q) qT) qT i) /\
  length s = Nat.min n k /\ Forall (fun x => 0 <= x) s /\
  (forall i j, (i <= j)%nat -> (j < length s)%nat -> nth j s 0 <= nth i s 0) /\
  exists vt, length vt = length s /\ orthonormal k vt /\
    forall i c, (i < n)%nat -> (c < k)%nat ->
      entry A i c = Rsum (map (fun j => entry qT j i * nth j s 0 * entry vt j c) (seq 0 (length s))).

(** number of non-zero weights *)
Definition nonzeros (wt : list R) : nat :=
  length (filter (fun x => if Req_EM_T x 0 then false else true) wt).
(** sum over the entries (index, weight) of a coreset of weight * g(index) *)
Definition wsum_at (g : nat -> R) (idx : list nat) (wt : list R) : R :=
  Rsum (map2 (fun i a => a * g i) idx wt).

(** the points carrying non-zero weight are affinely independent under the m test
    functions: no non-zero coefficient vector supported there annihilates the constant
    and all test functions.  [g i c] is test function c at data point i. *)
Definition support_independent (m : nat) (g : nat -> nat -> R) (idx : list nat) (wt : list R) : Prop :=
  forall co : list R, length co = length idx ->
    (forall j, (j < length idx)%nat -> nth j wt 0 = 0 -> nth j co 0 = 0) ->
    Rsum co = 0 -> (forall c, (c < m)%nat -> wsum_at (fun i => g i c) idx co = 0) ->
    forall j, (j < length idx)%nat -> nth j co 0 = 0.

(** what the reduction needs of [_resolve_null_basis] on the matrix A with k columns *)
Definition null_basis_at (null : list (list ER) -> list (list ER) * nat) (k : nat) (A : list (list R)) : Prop :=
  exists B r, null (map (map Fin) A) = (map (map Fin) B, r) /\ null_ok A k B r.
