(** * Specification vocabulary for sliced score matching *)
From Coq Require Import List ZArith Reals.
From Verif Require Import Num RSum.
From Coquelicot Require Import Coquelicot.
Import ListNotations.
Open Scope R_scope.

(** the line through [x] with direction [v] *)
Definition along (x v : list R) (t : R) : list R := map2 (fun a b => a + t * b) x v.
Definition unit_vector (d a : nat) : list R := map (fun b => if Nat.eqb a b then 1 else 0) (seq 0 d).
(** divergence of a vector field [F] on R^d: the sum of dF_a / dx_a *)
Definition divergence (d : nat) (F : list R -> list R) (x : list R) : R :=
  Rsum (map (fun a => Derive (fun t => nth a (F (along x (unit_vector d a) t)) 0) 0) (seq 0 d)).
(** Hyvarinen's score matching objective at one point: div F + |F|^2 / 2 *)
Definition hyvarinen (d : nat) (F : list R -> list R) (x : list R) : R :=
  divergence d F x + Rsum (map (fun a => a * a) (F x)) / 2.
(** mean over a list of points *)
Definition mean_of (f : list R -> R) (xs : list (list R)) : R := Rsum (map f xs) / INR (length xs).

(** [F] has directional derivatives at [x] that are linear in the direction *)
Definition differentiable (d : nat) (F : list R -> list R) (x : list R) : Prop :=
  exists J : nat -> nat -> R, forall v a, length v = d -> (a < d)%nat ->
    is_derive (fun t => nth a (F (along x v t)) 0) 0 (Rsum (map (fun b => J a b * nth b v 0) (seq 0 d))).

(** what is assumed of [jax.jvp]: for a differentiable function it returns the value
    and the directional derivative *)
Definition jvp_spec (jvp : (list ER -> list ER) -> list ER -> list ER -> list ER * list ER) : Prop :=
  forall (d : nat) (f : list ER -> list ER) (F : list R -> list R) (x v : list R),
    (forall y, length y = d -> f (map Fin y) = map Fin (F y) /\ length (F y) = d) ->
    length x = d -> length v = d -> differentiable d F x ->
    jvp f (map Fin x) (map Fin v)
    = (map Fin (F x), map (fun a => Fin (Derive (fun t => nth a (F (along x v t)) 0) 0)) (seq 0 d)).

(** an expectation: linear, and one on the constant one *)
Record expectation {W : Type} (E : (W -> R) -> R) : Prop := {
  ex_ext : forall f g, (forall w, f w = g w) -> E f = E g;
  ex_plus : forall f g, E (fun w => f w + g w) = E f + E g;
  ex_scal : forall c f, E (fun w => c * f w) = c * E f;
  ex_one : E (fun _ => 1) = 1 }.
(** a random vector of R^d with E[v v^T] = I *)
Definition isotropic {W : Type} (E : (W -> R) -> R) (d : nat) (v : W -> list R) : Prop :=
  (forall w, length (v w) = d) /\
  forall a b, (a < d)%nat -> (b < d)%nat -> E (fun w => nth a (v w) 0 * nth b (v w) 0) = if Nat.eqb a b then 1 else 0.

(** all vectors of R^d with entries 1 and -1, and the average over them *)
Fixpoint signs (d : nat) : list (list R) :=
  match d with 0%nat => [[]] | S d => map (cons 1) (signs d) ++ map (cons (-1)) (signs d) end.
Definition rademacher (d : nat) (f : list R -> R) : R := Rsum (map f (signs d)) / INR (length (signs d)).

(** a feed-forward network with softplus activations, on real numbers *)
Definition softplus (x : R) : R := ln (1 + exp x).
Definition layerR (layer : list (list R) * list R) (x : list R) : list R :=
  map (fun j => Rdot x (map (fun row => nth j row 0) (fst layer)) + nth j (snd layer) 0) (seq 0 (length (snd layer))).
Fixpoint networkR (hidden : list (list (list R) * list R)) (output : list (list R) * list R) (x : list R) : list R :=
  match hidden with [] => layerR output x | l :: hidden => networkR hidden output (map softplus (layerR l x)) end.

(** variance and covariance *)
Definition variance {W : Type} (E : (W -> R) -> R) (f : W -> R) : R := E (fun w => (f w - E f) * (f w - E f)).
Definition covariance {W : Type} (E : (W -> R) -> R) (f g : W -> R) : R := E (fun w => (f w - E f) * (g w - E g)).

(** a batch of [n] points with [m] random vectors each, every one of them isotropic *)
Definition batch_vectors {W : Type} (E : (W -> R) -> R) (n m d : nat) (vs : W -> list (list (list R))) : Prop :=
  (forall w, length (vs w) = n /\ forall l, In l (vs w) -> length l = m) /\
  forall i j, (i < n)%nat -> (j < m)%nat -> isotropic E d (fun w => nth j (nth i (vs w) []) []).
Definition fin3 (vs : list (list (list R))) : list (list (list ER)) := map (map (map Fin)) vs.
(** every row of [x] moved by [sigma] times the same row of [noise] *)
Definition perturb (sigma : R) (x noise : list (list R)) : list (list R) := map2 (fun p e => along p e sigma) x noise.
(** real parameters of a layer, as array entries *)
Definition fin_layer (l : list (list R) * list R) : list (list ER) * list ER := (map (map Fin) (fst l), map Fin (snd l)).
(** the list of vectors of length [d] is an [n x d] array *)
Definition shaped (n d : nat) (x : list (list R)) : Prop := length x = n /\ forall p, In p x -> length p = d.

(** equations 7 and 8 (analytic) of Song et al.:  v . D_v F(x) + (v . F(x))^2 / 2  and
    v . D_v F(x) + |F(x)|^2 / 2 *)
Definition sliced_term (d : nat) (F : list R -> list R) (analytic : bool) (x v : list R) : R :=
  Rdot v (map (fun a => Derive (fun t => nth a (F (along x v t)) 0) 0) (seq 0 d))
  + (if analytic then Rdot (F x) (F x) / 2 else Rdot v (F x) * Rdot v (F x) / 2).
