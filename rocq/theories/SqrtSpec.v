(** * Specification vocabulary: integrals over R^d as iterated improper integrals *)
From Coq Require Import List Reals.
From Coquelicot Require Import Coquelicot.
Import ListNotations.
Open Scope R_scope.

(** [v] is the integral of [f] over R^d: integrate the last coordinates for every value of
    the first one, then integrate the first one over the real line *)
Fixpoint iterated_integral (d : nat) (f : list R -> R) (v : R) : Prop :=
  match d with
  | O => v = f []
  | S d' => exists g : R -> R, (forall t, iterated_integral d' (fun z => f (t :: z)) (g t)) /\
      is_RInt_gen g (Rbar_locally m_infty) (Rbar_locally p_infty) v
  end.
