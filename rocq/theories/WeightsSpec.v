(** * Specification of the accuracy of a quadratic program solver *)
From Coq Require Import List Reals.
From Verif Require Import RSum MetricSpec.
Import ListNotations.
Open Scope R_scope.

(** [x] solves  min 1/2 x.q.x + c.x  subject to  sum x = 1, x >= 0  up to tolerances: each
    constraint holds up to [tol], and no point of the simplex is better by more than [del] *)
Record qp_within (tol del : R) (q : list (list R)) (c x : list R) : Prop := mkWithin {
  qw_len : length x = length c;
  qw_sum : Rabs (Rsum x - 1) <= tol;
  qw_nonneg : forall a, In a x -> - tol <= a;
  qw_best : forall y, length y = length c -> simplex y -> qp_objective q c x <= qp_objective q c y + del
}.
