(** * Specification vocabulary for score matching *)
From Coq Require Import List Reals.
From Verif Require Import Num Jax RSum KernelModel KernelSpec.
Import ListNotations.
Open Scope R_scope.

(** the density at [x] of the Gaussian with mean [c] and covariance len^2 I *)
Definition gauss_density (len : R) (c x : list R) : R :=
  exp (- (sqdist x c / (2 * len ^ 2))) / (sqrt (2 * PI) * len) ^ length x.
(** Gaussian kernel density estimate with bandwidth [len] from the points [X] *)
Definition kde (len : R) (X : list (list R)) (x : list R) : R :=
  Rsum (map (fun c => gauss_density len c x) X) / INR (length X).
(** [s] is the score (gradient of the log-density) of that estimate at [x] *)
Definition kde_score_at (len : R) (X : list (list R)) (x s : list R) : Prop :=
  0 < kde len X x /\ is_gradient (fun z => ln (kde len X z)) x s.
(** the bandwidth a kernel comes with *)
Definition bandwidth (k : kern R) : R :=
  match k with
  | KExp l _ | KLap l _ | KSE l _ | KPCIMQ l _ | KRQ l _ _ | KMatern l _ _ | KPer l _ _ => l
  | _ => 1
  end.
(** ... if it has one *)
Definition own_bandwidth (k : kern R) : option R :=
  match k with
  | KExp l _ | KLap l _ | KSE l _ | KPCIMQ l _ | KRQ l _ _ | KMatern l _ _ | KPer l _ _ => Some l
  | _ => None
  end.
Definition is_stein {V} (k : kern V) : Prop := match k with KStein _ _ => True | _ => False end.
