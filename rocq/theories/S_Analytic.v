(** Specification vocabulary for the analytic unfoldings; independent of the model. *)
From Coq Require Import List Reals.
Local Open Scope R_scope.

(** Number of levels of a semicircle of radius sqrt(2N) holding N levels in all that lie at or below [x]:
    N (1/2 + (t + sin t cos t)/pi) at x = sqrt(2N) sin t, 0 below and N above the band. *)
Definition SemicircleCount (N x y : R) : Prop :=
  (x <= - sqrt (2 * N) /\ y = 0) \/ (sqrt (2 * N) <= x /\ y = N) \/
  exists t, - PI / 2 <= t <= PI / 2 /\ x = sqrt (2 * N) * sin t /\ y = N * (1 / 2 + (t + sin t * cos t) / PI).
