(** Specification for C123: how the mean rigidity of a stationary spectrum follows from its number variance. *)
From Coq Require Import Reals.
From Coquelicot Require Import Coquelicot.
Local Open Scope R_scope.

(** The integral of [f] over (0, L], improper at zero, exists and is [v]. *)
Definition FromZero (f : R -> R) (L v : R) : Prop :=
  (forall e, 0 < e <= L -> ex_RInt f e L) /\
  (forall eps, 0 < eps -> exists d, 0 < d /\ forall e, 0 < e < d -> e <= L -> Rabs (RInt f e L - v) < eps).

(** Pandey's relation: Delta_3(L) = (2 / L^4) * integral over (0, L] of (L^3 - 2 L^2 r + r^3) * Sigma^2(r) dr. *)
Definition PandeyRelation (sigma2 delta3 : R -> R) : Prop :=
  forall L, 0 < L -> FromZero (fun r => 2 / L ^ 4 * (L ^ 3 - 2 * L ^ 2 * r + r ^ 3) * sigma2 r) L (delta3 L).
