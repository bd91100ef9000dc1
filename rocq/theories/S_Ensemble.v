(** Specification vocabulary for densities on the half line; independent of the model. *)
From Coq Require Import Reals.
From Coquelicot Require Import Coquelicot.
Local Open Scope R_scope.

(** The improper integral of [f] over [0, infinity) exists and is [v]. *)
Definition HalfLine (f : R -> R) (v : R) : Prop :=
  (forall M, 0 <= M -> ex_RInt f 0 M) /\ is_lim (fun M => RInt f 0 M) p_infty v.
(** A probability density on the half line, with mean one. *)
Definition Density (f : R -> R) : Prop := (forall s, 0 <= s -> 0 <= f s) /\ HalfLine f 1.
Definition MeanOne (f : R -> R) : Prop := HalfLine (fun s => s * f s) 1.
(** [c] is a distribution function on the half line: zero up to 0, monotone, tending to one. *)
Definition Distribution (c : R -> R) : Prop :=
  (forall s, s <= 0 -> c s = 0) /\ (forall s t, s <= t -> c s <= c t) /\ (forall s, 0 <= c s < 1) /\ is_lim c p_infty 1.
