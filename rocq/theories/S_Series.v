(** Specification vocabulary for time-series eigenvalues; independent of the model. *)
From Coq Require Import List ZArith Bool Reals.
From Verif Require Import Base.
Import ListNotations.

(** [Keeps P l k]: [k] is what is left of [l], in order, when exactly the members violating [P] are removed. *)
Inductive Keeps {A} (P : A -> Prop) : list A -> list A -> Prop :=
| Keeps_nil : Keeps P [] []
| Keeps_yes x l k : P x -> Keeps P l k -> Keeps P (x :: l) (x :: k)
| Keeps_no x l k : ~ P x -> Keeps P l k -> Keeps P (x :: l) k.

(** [m] is the largest / smallest member of [l]. *)
Definition Largest (l : list R) (m : R) : Prop := In m l /\ forall x, In x l -> (x <= m)%R.
Definition Smallest (l : list R) (m : R) : Prop := In m l /\ forall x, In x l -> (m <= x)%R.

(** Edges of the Marchenko-Pastur bulk for [n] series of length [t], scaled by [s]. *)
Definition MPLower (s : R) (n t : Z) : R := (s * ((1 - sqrt (IZR n / IZR t)) * (1 - sqrt (IZR n / IZR t))))%R.
Definition MPUpper (s : R) (n t : Z) : R := (s * ((1 + sqrt (IZR n / IZR t)) * (1 + sqrt (IZR n / IZR t))))%R.

(** The documented zero thresholds of [from_time_series]: what a value must exceed to be kept. *)
Inductive zero_rule := RuleNegative | RuleFloat (z : R) | RuleHeuristic.
Definition Threshold (rule : zero_rule) (eigs : list R) (thr : R) : Prop :=
  match rule with
  | RuleNegative => thr = 0%R
  | RuleFloat z => thr = z
  | RuleHeuristic => exists m, Smallest eigs m /\ ((m <= 0 /\ thr = 100 * Rabs m) \/ (0 < m /\ thr = 0))%R
  end.

(** The eigenvalues of a 2 x 2 symmetric matrix with diagonal [p], [q] and off-diagonal [o]: the roots of its
    characteristic polynomial, in ascending order. *)
Definition Eigs2 (p q o : R) (l : list R) : Prop :=
  exists x y, l = [x; y] /\ (x <= y)%R /\ (x + y = p + q)%R /\ (x * y = p * q - o * o)%R.
