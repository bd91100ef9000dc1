(** Specification vocabulary for averages over random window centres; independent of the model. *)
From Coq Require Import List Reals.
From Coquelicot Require Import Coquelicot.
Import ListNotations.
Local Open Scope R_scope.

(** [v] is the average of [f] over k independent numbers, each uniform in [0, 1]: an iterated integral over the unit cube. *)
Fixpoint IsAverage (k : nat) (f : list R -> R) (v : R) : Prop :=
  match k with
  | O => f [] = v
  | S k' => exists g, (forall t, IsAverage k' (fun l => f (t :: l)) (g t)) /\ is_RInt g 0 1 v
  end.

(** Measure of the centres in [lo, hi] whose window of length L holds x, and of those whose window holds both x and y. *)
Definition Reach1 (lo hi L x : R) : R := Rmin hi (x + L / 2) - Rmax lo (x - L / 2).
Definition Reach2 (lo hi L x y : R) : R := Rmax 0 (Rmin hi (Rmin x y + L / 2) - Rmax lo (Rmax x y - L / 2)).
(** Mean and mean square of the number of levels in a window with a uniform centre, and their variance. *)
Definition MeanCount (u : list R) (lo hi L : R) : R := fold_right Rplus 0 (map (Reach1 lo hi L) u) / (hi - lo).
Definition MeanSquare (u : list R) (lo hi L : R) : R :=
  fold_right Rplus 0 (map (fun x => fold_right Rplus 0 (map (Reach2 lo hi L x) u)) u) / (hi - lo).
Definition NumberVariance (u : list R) (lo hi L : R) : R := MeanSquare u lo hi L - MeanCount u lo hi L * MeanCount u lo hi L.
