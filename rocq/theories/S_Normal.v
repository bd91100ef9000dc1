(** Specification vocabulary for functions of independent standard normal numbers; independent of the model. *)
From Coq Require Import List Reals.
From Coquelicot Require Import Coquelicot.
Import ListNotations.
Local Open Scope R_scope.

Definition normal_density (x : R) : R := exp (- (x * x) / 2) / sqrt (2 * PI).
(** The integral of [f] over the whole line exists and is [v]. *)
Definition WholeLine (f : R -> R) (v : R) : Prop :=
  (forall a b, ex_RInt f a b) /\ (forall e, 0 < e -> exists M, forall a b, a <= - M -> M <= b -> Rabs (RInt f a b - v) < e).
(** [v] is the average of [f] over k independent standard normal numbers: an iterated integral over the space. *)
Fixpoint NormalAverage (k : nat) (f : list R -> R) (v : R) : Prop :=
  match k with
  | O => f [] = v
  | S k' => exists g, (forall x, NormalAverage k' (fun l => f (x :: l)) (g x)) /\ WholeLine (fun x => normal_density x * g x) v
  end.
(** One where the first number is at most the second, zero elsewhere: its average is the probability of [x <= y]. *)
Definition indicator_le (x y : R) : R := if Rle_dec x y then 1 else 0.
