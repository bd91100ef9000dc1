(** Specification vocabulary for the exact spectral rigidity (README.md:77); independent of the model. *)
From Coq Require Import List ZArith Reals.
From Coquelicot Require Import Coquelicot.
From Verif Require Import Base S_Order.
Local Open Scope R_scope.

(** [d] is the mean, over the window of length L centred at c, of the squared distance between the number of levels up to x and the line A x + B. *)
Definition MeanSqDev (u : list R) (c L A B d : R) : Prop :=
  is_RInt (fun x => (IZR (CountLe u x) - (A * x + B)) ^ 2) (c - L / 2) (c + L / 2) (L * d).
(** [e] is the least of these over all lines. *)
Definition ExactRigidity (u : list R) (c L e : R) : Prop :=
  (exists A B, MeanSqDev u c L A B e) /\ forall A B d, MeanSqDev u c L A B d -> e <= d.
