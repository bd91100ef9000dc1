(** Specification vocabulary: a random state that is a list of independent standard normal numbers still to come, and the draws from it;
    independent of the model.  A sample of NumPy's generator need not be computed in this way; only its joint distribution matters. *)
From Coq Require Import List ZArith Reals.
From Verif Require Import S_Rotate.
Import ListNotations.
Local Open Scope R_scope.

(** [k] standard normal numbers. *)
Definition tape_normal (k : nat) (t : list R) : list R * list R := (firstn k t, skipn k t).
(** [k] normal numbers with standard deviation sqrt 2. *)
Definition tape_normal2 (k : nat) (t : list R) : list R * list R := (map (Rmult (sqrt 2)) (firstn k t), skipn k t).
(** One chi-square number for each of the degrees of freedom. *)
Definition tape_chi (ks : list Z) (t : list R) : list R * list R :=
  (chi_squares (map Z.to_nat ks) t, skipn (fold_right Nat.add O (map Z.to_nat ks)) t).
