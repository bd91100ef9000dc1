(** Specification vocabulary for fourth powers of eigenvalues; independent of the model. *)
From Coq Require Import List Reals.
From Verif Require Import S_Rotate.
Local Open Scope R_scope.

(** The sum of the fourth powers of a list. *)
Definition fourths (l : list R) : R := total (map (fun x => x ^ 4) l).
