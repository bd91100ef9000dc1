(** Specification vocabulary for the sampling loops; independent of the model. *)
From Coq Require Import List ZArith Reals Arith.
From Verif Require Import Base S_EigVals S_Trim.
Import ListNotations.
Local Open Scope R_scope.

(** Number of values of [u] in the closed interval [lo, hi]. *)
Fixpoint CountIn (u : list R) (lo hi : R) : nat :=
  match u with
  | [] => 0
  | x :: t => (if Rle_dec lo x then if Rle_dec x hi then 1 else 0 else 0) + CountIn t lo hi
  end.

(** Population variance. *)
Definition PopVar (l : list R) : R := Rsum (map (fun x => (x - Rmean l) * (x - Rmean l)) l) / INR (length l).

(** Least and greatest value of a list. *)
Definition IsMin (l : list R) (m : R) : Prop := In m l /\ Forall (fun x => m <= x) l.
Definition IsMax (l : list R) (m : R) : Prop := In m l /\ Forall (fun x => x <= m) l.
