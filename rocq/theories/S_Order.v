(** Specification vocabulary for order-only properties.  Independent of the model
    files: only the IEEE comparison operations of [Num] appear. *)
From Coq Require Import List ZArith Bool Sorting.Sorted Sorting.Permutation.
From Verif Require Import Base.
Import ListNotations.

(** What IEEE comparisons satisfy: on non-NaN values [<=] is a total preorder with [<] and
    [==] derived from it; any comparison with a NaN is false. *)
Class OrdLaws (F : Type) (N : Num F) : Prop := {
  ol_total : forall x y, isnan x = false -> isnan y = false -> nle x y = true \/ nle y x = true;
  ol_trans : forall x y z, nle x y = true -> nle y z = true -> nle x z = true;
  ol_lt : forall x y, isnan x = false -> isnan y = false -> nlt x y = negb (nle y x);
  ol_eq : forall x y, isnan x = false -> isnan y = false -> neq x y = nle x y && nle y x;
  ol_nan : forall x y, isnan x = true \/ isnan y = true ->
    nle x y = false /\ nlt x y = false /\ neq x y = false
}.

Section Spec.
Context {F : Type} {N : Num F}.

(** [x <= y] *)
Definition Le (x y : F) : Prop := nle x y = true.
Definition NotNaN (x : F) : Prop := isnan x = false.

(** Ascending array. *)
Definition Ascending (l : list F) : Prop := StronglySorted Le l.

(** Number of members of [l] that are <= [x]. *)
Fixpoint CountLe (l : list F) (x : F) : Z :=
  match l with
  | [] => 0
  | e :: t => (if nle e x then 1 else 0) + CountLe t x
  end%Z.
End Spec.
