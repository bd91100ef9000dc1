(** Specification vocabulary for calls by keyword and for a row of stripes; independent of the model. *)
From Coq Require Import String List Reals.
Import ListNotations.

(** The value passed under a name, if any. *)
Fixpoint Passed {V : Type} (kw : list (string * V)) (p : string) : option V :=
  match kw with [] => None | (k, v) :: t => if string_dec k p then Some v else Passed t p end.

(** Consecutive intervals, given as (left end, width), that start at [a], touch, and end at [b]. *)
Fixpoint Tiles (a b : R) (l : list (R * R)) : Prop :=
  match l with [] => a = b | (x, w) :: t => x = a /\ Tiles (a + w)%R b t end.

(** A call with positional arguments and keywords that Python accepts for the parameters [names]. *)
Definition LegalCall {V : Type} (names : list string) (pos : list V) (kw : list (string * V)) : Prop :=
  (length pos <= length names)%nat /\ NoDup (map fst kw) /\ incl (map fst kw) (skipn (length pos) names).
(** What the i-th parameter receives. *)
Definition Received {V : Type} (pos : list V) (kw : list (string * V)) (i : nat) (p : string) : option V :=
  match nth_error pos i with Some v => Some v | None => Passed kw p end.
