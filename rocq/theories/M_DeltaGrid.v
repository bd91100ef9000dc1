(** Model of _delta_grid in empyricalRMT/observables/rigidity.py, which nothing in the package calls. *)
From Coq Require Import List ZArith.
From Verif Require Import Base M_Step M_Quad.
Import ListNotations.

Section DeltaGrid.
Context {F : Type} {N : Num F}.
(** rigidity.py:309-320: [delta3s[i]] for each of the centres [starts]. *)
Fixpoint delta3s (use_simpson : bool) (gridsize : nat) (L : F) (unfolded : list F) (starts : list F) : outcome (list F) :=
  match starts with
  | [] => Done []
  | start :: t =>
      match d3_sample use_simpson gridsize L unfolded start with
      | Done d =>
          match delta3s use_simpson gridsize L unfolded t with
          | Done ds => Done (d :: ds)
          | OutOfBounds => OutOfBounds
          | Running => Running
          end
      | OutOfBounds => OutOfBounds
      | Running => Running
      end
  end.
(** rigidity.py:304-321 [_delta_grid]; [np.mean] of no values is 0/0. *)
Definition delta_grid (unfolded starts : list F) (L : F) (gridsize : nat) (use_simpson : bool) : outcome F :=
  match delta3s use_simpson gridsize L unfolded starts with
  | Done ds => Done (nmean ds)
  | OutOfBounds => OutOfBounds
  | Running => Running
  end.
End DeltaGrid.
