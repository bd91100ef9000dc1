(** Specification vocabulary for the summary table: decimal notation and smoother names; independent of the model. *)
From Coq Require Import String Ascii List ZArith Bool Reals.
From Verif Require Import S_Trim.
Import ListNotations.
Local Open Scope nat_scope.

(** The characters of a string. *)
Fixpoint letters (s : string) : list ascii := match s with EmptyString => [] | String c t => c :: letters t end.
Definition DigitChar (c : ascii) : Prop := In c (letters "0123456789").

(** [s] is a number in fixed-point notation with exactly [k] digits after the point. *)
Definition Decimals (k : nat) (s : string) : Prop :=
  exists x y, s = (x ++ "." ++ y)%string /\ String.length y = k /\
    Forall (fun c => DigitChar c \/ c = "-"%char) (letters x) /\ Forall DigitChar (letters y).

(** The table with named columns [cols] holds [v] under [label] in row [row]. *)
Definition HasCell {F} (cols : list (string * list F)) (label : string) (row : nat) (v : F) : Prop :=
  exists k col, nth_error cols k = Some (label, col) /\ nth_error col row = Some v.

(** The score of unfolded values [u]: relative deviation of the spacing variance from 0.286 plus half the deviation of the mean
    spacing from 1. *)
Definition ScoreOf (u : list R) : R := ((Rvar1 (Gaps u) - 0.286) / 0.286 + (Rmean (Gaps u) - 1) / 2)%R.
