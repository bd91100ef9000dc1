(** Specification vocabulary for matrix generation; independent of the model. *)
From Coq Require Import List ZArith Bool Reals.
Import ListNotations.
Local Open Scope R_scope.

(** f(0) + ... + f(n-1). *)
Fixpoint SumTo (n : nat) (f : nat -> R) : R := match n with O => 0 | S m => SumTo m f + f m end.
(** Trace of the square of a real n x n matrix. *)
Definition TraceSq (n : nat) (m : nat -> nat -> R) : R := SumTo n (fun i => SumTo n (fun j => m i j * m j i)).
Definition Symmetric (n : nat) (m : nat -> nat -> R) : Prop := forall i j, (i < n)%nat -> (j < n)%nat -> m i j = m j i.
Definition Antisymmetric (n : nat) (m : nat -> nat -> R) : Prop := forall i j, (i < n)%nat -> (j < n)%nat -> m i j = - m j i.

(** An expectation operator on real random variables over [Omega]: linear. *)
Record Expectation {Omega : Type} (E : (Omega -> R) -> R) : Prop := {
  exp_ext : forall X Y, (forall w, X w = Y w) -> E X = E Y;
  exp_add : forall X Y, E (fun w => X w + Y w) = E X + E Y;
  exp_scale : forall c X, E (fun w => c * X w) = c * E X
}.

(** States reachable from [st] by drawing random numbers (no reseeding). *)
Section Advance.
Context {St F : Type} (standard_normal normal_sqrt2 : nat -> St -> list F * St) (chisquare : list Z -> St -> list F * St).
Inductive Advances : St -> St -> Prop :=
| Adv_refl st : Advances st st
| Adv_normal st k st' : Advances (snd (standard_normal k st)) st' -> Advances st st'
| Adv_normal2 st k st' : Advances (snd (normal_sqrt2 k st)) st' -> Advances st st'
| Adv_chi st l st' : Advances (snd (chisquare l st)) st' -> Advances st st'.
End Advance.
