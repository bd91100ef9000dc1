(** Specification vocabulary for the Brody family; independent of the model. *)
From Coq Require Import String Ascii List Reals Arith.
From Verif Require Import S_Ensemble.
Import ListNotations.
Local Open Scope R_scope.

(** t^y for t > 0, extended by zero. *)
Definition PosPow (y t : R) : R := if Rlt_dec 0 t then Rpower t y else 0.
(** Euler's integral: [gamma] is the Gamma function on (1, 2]. *)
Definition GammaFunction (gamma : R -> R) : Prop :=
  forall x, 1 < x <= 2 -> HalfLine (fun t => PosPow (x - 1) t * exp (- t)) (gamma x).

(** Two ASCII characters that differ at most in case. *)
Definition SameLetter (a b : ascii) : Prop :=
  let m := nat_of_ascii a in let n := nat_of_ascii b in
  m = n \/ (65 <= m <= 90 /\ n = m + 32)%nat \/ (65 <= n <= 90 /\ m = n + 32)%nat.
Fixpoint SameUpToCase (s t : string) : Prop :=
  match s, t with
  | EmptyString, EmptyString => True
  | String a s', String b t' => SameLetter a b /\ SameUpToCase s' t'
  | _, _ => False
  end.
