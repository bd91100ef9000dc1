(** Specification vocabulary for counts of independent levels; independent of the model. *)
From Coq Require Import List Reals Arith.
Import ListNotations.
Local Open Scope R_scope.

(** Pascal's triangle. *)
Fixpoint Choose (n k : nat) : nat :=
  match n, k with
  | _, O => 1
  | O, S _ => 0
  | S n', S k' => Choose n' k' + Choose n' k
  end.
(** The binomial law: the probability of j successes in n independent trials of probability p. *)
Definition Binomial (n : nat) (p : R) (j : nat) : R := INR (Choose n j) * p ^ j * (1 - p) ^ (n - j).
(** One if the condition holds, else zero: averages of it are probabilities. *)
Definition Indicator (b : bool) : R := if b then 1 else 0.
