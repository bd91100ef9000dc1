(** What a histogram is, and where the counting loop of [Compare.__histograms] moves from one bin to the next. *)
From Coq Require Import List ZArith Reals.
Import ListNotations.
Local Open Scope R_scope.

(** Number of values of a list in a set of reals. *)
Inductive Holds (P : R -> Prop) : list R -> nat -> Prop :=
| Holds_nil : Holds P [] 0
| Holds_yes x l k : P x -> Holds P l k -> Holds P (x :: l) (S k)
| Holds_no x l k : ~ P x -> Holds P l k -> Holds P (x :: l) k.

(** The [m] bins between [m + 1] endpoints: closed on the left, open on the right, the last one closed (np.histogram). *)
Definition InBin (e : nat -> R) (m i : nat) (v : R) : Prop := e i <= v /\ (v < e (S i) \/ (S i = m /\ v = e m)).
(** [c] are the bin counts of [vals]. *)
Definition BinCounts (e : nat -> R) (m : nat) (vals : list R) (c : list Z) : Prop :=
  length c = m /\ forall i, (i < m)%nat -> exists k, Holds (InBin e m i) vals k /\ nth i c 0%Z = Z.of_nat k.

(** The [i]-th of [m + 1] equally spaced points from [lo] to [hi]. *)
Definition Edge (lo hi : R) (m i : nat) : R := lo + INR i * ((hi - lo) / INR m).
(** [lo] and [hi] are the least and the greatest element. *)
Definition Least (lo : R) (l : list R) : Prop := In lo l /\ forall x, In x l -> lo <= x.
Definition Greatest (hi : R) (l : list R) : Prop := In hi l /\ forall x, In x l -> x <= hi.

(** With [B i] values below endpoint [i]: the position, in ascending order, of the value at which the loop leaves bin [i].  It is the
    first value not below the endpoint that comes after the value at which the loop left bin [i - 1]. *)
Fixpoint Leaves (B : nat -> nat) (i : nat) : nat := match i with O => B O | S i' => Nat.max (S (Leaves B i')) (B (S i')) end.
(** What the loop adds to bin [i], of [n] values: those strictly between the two leaving positions. *)
Definition Gain (B : nat -> nat) (n i : nat) : nat :=
  Nat.min n (Leaves B i) - match i with O => 0 | S i' => Nat.min n (S (Leaves B i')) end.
