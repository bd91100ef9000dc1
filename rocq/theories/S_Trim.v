(** Specification vocabulary for trimming; independent of the model. *)
From Coq Require Import List ZArith Bool Reals Sorting.Permutation Sorting.Sorted.
From Verif Require Import Base S_Order S_EigVals.
Import ListNotations.

(** [i] is the least / greatest position of [l] holding a value satisfying [P]. *)
Definition LeastIndex {A} (P : A -> bool) (l : list A) (i : nat) : Prop :=
  (exists x, nth_error l i = Some x /\ P x = true) /\
  forall j x, nth_error l j = Some x -> P x = true -> (i <= j)%nat.
Definition GreatestIndex {A} (P : A -> bool) (l : list A) (i : nat) : Prop :=
  (exists x, nth_error l i = Some x /\ P x = true) /\
  forall j x, nth_error l j = Some x -> P x = true -> (j <= i)%nat.
Definition Absent {A} (P : A -> bool) (l : list A) : Prop := forall x, In x l -> P x = false.

(** No two positions hold equal values. *)
Definition Distinct {F} {N : Num F} (l : list F) : Prop :=
  ForallOrdPairs (fun x y => neq x y = false /\ neq y x = false) l.

(** Marks on a sorted array that select one end: [p] marked values at the bottom (or top), at least one
    unmarked value. *)
Definition OneEnd (marks : list bool) : Prop :=
  exists p q, (0 < q)%nat /\ (marks = repeat true p ++ repeat false q \/ marks = repeat false q ++ repeat true p).

(** [b] is [a] with values removed at one end only. *)
Definition EndTrim {A} (a b : list A) : Prop := exists r, a = r ++ b \/ a = b ++ r.
(** [b] is a contiguous piece of [a]. *)
Definition Contiguous {A} (a b : list A) : Prop := exists p s, a = p ++ b ++ s.

(** ** Statistics over the reals *)
Definition Rmean (l : list R) : R := (Rsum l / INR (length l))%R.
(** Unbiased (n-1) variance. *)
Definition Rvar1 (l : list R) : R :=
  (Rsum (map (fun x => (x - Rmean l) * (x - Rmean l)) l) / (INR (length l) - 1))%R.
(** Successive differences. *)
Fixpoint Gaps (l : list R) : list R :=
  match l with x :: ((y :: _) as t) => (y - x)%R :: Gaps t | _ => [] end.

(** [q] is the 90th percentile of [l] with linear interpolation between order statistics. *)
Definition Percentile90 (l : list R) (q : R) : Prop :=
  exists s k t a b, Permutation l s /\ StronglySorted Rle s /\
    (0 <= t < 1)%R /\ (INR k + t = 0.9 * (INR (length l) - 1))%R /\
    nth_error s k = Some a /\ (nth_error s (S k) = Some b \/ (t = 0%R /\ b = a)) /\
    (q = a + t * (b - a))%R.
(** [m] is the average of the members of [l] strictly below its 90th percentile (there is at least one). *)
Definition MeanBelowP90 (l : list R) (m : R) : Prop :=
  exists q below above, Percentile90 l q /\ Permutation l (below ++ above) /\ below <> [] /\
    Forall (fun x => (x < q)%R) below /\ Forall (fun x => (q <= x)%R) above /\ m = Rmean below.

(** The position a Python slice bound [i] denotes in a sequence of length [n]. *)
Inductive SliceBound (n : Z) : Z -> Z -> Prop :=
| SBInside i : (0 <= i <= n)%Z -> SliceBound n i i
| SBAbove i : (n < i)%Z -> SliceBound n i n
| SBFromEnd i : (- n <= i < 0)%Z -> SliceBound n i (n + i)
| SBBelow i : (i < - n)%Z -> SliceBound n i 0.
