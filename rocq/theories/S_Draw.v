(** Specification vocabulary for the figures; independent of the model. *)
From Coq Require Import List ZArith Bool Arith Reals.
From Coq Require Import Permutation Sorted.
From Coquelicot Require Import Coquelicot.
From Verif Require Import S_Trim.
Import ListNotations.
Local Open Scope R_scope.

(** The members of [l] that are at most [t] / positive, in order. *)
Definition AtMost (t : R) (l : list R) : list R := filter (fun x => if Rle_dec x t then true else false) l.
Definition Positive (l : list R) : list R := filter (fun x => if Rlt_dec 0 x then true else false) l.
(** Those at most [t], when [t] is positive; otherwise all. *)
Definition Kept (t : R) (l : list R) : list R := if Rlt_dec 0 t then AtMost t l else l.
(** The distances to the next-nearest neighbour above, and half of them. *)
Definition SecondGaps (l : list R) : list R := map (fun i => nth (i + 2) l 0 - nth i l 0) (seq 0 (length l - 2)).
Definition HalfSecondGaps (l : list R) : list R := map (fun i => (nth (i + 2) l 0 - nth i l 0) / 2) (seq 0 (length l - 2)).
(** The entries of [l] in the rows where [mask] is [b]. *)
Fixpoint Rows {A} (b : bool) (mask : list bool) (l : list A) : list A :=
  match mask, l with
  | m :: mask', x :: l' => if Bool.eqb m b then x :: Rows b mask' l' else Rows b mask' l'
  | _, _ => []
  end.

(** Number variance of the unitary and orthogonal ensembles in terms of the sine and cosine integrals (Mehta 2004, chapter 16). *)
Definition UnitaryVariance (Si Ci : R -> R) (g L : R) : R :=
  1 / PI ^ 2 * (ln (2 * PI * L) + g + 1 - cos (2 * PI * L) - Ci (2 * PI * L)) + L * (1 - 2 / PI * Si (2 * PI * L)).
Definition OrthogonalVariance (Si Ci : R -> R) (g L : R) : R :=
  2 * UnitaryVariance Si Ci g L + (Si (PI * L) / PI) ^ 2 - Si (PI * L) / PI.

(** [Si] has derivative sin x / x for x > 0 and tends to [v]. *)
Definition SineIntegral (Si : R -> R) (v : R) : Prop := (forall x, 0 < x -> is_derive Si x (sin x / x)) /\ is_lim Si p_infty v.
(** [q a] is the integral of (sin r / r)^2 over [a, infinity), for a > 0. *)
Definition SincSquareTail (q : R -> R) : Prop := forall a, 0 < a -> is_lim (fun b => RInt (fun r => (sin r / r) ^ 2) a b) p_infty (q a).

(** [m] is the 20% trimmed mean of [a]: a fifth of the values, rounded down, is left out at either end. *)
Definition TrimmedMean (a : list R) (m : R) : Prop :=
  exists low mid high, Permutation a (low ++ mid ++ high) /\ (forall x y, In x low -> In y mid -> x <= y) /\
    (forall x y, In x mid -> In y high -> x <= y) /\ length low = length high /\
    (5 * length low <= length a < 5 * (length low + 1))%nat /\ m = Rmean mid.
