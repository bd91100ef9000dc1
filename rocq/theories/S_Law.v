(** Specification vocabulary for the law of large numbers of eigenvalues; independent of the model. *)
From Coq Require Import List Arith Reals.
From Coquelicot Require Import Coquelicot.
From Verif Require Import S_Normal S_Rotate.
Import ListNotations.
Local Open Scope R_scope.

(** The semicircle law of radius two ([sqrt] of a negative number is zero). *)
Definition semicircle (x : R) : R := sqrt (4 - x * x) / (2 * PI).
(** The number of elements below [t], with and without those equal to it. *)
Definition count_le (t : R) (lam : list R) : R := total (map (fun x => if Rle_dec x t then 1 else 0) lam).
Definition count_lt (t : R) (lam : list R) : R := total (map (fun x => if Rlt_dec x t then 1 else 0) lam).
(** The number of elements equal to [t]. *)
Definition count_eq (t : R) (lam : list R) : R := total (map (fun x => if Req_EM_T x t then 1 else 0) lam).
(** The average of [f] over k independent normal numbers, existing or not, lies between [lo] and [hi]: so do the averages of functions
    below and above it. *)
Definition AverageWithin (k : nat) (f : list R -> R) (lo hi : R) : Prop :=
  exists g h a b, (forall l, length l = k -> g l <= f l <= h l) /\ NormalAverage k g a /\ NormalAverage k h b /\ lo <= a /\ b <= hi.
