(** Specification vocabulary for signal cleaning and detrending; independent of the model. *)
From Coq Require Import List ZArith Reals Arith.
From Verif Require Import Base S_EigVals S_Trim.
Import ListNotations.
Local Open Scope R_scope.

(** Time points 0, 1, ..., n-1. *)
Definition Times (n : nat) : list R := map INR (seq 0 n).
(** Euclidean norm. *)
Definition Norm2 (l : list R) : R := sqrt (Rsum (map (fun x => x * x) l)).
(** Inner product. *)
Definition Dot (a b : list R) : R := Rsum (map (fun p => fst p * snd p) (combine a b)).
