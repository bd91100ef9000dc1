(** Model of the counting properties of [TrimIter] in empyricalRMT/trim.py. *)
From Coq Require Import List ZArith Bool.
From Verif Require Import Base M_EigVals M_Trim.
Import ListNotations.
Local Open Scope Z_scope.

Section Counts.
Context {F : Type} {N : Num F} {U : Type}.
(** trim.py:697-699 [inlier_length]: [np.count_nonzero(clusters == "inlier")]. *)
Definition inlier_length (t : trimiter F U) : Z := Z.of_nat (length (filter negb (ti_clusters t))).
(** trim.py:701-703 [outlier_length]. *)
Definition outlier_length (t : trimiter F U) : Z := Z.of_nat (length (filter (fun b => b) (ti_clusters t))).
(** trim.py:705-707 [proportion_kept]: [inlier_length / len(origs)]. *)
Definition proportion_kept (t : trimiter F U) : F := ndiv (nofZ (inlier_length t)) (nlen (ti_origs t)).
End Counts.
