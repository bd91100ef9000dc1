(** Model of [Compare.__histograms] of empyricalRMT/compare.py, on top of the counting loop [hist_counts] of M_Compare.v. *)
From Coq Require Import List ZArith Bool.
From Verif Require Import Base M_Compare M_Quad.
Import ListNotations.
Local Open Scope Z_scope.

Section Hist.
Context {F : Type} {N : Num F}.

(** compare.py:129-166 [__histograms].  [vals[0]], [vals[-1]] of an empty array: IndexError.  np.linspace with a negative number
    of points: ValueError.  np.arange of a negative number is empty.  [min(a, b)], [max(a, b)] of Python keep the first argument
    unless the second is smaller (larger).  The counts are NumPy integers, unbounded here. *)
Definition histograms (curve1 curve2 : list F) (n_bins : Z) : result (list F * list Z * list Z) :=
  let vals1 := np_sort curve1 in
  let vals2 := np_sort curve2 in
  match head_opt vals1, head_opt vals2, last_opt vals1, last_opt vals2 with
  | Some a1, Some a2, Some b1, Some b2 =>
      if n_bins + 1 <? 0 then Raise ValueError else
      let endpoints := linspace (nmin2 a1 a2) (nmax2 b1 b2) (Z.to_nat (n_bins + 1)) in
      let! counts1 := hist_counts curve1 endpoints (Z.to_nat n_bins) in
      let! counts2 := hist_counts curve2 endpoints (Z.to_nat n_bins) in
      Ok (endpoints, counts1, counts2)
  | _, _, _, _ => Raise IndexError
  end.
End Hist.
