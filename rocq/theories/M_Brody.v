(** Model of empyricalRMT/brody.py and Unfolded.fit_brody over exact reals. *)
From Coq Require Import String Ascii List ZArith Bool Arith Reals.
From Verif Require Import Base M_EigVals M_Quad M_Compare M_Ensemble.
Import ListNotations.
Local Open Scope R_scope.
Local Notation length := List.length.

(** [str.lower] on ASCII; no other character lowers to a letter of the method names. *)
Definition lower_ascii (a : ascii) : ascii :=
  let n := nat_of_ascii a in if Nat.leb 65 n && Nat.leb n 90 then ascii_of_nat (n + 32) else a.
Fixpoint lower (s : string) : string :=
  match s with EmptyString => EmptyString | String a t => String (lower_ascii a) (lower t) end.

(** [s[s > 0]]. *)
Definition positives (s : list R) : list R := filter (fun x => nlt n0 x) s.

Section Brody.
Variable gamma : R -> R.
(** scipy.optimize.minimize_scalar(f, bounds=(lo, hi), method="Bounded"): the fields [success] and [x] of the result. *)
Variable minimize_scalar : (R -> R) -> R -> R -> bool * R.

(** brody.py:28-37 [log_brody].  With the pinned NumPy 1.23, np.sum of the ragged list [t1, t2, t3] adds the scalar and the
    two arrays, so the result is an array. *)
Definition log_brody (beta : R) (s : list R) : list R :=
  let b1 := beta + 1 in
  let alpha := brody_alpha gamma beta in
  let s := positives s in
  let t1 := ln (b1 * alpha) in
  let t2 := map (fun x => beta * ln x) s in
  let t3 := map (fun x => alpha * npow x b1) s in
  map (fun p => t1 + fst p + snd p) (combine t2 t3).

(** brody.py:74-75: the function minimised by [fit_brody_mle]. *)
Definition mle_objective (s : list R) (beta : R) : R := - nsum (map (brody_dist gamma beta) s).
(** brody.py:105-123: the function minimised by [fit_brody_max_spacing]. *)
Definition spacing_objective (s : list R) (beta : R) : R :=
  let n := (Z.of_nat (length s) - 1)%Z in
  let diffs := positives (ndiff (map (brody_cdf gamma beta) (np_sort s))) in
  - nsum (map ln diffs) / IZR (n + 1).
(** brody.py:76-82, 124-130: run the optimizer, raise RuntimeError when it reports failure. *)
Definition optimize (f : R -> R) : result R :=
  let (success, x) := minimize_scalar f (1 / 100000) (1 - 1 / 100000) in
  if success then Ok x else Raise RuntimeError.
(** brody.py:40-58 [fit_brody]. *)
Definition fit_brody (s : list R) (method : string) : result R :=
  let method := lower method in
  if String.eqb method "spacing" || String.eqb method "spacings" then optimize (spacing_objective s)
  else if String.eqb method "mle" then optimize (mle_objective s)
  else Raise ValueError.

(** brody.py:146-153: the returned frame; scalar columns kept as scalars. *)
Record fit := mkfit { f_beta : R; f_mad : R; f_msqd : R; f_spacings : list R; f_ecdf : list R; f_cdf : list R }.
(** brody.py:133-153 [brody_fit_evaluate].  statsmodels' ECDF holds the sorted sample and linspace(1/n, 1, n), each behind one
    artificial entry that the slices drop; an empty sample makes it divide by zero (ZeroDivisionError). *)
Definition brody_fit_evaluate (s : list R) (method : string) : result fit :=
  let! beta := fit_brody s method in
  let n := length s in
  if Nat.eqb n 0 then Raise GenericException
  else
    let ecdf_x := np_sort s in
    let ecdf_y := linspace (1 / INR n) 1 n in
    let bcdf := map (brody_cdf gamma beta) ecdf_x in
    let dev := map (fun p => fst p - snd p) (combine ecdf_y bcdf) in
    let mad := nmean (map Rabs dev) in
    let msqd := nmean (map square dev) in
    Ok (mkfit beta mad msqd ecdf_x ecdf_y bcdf).

(** unfold.py:199-201 [Unfolded.fit_brody], from the spacings. *)
Definition unfolded_fit_brody (spacings : list R) (method : string) : result fit :=
  brody_fit_evaluate (positives spacings) method.
End Brody.
