(** Model of the time-series parts of empyricalRMT/eigenvalues.py: [from_correlations],
    [from_time_series], [trim_marchenko_pastur].  The matrices of cov / corrcoef / the transpose trick are modelled
    in M_Corr.v; here the eigensolvers are external calls. *)
From Coq Require Import List ZArith Bool.
From Verif Require Import Base M_EigVals.
Import ListNotations.
Local Open Scope Z_scope.

Section Series.
Context {F : Type} {N : Num F}.
(** [np.sqrt]. *)
Variable nsqrt : F -> F.

Definition nsq (x : F) : F := nmul x x.

(** [a.max()] / [a.min()]: ValueError on an empty array. *)
Definition arr_max (l : list F) : result F := match l with [] => Raise ValueError | h :: t => Ok (nmax h t) end.
Definition arr_min (l : list F) : result F := match l with [] => Raise ValueError | h :: t => Ok (nmin h t) end.

(** eigenvalues.py:488-584 [trim_marchenko_pastur].  [selfN], [selfT] are the stored [_series_N], [_series_T].
    [N / T] with the Python int [T = 0] raises ZeroDivisionError ([GenericException] here); [eig_max / N] with
    [N = 0] is a NumPy division (no exception).  [Trimmed(..)] re-sorts.  [x ** 2] is [x * x]. *)
Definition trim_marchenko_pastur (vals : list F) (selfN selfT n_series series_length : option Z)
    (largest use_shifted : bool) : result (list F * (F * F)) :=
  let n' := match n_series with None => selfN | Some _ => n_series end in
  let t' := match series_length with None => selfT | Some _ => series_length end in
  match n', t' with
  | Some n, Some t =>
      let! eig_max := arr_max vals in
      if t =? 0 then Raise GenericException else
      let r := nsqrt (ndiv (nofZ n) (nofZ t)) in
      let '(trim_min, trim_max) :=
        if use_shifted then
          let shift := nsub n1 (ndiv eig_max (nofZ n)) in
          (nmul shift (nsq (nsub n1 r)), nmul shift (nsq (nadd n1 r)))
        else (nsq (nsub n1 r), nsq (nadd n1 r)) in
      if largest then Ok (np_sort (filter (fun v => ngt v trim_max) vals), (trim_min, trim_max))
      else Ok (np_sort (filter (fun v => ngt v trim_min && nlt v trim_max) vals), (trim_min, trim_max))
  | _, _ => Raise ValueError
  end.

(** The [zeros] argument of [from_time_series]: the two recognised strings, anything [float()] accepts, a string
    [float()] rejects with ValueError, an object [float()] rejects with TypeError. *)
Inductive zeros_arg := ZHeuristic | ZNegative | ZFloat (z : F) | ZBadString | ZBadObject.

(** eigenvalues.py:259-275, the zero trimming. *)
Definition zero_trim (trim_zeros : bool) (zeros : zeros_arg) (eigs : list F) : result (list F) :=
  if negb trim_zeros then Ok eigs else
  match zeros with
  | ZHeuristic =>
      let! e_min := arr_min eigs in
      let minval := if nle e_min n0 then nmul (nofZ (-100)) e_min else n0 in
      Ok (filter (fun e => ngt e minval) eigs)
  | ZNegative => Ok (filter (fun e => ngt e n0) eigs)
  | ZFloat z => Ok (filter (fun e => ngt e z) eigs)
  | ZBadString => Raise ValueError
  | ZBadObject => Raise TypeError
  end.

(** What [from_time_series] returns: the values and the stored attributes. *)
Record tsobj := mkts { ts_vals : list F; ts_N : nat; ts_T : nat; ts_mp : F * F; ts_mp_shifted : F * F }.

(** [data.T] of a 2-D array with shape [r; c]. *)
Definition transpose2 (r c : nat) (d : list F) : list F :=
  flat_map (fun j => map (fun i => nth (i * c + j) d n0) (seq 0 r)) (seq 0 c).

Section Solvers.
(** Eigenvalues of the N x N matrix built by lines 243-255 (dense or sparse solver; it may raise), and of the
    T x T matrix of [_eigs_via_transpose] (880-970); arguments: rows, columns, data, covariance flag. *)
Variable direct_eigs transposed_eigs : nat -> nat -> list F -> bool -> result (list F).

(** eigenvalues.py:174-286 [from_time_series]. *)
Definition from_time_series (a : ndarray F) (covariance trim_zeros : bool) (zeros : zeros_arg) (time_axis : Z) : result tsobj :=
  match shape a with
  | [r; c] =>
      if negb ((time_axis =? 0) || (time_axis =? 1)) then Raise ValueError else
      let '(nN, nT, d) := if time_axis =? 0 then (c, r, transpose2 r c (data a)) else (r, c, data a) in
      let! eigs := (if Nat.leb nN nT then direct_eigs nN nT d covariance else transposed_eigs nN nT d covariance) in
      let! eigs := zero_trim trim_zeros zeros eigs in
      let! emax := arr_max eigs in
      let shift := nsub n1 (ndiv emax (nofZ (Z.of_nat nN))) in
      if Nat.eqb nT 0 then Raise GenericException else
      let r := nsqrt (ndiv (nofZ (Z.of_nat nN)) (nofZ (Z.of_nat nT))) in
      Ok (mkts (np_sort eigs) nN nT
            (nsq (nsub n1 r), nsq (nadd n1 r))
            (nmul shift (nsq (nadd n1 r)), nmul shift (nsq (nsub n1 r))))
  | _ => Raise ValueError
  end.
End Solvers.

(** eigenvalues.py:135-169 [from_correlations].  The eigenvalues computed on line 167 (external call, may raise) are
    overwritten by line 168. *)
Definition from_correlations (eigvalsh : ndarray F -> result (list F)) (a : ndarray F) (atol : F) : result (list F) :=
  match shape a with
  | _ :: _ :: _ :: _ => Raise ValueError
  | s =>
      let! _ := (match s with
                 | [r; c] => if Nat.ltb 1 (Nat.min r c) then eigvalsh a else Ok []
                 | _ => Ok []
                 end) in
      Ok (np_sort (filter (fun e => nlt (nabs e) atol) (data a)))
  end.
End Series.
Arguments zeros_arg : clear implicits.
Arguments tsobj : clear implicits.
