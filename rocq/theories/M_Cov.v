(** Executable model of the matrices of [Eigenvalues.from_time_series] with their NumPy shapes: [np.cov] with its final
    [squeeze], empyricalRMT/correlater.py and the dense branch of [_eigs_via_transpose].  M_Corr.v has the same matrices as
    mathcomp matrices; here arrays are shape and flat data, so that what happens with one series or one time point is visible. *)
From Coq Require Import List ZArith Bool.
From Verif Require Import Base M_EigVals M_Series.
Import ListNotations.
Local Open Scope Z_scope.

Section Cov.
Context {F : Type} {N : Num F}.
(** [np.sqrt]. *)
Variable nsqrt : F -> F.

(** Row [i] of a 2-D array with [c] columns. *)
Definition row (c i : nat) (d : list F) : list F := map (fun k => nth (i * c + k) d n0) (seq 0 c).
(** [np.sum]; NumPy's pairwise order of summation is replaced by left to right. *)
Definition total (l : list F) : F := fold_left nadd l n0.
(** [u @ v] of two 1-D arrays of the same length. *)
Definition dot (u v : list F) : F := total (map (fun p => nmul (fst p) (snd p)) (combine u v)).
(** One row minus its mean: [X - np.mean(X, axis=1, keepdims=True)] (inside np.cov; eigenvalues.py:953). *)
Definition centred (c i : nat) (d : list F) : list F :=
  let x := row c i d in let m := ndiv (total x) (nofZ (Z.of_nat c)) in map (fun v => nsub v m) x.

(** [np.cov(data, ddof)] for 2-D [data] (numpy/lib/function_base.py): no rows give an empty 2-D array; otherwise
    [fact = max(T - ddof, 0)], [c = (X @ X.T) * (1 / fact)] and [c.squeeze()], which makes the 1 x 1 array of a single row 0-dimensional. *)
Definition np_cov (r c : nat) (ddof : Z) (d : list F) : ndarray F :=
  if Nat.eqb r 0 then mkarr [0%nat; 0%nat] [] else
  let w := ndiv n1 (nofZ (Z.max (Z.of_nat c - ddof) 0)) in
  let m := flat_map (fun i => map (fun j => nmul (dot (centred c i d) (centred c j d)) w) (seq 0 r)) (seq 0 r) in
  mkarr (if Nat.eqb r 1 then [] else [r; r]) m.

(** [np.clip(x, -1, 1)]. *)
Definition clip1 (x : F) : F := nmin2 (nmax2 x (nofZ (-1))) n1.

(** correlater.py:8-17 [correlate_fast].  [np.diag] (line 12) raises ValueError unless its argument has 1 or 2 dimensions. *)
Definition correlate_fast (r c : nat) (ddof : Z) (d : list F) : result (ndarray F) :=
  let m := np_cov r c ddof d in
  match shape m with
  | [n; _] =>
      let sd i := nsqrt (nth (i * n + i) (data m) n0) in
      Ok (mkarr (shape m)
            (flat_map (fun i => map (fun j => clip1 (ndiv (ndiv (nth (i * n + j) (data m) n0) (sd i)) (sd j))) (seq 0 n)) (seq 0 n)))
  | _ => Raise ValueError
  end.

(** [np.linalg.eigvalsh]. *)
Variable eigvalsh : ndarray F -> result (list F).

(** eigenvalues.py:244, 255: N <= T, dense solver. *)
Definition direct_eigs (r c : nat) (d : list F) (covariance : bool) : result (list F) :=
  let! m := (if covariance then Ok (np_cov r c 1 d) else correlate_fast r c 1 d) in
  eigvalsh m.

(** [np.std(M, axis=1, ddof=1)] of one row. *)
Definition std1 (c i : nat) (d : list F) : F :=
  let x := centred c i d in nsqrt (ndiv (dot x x) (nofZ (Z.of_nat c - 1))).

(** eigenvalues.py:949-956, 968 [_eigs_via_transpose] without [use_sparse]; [1 / (T - 1)] is a division of Python ints and raises
    ZeroDivisionError ([GenericException]) for T = 1. *)
Definition transposed_eigs (r c : nat) (d : list F) (covariance : bool) : result (list F) :=
  if Nat.leb r c then Raise ValueError else
  if Nat.eqb c 1 then Raise GenericException else
  let w := ndiv n1 (nofZ (Z.of_nat c - 1)) in
  let z i k := let v := nth k (centred c i d) n0 in if covariance then v else ndiv v (std1 c i d) in
  let column k := map (fun i => z i k) (seq 0 r) in
  let scaled l := map (fun i => nmul w (z i l)) (seq 0 r) in
  eigvalsh (mkarr [c; c] (flat_map (fun k => map (fun l => dot (column k) (scaled l)) (seq 0 c)) (seq 0 c))).

(** eigenvalues.py:173-286 [from_time_series] with [use_sparse=False]. *)
Definition series_object (a : ndarray F) (covariance trim_zeros : bool) (zeros : zeros_arg F) (time_axis : Z) : result (tsobj F) :=
  from_time_series nsqrt direct_eigs transposed_eigs a covariance trim_zeros zeros time_axis.
End Cov.
