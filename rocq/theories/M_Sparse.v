(** Model of the [use_sparse] branch of [Eigenvalues.from_time_series] (empyricalRMT/eigenvalues.py): which matrix is handed to which
    solver, and what becomes of the answer.  Same setting as M_Corr: exact arithmetic, [n] series of [t] points.  The solvers are
    external; only the matrix they receive and the form of their answer are modelled. *)
From Coq Require Import String.
From mathcomp Require Import all_ssreflect all_algebra.
From Verif Require Base.
From Verif Require Import M_Corr.
Set Implicit Arguments.
Unset Strict Implicit.
Unset Printing Implicit Defensive.
Import GRing.Theory Num.Theory.
Local Open Scope ring_scope.

Section Sparse.
Variables (R : rcfType) (n t : nat).
Implicit Type M : 'M[R]_(n, t).

(** [scipy.sparse.tril(A)]: the entries on and below the diagonal; all others are zero. *)
Definition tril m (A : 'M[R]_m) : 'M[R]_m := \matrix_(i, j) (if (j <= i)%N then A i j else 0).

(** A matrix together with the solver that receives it: np.linalg.eigvalsh or scipy.sparse.linalg.eigsh. *)
Inductive request :=
  | Eigvalsh_N of 'M[R]_n
  | Eigsh_N of 'M[R]_n
  | Eigvalsh_T of 'M[R]_t.

(** eigenvalues.py:243-257; the call of [_eigs_via_transpose] on line 257 passes neither [use_sparse] nor [sp_args]. *)
Definition solver_request (covariance use_sparse : bool) M : request :=
  if (n <= t)%N then
    let A := direct_matrix covariance M in
    if use_sparse then Eigsh_N (tril A) else Eigvalsh_N A
  else Eigvalsh_T (transposed_matrix covariance M).

(** The solvers: [eigvalsh] returns values; [eigsh] computes values and vectors and returns the pair unless told
    [return_eigenvectors=False]. *)
Variable eigvalsh : forall m, 'M[R]_m -> seq R.
Variable eigsh : forall m, 'M[R]_m -> seq R.

(** eigenvalues.py:245-257 with the keyword [return_eigenvectors] given or not (other keywords do not matter here).  [True] raises
    on line 247.  When it is not given, eigsh returns the pair of a (k,) and an (n, k) array, k < n, and [np.array] of that ragged
    pair raises ValueError (NumPy 1.24 and later). *)
Definition series_eigs (covariance use_sparse : bool) (return_eigenvectors : option bool) M : Base.result (seq R) :=
  match solver_request covariance use_sparse M with
  | Eigvalsh_N A => Base.Ok (eigvalsh A)
  | Eigvalsh_T A => Base.Ok (eigvalsh A)
  | Eigsh_N A =>
      match return_eigenvectors with
      | Some true => Base.Raise Base.ValueError
      | None => Base.Raise Base.ValueError
      | Some false => Base.Ok (eigsh A)
      end
  end.

(** construct.py:142-155 [time_series_eigs], for the data [M] that [standard_normal] draws on line 145; messages omitted.  For any other
    [dist] the variable of line 149 was never assigned. *)
Definition time_series_eigs (dist : string) M : Base.result (seq R) :=
  if String.eqb dist "normal"%string
  then Base.Ok (eigvalsh (correlate_fast 0 M)) else Base.Raise Base.UnboundLocalErr.
End Sparse.
