(** Model of the remaining generators of empyricalRMT/construct.py: [goe_unfolded], [correlated_eigs],
    [_generate_GOE_tridiagonal_direct].  Exact arithmetic. *)
From Coq Require Import String List ZArith Bool Arith Reals.
From Verif Require Import Base M_Generate M_Analytic.
Import ListNotations.
Local Open Scope R_scope.
Local Notation length := List.length.

Section Construct.
Variable St : Type.
Variable standard_normal normal_sqrt2 : nat -> St -> list R * St.
Variable chisquare : list Z -> St -> list R * St.
Variable eigvalsh : nat -> (nat -> nat -> R) -> (nat -> nat -> R) -> result (list R).

(** construct.py:16-58 [goe_unfolded]: the original (sorted by [EigVals.__init__]) and the unfolded values, and the random state left
    behind.  [scipy.sparse.diags] refuses the empty diagonals of [matsize = 0] with ValueError.  [smooth_goe] is eigenvalues.py's, which
    repeats the lines 36-49 here with [N = matsize]. *)
Definition goe_unfolded (matsize : nat) (st : St) : result (list R * list R) * St :=
  let '(chi, st1) := chisquare (chi_range matsize) st in
  let '(d, st2) := normal_sqrt2 matsize st1 in
  (if Nat.eqb matsize 0 then Raise ValueError
   else
     let! eigs := eigvalsh matsize (goe_tridiagonal sqrt chi d) (fun _ _ => 0) in
     match eigs with
     | [] => Raise ValueError
     | _ => Ok (np_sort eigs, np_sort (map (smooth_goe matsize) eigs))
     end, st2).

(** scipy.linalg.eigvalsh_tridiagonal(d, e): all eigenvalues, ascending. *)
Variable eigvalsh_tridiagonal : list R -> list R -> list R.

(** construct.py:206-209: the diagonal and off-diagonal of [_generate_GOE_tridiagonal_direct]. *)
Definition direct_diagonal (normals : list R) : list R := map (fun x => x / sqrt 2) normals.
Definition direct_off (chisq : list R) : list R := map sqrt chisq.
(** construct.py:187-219 [_generate_GOE_tridiagonal_direct], after seeding: [select_range=(1, size - 2)] are the indices, both included,
    of the eigenvalues returned; LAPACK's stebz refuses the inverted range (1, 0) of [size = 0]. *)
Definition goe_tridiagonal_direct (size : nat) (st : St) : result (list R) * St :=
  let size := (size + 2)%nat in
  let '(chi, st1) := chisquare (chi_range size) st in
  let '(d, st2) := normal_sqrt2 size st1 in
  (if Nat.ltb (size - 2) 1 then Raise ValueError
   else
     let all := eigvalsh_tridiagonal (direct_diagonal d) (direct_off chi) in
     Ok (firstn ((size - 2) + 1 - 1) (skipn 1 all)), st2).
End Construct.

(** construct.py:77-78, one pass of the loop of [correlated_eigs]: the sign, the factor and the noise drawn for a row. *)
Record rowdraw := mkdraw { r_sign : R; r_scale : R; r_noise : list R }.
Definition new_row (d : rowdraw) (row0 : list R) : list R := map (fun p => r_sign d * r_scale d * (fst p + snd p)) (combine row0 (r_noise d)).
Fixpoint correlate_rows (A : list (list R)) (idx : list nat) (draws : nat -> rowdraw) (k : nat) : list (list R) :=
  match idx with
  | [] => A
  | i :: idx' => correlate_rows (set_nth A i (new_row (draws k) (nth 0 A []))) idx' draws (S k)
  end.

(** construct.py:69-78, [correlated_eigs] up to the correlation matrix: [A] are the normal draws by rows, [perm] the random permutation of
    0 .. n-2, [draws] the random numbers of the loop.  The rows chosen and the array. *)
Definition correlated_rows (percent : R) (A : list (list R)) (perm : list nat) : list nat :=
  let correlated := map (fun i => (i + 1)%nat) perm in
  let last := Int_part (percent / 100 * INR (length A)) in
  py_slice correlated 0 last.
Definition correlated_array (percent : R) (A : list (list R)) (perm : list nat) (draws : nat -> rowdraw) : list (list R) :=
  correlate_rows A (correlated_rows percent A perm) draws 0.
