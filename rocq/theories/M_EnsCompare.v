(** Model of Unfolded.ensemble_compare, empyricalRMT/unfold.py:233-347, over exact reals. *)
From Coq Require Import String List ZArith Bool Arith Reals.
From Verif Require Import Base M_EigVals M_Quad M_Compare M_Ensemble.
Import ListNotations.
Local Notation length := List.length.
Local Open Scope string_scope.

Section EnsCompare.
Variable gamma : R -> R.
Variable euler_gamma : R.
(** The Gaussian kernel density estimate fitted to the first argument and evaluated at each entry of the second
    (unfold.py:866-873). *)
Variable kde : list R -> list R -> list R.
(** self.spectral_rigidity(L)["delta"] and self.level_variance(L)["sigma"]: one value per entry of L, or an exception. *)
Variable rigidity levelvar : list R -> result (list R).
(** The memory np.empty returns in Compare. *)
Variable junk : list R.

(** Position of a label. *)
Fixpoint position {A} (same : A -> bool) (l : list A) : option nat :=
  match l with [] => None | x :: t => if same x then Some 0 else option_map S (position same t) end.
(** res[column][row] of a DataFrame. *)
Definition cell (f : frame (F := R)) (column row : string) : result R :=
  match position (fun c => match c with Some s => String.eqb s column | None => false end) (f_columns f), position (String.eqb row) (f_index f) with
  | Some j, Some i => match nth_error (nth i (f_data f) []) j with Some x => Ok x | None => Raise KeyError end
  | _, _ => Raise KeyError
  end.

(** A 1-D array with the entries of a list. *)
Definition arr1 (l : list R) : ndarray R := mkarr [length l] l.

(** unfold.py:303-314, the local function [compare]. *)
Definition compare_one (expected curve : list R) (name metric : string) : result R :=
  let! comp := compare_init [arr1 curve] [name] (Some (arr1 expected)) (Some "exp") in
  let! res := if String.eqb metric "mad" then mean_abs_difference comp junk
              else if String.eqb metric "msqd" then mean_sq_difference comp junk
              else if String.eqb metric "corr" then correlate comp
              else Raise ValueError in
  cell res "exp" name.

(** unfold.py:320-321 and the three loops like it: the cells of one column that are assigned, in order. *)
Fixpoint fill (expected curve : list R) (name : string) (metrics : list string) : result (list (string * string * R)) :=
  match metrics with
  | [] => Ok []
  | m :: rest => let! v := compare_one expected curve name m in let! vs := fill expected curve name rest in Ok ((name, m, v) :: vs)
  end.

(** unfold.py:857-873 [__get_kde_values]; [vals] is the sorted array of unfolded values. *)
Definition get_kde_values (vals : list R) (lo hi : R) (nnnsd : bool) (gridsize : nat) : list R :=
  let spacings := if nnnsd then np_sort (map (fun p => nsub (fst p) (snd p)) (combine (skipn 2 vals) (firstn (length vals - 2) vals)))
                  else spacings vals in
  kde spacings (linspace lo hi gridsize).

Definition member (x : string) (l : list string) : bool := existsb (String.eqb x) l.

(** unfold.py:316-347, the observables in their fixed order; all other cells of the DataFrame stay empty. *)
Definition ensemble_compare (e : ensemble) (vals : list R) (observables metrics : list string) (lo hi : R) (gridsize : nat)
    (L_rigidity L_levelvar : list R) : result (list (string * string * R)) :=
  let! c1 := if member "nnsd" observables
             then fill (nnsd e lo hi gridsize None) (get_kde_values vals lo hi false gridsize) "nnsd" metrics else Ok [] in
  let! c2 := if member "nnnsd" observables
             then let! ex := nnnsd gamma e lo hi gridsize None in fill ex (get_kde_values vals lo hi true gridsize) "nnnsd" metrics else Ok [] in
  let! c3 := if member "rigidity" observables
             then let! r := rigidity L_rigidity in fill (spectral_rigidity euler_gamma e 2 50 100 (Some L_rigidity)) r "rigidity" metrics else Ok [] in
  let! c4 := if member "levelvar" observables
             then let! r := levelvar L_levelvar in fill (level_variance euler_gamma e 2 50 100 (Some L_levelvar)) r "levelvar" metrics else Ok [] in
  Ok (c1 ++ c2 ++ c3 ++ c4)%list.
End EnsCompare.
