(** Model of empyricalRMT/trim.py (iterative outlier trimming, report, scores, selection) and of
    the manual trimming in empyricalRMT/eigenvalues.py. *)
From Coq Require Import List ZArith Bool.
From Verif Require Import Base M_EigVals.
Import ListNotations.
Local Open Scope Z_scope.

(** utils.py:114-119 [find_first]: [for i, val in enumerate(arr): if val == value: return i] then [-1].
    [eqb] is the element type's [==]. *)
Fixpoint find_from {A} (eqb : A -> A -> bool) (arr : list A) (v : A) (i : Z) : Z :=
  match arr with
  | [] => -1
  | x :: t => if eqb x v then i else find_from eqb t v (i + 1)
  end.
Definition find_first {A} (eqb : A -> A -> bool) (arr : list A) (v : A) : Z := find_from eqb arr v 0.

(** utils.py:122-128 [find_last]: the loop visits [j = len(arr) - i - 1]; [k] is the number of positions
    not yet visited. *)
Fixpoint find_last_loop {A} (eqb : A -> A -> bool) (arr : list A) (v : A) (k : nat) : Z :=
  match k with
  | O => -1
  | S j =>
      match nth_error arr j with
      | Some x => if eqb x v then Z.of_nat j else find_last_loop eqb arr v j
      | None => -1
      end
  end.
Definition find_last {A} (eqb : A -> A -> bool) (arr : list A) (v : A) : Z :=
  find_last_loop eqb arr v (length arr).

(** NumPy item assignment [l[i] = v], negative indices from the end. *)
Definition py_set {A} (l : list A) (i : Z) (v : A) : result (list A) :=
  let n := Z.of_nat (length l) in
  let j := if i <? 0 then n + i else i in
  if (j <? 0) || (n <=? j) then Raise IndexError else Ok (set_nth l (Z.to_nat j) v).

(** [for i in range(lo, lo + cnt): l[i] = False] (trim.py:774-775, 778-779). *)
Fixpoint clear_range (l : list bool) (lo : Z) (cnt : nat) : result (list bool) :=
  match cnt with
  | O => Ok l
  | S c => let! l' := py_set l lo false in clear_range l' (lo + 1) c
  end.

(** trim.py:762-783 [_get_outlier_labels], from the boolean labels of HBOS onwards ([true] = outlier). *)
Definition outlier_labels (lab : list bool) : result (list bool) :=
  let! l1 :=
    match py_get lab 0 with
    | None => Raise IndexError
    | Some true =>
        let start := find_first Bool.eqb lab false in
        clear_range lab start (Z.to_nat (Z.of_nat (length lab) - start))
    | Some false => Ok lab
    end in
  let! l2 :=
    match py_get l1 (-1) with
    | None => Raise IndexError
    | Some true => clear_range l1 0 (Z.to_nat (find_last Bool.eqb l1 false))
    | Some false => Ok l1
    end in
  match py_get l2 0, py_get l2 (-1) with
  | Some false, Some false => Ok (repeat false (length l2))
  | Some _, Some _ => Ok l2
  | _, _ => Raise IndexError
  end.

Section Iter.
Context {F : Type} {N : Num F}.
(** Oracles: [hbos id eigs] is what pyod's HBOS answers at the [id]-th iteration; [fit_all eigs] is
    [Smoother(eigs).fit_all(...)] (any data [U], or an exception). *)
Context {U : Type}.
Variable hbos : nat -> list F -> result (list bool).
Variable fit_all : list F -> result U.

(** trim.py:683-697 the fields of [TrimIter] used elsewhere; [ti_clusters] is [true] for "outlier". *)
Record trimiter := mkiter
  { ti_origs : list F; ti_eigs : list F; ti_id : nat; ti_clusters : list bool; ti_fits : U }.

(** trim.py:683-697 [TrimIter.__init__] *)
Definition new_iter (id : nat) (origs eigs : list F) : result trimiter :=
  let! lab := hbos id eigs in
  let! cl := outlier_labels lab in
  let! u := fit_all eigs in
  Ok (mkiter origs eigs id cl u).

(** trim.py:711-712 [proportion_removed] *)
Definition proportion_removed (t : trimiter) : F :=
  nsub n1 (ndiv (nlen (ti_eigs t)) (nlen (ti_origs t))).

(** trim.py:733-734 [inliers]: boolean-mask indexing. *)
Definition inliers (t : trimiter) : list F :=
  map fst (filter (fun p => negb (snd p)) (combine (ti_eigs t) (ti_clusters t))).

(** trim.py:736-737 [is_all_inliers] *)
Definition is_all_inliers (t : trimiter) : bool := forallb negb (ti_clusters t).

(** trim.py:739-742 [next_iter] *)
Definition next_iter (t : trimiter) : result trimiter := new_iter (S (ti_id t)) (ti_origs t) (inliers t).

(** trim.py:570-579, the [for] loop of [__get_trim_iters]: the iterations appended after [cur]. *)
Fixpoint trim_loop (k : nat) (max_trim : F) (cur : trimiter) : result (list trimiter) :=
  match k with
  | O => Ok []
  | S k' =>
      let! t := next_iter cur in
      if ngt (proportion_removed t) max_trim then Ok []
      else if is_all_inliers t then Ok [t]
      else let! rest := trim_loop k' max_trim t in Ok (t :: rest)
  end.

(** trim.py:229-241, 568-579: sort, then [__get_trim_iters] ([range] of a negative [max_iters] is empty). *)
Definition trim_iters (eigenvalues : list F) (max_trim : F) (max_iters : Z) : result (list trimiter) :=
  let s := np_sort eigenvalues in
  let! t0 := new_iter 0 s s in
  let! rest := trim_loop (Z.to_nat max_iters) max_trim t0 in
  Ok (t0 :: rest).

(** trim.py:726-730 [trim_indices] and 719-724 the two trim lengths; [eigs[0]] of an empty array raises IndexError. *)
Definition trim_indices (t : trimiter) : result (Z * Z) :=
  match py_get (ti_eigs t) 0, py_get (ti_eigs t) (-1) with
  | Some a, Some b => Ok (find_first neq (ti_origs t) a, find_last neq (ti_origs t) b)
  | _, _ => Raise IndexError
  end.

(** trim.py:714-716 [percent_removed]; [rnd] is [np.round(., 1)]. *)
Definition percent_removed (rnd : F -> F) (t : trimiter) : F :=
  rnd (nsub (nofZ 100) (ndiv (nmul (nofZ 100) (nlen (ti_eigs t))) (nlen (ti_origs t)))).
(** trim.py:718-720 [lower_percent_removed] *)
Definition lower_percent_removed (rnd : F -> F) (t : trimiter) : result F :=
  match py_get (ti_eigs t) 0 with
  | Some a => Ok (rnd (ndiv (nmul (nofZ 100) (nofZ (find_first neq (ti_origs t) a))) (nlen (ti_origs t))))
  | None => Raise IndexError
  end.
(** trim.py:722-724 [upper_percent_removed] *)
Definition upper_percent_removed (rnd : F -> F) (t : trimiter) : result F :=
  match py_get (ti_eigs t) (-1) with
  | Some b =>
      let up := Z.of_nat (length (ti_origs t)) - 1 - find_last neq (ti_origs t) b in
      Ok (rnd (ndiv (nmul (nofZ 100) (nofZ up)) (nlen (ti_origs t))))
  | None => Raise IndexError
  end.

(** trim.py:317-336 [use_trim_iteration]; [Trimmed(...)] stores the values re-sorted (_eigvals.py:24-34). *)
Definition use_trim_iteration (its : list trimiter) (i : Z) : result (list F) :=
  if Z.of_nat (length its) - 1 <? i then Raise ValueError
  else match py_get its i with
       | Some t => Ok (np_sort (ti_eigs t))
       | None => Raise IndexError
       end.
End Iter.
Arguments trimiter : clear implicits.

Section Score.
Context {F : Type} {N : Num F}.

(** np.var(l, ddof=1). *)
Definition nvar1 (l : list F) : F :=
  let m := nmean l in
  ndiv (nsum (map (fun x => nmul (nsub x m) (nsub x m)) l)) (nsub (nlen l) n1).

(** trim.py:662-676 [__evaluate_unfolding]; constants of _constants.py: EXPECTED_GOE_MEAN = 1.0,
    EXPECTED_GOE_VARIANCE = 0.286. *)
Definition goe_mean : F := n1.
Definition goe_variance : F := ndiv (nofZ 286) (nofZ 1000).
Definition evaluate_unfolding (unfolded : list F) : F * F * F :=
  let s := ndiff unfolded in
  let mean := nmean s in
  let var := nvar1 s in
  let mean_weight := ndiv n1 (nofZ 2) in
  let mean_norm := ndiv (nsub mean goe_mean) goe_mean in
  let var_norm := ndiv (nsub var goe_variance) goe_variance in
  (mean, var, nadd var_norm (nmul mean_weight mean_norm)).

(** trim.py:507-514 [_get_autounfold_vals], acting on the score columns of the summary (one list of
    per-row scores per smoother).  Simplified: float32 storage of the summary is ignored; the
    selected column is located by position rather than by regular expression (the same thing when smoother names are
    distinct); pandas' unstable [sort_values] is read as stable (it matters only for exactly equal means). *)
(** pandas [quantile(0.9)] with linear interpolation, NaNs skipped; [None] is NaN. *)
Definition quantile90 (col : list F) : option F :=
  let s := np_sort (filter (fun x => negb (isnan x)) col) in
  let h := 9 * (Z.of_nat (length s) - 1) in
  let lo := Z.to_nat (h / 10) in
  match nth_error s lo with
  | None => None
  | Some a =>
      let b := match nth_error s (S lo) with Some b => b | None => a end in
      Some (nadd a (nmul (nsub b a) (ndiv (nofZ (h mod 10)) (nofZ 10))))
  end.
(** [scores[scores < scores.quantile(0.9)].mean()] of one column; [None] is NaN. *)
Definition masked_mean (col : list F) : option F :=
  match quantile90 col with
  | None => None
  | Some q =>
      match filter (fun x => nlt x q) col with
      | [] => None
      | l => let m := nmean l in if isnan m then None else Some m
      end
  end.
(** Index of the first least non-NaN entry. *)
Fixpoint argmin_from (l : list (option F)) (i : nat) (best : option (nat * F)) : option (nat * F) :=
  match l with
  | [] => best
  | None :: t => argmin_from t (S i) best
  | Some x :: t =>
      match best with
      | None => argmin_from t (S i) (Some (i, x))
      | Some (j, b) => argmin_from t (S i) (if nlt x b then Some (i, x) else Some (j, b))
      end
  end.
Definition argmin (l : list (option F)) : option (nat * F) := argmin_from l 0 None.
(** [x] as an entry that pandas may skip. *)
Definition skipna (x : F) : option F := if isnan x then None else Some x.
(** [.sort_values()[:5].index[0]]: NaN means sort last, in the listed order. *)
Definition select_column (means : list (option F)) : result nat :=
  match means with
  | [] => Raise IndexError
  | _ => match argmin means with Some (j, _) => Ok j | None => Ok O end
  end.
(** The (row, column) whose trimmed and unfolded values are returned. *)
Definition autounfold_select (scores : list (list F)) : result (nat * nat) :=
  let cols := map (map nabs) scores in
  let! c := select_column (map masked_mean cols) in
  match nth_error cols c with
  | None => Raise KeyError
  | Some col =>
      match argmin (map skipna col) with
      | Some (r, _) => Ok (r, c)
      | None => Raise ValueError
      end
  end.

(** pandas [Series.item()]: only a one-element Series has an item. *)
Definition series_item (l : list F) : result F :=
  match l with [x] => Ok x | _ => Raise ValueError end.

End Score.

(** smoother.py:27-39 [SmoothMethod]; a plain [Enum], so a member never equals a string. *)
Inductive smooth_arg :=
| SMPoly | SMSpline | SMGompertz | SMExponential | SMGoe | SMPoisson
| SMStrPoly | SMStrSpline | SMStrGompertz | SMStrOther.

(** eigenvalues.py:586-589 [trim_manually]; [Trimmed] re-sorts what it is given. *)
Definition trim_manually {F} {N : Num F} (vals : list F) (a b : Z) : list F := np_sort (py_slice vals a b).
