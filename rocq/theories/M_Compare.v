(** Model of empyricalRMT/compare.py.  The result tables (pandas DataFrames) are rows of numbers with row and column names.
    [correlate] is modelled over the real numbers only (it takes square roots). *)
From Coq Require Import String List ZArith Bool Arith Reals.
From Verif Require Import Base M_Step M_EigVals.
Import ListNotations.
Local Notation length := List.length.

Section Compare.
Context {F : Type} {N : Num F}.

Record compare := mkcmp { c_curves : list (list F); c_labels : list string; c_base : option (list F); c_base_label : option string }.
Record frame := mkframe { f_index : list string; f_columns : list (option string); f_data : list (list F) }.

Fixpoint map_result {A B} (f : A -> result B) (l : list A) : result (list B) :=
  match l with [] => Ok [] | x :: t => let! y := f x in let! ys := map_result f t in Ok (y :: ys) end.

(** compare.py:168-188 [__validate_curve_lengths]. *)
Definition validate (c : compare) (check_all_equal : bool) : result unit :=
  let curves := c_curves c in
  if Nat.ltb (length curves) 1 then Raise ValueError
  else if Nat.eqb (length curves) 1 && (match c_base c with None => true | Some _ => false end) then Raise ValueError
  else if negb (Nat.eqb (length curves) (length (c_labels c))) then Raise ValueError
  else
    let len0 := length (nth 0 curves []) in
    let all_equal := forallb (fun k => Nat.eqb (length k) len0) curves in
    if check_all_equal then
      let! _ := match c_base c, c_base_label c with
                | Some b, Some _ => if negb (Nat.eqb len0 (length b)) then Raise ValueError else Ok tt
                | _, _ => Ok tt
                end in
      if negb all_equal then Raise ValueError else Ok tt
    else Ok tt.

(** compare.py:19-54 [Compare.__init__]. *)
Definition compare_init (curves : list (ndarray F)) (labels : list string) (base : option (ndarray F)) (base_label : option string) : result compare :=
  let! cs := map_result make_1d_array curves in
  let! b := match base with None => Ok None | Some a => let! x := make_1d_array a in Ok (Some x) end in
  let c := mkcmp cs labels b base_label in
  let! _ := validate c false in
  Ok c.

(** NumPy [a - b] of two 1-D arrays, with broadcasting of a length-one operand. *)
Definition np_minus (a b : list F) : result (list F) :=
  if Nat.eqb (length a) (length b) then Ok (map (fun p => nsub (fst p) (snd p)) (combine a b))
  else match a, b with
       | [x], _ => Ok (map (fun y => nsub x y) b)
       | _, [y] => Ok (map (fun x => nsub x y) a)
       | _, _ => Raise ValueError
       end.

Definition square (x : F) : F := nmul x x.

(** compare.py:109-127 [__fast_msqd] (with [square]) and [__fast_mad] (with [nabs]); rows of equal length. *)
Definition fast_table (g : F -> F) (curves : list (list F)) : list (list F) :=
  map (fun ci => map (fun cj => nmean (map g (map (fun p => nsub (fst p) (snd p)) (combine ci cj)))) curves) curves.

(** compare.py:80-84, 98-102, the loop over curves: it returns at the end of its first pass, and falls through ([None]) only
    without curves.  [diffs] holds the memory np.empty returned. *)
Definition base_loop (g : F -> F) (base : list F) (curves : list (list F)) (diffs : list F) : result (option (list F)) :=
  match curves with
  | [] => Ok None
  | c :: _ => let! d := np_minus base c in Ok (Some (set_nth diffs 0 (nmean (map g d))))
  end.

(** compare.py:70-86 [mean_sq_difference] and 88-104 [mean_abs_difference]; [junk] is uninitialised memory, one number per curve. *)
Definition difference (g : F -> F) (c : compare) (junk : list F) : result frame :=
  let! _ := validate c true in
  let! early := match c_base c with Some base => base_loop g base (c_curves c) junk | None => Ok None end in
  match early with
  | Some diffs => Ok (mkframe (c_labels c) [c_base_label c] (map (fun x => [x]) diffs))
  | None => Ok (mkframe (c_labels c) (map Some (c_labels c)) (fast_table g (c_curves c)))
  end.
Definition mean_sq_difference := difference square.
Definition mean_abs_difference := difference nabs.

(** compare.py:146-166 [__histograms], from sorted values and bin endpoints on: np.arange(n_bins) as initial counts and the two
    loops.  Returns the counts of one curve. *)
Fixpoint hist_loop (vals endpoints : list F) (n : nat) (counts : list Z) : result (list Z) :=
  match vals with
  | [] => Ok counts
  | v :: t =>
      match nth_error endpoints n with
      | None => Raise IndexError
      | Some e =>
          let '(n', counts') := if nlt v e then (n, set_nth counts n (nth n counts 0 + 1)%Z) else (S n, counts) in
          if Nat.leb (length counts) n' then Raise RuntimeError else hist_loop t endpoints n' counts'
      end
  end.
Definition hist_counts (vals endpoints : list F) (n_bins : nat) : result (list Z) :=
  hist_loop (np_sort vals) endpoints 0 (map Z.of_nat (seq 0 n_bins)).
End Compare.

(** ** Correlations, over the reals *)
Local Open Scope R_scope.
(** np.corrcoef of two rows: covariance over the two standard deviations (one after the other), clipped to [-1, 1]. *)
Definition cov1 (a b : list R) : R :=
  ndiv (nsum (map (fun p => nmul (fst p) (snd p)) (combine (map (fun x => nsub x (nmean a)) a) (map (fun x => nsub x (nmean b)) b))))
       (nsub (nlen a) n1).
Definition corr_raw (a b : list R) : R := ndiv (ndiv (cov1 a b) (sqrt (cov1 a a))) (sqrt (cov1 b b)).
Definition corrcoef (a b : list R) : R := nmin2 (nmax2 (corr_raw a b) (nopp n1)) n1.

(** compare.py:56-68 [correlate]; np.corrcoef(base, curves) concatenates the rows, so lengths must agree (ValueError otherwise). *)
Definition correlate (c : compare (F := R)) : result (frame (F := R)) :=
  let! _ := validate c true in
  match c_base c with
  | Some base =>
      if forallb (fun k => Nat.eqb (length k) (length base)) (c_curves c)
      then Ok (mkframe (c_labels c) [c_base_label c] (map (fun k => [corrcoef base k]) (c_curves c)))
      else Raise ValueError
  | None => Ok (mkframe (c_labels c) (map Some (c_labels c)) (map (fun ci => map (fun cj => corrcoef ci cj) (c_curves c)) (c_curves c)))
  end.
