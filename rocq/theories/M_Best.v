(** Model of empyricalRMT/trim.py [TrimReport.best_overall] and of empyricalRMT/eigenvalues.py [Eigenvalues.get_best_trimmed]. *)
From Coq Require Import String Ascii List ZArith Bool.
From Verif Require Import Base M_EigVals M_Trim M_Smooth M_Report.
Import ListNotations.
Local Open Scope Z_scope.
Local Notation length := List.length.

(** [text.replace(s, by)] for a non-empty [s]: occurrences from the left, not overlapping. *)
Fixpoint str_replace_from (s by_ text : string) (skip : nat) : string :=
  match text with
  | EmptyString => EmptyString
  | String c text' =>
      match skip with
      | S k => str_replace_from s by_ text' k
      | O => if starts_with s text then (by_ ++ str_replace_from s by_ text' (String.length s - 1))%string
             else String c (str_replace_from s by_ text' 0)
      end
  end.
Definition str_replace (s by_ text : string) : string := str_replace_from s by_ text 0.

Section Best.
Context {F : Type} {N : Num F}.
Variable rnd store : F -> F.
Notation iter := (trimiter F (list (@column F))).

(** pandas [Series.sort_values()]: ascending, NaN ([None]) last; read as stable (it matters only for equal values). *)
Definition sorts_before (b a : option F) : bool :=
  match b, a with Some x, Some y => nlt x y | Some _, None => true | None, _ => false end.
Fixpoint insert_value {A} (a : A * option F) (l : list (A * option F)) : list (A * option F) :=
  match l with
  | [] => [a]
  | b :: t => if sorts_before (snd b) (snd a) then b :: insert_value a t else a :: l
  end.
Definition sort_values {A} (l : list (A * option F)) : list (A * option F) := fold_right insert_value [] l.

(** [col.min()] and [row.mean()], NaN skipped. *)
Definition col_min (l : list F) : option F := option_map snd (argmin (map skipna l)).
Definition row_mean (l : list F) : option F :=
  match filter (fun x => negb (isnan x)) l with [] => None | l' => skipna (nmean l') end.

(** [df[labels]]: KeyError for a label that is not there, all columns of a label that is. *)
Fixpoint frame_cols (labels : list string) (cols : list (string * list F)) : result (list (string * list F)) :=
  match labels with
  | [] => Ok []
  | lab :: rest =>
      match filter (fun c => String.eqb (fst c) lab) cols with
      | [] => Raise KeyError
      | cs => let! r := frame_cols rest cols in Ok (cs ++ r)
      end
  end.
(** [list(arr).index(v)] *)
Definition list_index (l : list F) (v : F) : result Z :=
  let i := find_first neq l v in if i <? 0 then Raise ValueError else Ok i.
(** [df.iloc[r, :]] *)
Definition iloc_row (cols : list (string * list F)) (r : nat) : result (list F) :=
  for_each (fun c => match nth_error (snd c) r with Some v => Ok v | None => Raise IndexError end) cols.

(** trim.py:390-451 [best_overall].  Of what it returns, only [best_trim_indices] is kept here (the computations after line 440 raise
    nothing).  [.*score.*] and [score] find the same columns.  pandas' [iloc[x, :]] refuses a NaN position with ValueError. *)
Definition best_overall (f : @frame F) (its : list iter) (untrimmed : list F) : result (list (Z * Z)) :=
  let scores := map (fun c => (fst c, map nabs (snd c))) (df_filter "score" (f_cols f)) in
  let best_cols := firstn 3 (map fst (sort_values (map (fun c => (fst c, col_min (snd c))) scores))) in
  let! sel := frame_cols best_cols (f_cols f) in
  let best_rows := map (fun c => match argmin (map skipna (map nabs (snd c))) with
                                 | Some (r, _) => nth_error (f_index f) r | None => None end) sel in
  let names := map (str_remove "--score") best_cols in
  let! _ := for_each (fun t => for_each (fun n =>
              match cols_named n (ti_fits t) with [] => Raise KeyError | _ => Ok tt end) names) its in
  let row_means := map (fun p : nat * nat => (fst p, row_mean (map (fun c => nth (snd p) (snd c) n0) scores)))
                     (combine (f_index f) (seq 0 (length (f_index f)))) in
  let best_three := firstn 3 (map fst (sort_values row_means)) in
  let! idx := for_each (fun id =>
      match nth_error its id with
      | None => Raise IndexError
      | Some t =>
          match py_get (ti_eigs t) 0, py_get (ti_eigs t) (-1) with
          | Some a, Some b =>
              let! i := list_index untrimmed a in
              let! j := list_index untrimmed b in
              Ok (i, j + 1)
          | _, _ => Raise IndexError
          end
      end) best_three in
  let! _ := for_each (fun p : string * option nat =>
      let col := fst p in
      let cols := ["trim_percent"; "trim_low"; "trim_high"; str_replace "score" "mean_spacing" col;
                   str_replace "score" "var_spacing" col; col]%string in
      let! cs := frame_cols cols (f_cols f) in
      match snd p with
      | None => Raise ValueError
      | Some r => let! row := iloc_row cs r in series_item row
      end) (combine best_cols best_rows) in
  Ok idx.

(** trim.py:229-249 [TrimReport.__init__]: table, iterations and the sorted eigenvalues. *)
Definition trim_report (hbos : nat -> list F -> result (list bool)) (fit : list F -> result (list column)) (names : list string)
    (vals : list F) (max_trim : F) (max_iters : Z) : result (@frame F * list iter * list F) :=
  let! its := trim_iters hbos fit vals max_trim max_iters in
  let! f := summary rnd store names its in
  Ok (f, its, np_sort vals).

(** eigenvalues.py:440-486 [get_best_trimmed]: the chain [smoother == "poly"] / ["spline"] / ["gompertz"] / else.  [fit] and [names]
    take the smoother arguments of [TrimReport]. *)
Definition get_best_trimmed (hbos : nat -> list F -> result (list bool))
    (fit : list Z -> list F -> list Z -> bool -> list F -> result (list column))
    (names : list Z -> list F -> list Z -> bool -> list string)
    (vals : list F) (smoother : smooth_arg) (degree : Z) (spline_smooth : F) (max_trim : F) (max_iters : Z) : result (list F) :=
  let report polys smooths degs gomp :=
    trim_report hbos (fit polys smooths degs gomp) (names polys smooths degs gomp) vals max_trim max_iters in
  let! r := match smoother with
            | SMStrPoly => report [degree] [] [] false
            | SMStrSpline => report [] [spline_smooth] [degree] false
            | SMStrGompertz => report [] [] [] true
            | _ => Raise ValueError
            end in
  let '(f, its, untrimmed) := r in
  let! best := best_overall f its untrimmed in
  match best with
  | [] => Raise IndexError
  | (s, e) :: _ => Ok (trim_manually vals s e)
  end.
End Best.
