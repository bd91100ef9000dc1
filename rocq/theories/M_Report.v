(** Model of the summary table of empyricalRMT/trim.py [TrimReport] and of the automatic trimming and unfolding built on it
    ([Eigenvalues.trim_unfold_auto], [Trimmed.unfold_auto]). *)
From Coq Require Import String Ascii List ZArith Bool.
From Verif Require Import Base M_EigVals M_Trim M_Smooth.
Import ListNotations.
Local Open Scope Z_scope.
Local Notation length := List.length.

(** ** Python strings *)

(** [re] matching at one position, for patterns in which the full stop is the only special character (smoother names hold
    letters, digits, underscores, hyphens and full stops); a full stop matches anything but a newline. *)
Fixpoint re_here (pat text : string) : bool :=
  match pat with
  | EmptyString => true
  | String p pat' =>
      match text with
      | EmptyString => false
      | String t text' =>
          (if Ascii.eqb p "."%char then negb (Ascii.eqb t (ascii_of_nat 10)) else Ascii.eqb p t) && re_here pat' text'
      end
  end.
(** [re.search(pat, text)] finds something. *)
Fixpoint re_search (pat text : string) : bool :=
  re_here pat text || match text with EmptyString => false | String _ text' => re_search pat text' end.

(** [text.startswith(s)] *)
Fixpoint starts_with (s text : string) : bool :=
  match s, text with
  | EmptyString, _ => true
  | String a s', String b text' => Ascii.eqb a b && starts_with s' text'
  | _, _ => false
  end.
(** [text.replace(s, "")] for a non-empty [s]: occurrences from the left, not overlapping; [skip] characters of the current
    occurrence are still to be dropped. *)
Fixpoint str_remove_from (s text : string) (skip : nat) : string :=
  match text with
  | EmptyString => EmptyString
  | String c text' =>
      match skip with
      | S k => str_remove_from s text' k
      | O => if starts_with s text then str_remove_from s text' (String.length s - 1) else String c (str_remove_from s text' 0)
      end
  end.
Definition str_remove (s text : string) : string := str_remove_from s text 0.

Section Report.
Context {F : Type} {N : Num F}.
(** [np.round(., 1)] and the conversion to float32 on storing into the table. *)
Variable rnd store : F -> F.
Notation iter := (trimiter F (list (@column F))).

(** The columns labelled [name] of a DataFrame returned by [fit_all]. *)
Definition cols_named (name : string) (cs : list column) : list (@column F) :=
  filter (fun c => String.eqb (c_name c) name) cs.

(** trim.py:634-646, the inner loop: the cells of one row written for the smoothers number [j], [j+1], ...  Assigning
    [trim.msqes[col]] stores the one value of that column; when the label occurs twice it is a two-column frame, which
    NumPy refuses with ValueError. *)
Fixpoint fill_row (all cs : list column) (j : Z) (row : list F) : result (list F) :=
  match cs with
  | [] => Ok row
  | c :: rest =>
      let '(mean, var, score) := evaluate_unfolding (c_unfolded c) in
      let! row := py_set row (4 * j + 3) (store mean) in
      let! row := py_set row (4 * j + 4) (store var) in
      match cols_named (c_name c) all with
      | [m] =>
          let! row := py_set row (4 * j + 5) (store (c_msqe m)) in
          let! row := py_set row (4 * j + 6) (store score) in
          fill_row all rest (j + 1) row
      | _ => Raise ValueError
      end
  end.
(** trim.py:617-632: one row, first the three percentages, the rest zero; [width] is the number of smoother names. *)
Definition summary_row (width : nat) (t : iter) : result (list F) :=
  let row := repeat n0 (width * 4 + 3) in
  let! row := py_set row 0 (store (percent_removed rnd t)) in
  let! lo := lower_percent_removed rnd t in
  let! row := py_set row 1 (store lo) in
  let! hi := upper_percent_removed rnd t in
  let! row := py_set row 2 (store hi) in
  fill_row (ti_fits t) (ti_fits t) 0 row.

(** A DataFrame of floats: row labels, and named columns. *)
Record frame := mkframe { f_index : list nat; f_cols : list (string * list F) }.
(** trim.py:581-660 [__iters_to_dataframe] ([pd.DataFrame(data=arr, columns=.., index=..)]). *)
Definition summary (names : list string) (its : list iter) : result frame :=
  let! rows := for_each (summary_row (length names)) its in
  let header := summary_columns names in
  Ok (mkframe (map ti_id its)
        (map (fun p : nat * string => (snd p, map (fun r => nth (fst p) r n0) rows))
           (combine (seq 0 (length header)) header))).

(** [df.filter(regex=pat)] *)
Definition df_filter (pat : string) (cols : list (string * list F)) : list (string * list F) :=
  filter (fun c => re_search pat (fst c)) cols.

(** trim.py:507-514 [_get_autounfold_vals]: trimmed eigenvalues and their unfolded values. *)
Definition autounfold_vals (f : frame) (its : list iter) : result (list F * list F) :=
  let scores := df_filter "score" (f_cols f) in
  let! c := select_column (map (fun col => masked_mean (map nabs (snd col))) scores) in
  match nth_error scores c with
  | None => Raise IndexError
  | Some (label, _) =>
      match df_filter label (f_cols f) with
      | [(_, col)] =>
          match argmin (map skipna (map nabs col)) with
          | None => Raise ValueError
          | Some (r, _) =>
              match nth_error (f_index f) r with
              | None => Raise IndexError
              | Some id =>
                  match nth_error its id with
                  | None => Raise IndexError
                  | Some t =>
                      match cols_named (str_remove "--score" label) (ti_fits t) with
                      | [] => Raise KeyError
                      | u :: _ => Ok (ti_eigs t, c_unfolded u)
                      end
                  end
              end
          end
      | _ => Raise ValueError
      end
  end.

(** eigenvalues.py:704-718 [trim_unfold_auto]; trim.py:156-167 [Trimmed.unfold_auto] is the same with [max_trim = 0.0] and
    [max_iters = 0].  [names] are the names [_get_smoother_names] makes from the smoother arguments, which [fit] also
    uses.  The printed percentage is left out (M_Progress). *)
Definition trim_unfold_auto (hbos : nat -> list F -> result (list bool)) (fit : list F -> result (list column))
    (names : list string) (vals : list F) (max_trim : F) (max_iters : Z) : result (@unfolded F) :=
  let! its := trim_iters hbos fit vals max_trim max_iters in
  let! f := summary names its in
  let! (o, u) := autounfold_vals f its in
  Ok (unfolded_init o u CNone).
End Report.
