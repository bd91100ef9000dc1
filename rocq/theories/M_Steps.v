(** Model of [TrimReport.plot_trim_steps] (trim.py) and of the default arguments of [Eigenvalues.trim_report] (eigenvalues.py). *)
From Coq Require Import String List ZArith Bool Reals.
From Verif Require Import Base M_Trim M_Smooth M_Report M_Best M_Draw.
Import ListNotations.

Section Steps.
Variable rnd : R -> R.
Notation iter := (trimiter R (list (@column R))).

(** One printed line: the numbers of one iteration, or the legend.  The formatting of the numbers is left out. *)
Inductive printed := PIter (numbers : nat * R * (Z * Z) * R * R * R) | PLegend.

(** trim.py:493-494, the loop: what is printed before the end or before the first exception. *)
Fixpoint print_iters (its : list iter) : list printed * result unit :=
  match its with
  | [] => ([], Ok tt)
  | t :: rest =>
      match iter_summary rnd t with
      | Raise e => ([], Raise e)
      | Ok s => let '(out, r) := print_iters rest in (PIter s :: out, r)
      end
  end.

(** trim.py:456-501 [plot_trim_steps]: what is printed, and the figure or exception. *)
Definition plot_trim_steps (its : list iter) (width : Z) (log_info : bool) : list printed * result (Z * Z * list (option panel)) :=
  let '(out, r) :=
    if log_info then
      let '(out, r) := print_iters its in
      match r with
      | Raise e => (out, Raise e)
      | Ok _ =>
          match its with
          | [] => (out, Raise IndexError)
          | t :: _ => match iter_summary rnd t with Raise e => (out, Raise e) | Ok _ => (out ++ [PLegend], Ok tt) end
          end
      end
    else ([], Ok tt) in
  (out, let! _ := r in trim_iters_plot rnd its width).
End Steps.

Section Defaults.
Context {F : Type} {N : Num F}.
Variables (rnd store : F -> F) (fmt3 : F -> string) (default_smooths : list F).
Variable hbos : nat -> list F -> result (list bool).
(** The table of smoothers for given poly_degrees, spline_smooths, spline_degrees, gompertz and detrend. *)
Variable fits : list Z -> list F -> list Z -> bool -> bool -> list F -> result (list (@column F)).

(** eigenvalues.py:315-391 [Eigenvalues.trim_report] called without arguments, with the defaults of lines 317-325 and
    _constants.py:12.  [half] is the float 0.5; [hbos] has the tolerance 0.1 built in. *)
Definition default_trim_report (half : F) (vals : list F) : result (@frame F * list (trimiter F (list (@column F))) * list F) :=
  trim_report rnd store hbos (fits [3; 4; 5; 6; 7; 8; 9; 10; 11]%Z [] [] true false)
    (get_smoother_names fmt3 default_smooths [3; 4; 5; 6; 7; 8; 9; 10; 11]%Z (SList []) [] true) vals half 7.
End Defaults.
