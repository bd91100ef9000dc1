(** Model of the helpers at the end of empyricalRMT/plot.py: [_handle_plot_mode] and [_validate_bin_sizes]. *)
From Coq Require Import String List ZArith Bool Arith.
From Verif Require Import Base M_Step M_Quad.
Import ListNotations.
Local Notation length := List.length.

(** plot.py:36-41 [PlotMode]; [NotAMode] stands for any other argument, such as the string "save". *)
Inductive plot_mode := Block | NoBlock | Save | Return | Test.
Inductive mode_arg := Mode (m : plot_mode) | NotAMode.

(** The calls that can be observed from outside. *)
Inductive effect (P : Type) :=
  | Show (block : bool) | Pause | ClearFigure | ClearAxes | CloseFigure
  | MakeParents (p : P) | PrintSaving (p : P) | SaveFigure (p : P) (dpi : option Z).
Arguments Show {P}. Arguments Pause {P}. Arguments ClearFigure {P}. Arguments ClearAxes {P}. Arguments CloseFigure {P}.
Arguments MakeParents {P}. Arguments PrintSaving {P}. Arguments SaveFigure {P}.

Section Handle.
Context {P Fig Axes : Type}.
(** What make_parent_directories and savefig do: success, or the exception they raise. *)
Variable makes : P -> result unit.
Variable saves : P -> option Z -> result unit.

(** plot.py:1237-1266 [_handle_plot_mode]: the calls made, in order, and the result. *)
Definition handle_plot_mode (mode : mode_arg) (fig : Fig) (axes : Axes) (outfile : option P) (dpi : option Z)
  : list (effect P) * result (Fig * Axes) :=
  match mode with
  | Mode Block => ([Show true], Ok (fig, axes))
  | Mode NoBlock => ([Show false; Pause], Ok (fig, axes))
  | Mode Test => ([ClearFigure; ClearAxes; CloseFigure], Ok (fig, axes))
  | Mode Save =>
      match outfile with
      | None => ([], Raise ValueError)
      | Some p =>
          match makes p with
          | Raise e => ([MakeParents p], Raise e)
          | Ok _ =>
              match saves p dpi with
              | Raise e => ([MakeParents p; PrintSaving p; SaveFigure p dpi], Raise e)
              | Ok _ => ([MakeParents p; PrintSaving p; SaveFigure p dpi; CloseFigure], Ok (fig, axes))
              end
          end
      end
  | Mode Return => ([], Ok (fig, axes))
  | NotAMode => ([], Raise ValueError)
  end.
End Handle.

Section Bins.
Context {F : Type} {N : Num F}.

(** len(vals[vals < endpoint]). *)
Definition count_below (vals : list F) (endpoint : F) : F := nofZ (Z.of_nat (length (filter (fun v => nlt v endpoint) vals))).

(** plot.py:1274-1283, the loop over the endpoints: [counts] holds the entries written so far; returns all counts and the numbers of
    the bins warned about. *)
Fixpoint bin_loop (vals ends counts : list F) (warned : list nat) : list F * list nat :=
  match ends with
  | [] => (counts, warned)
  | e :: rest =>
      let i := length counts in
      let c := if Nat.eqb i 0 then count_below vals e else nsub (count_below vals e) (nsum counts) in
      let full := nlt (ndiv (nofZ 4) (nofZ 10)) (ndiv c (nofZ (Z.of_nat (length vals)))) in
      bin_loop vals rest (counts ++ [c]) (if full then warned ++ [i] else warned)
  end.

(** plot.py:1269-1283 [_validate_bin_sizes]; np.linspace refuses a negative number of points. *)
Definition validate_bin_sizes (vals : list F) (bins : Z) : result (list F * list nat) :=
  let vals := np_sort vals in
  match vals, last_opt vals with
  | lo :: _, Some hi =>
      if (bins <? 0)%Z then Raise ValueError
      else Ok (bin_loop vals (tl (linspace lo hi (Z.to_nat bins))) [] [])
  | _, _ => Raise IndexError
  end.
End Bins.
