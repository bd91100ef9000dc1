(** Model of the forwarding plot methods of empyricalRMT/_eigvals.py, of [_setup_plotting], [_raw_eig_sorted] and the striped legend
    handler of empyricalRMT/plot.py, and of the constructor of [Smoother]. *)
From Coq Require Import String List ZArith Bool Arith.
From Verif Require Import Base M_EigVals M_Plot.
Import ListNotations.
Local Open Scope string_scope.
Local Notation length := List.length.

(** ** Python's binding of arguments to parameters *)
Section Call.
Context {V : Type}.
(** A parameter: its name and whether it has a default.  A binding gives each parameter, in order, the value passed or None when the
    default is used. *)
Definition binding := list (string * option V).

Fixpoint fill_positional (params : list (string * bool)) (pos : list V) : result binding :=
  match params, pos with
  | [], [] => Ok []
  | [], _ :: _ => Raise TypeError
  | (p, _) :: ps, [] => let! r := fill_positional ps [] in Ok ((p, None) :: r)
  | (p, _) :: ps, v :: vs => let! r := fill_positional ps vs in Ok ((p, Some v) :: r)
  end.
(** One keyword argument: an unknown name, or a parameter that already has a value, is a TypeError. *)
Fixpoint fill_keyword (b : binding) (k : string) (v : V) : result binding :=
  match b with
  | [] => Raise TypeError
  | (p, o) :: rest =>
      if String.eqb p k then match o with None => Ok ((p, Some v) :: rest) | Some _ => Raise TypeError end
      else let! r := fill_keyword rest k v in Ok ((p, o) :: r)
  end.
Fixpoint fill_keywords (b : binding) (kw : list (string * V)) : result binding :=
  match kw with [] => Ok b | (k, v) :: rest => let! b' := fill_keyword b k v in fill_keywords b' rest end.
(** Parameters without a default must have received a value. *)
Fixpoint all_given (params : list (string * bool)) (b : binding) : bool :=
  match params, b with
  | (_, dflt) :: ps, (_, o) :: bs => (dflt || match o with Some _ => true | None => false end) && all_given ps bs
  | _, _ => true
  end.
(** A call [f( *pos, **kw)] of a function without star parameters. *)
Definition call_binds (params : list (string * bool)) (pos : list V) (kw : list (string * V)) : result binding :=
  let! b := fill_positional params pos in
  let! b := fill_keywords b kw in
  if all_given params b then Ok b else Raise TypeError.

(** plot.py:178-186, 47-56, 121-129, 398-413: the parameters of [_raw_eig_sorted], [_raw_eig_dist], [_step_function], [_spacings]. *)
Definition optional (l : list string) : list (string * bool) := map (fun p => (p, true)) l.
Definition raw_eig_sorted_params := ("eigs", false) :: optional ["title"; "mode"; "outfile"; "kind"; "fig"; "axes"].
Definition raw_eig_dist_params := ("eigs", false) :: optional ["bins"; "kde"; "title"; "mode"; "outfile"; "fig"; "axes"].
Definition step_function_params := ("eigs", false) :: optional ["gridsize"; "title"; "mode"; "outfile"; "fig"; "axes"].
Definition spacings_params := ("unfolded", false) ::
  optional ["bins"; "kde"; "trim"; "trim_kde"; "kde_bw"; "brody"; "brody_fit"; "title"; "mode"; "outfile"; "ensembles"; "fig"; "axes"].

(** _eigvals.py:70-80: [f(eigs=self.values, *args, **kwargs)]. *)
Definition plot_sorted (values : V) (args : list V) (kwargs : list (string * V)) : result binding :=
  call_binds raw_eig_sorted_params args (("eigs", values) :: kwargs).
Definition plot_distribution (values : V) (args : list V) (kwargs : list (string * V)) : result binding :=
  call_binds raw_eig_dist_params args (("eigs", values) :: kwargs).
Definition plot_steps (values : V) (args : list V) (kwargs : list (string * V)) : result binding :=
  call_binds step_function_params args (("eigs", values) :: kwargs).
Definition plot_spacings (values : V) (args : list V) (kwargs : list (string * V)) : result binding :=
  call_binds spacings_params args (("unfolded", values) :: kwargs).
End Call.

(** ** plot.py *)

(** plot.py:1176-1184 [_setup_plotting]; [fresh] is what plt.subplots() returns. *)
Definition setup_plotting {Fig Axes : Type} (fresh : Fig * Axes) (fig : option Fig) (axes : option Axes) : Fig * Axes :=
  match fig, axes with Some f, Some a => (f, a) | _, _ => fresh end.

(** plot.py:178-233 [_raw_eig_sorted]: what is drawn on which axes, the figure handed on, and then [_handle_plot_mode].  The points
    are (index, eigenvalue): seaborn plots a vector against its index. *)
Inductive eig_marks := Scattered | Joined.
Section Sorted.
Context {F P Fig Axes : Type}.
Variable makes : P -> result unit.
Variable saves : P -> option Z -> result unit.
Variable fresh : Fig * Axes.
Definition raw_eig_sorted (eigs : list F) (mode : mode_arg) (outfile : option P) (kind : string) (fig : option Fig) (axes : option Axes)
  : option (Axes * eig_marks * list (nat * F)) * (list (effect P) * result (Fig * Axes)) :=
  let '(f, a) := setup_plotting fresh fig axes in
  let pts := combine (seq 0 (length eigs)) eigs in
  if String.eqb kind "scatter" then (Some (a, Scattered, pts), handle_plot_mode makes saves mode f a outfile None)
  else if String.eqb kind "line" then (Some (a, Joined, pts), handle_plot_mode makes saves mode f a outfile None)
  else (None, ([], Raise ValueError)).
End Sorted.

(** plot.py:1297-1311 [HandlerColormap.create_artists]: left edge, bottom, width and height of each stripe, and the position in the
    colour map. *)
Section Stripes.
Context {F : Type} {N : Num F}.
Record stripe := mkstripe { s_left : F; s_bottom : F; s_width : F; s_height : F; s_color : F }.
Definition create_artists (num_stripes : nat) (xdescent ydescent width height : F) : list stripe :=
  let n := nofZ (Z.of_nat num_stripes) in
  map (fun i => let k := nofZ (Z.of_nat i) in
    mkstripe (nadd xdescent (ndiv (nmul k width) n)) ydescent (ndiv width n) height
      (ndiv (nadd (nmul (nofZ 2) k) n1) (nmul (nofZ 2) n))) (seq 0 num_stripes).
End Stripes.

(** ** smoother.py:57-72 [Smoother.__init__]; the conversion to floats of line 66 is done before.  [len] of a 0-d array raises. *)
Section Init.
Context {F : Type} {N : Num F}.
Definition smoother_init (a : ndarray F) : result (list F) :=
  let! n := py_len a in
  if negb (Nat.eqb n (length (data a))) then Raise ValueError else Ok (np_sort (data a)).
End Init.
