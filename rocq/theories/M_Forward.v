(** Model of the spacing plot methods of empyricalRMT/unfold.py: their own parameters and defaults, and the calls they make. *)
From Coq Require Import String List ZArith Bool Arith.
From Verif Require Import Base M_Call.
Import ListNotations.
Local Open Scope string_scope.
Local Notation length := List.length.

(** Default values as they are written: integers, floats (all are integral here), booleans, strings, lists of strings, None and
    PlotMode.Return. *)
Inductive literal := LInt (z : Z) | LFloat (z : Z) | LBool (b : bool) | LStr (s : string) | LStrs (l : list string) | LNone | LReturn.

Section Forward.
Context {V : Type}.
(** A value that reaches a function: one the caller gave, or a default. *)
Inductive arg := Given (v : V) | Default (l : literal).
Definition params := list (string * literal).

(** A call of a function all of whose parameters have defaults: the value of each parameter. *)
Definition call_defaults {W : Type} (inj : W -> arg) (ps : params) (pos : list W) (kw : list (string * W)) : result (list (string * arg)) :=
  let! b := call_binds (optional (map fst ps)) pos kw in
  Ok (map (fun pb => (fst (fst pb), match snd (snd pb) with Some v => inj v | None => Default (snd (fst pb)) end)) (combine ps b)).
(** The same for a function with one parameter without a default in front. *)
Definition call_data (data : string) (ps : params) (pos : list arg) (kw : list (string * arg)) : result (list (string * arg)) :=
  let! b := call_binds ((data, false) :: optional (map fst ps)) pos kw in
  match b with
  | (_, Some v) :: b' =>
      Ok ((data, v) :: map (fun pb => (fst (fst pb), match snd (snd pb) with Some v => v | None => Default (snd (fst pb)) end)) (combine ps b'))
  | _ => Raise TypeError
  end.
(** The value of a local name. *)
Fixpoint local_value (env : list (string * arg)) (n : string) : result arg :=
  match env with [] => Raise UnboundLocalErr | (k, v) :: t => if String.eqb k n then Ok v else local_value t n end.
(** [f(k1=n1, k2=n2, ...)] with local names. *)
Fixpoint keywords (env : list (string * arg)) (l : list (string * string)) : result (list (string * arg)) :=
  match l with [] => Ok [] | (k, n) :: t => let! v := local_value env n in let! r := keywords env t in Ok ((k, v) :: r) end.

(** plot.py:398-413, 599-613, 546-559, 310-318: what follows the data in [_spacings], [_next_spacings], [_brody_fit] and
    [_unfolded_fit]. *)
Definition spacings_ps : params :=
  [("bins", LInt 50); ("kde", LBool true); ("trim", LFloat 5); ("trim_kde", LBool false); ("kde_bw", LStr "scott"); ("brody", LBool false);
   ("brody_fit", LStr "spacing"); ("title", LStr "Unfolded Spacing Distribution"); ("mode", LReturn); ("outfile", LNone);
   ("ensembles", LStrs ["poisson"; "goe"; "gue"; "gse"]); ("fig", LNone); ("axes", LNone)].
Definition next_spacings_ps : params :=
  [("bins", LInt 50); ("kde", LBool true); ("trim", LFloat 0); ("trim_kde", LBool false); ("brody", LBool false);
   ("brody_fit", LStr "spacing"); ("title", LStr "next Nearest-Neigbors Spacing Distribution"); ("mode", LReturn); ("outfile", LNone);
   ("ensembles", LStrs ["goe"; "poisson"]); ("fig", LNone); ("axes", LNone)].
Definition brody_fit_ps : params :=
  [("method", LStr "spacing"); ("title", LStr "Brody distribution fit"); ("mode", LReturn); ("outfile", LNone); ("save_dpi", LNone);
   ("ensembles", LStrs ["goe"; "poisson"]); ("bins", LInt 50); ("kde", LBool true); ("trim", LFloat 5); ("trim_kde", LBool false);
   ("kde_bw", LStr "scott")].
Definition unfolded_fit_ps : params :=
  [("title", LStr "Unfolding Fit"); ("mode", LReturn); ("outfile", LNone); ("fig", LNone); ("axes", LNone)].

(** unfold.py:367-382, 453-468 [plot_nnsd]. *)
Definition plot_nnsd_ps : params :=
  [("bins", LInt 50); ("kde", LBool true); ("trim", LFloat 10); ("trim_kde", LBool false); ("kde_bw", LStr "scott"); ("brody", LBool false);
   ("brody_fit", LStr "spacing"); ("title", LStr "Unfolded Spacing Distribution"); ("mode", LReturn); ("outfile", LNone);
   ("ensembles", LStrs ["poisson"; "goe"; "gue"; "gse"]); ("fig", LNone); ("axes", LNone)].
Definition plot_nnsd (vals : V) (pos : list V) (kw : list (string * V)) : result (list (string * arg)) :=
  let! env := call_defaults Given plot_nnsd_ps pos kw in
  let! ks := keywords env [("bins", "bins"); ("kde", "kde"); ("trim", "trim"); ("trim_kde", "trim_kde"); ("kde_bw", "kde_bw");
                           ("brody", "brody"); ("brody_fit", "brody_fit"); ("title", "title"); ("mode", "mode"); ("outfile", "outfile");
                           ("ensembles", "ensembles"); ("fig", "fig"); ("axes", "axes")] in
  call_data "unfolded" spacings_ps [] (("unfolded", Given vals) :: ks).

(** unfold.py:470-485, 549-563 [plot_next_nnsd]. *)
Definition plot_next_nnsd_ps : params :=
  [("bins", LInt 50); ("kde", LBool true); ("trim", LFloat 10); ("trim_kde", LBool false); ("brody", LBool false);
   ("brody_fit", LStr "spacing"); ("title", LStr "next Nearest-Neigbors Spacing Distribution"); ("mode", LReturn); ("outfile", LNone);
   ("ensembles", LStrs ["goe"; "poisson"]); ("fig", LNone); ("axes", LNone)].
Definition plot_next_nnsd (vals : V) (pos : list V) (kw : list (string * V)) : result (list (string * arg)) :=
  let! env := call_defaults Given plot_next_nnsd_ps pos kw in
  let! ks := keywords env [("bins", "bins"); ("kde", "kde"); ("trim", "trim"); ("trim_kde", "trim_kde");
                           ("brody", "brody"); ("brody_fit", "brody_fit"); ("title", "title"); ("mode", "mode"); ("outfile", "outfile");
                           ("ensembles", "ensembles"); ("fig", "fig"); ("axes", "axes")] in
  call_data "unfolded" next_spacings_ps [] (("unfolded", Given vals) :: ks).
(** unfold.py:565-567 [plot_nnnsd]: [self.plot_next_nnsd( *args, **kwargs)]. *)
Definition plot_nnnsd (vals : V) (args : list V) (kwargs : list (string * V)) : result (list (string * arg)) :=
  plot_next_nnsd vals args kwargs.

(** unfold.py:203-231 [plot_brody_fit]. *)
Definition plot_brody_fit_ps : params :=
  [("method", LStr "spacing"); ("title", LStr "Brody distribution fit"); ("mode", LReturn); ("outfile", LNone); ("save_dpi", LNone);
   ("ensembles", LStrs ["goe"; "poisson"]); ("bins", LInt 50); ("kde", LBool true); ("trim", LFloat 5); ("trim_kde", LBool false);
   ("kde_bw", LStr "scott")].
Definition plot_brody_fit (vals : V) (pos : list V) (kw : list (string * V)) : result (list (string * arg)) :=
  let! env := call_defaults Given plot_brody_fit_ps pos kw in
  let! ks := keywords env [("method", "method"); ("title", "title"); ("mode", "mode"); ("outfile", "outfile"); ("save_dpi", "save_dpi");
                           ("ensembles", "ensembles"); ("bins", "bins"); ("kde", "kde"); ("trim", "trim"); ("trim_kde", "trim_kde");
                           ("kde_bw", "kde_bw")] in
  call_data "unfolded" brody_fit_ps [] (("unfolded", Given vals) :: ks).

(** unfold.py:349-365 [plot_fit]: two positional arguments, of which [call_data] sees the second as the data; the first, [eigs], is
    returned beside. *)
Definition plot_fit_ps : params :=
  [("title", LStr "Unfolding Fit"); ("mode", LReturn); ("outfile", LNone); ("fig", LNone); ("axes", LNone)].
Definition plot_fit (original_eigs vals : V) (pos : list V) (kw : list (string * V)) : result (list (string * arg)) :=
  let! env := call_defaults Given plot_fit_ps pos kw in
  let! ks := keywords env [("title", "title"); ("mode", "mode"); ("outfile", "outfile"); ("fig", "fig"); ("axes", "axes")] in
  let! r := call_data "unfolded" unfolded_fit_ps [Given vals] ks in
  Ok (("eigs", Given original_eigs) :: r).

(** _eigvals.py:78-80 [plot_spacings], inherited by [Unfolded]: M_Call.plot_spacings with the defaults of [_spacings] filled in. *)
Definition plot_spacings_full (vals : V) (pos : list V) (kw : list (string * V)) : result (list (string * arg)) :=
  let! b := plot_spacings vals pos kw in
  match b with
  | (d, Some v) :: b' =>
      Ok ((d, Given v) :: map (fun pb => (fst (fst pb), match snd (snd pb) with Some v => Given v | None => Default (snd (fst pb)) end)) (combine spacings_ps b'))
  | _ => Raise TypeError
  end.
End Forward.
Arguments arg V : clear implicits.
