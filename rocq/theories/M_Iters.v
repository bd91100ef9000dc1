(** Model of [show_iters] in plot.py [_spectral_rigidity], [_level_number_variance] and the methods of unfold.py that pass it on. *)
From Coq Require Import String List ZArith Bool Arith Reals.
From Verif Require Import Base M_Quad M_Loops M_Draw M_Observ.
Import ListNotations.
Local Open Scope R_scope.
Local Notation length := List.length.

(** A frame together with its "iters" column, if it has one. *)
Record iframe := mkiframe { i_frame : dframe; i_iters : option (list Z) }.

(** plot.py:823-834, 952-963: a scatter plot of the "iters" column over "L" on a second pair of axes; seaborn raises ValueError when the
    data has no such column.  [None] when [show_iters] is false and there is no second pair of axes. *)
Definition iters_axes (show_iters : bool) (df : iframe) : result (option artist) :=
  if show_iters then
    match i_iters df, d_L (i_frame df) with
    | Some k, Some L => Ok (Some (Points "grey" (Some "iters"%string) L (map IZR k)))
    | _, _ => Raise ValueError
    end
  else Ok None.

Section Iters.
Variable euler_gamma : R.
Variables Si Ci : R -> R.
Variable Si_inf : R.
Variable quad_sinc2 : R -> R.

(** plot.py:737-867 [_spectral_rigidity]: the columns and the points come first (797-822), then the second axes, then the curves, which
    raise nothing. *)
Definition rigidity_plot_iters (unfolded : option (list R)) (df : iframe) (ensembles : list string) (show_iters : bool)
  : result (list artist * option artist) :=
  match d_L (i_frame df), d_delta (i_frame df) with
  | Some _, Some _ =>
      let! _ := converged_column (i_frame df) in
      let! twin := iters_axes show_iters df in
      let! fig := rigidity_plot euler_gamma unfolded (i_frame df) ensembles in
      Ok (fig, twin)
  | _, _ => Raise RuntimeError
  end.
(** plot.py:870-1017 [_level_number_variance], in the same order (925-951, 952-963, 964-1013). *)
Definition levelvar_plot_iters (df : iframe) (ensembles : list string) (show_iters : bool) : result (list artist * option artist) :=
  match d_L (i_frame df), d_sigma (i_frame df) with
  | Some _, Some _ =>
      let! _ := converged_column (i_frame df) in
      let! twin := iters_axes show_iters df in
      let! fig := levelvar_plot euler_gamma Si Ci Si_inf quad_sinc2 (i_frame df) ensembles in
      Ok (fig, twin)
  | _, _ => Raise RuntimeError
  end.

(** unfold.py:572-674 [plot_spectral_rigidity]: the frame of 654-661 has the iteration counts; a frame given as [data] is used as it is. *)
Definition plot_spectral_rigidity_iters (values L : list R) (data : option iframe) (max_iters : Z) (gridsize : nat) (tol : R)
  (use_simpson : bool) (ensembles : list string) (show_iters : bool) (d0 : nat -> R) (d : nat -> nat -> R)
  : result (list R * list R * (list artist * option artist)) :=
  let! df := match data with
             | Some df => Ok df
             | None => let! rs := spectral_rigidity values L max_iters gridsize tol use_simpson d0 d in
                       Ok (mkiframe (rigidity_frame L rs) (Some (map snd rs)))
             end in
  let! fig := rigidity_plot_iters (Some values) df ensembles show_iters in
  match d_delta (i_frame df) with Some delta => Ok (L, delta, fig) | None => Raise KeyError end.

(** unfold.py:676-791 [plot_level_variance]: the frame made of a given [sigma] (753) has the columns L, sigma and converged only; the
    frame of computed values (773-780) has the iteration counts. *)
Definition plot_level_variance_iters (values L : list R) (sigma : option (list R)) (tol : R) (max_L_iters : Z) (ensembles : list string)
  (show_iters : bool) (d0 : nat -> R) (d : nat -> nat -> R) : result (list R * list R * (list artist * option artist)) :=
  match sigma with
  | Some sigma =>
      let converged := map (fun _ => true) sigma in
      if Nat.eqb (length L) (length sigma) then
        let! fig := levelvar_plot_iters (mkiframe (mkdframe (row_labels L) (Some L) None (Some sigma) (Some converged)) None) ensembles show_iters in
        Ok (L, sigma, fig)
      else Raise ValueError
  | None =>
      let! rs := level_number_variance values L tol max_L_iters d0 d in
      let! fig := levelvar_plot_iters (mkiframe (variance_frame L rs) (Some (map snd rs))) ensembles show_iters in
      Ok (L, map (fun r => fst (fst r)) rs, fig)
  end.
End Iters.
