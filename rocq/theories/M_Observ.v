(** Model of plot.py [_observables] and of the plotting methods [plot_observables], [plot_spectral_rigidity] (its model is in M_Draw)
    and [plot_level_variance] of unfold.py. *)
From Coq Require Import String List ZArith Bool Arith Reals.
From Verif Require Import Base M_Step M_EigVals M_Quad M_Loops M_Draw.
Import ListNotations.
Local Open Scope R_scope.
Local Notation length := List.length.

(** unfold.py:104-111, 168: the frames returned by [Unfolded.spectral_rigidity] and [Unfolded.level_variance]; [rs] are the computed
    values, flags and iteration counts.  Their rows are labelled 0, 1, 2, ... *)
Definition row_labels (L : list R) : list Z := map Z.of_nat (seq 0 (length L)).
Definition rigidity_frame (L : list R) (rs : list (R * bool * Z)) : dframe :=
  mkdframe (row_labels L) (Some L) (Some (map (fun r => fst (fst r)) rs)) None (Some (map (fun r => snd (fst r)) rs)).
Definition variance_frame (L : list R) (rs : list (R * bool * Z)) : dframe :=
  mkdframe (row_labels L) (Some L) None (Some (map (fun r => fst (fst r)) rs)) (Some (map (fun r => snd (fst r)) rs)).

Section Observ.
Variable gamma : R -> R.
Variable minimize_scalar : (R -> R) -> R -> R -> bool * R.
Variable BW : Type.
Variable scott : BW.
Variable kde_gau : BW -> list R -> option (R -> R).
Variable kde_default : list R -> R -> R.
Variable euler_gamma : R.
Variables Si Ci : R -> R.
Variable Si_inf : R.
Variable quad_sinc2 : R -> R.

(** plot.py:1020-1098 [_observables]: the four panels, row by row. *)
Definition observables_plot (unfolded : list R) (rigidity_df levelvar_df : dframe) (ensembles : list string)
  : result (list artist * list artist * list artist * list artist) :=
  let fit := fst (unfolded_fit_plot unfolded) in
  let! sp := spacings_plot gamma minimize_scalar BW kde_gau kde_default unfolded 50 true 5 false scott false "spacing" ensembles OneAxes in
  let! rg := rigidity_plot euler_gamma (Some unfolded) rigidity_df ensembles in
  let! lv := levelvar_plot euler_gamma Si Ci Si_inf quad_sinc2 levelvar_df ensembles in
  Ok (fit, sp, rg, lv).

(** unfold.py:793-855 [plot_observables]; [tol], [max_L_iters] and [min_L_iters] are the entries of [levelvar_kwargs] (defaults
    0.01, 1000000, 1000).  [da], [db] are the random streams of the two computations. *)
Definition plot_observables (values rigidity_L levelvar_L : list R) (max_iters : Z) (tol : R) (max_L_iters min_L_iters : Z)
  (ensembles : list string) (da0 : nat -> R) (da : nat -> nat -> R) (db0 : nat -> R) (db : nat -> nat -> R)
  : result (list artist * list artist * list artist * list artist) :=
  let! rg := spectral_rigidity values rigidity_L max_iters (Z.to_nat RIGIDITY_GRID) (1 / 100) true da0 da in
  let! lv := level_variance values levelvar_L tol max_L_iters min_L_iters db0 db in
  observables_plot values (rigidity_frame rigidity_L rg) (variance_frame levelvar_L lv) ensembles.

(** unfold.py:676-791 [plot_level_variance]: the returned pair and the figure.  [sigma] is a one-dimensional array;
    [pd.DataFrame] refuses columns of different lengths with ValueError. *)
Definition plot_level_variance (values L : list R) (sigma : option (list R)) (tol : R) (max_L_iters : Z) (ensembles : list string)
  (d0 : nat -> R) (d : nat -> nat -> R) : result (list R * list R * list artist) :=
  match sigma with
  | Some sigma =>
      let converged := map (fun _ => true) sigma in
      if Nat.eqb (length L) (length sigma) then
        let! fig := levelvar_plot euler_gamma Si Ci Si_inf quad_sinc2 (mkdframe (row_labels L) (Some L) None (Some sigma) (Some converged)) ensembles in
        Ok (L, sigma, fig)
      else Raise ValueError
  | None =>
      let! rs := level_number_variance values L tol max_L_iters d0 d in
      let! fig := levelvar_plot euler_gamma Si Ci Si_inf quad_sinc2 (variance_frame L rs) ensembles in
      Ok (L, map (fun r => fst (fst r)) rs, fig)
  end.
End Observ.
