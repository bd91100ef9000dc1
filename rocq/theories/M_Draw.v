(** Model of the drawing functions of empyricalRMT/plot.py and of the plotting methods of unfold.py: what is handed to
    matplotlib / seaborn.  Colours, titles, axis limits and legends are left out; so is [show_iters=True] (M_Iters). *)
From Coq Require Import String List ZArith Bool Arith Reals.
From Verif Require Import Base M_Step M_EigVals M_Quad M_Trim M_Smooth M_Ensemble M_Brody.
Import ListNotations.
Local Open Scope R_scope.
Local Notation length := List.length.

(** One thing drawn: a histogram of the data with a number of bins, a line through points, or scattered points. *)
Inductive artist :=
  | Hist (data : list R) (bins : Z)
  | Line (label : string) (xs ys : list R)
  | Points (color : string) (label : option string) (xs ys : list R).

(** The [axes] argument: one set of axes, or an array of them. *)
Inductive axes_arg := OneAxes | AxesArray.

(** [name in ensembles]. *)
Definition requested (name : string) (ensembles : list string) : bool := existsb (String.eqb name) ensembles.
Definition when (b : bool) (l : list artist) : list artist := if b then l else [].

(** [a.min()], [a.max()] of an array; ValueError when it is empty. *)
Definition arr_range (l : list R) : result (R * R) := match l with [] => Raise ValueError | h :: t => Ok (nmin h t, nmax h t) end.

Section Draw.
Variable gamma : R -> R.
Variable minimize_scalar : (R -> R) -> R -> R -> bool * R.
(** The [kde_bw] argument, KDE(values).fit(kernel="gau", bw=bw, cut=0) -- None for ZeroDivisionError -- and KDE(values).fit(). *)
Variable BW : Type.
Variable scott : BW.
Variable kde_gau : BW -> list R -> option (R -> R).
Variable kde_default : list R -> R -> R.

(** plot.py:1187-1234 [_kde_plot]. *)
Definition kde_plot (values grid : list R) (bw : BW) : list artist :=
  let idx := filter (fun v => nle v n0) values in
  if Nat.eqb (length idx) (length values) then []
  else
    let values := filter (fun v => nlt n0 v) values in
    let f := match kde_gau bw values with Some f => f | None => kde_default values end in
    [Line "Kernel Density Estimate" grid (map f grid)].

(** seaborn.histplot(data, bins=bins, ax=axes): an array of axes has no attribute [xaxis]. *)
Definition histplot (data : list R) (bins : Z) (axes : axes_arg) : result (list artist) :=
  match axes with OneAxes => Ok [Hist data bins] | AxesArray => Raise AttributeError end.

(** plot.py:47-118 [_raw_eig_dist] and 236-307 [_unfolded_dist] (the same code): a histogram and a density estimate. *)
Definition dist_plot (eigs : list R) (bins : Z) (kde : bool) : result (list artist) :=
  if kde then
    let! r := arr_range eigs in
    Ok ([Hist eigs bins] ++ kde_plot eigs (linspace (fst r) (snd r) (Z.to_nat 10000)) scott)
  else Ok [Hist eigs bins].

(** plot.py:505-520, the four curves over [s]. *)
Definition spacing_curves (s : list R) (ensembles : list string) : list artist :=
  let p := PI in
  when (requested "poisson" ensembles) [Line "Poisson" s (map (fun s => exp (- s)) s)] ++
  when (requested "goe" ensembles) [Line "Gaussian Orthogonal" s (map (fun s => p * s / 2 * exp (- (p / 4) * s * s)) s)] ++
  when (requested "gue" ensembles) [Line "Gaussian Unitary" s (map (fun s => 32 / p ^ 2 * (s * s) * exp (- (4 * s * s) / p)) s)] ++
  when (requested "gse" ensembles)
    [Line "Gaussian Symplectic" s (map (fun s => 2 ^ 18 / (3 ^ 6 * p ^ 3) * s ^ 4 * exp (- (64 / (9 * p) * (s * s)))) s)].

(** plot.py:486-487, 684-685. *)
Definition trim_spacings (trim : R) (sp : list R) : list R := if nlt n0 trim then filter (fun s => nle s trim) sp else sp.

(** plot.py:529-533, 711-715: the fit is made by [fit_brody(_spacings)], whatever [brody_fit] says. *)
Definition brody_curve (brody : bool) (sp s : list R) : result (list artist) :=
  if brody then
    let! beta := fit_brody gamma minimize_scalar sp "spacing" in
    Ok [Line "Brody dist." s (map (brody_dist gamma beta) s)]
  else Ok [].

(** plot.py:398-543 [_spacings]. *)
Definition spacings_plot (unfolded : list R) (bins : Z) (kde : bool) (trim : R) (trim_kde : bool) (kde_bw : BW) (brody : bool)
  (brody_fit : string) (ensembles : list string) (axes : axes_arg) : result (list artist) :=
  let unfolded := np_sort unfolded in
  let sp := ndiff unfolded in
  let all_spacings := sp in
  let sp := trim_spacings trim sp in
  let! r := arr_range sp in
  let s := linspace (fst r) (snd r) (Z.to_nat 10000) in
  let! h := histplot sp bins axes in
  let curves := spacing_curves s ensembles in
  let k := if kde then kde_plot (if trim_kde then sp else all_spacings) s kde_bw else [] in
  let! b := brody_curve brody sp s in
  Ok (h ++ curves ++ k ++ b).

(** plot.py:599-734 [_next_spacings]; the density estimate uses the default bandwidth. *)
Definition next_spacings_plot (unfolded : list R) (bins : Z) (kde : bool) (trim : R) (trim_kde brody : bool)
  (brody_fit : string) (ensembles : list string) (axes : axes_arg) : result (list artist) :=
  let sp := np_sort (map (fun p => ndiv (nsub (fst p) (snd p)) (nofZ 2))
              (combine (skipn 2 unfolded) (firstn (length unfolded - 2) unfolded))) in
  let all_spacings := sp in
  let sp := trim_spacings trim sp in
  let! r := arr_range sp in
  let s := linspace (fst r) (snd r) (Z.to_nat 10000) in
  let! h := histplot sp bins axes in
  let k := if kde then kde_plot (if trim_kde then sp else all_spacings) s scott else [] in
  let! b := brody_curve brody sp s in
  let! g := (if requested "goe" ensembles then let! y := nnnsd gamma GOE 0 4 (Z.to_nat 1000) (Some s) in Ok [Line "Gaussian Orthogonal" s y]
             else Ok []) in
  let! p := (if requested "poisson" ensembles then let! y := nnnsd gamma Poisson 0 4 (Z.to_nat 1000) (Some s) in Ok [Line "Poisson" s y]
             else Ok []) in
  Ok (h ++ k ++ b ++ g ++ p).

(** plot.py:546-596 [_brody_fit]: two panels side by side.  [plt.subplots(1, 2, squeeze=False)] gives a 1 x 2 array, so [axes[0]]
    (576) is an array of two axes.  The two lists of artists returned are those of the panels. *)
Definition brody_fit_plot (unfolded : list R) (method : string) (ensembles : list string) (bins : Z) (kde : bool) (trim : R)
  (trim_kde : bool) (kde_bw : BW) : result (list artist * list artist) :=
  let! first := spacings_plot unfolded bins kde trim trim_kde kde_bw true method ensembles AxesArray in
  let spacings := ndiff unfolded in
  let s := filter (fun x => nlt n0 x) spacings in
  let! res := brody_fit_evaluate gamma minimize_scalar s method in
  let x := f_spacings res in
  let! g := (if requested "goe" ensembles then let! y := nnsd_cdf GOE 0 3 (Z.to_nat 1000) (Some x) in Ok [Line "GOE" x y] else Ok []) in
  let! p := (if requested "poisson" ensembles then let! y := nnsd_cdf Poisson 0 3 (Z.to_nat 1000) (Some x) in Ok [Line "Poisson" x y] else Ok []) in
  Ok (first, [Line "Empirical CDF" x (f_ecdf res); Line "Brody CDF" x (f_cdf res)] ++ g ++ p).
End Draw.

(** ** Long-range observables *)

(** The part of a pandas DataFrame the functions below look at: row labels and optional columns. *)
Record dframe := mkdframe
  { d_index : list Z; d_L : option (list R); d_delta : option (list R); d_sigma : option (list R); d_converged : option (list bool) }.

(** [df.loc[mask]], two columns. *)
Definition masked (keep : bool) (mask : list bool) (l : list R) : list R :=
  map snd (filter (fun p => Bool.eqb (fst p) keep) (combine mask l)).

(** plot.py:799-822, 927-951: the rows that converged in black, the others in red. *)
Definition scatter_rows (has_info : bool) (conv : list bool) (L y : list R) : list artist :=
  let needs_label := has_info && existsb negb conv in
  [Points "black" (if needs_label then Some "converged"%string else None) (masked true conv L) (masked true conv y);
   Points "red" (if needs_label then Some "non-converged"%string else None) (masked false conv L) (masked false conv y)].

(** plot.py:799-801, 927-929: the [converged] column, or [np.ones_like(df.sigma)] when there is none. *)
Definition converged_column (df : dframe) : result (list bool) :=
  match d_converged df, d_sigma df with
  | Some c, _ => Ok c
  | None, Some sg => Ok (map (fun _ => true) sg)
  | None, None => Raise AttributeError
  end.
Definition has_info (df : dframe) : bool := match d_converged df with Some _ => true | None => false end.

Section Long.
Variable euler_gamma : R.
(** scipy.special.sici (both components; [Si_inf] is sici(inf)[0]) and [quad(f1, a, inf)] for f1(r) = (sin(r)/r)**2. *)
Variables Si Ci : R -> R.
Variable Si_inf : R.
Variable quad_sinc2 : R -> R.

(** plot.py:737-867 [_spectral_rigidity]. *)
Definition rigidity_plot (unfolded : option (list R)) (df : dframe) (ensembles : list string) : result (list artist) :=
  match d_L df, d_delta df with
  | Some L, Some delta =>
      let! conv := converged_column df in
      let pts := scatter_rows (has_info df) conv L delta in
      let p := PI in let y := euler_gamma in
      let s := match unfolded with Some u => let m := nmean (ndiff u) in map (fun l => l / m) L | None => L end in
      Ok (pts ++
        when (requested "poisson" ensembles) [Line "Poisson" L (map (fun l => l / 15) L)] ++
        when (requested "goe" ensembles) [Line "Gaussian Orthogonal" L (map (fun s => 1 / p ^ 2 * (ln (2 * p * s) + y - 5 / 4 - p ^ 2 / 8)) s)] ++
        when (requested "gue" ensembles) [Line "Gaussian Unitary" L (map (fun s => 1 / (2 * p ^ 2) * (ln (2 * p * s) + y - 5 / 4)) s)] ++
        when (requested "gse" ensembles) [Line "Gaussian Symplectic" L (map (fun s => 1 / (4 * p ^ 2) * (ln (4 * p * s) + y - 5 / 4 + p ^ 2 / 8)) s)])
  | _, _ => Raise RuntimeError
  end.

(** plot.py:974-988 [exact]. *)
Definition exact (x : R) : R :=
  let p := PI in let y := euler_gamma in
  let int_2 := y + ln (2 * p * x) - Ci (2 * p * x) in
  let int_3 := (Si_inf - Si (p * x)) ^ 2 in
  let t1 := 4 * x / p in
  let t2 := 2 / p ^ 2 in
  let t3 := t2 / 2 in
  t1 * quad_sinc2 (p * x) + t2 * int_2 - 1 / 4 + t3 * int_3.

(** [L[i]] of a pandas Series with integer row labels: the row labelled [i].  A repeated label gives a Series, whose comparison has
    no truth value (ValueError). *)
Definition series_get (index : list Z) (l : list R) (i : Z) : result R :=
  match filter (fun p => Z.eqb (fst p) i) (combine index l) with
  | [] => Raise KeyError
  | [p] => Ok (snd p)
  | _ => Raise ValueError
  end.

(** plot.py:999-1003: the loop over [enumerate(s)], from position [i]. *)
Fixpoint goe_loop (index : list Z) (L rest : list R) (i : Z) : result (list R) :=
  match rest with
  | [] => Ok []
  | s_val :: rest' =>
      let! l := series_get index L i in
      let v := if nlt l (nofZ 10) then exact s_val
               else 2 / PI ^ 2 * (ln (2 * PI * s_val) + euler_gamma + 1 - PI ^ 2 / 8) in
      let! t := goe_loop index L rest' (i + 1)%Z in
      Ok (v :: t)
  end.

(** plot.py:870-1017 [_level_number_variance]. *)
Definition levelvar_plot (df : dframe) (ensembles : list string) : result (list artist) :=
  match d_L df, d_sigma df with
  | Some L, Some sigma =>
      let! conv := converged_column df in
      let pts := scatter_rows (has_info df) conv L sigma in
      let p := PI in let y := euler_gamma in
      let s := L in
      let! g := (if requested "goe" ensembles then let! v := goe_loop (d_index df) L s 0 in Ok [Line "Gaussian Orthogonal" L v] else Ok []) in
      Ok (pts ++
        when (requested "poisson" ensembles) [Line "Poisson" L L] ++
        g ++
        when (requested "gue" ensembles) [Line "Gaussian Unitary" L (map (fun s => 1 / p ^ 2 * (ln (2 * p * s) + y + 1)) s)] ++
        when (requested "gse" ensembles) [Line "Gaussian Symplectic" L (map (fun s => 1 / (2 * p ^ 2) * (ln (4 * p * s) + y + 1 + p ^ 2 / 8)) s)])
  | _, _ => Raise RuntimeError
  end.

(** unfold.py:572-674 [plot_spectral_rigidity] with [data] given: the returned pair and the figure.  [compute] is the call of
    unfold.py:645-653. *)
Definition plot_spectral_rigidity (unfolded : list R) (compute : list R -> result (list R * list R * list bool))
  (data : option dframe) (L : list R) (ensembles : list string) : result (list R * list R * list artist) :=
  let! df := match data with
             | Some df => Ok df
             | None => let! r := compute L in let '(Lv, delta, conv) := r in
                       Ok (mkdframe (map Z.of_nat (seq 0 (length Lv))) (Some Lv) (Some delta) None (Some conv))
             end in
  let! fig := rigidity_plot (Some unfolded) df ensembles in
  match d_delta df with Some d => Ok (L, d, fig) | None => Raise KeyError end.
End Long.

(** ** The remaining figures *)

(** plot.py:121-175 [_step_function]. *)
Definition steps_plot (eigs : list R) (gridsize : nat) : result (outcome (list artist)) :=
  let! r := arr_range eigs in
  let grid := linspace (fst r) (snd r) gridsize in
  Ok (match step_function_fast eigs grid with
      | Done steps => Done [Line "Cumulative Value" grid (map IZR steps)]
      | OutOfBounds => OutOfBounds
      | Running => Running
      end).

(** plot.py:310-394 [_unfolded_fit]: two lines over the row number and points with the given sizes. *)
Definition unfolded_fit_plot (unfolded : list R) : list artist * list R :=
  let idx := map INR (seq 0 (length unfolded)) in
  ([Line "Step Function" idx idx; Line "Unfolded" idx unfolded; Points "heat" (Some "MSE"%string) idx unfolded],
   map (fun p => Rabs (fst p - snd p)) (combine idx unfolded)).

(** ** The trimming steps *)

(** scipy.stats.trim_mean(a, 0.2): [int(0.2 * n)] values are cut from either end of the sorted array ([0.2] rounds upwards, so this
    is the whole part of n / 5), the others averaged. *)
Definition trim_mean (a : list R) : R :=
  let n := length a in
  let lowercut := Nat.div n 5 in
  let uppercut := (n - lowercut)%nat in
  nmean (firstn (uppercut - lowercut) (skipn lowercut (np_sort a))).

Section TrimFigure.
(** [np.round(., 1)]. *)
Variable rnd : R -> R.
Notation iter := (trimiter R (list (@column R))).

(** What one panel shows: the percentage removed (None for "No trim"), the two numbers of the title, and every eigenvalue with its
    rank and whether it is drawn as an outlier. *)
Record panel := mkpanel { p_removed : option R; p_mean : R; p_var : R; p_points : list (R * Z * bool) }.

(** plot.py:1138-1152, the body of the loop; a DataFrame of columns of different lengths is refused with ValueError. *)
Definition trim_panel (t : iter) : result panel :=
  let! _ := trim_indices t in
  let mean := trim_mean (map (fun c => nmean (c_spacings c)) (ti_fits t)) in
  let var := trim_mean (map (fun c => nvar1 (c_spacings c)) (ti_fits t)) in
  let cut := percent_removed rnd t in
  if negb (Nat.eqb (length (ti_clusters t)) (length (ti_eigs t))) then Raise ValueError
  else Ok (mkpanel (if Nat.eqb (ti_id t) 0 then None else Some cut) mean var
        (combine (combine (ti_eigs t) (map Z.of_nat (seq 1 (length (ti_eigs t))))) (ti_clusters t))).

(** plot.py:1101-1173 [_plot_trim_iters]: the numbers of rows and columns, and what is in each place, row by row (None for axes
    removed from the figure).  [plt.subplots] refuses numbers below one with ValueError, and for one row and one column returns
    the axes themselves, which have no attribute [flat]. *)
Definition trim_iters_plot (its : list iter) (width : Z) : result (Z * Z * list (option panel)) :=
  if Z.eqb width 0 then Raise GenericException
  else
    let n := Z.of_nat (length its) in
    let height := (- (- n / width))%Z in
    if (Z.ltb height 1 || Z.ltb width 1)%bool then Raise ValueError
    else if (Z.eqb height 1 && Z.eqb width 1)%bool then Raise AttributeError
    else
      let places := Z.to_nat (height * width) in
      let! ps := for_each trim_panel (firstn places its) in
      Ok (height, width, map Some ps ++ repeat None (places - length its)).

(** trim.py:745-761 [TrimIter.summary]: the numbers put into the text (id, percent, trim indices, mean, variance, error). *)
Definition iter_summary (t : iter) : result (nat * R * (Z * Z) * R * R * R) :=
  let percent := percent_removed rnd t in
  let! ix := trim_indices t in
  let mean := trim_mean (map (fun c => nmean (c_spacings c)) (ti_fits t)) in
  let var := trim_mean (map (fun c => nvar1 (c_spacings c)) (ti_fits t)) in
  let mmsqe := trim_mean (map c_msqe (ti_fits t)) in
  Ok (ti_id t, percent, ix, mean, var, mmsqe).
End TrimFigure.
