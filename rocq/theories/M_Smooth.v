(** Model of empyricalRMT/detrend.py, empyricalRMT/smoother.py, the [unfold] methods of eigenvalues.py and trim.py, and
    the [Unfolded] constructor.  The fitting routines of NumPy / SciPy and PyEMD's decomposition are oracles. *)
From Coq Require Import String List ZArith Bool QArith DecimalString.
From Verif Require Import Base M_Enum M_Trim.
Import ListNotations.
Local Open Scope Z_scope.

(** ** detrend.py *)
Section Emd.
Context {F : Type} {N : Num F}.
(** [EMD().emd(signal)] of PyEMD: the rows of the returned array, the last being the trend. *)
Variable emd : list F -> result (list (list F)).

(** Elementwise binary operation of two 1-D arrays: shapes must agree (NumPy's broadcasting of a length-one array is
    not modelled). *)
Fixpoint zip_with (f : F -> F -> F) (a b : list F) : list F :=
  match a, b with x :: a', y :: b' => f x y :: zip_with f a' b' | _, _ => [] end.
Definition np_sub (a b : list F) : result (list F) :=
  if Nat.eqb (List.length a) (List.length b) then Ok (zip_with nsub a b) else Raise ValueError.

(** detrend.py:29-37: [delta_n[n] = np.sum(s_i[0:n])] for n in range(len(unfolded)). *)
Definition emd_delta (unfolded : list F) : list F :=
  let spacings := ndiff unfolded in
  let s_av := nmean spacings in
  let s_i := map (fun s => nsub s s_av) spacings in
  map (fun n => nsum (firstn n s_i)) (seq 0 (List.length unfolded)).

(** detrend.py:10-51 [emd_detrend].  [EMD().emd(...)[-1]] of an empty array raises IndexError. *)
Definition emd_detrend (unfolded : list F) : result (list F) :=
  let s_av := nmean (ndiff unfolded) in
  let delta_n := emd_delta unfolded in
  let! imfs := emd delta_n in
  match last_opt imfs with
  | None => Raise IndexError
  | Some trend =>
      let! detrended_delta := np_sub delta_n trend in
      Ok (map (fun i =>
            match i with
            | O => nth 0 unfolded n0
            | S j => nadd (nadd (nth j detrended_delta n0) (nth 0 unfolded n0)) (nmul (nofZ (Z.of_nat j)) s_av)
            end) (seq 0 (List.length unfolded)))
  end.
End Emd.

(** ** smoother.py *)

(** The [smoother] argument: a string, a member of [SmoothMethod], another callable or any other object. *)
Inductive smoother_arg := SName (s : string) | SMember (m : string) | SCallable | SObject.
Definition smoother_enum_arg (a : smoother_arg) : enum_arg :=
  match a with SName s => PStr s | SMember m => PMember m | _ => PObj end.
(** The [degree] argument: an int, None, or anything else (a float, a string, ...). *)
Inductive degree_arg := DInt (d : Z) | DNone | DOther.
(** The [spline_smooth] argument: a float, "heuristic", None, an object that [float()] accepts but is no float (an int or
    a numeric string), or one on which [float()] raises. *)
Inductive spline_arg (F : Type) := AFloat (s : F) | AHeuristic | ANoneS | AConvertible | AInconvertible (e : exn).
Arguments AFloat {F}. Arguments AHeuristic {F}. Arguments ANoneS {F}. Arguments AConvertible {F}. Arguments AInconvertible {F}.

(** What [fit] hands back as its third component: None, a one-argument callable on arrays (which may itself return None),
    or a callable that requires three arguments. *)
Inductive closure (F : Type) := CNone | CFun1 (f : list F -> result (option (list F))) | CFun3.
Arguments CNone {F}. Arguments CFun1 {F}. Arguments CFun3 {F}.

Section Smoother.
Context {F : Type} {N : Num F}.
Variable emd : list F -> result (list (list F)).
(** np.exp on a float. *)
Variable nexp : F -> F.
(** [len(eigs) ** s] of smoother.py:244. *)
Variable len_pow : nat -> F -> F.
(** numpy.polynomial.polynomial.polyfit: coefficients, lowest degree first. *)
Variable polyfit : list F -> list F -> Z -> result (list F).
(** scipy.interpolate.UnivariateSpline(eigs, steps, k, s): a function evaluated elementwise. *)
Variable uspline : list F -> list F -> Z -> F -> result (F -> F).
(** scipy.optimize.curve_fit for the two families used, with the starting point. *)
Variable fit_exp : list F -> list F -> F * F -> result (F * F).
Variable fit_gompertz : list F -> list F -> F * F * F -> result (F * F * F).

(** numpy.polynomial.polynomial.polyval: Horner's scheme from the highest coefficient. *)
Definition polyval (x : F) (c : list F) : F :=
  match rev c with
  | [] => n0
  | a :: rest => fold_left (fun acc a => nadd a (nmul acc x)) rest (nadd a (nmul x n0))
  end.
(** exponentials.py:46-48. *)
Definition gompertz_f (x a b c : F) : F := nmul a (nexp (nmul (nopp b) (nexp (nmul (nopp c) x)))).
(** smoother.py:154. *)
Definition exponential_f (t a b : F) : F := nmul a (nexp (nmul (nopp b) t)).

(** smoother.py:331-382 [__validate_args] as called by [fit] (no [detrend] or [method] keyword). *)
Definition validate_args (sm : smoother_arg) (degree : degree_arg) (ss : spline_arg F) : result unit :=
  let! v := validate SmoothMethod (smoother_enum_arg sm) in
  match v with
  | PMember m =>
      if String.eqb m "Polynomial" then
        match degree with
        | DInt d => if d <? 3 then Raise ValueError else Ok tt
        | _ => Raise ValueError
        end
      else if String.eqb m "Spline" then
        match degree with
        | DInt d =>
            if 5 <? d then Raise ValueError
            else match ss with AInconvertible e => Raise e | _ => Ok tt end
        | _ => Raise ValueError
        end
      else Ok tt
  | _ => match sm with SCallable => Raise NotImplementedErr | _ => Raise ValueError end
  end.

(** smoother.py:117 [steps = np.arange(0, len(eigs)) + 1]. *)
Definition fit_steps (eigs : list F) : list F := map (fun i => nofZ (Z.of_nat i)) (seq 1 (List.length eigs)).
(** [if detrend: unfolded = emd_detrend(unfolded)] *)
Definition maybe_detrend (detrend : bool) (u : list F) : result (list F) :=
  if detrend then emd_detrend emd u else Ok u.

(** smoother.py:74-174 [Smoother.fit] on the stored eigenvalues.  [is_member] is the test
    [smoother is SmoothMethod.m]: a string never passes it. *)
Definition is_member (sm : smoother_arg) (m : string) : bool :=
  match sm with SMember m' => String.eqb m' m | _ => false end.
Definition fit (eigs : list F) (sm : smoother_arg) (degree : degree_arg) (ss : spline_arg F)
    (detrend return_callable : bool) : result (list F * list F * closure F) :=
  let steps := fit_steps eigs in
  let! _ := validate_args sm degree ss in
  if is_member sm "Polynomial" then
    match degree with
    | DInt d =>
        let! coef := polyfit eigs steps d in
        let! u := maybe_detrend detrend (map (fun x => polyval x coef) eigs) in
        Ok (u, steps, CFun1 (fun x => Ok (if return_callable then Some (map (fun v => polyval v coef) x) else None)))
    | _ => Raise ValueError
    end
  else if is_member sm "Spline" then
    match degree with
    | DInt k =>
        let! spline :=
          match ss with
          | AHeuristic => uspline eigs steps k (nmul (nlen eigs) (nvar1 eigs))
          | AFloat s => uspline eigs steps k s
          | _ => Raise ValueError
          end in
        let f := if return_callable then CFun1 (fun x => Ok (Some (map spline x))) else CNone in
        let! u := maybe_detrend detrend (map spline eigs) in
        Ok (u, steps, f)
    | _ => Raise ValueError
    end
  else if is_member sm "Exponential" then
    let! (a, b) := fit_exp eigs steps (ndiv (nlen eigs) (nofZ 2), ndiv n1 (nofZ 2)) in
    let! u := maybe_detrend detrend (map (fun t => exponential_f t a b) eigs) in
    Ok (u, steps, CFun3)
  else if is_member sm "Gompertz" then
    match last_opt steps with
    | None => Raise IndexError
    | Some top =>
        let! p := fit_gompertz eigs steps (top, n1, n1) in
        let '(a, b, c) := p in
        let! u := maybe_detrend detrend (map (fun x => gompertz_f x a b c) eigs) in
        Ok (u, steps, CFun1 (fun x => Ok (if return_callable then Some (map (fun v => gompertz_f v a b c) x) else None)))
    end
  else Raise RuntimeError.

(** smoother.py:52-53 [_spline_name]. *)
Definition str_of_int (d : Z) : string := NilZero.string_of_int (Z.to_int d).
Definition spline_name (d : Z) : string :=
  if d =? 3 then "cubic" else if d =? 4 then "quartic" else if d =? 5 then "quintic" else "deg" ++ str_of_int d.

(** [format(s, "1.3f")], [format(s, "1.2f")] of a float. *)
Variable fmt3 fmt2 : F -> string.
(** _constants.py:13 [DEFAULT_SPLINE_SMOOTHS]. *)
Variable default_smooths : list F.

(** The [spline_smooths] argument of [fit_all]: a list of floats or "heuristic". *)
Inductive smooths_arg := SList (l : list F) | SHeuristic.

(** smoother.py:287-329 [_get_smoother_names] for list arguments. *)
Definition get_smoother_names (poly_degrees : list Z) (smooths : smooths_arg) (spline_degrees : list Z) (gomp : bool)
  : list string :=
  map (fun d => "poly_" ++ str_of_int d)%string poly_degrees
  ++ match smooths with
     | SHeuristic =>
         flat_map (fun s => map (fun d => spline_name d ++ "-spline_" ++ fmt3 s ++ "_heuristic")%string spline_degrees)
           default_smooths
     | SList l => flat_map (fun s => map (fun d => spline_name d ++ "-spline_" ++ fmt3 s)%string spline_degrees) l
     end
  ++ (if gomp then ["gompertz"%string] else []).

(** One column of what [fit_all] returns: name, sorted unfolded values, spacings, mean squared error, closure. *)
Record column := mkcol { c_name : string; c_unfolded : list F; c_spacings : list F; c_msqe : F; c_closure : closure F }.
(** smoother.py:231-236, 249-254, 266-271, 276-281: what is appended for one fit. *)
Definition make_column (name : string) (r : list F * list F * closure F) : result column :=
  let '(u, steps, cl) := r in
  let! d := np_sub u steps in
  Ok (mkcol name (np_sort u) (ndiff (np_sort u)) (nmean (map (fun v => nmul v v) d)) cl).

(** A Python loop that appends one result per item. *)
Fixpoint for_each {A B} (f : A -> result B) (l : list A) : result (list B) :=
  match l with
  | [] => Ok []
  | x :: t => let! y := f x in let! ys := for_each f t in Ok (y :: ys)
  end.

(** smoother.py:176-285 [fit_all]; the columns in the order in which they are appended. *)
Definition fit_all (eigs : list F) (poly_degrees : list Z) (smooths : smooths_arg) (spline_degrees : list Z)
    (gomp detrend : bool) : result (list column) :=
  let default_degree := DInt 7 in
  let! polys := for_each (fun d =>
      let! r := fit eigs (SMember "Polynomial") (DInt d) (AFloat (ndiv (nofZ 14) (nofZ 10))) detrend true in
      make_column ("poly_" ++ str_of_int d)%string r) poly_degrees in
  let! splines :=
    match smooths with
    | SHeuristic =>
        for_each (fun p : F * Z => let (s, d) := p in
          let! r := fit eigs (SMember "Spline") (DInt d) (AFloat (len_pow (List.length eigs) s)) detrend true in
          make_column (spline_name d ++ "-spline_" ++ fmt2 s ++ "_heuristic")%string r) (list_prod default_smooths spline_degrees)
    | SList l =>
        for_each (fun p : F * Z => let (s, d) := p in
          let! r := fit eigs (SMember "Spline") (DInt d) (AFloat s) detrend true in
          make_column (spline_name d ++ "-spline_" ++ fmt3 s)%string r) (list_prod l spline_degrees)
    end in
  let! g :=
    if gomp then
      let! r := fit eigs (SMember "Gompertz") default_degree (AFloat (ndiv (nofZ 14) (nofZ 10))) detrend true in
      let! c := make_column "gompertz"%string r in Ok [c]
    else Ok [] in
  Ok (polys ++ splines ++ g).

(** trim.py:581-660 [__iters_to_dataframe]: the summary's column names and the position each unfolding column is written to. *)
Definition summary_columns (names : list string) : list string :=
  ["trim_percent"; "trim_low"; "trim_high"]%string
  ++ flat_map (fun n => [n ++ "--mean_spacing"; n ++ "--var_spacing"; n ++ "--msqe"; n ++ "--score"]%string) names.

(** ** unfold.py *)

(** unfold.py:31-47 the [Unfolded] object: sorted originals (through EigVals.__init__), values as given, smoother. *)
Record unfolded := mkunf { u_originals : list F; u_values : list F; u_smoother : closure F }.
Definition unfolded_init (originals vals : list F) (s : closure F) : unfolded := mkunf (np_sort originals) vals s.

(** Calling a closure with one positional argument. *)
Definition call1 (c : closure F) (x : list F) : result (option (list F)) :=
  match c with CFun1 f => f x | _ => Raise TypeError end.
(** unfold.py:50-56 [evaluate_smoother]. *)
Definition evaluate_smoother (u : unfolded) (x : list F) : result (option (list F)) :=
  match u_smoother u with CNone => Raise NotImplementedErr | c => call1 c x end.

(** The analytic counting functions of [unfold_goe] and [unfold_poisson] (M_Analytic.v), as functions of the number of
    eigenvalues. *)
Variable smooth_g smooth_p : nat -> F -> F.
(** eigenvalues.py:810-831, 833-877. *)
Definition unfold_analytic (smooth : nat -> F -> F) (eigs : list F) : result unfolded :=
  match eigs with
  | [] => Raise ValueError
  | _ => Ok (unfolded_init eigs (np_sort (map (smooth (List.length eigs)) eigs)) CNone)
  end.

(** eigenvalues.py:720-808 [Eigenvalues.unfold]; [kind] is the object's [kind] attribute. *)
Definition eig_unfold (eigs : list F) (kind : option enum_arg) (smoother : option smoother_arg) (degree : degree_arg)
    (ss : spline_arg F) (detrend : bool) : result unfolded :=
  let go (sm : smoother_arg) :=
    let! v := validate SmoothMethod (smoother_enum_arg sm) in
    let sm' := match v with PMember m => SMember m | _ => sm end in
    if is_member sm' "GOE" then unfold_analytic smooth_g eigs
    else if is_member sm' "Poisson" then unfold_analytic smooth_p eigs
    else
      let! r := fit (np_sort eigs) sm' degree ss detrend true in
      let '(u, _, cl) := r in
      let! u' := maybe_detrend detrend u in
      Ok (unfolded_init eigs (np_sort u') cl) in
  match smoother with
  | Some sm => go sm
  | None =>
      match kind with
      | Some (PMember m) =>
          if String.eqb m "GOE" then unfold_analytic smooth_g eigs
          else if String.eqb m "GDE" then unfold_analytic smooth_p eigs
          else go (SMember "Polynomial")
      | _ => go (SMember "Polynomial")
      end
  end.

(** trim.py:71-107 [Trimmed.unfold]. *)
Definition trimmed_unfold (eigs : list F) (sm : smoother_arg) (degree : degree_arg) (ss : spline_arg F) (detrend : bool)
  : result unfolded :=
  let! r := fit (np_sort eigs) sm degree ss detrend false in
  let '(u, _, cl) := r in
  Ok (unfolded_init eigs u cl).
End Smoother.

(** ** Python's fixed-point formatting of a float, for exact rationals *)

(** Round half to even of [n / d]. *)
Definition round_half_even (q : Q) : Z :=
  let n := Qnum q in let d := Zpos (Qden q) in
  let f := n / d in let r := 2 * (n mod d) in
  if r <? d then f else if d <? r then f + 1 else if Z.even f then f else f + 1.
(** Decimal digits of [n] padded with zeros to [k] places. *)
Fixpoint pad_digits (k : nat) (n : Z) : string :=
  match k with
  | O => ""
  | S k' => pad_digits k' (n / 10) ++ str_of_int (n mod 10)
  end.
(** [format(q, "1.kf")] *)
Definition format_fixed (k : nat) (q : Q) : string :=
  let p := 10 ^ Z.of_nat k in
  let m := round_half_even (Qmult (Qmake (Z.abs (Qnum q)) (Qden q)) (inject_Z p)) in
  (if Qnum q <? 0 then "-" else "") ++ str_of_int (m / p) ++ "." ++ pad_digits k (m mod p).
