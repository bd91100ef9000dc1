(** Model of the platform-dependent constants of empyricalRMT/_constants.py, of the imports of the package's modules, and of the progress
    messages of observables/levelvariance.py, observables/rigidity.py, trim.py and eigenvalues.py. *)
From Coq Require Import String List ZArith Bool Arith.
From Verif Require Import Base M_Step M_Quad M_Loops M_Trim M_Smooth M_Report.
Import ListNotations.
Local Open Scope Z_scope.
Local Notation length := List.length.

(** ** Constants and imports *)
(** _constants.py:17, [platform.system().lower() == "windows"]. *)
Inductive platform := Windows | OtherSystem.

(** _constants.py:5-46, the names bound when the module has run: lines 5-14 and 44-46 always, 18-25 or 27-42 by platform. *)
Definition constants (p : platform) : list string :=
  ["EXPECTED_GOE_VARIANCE"; "EXPECTED_GOE_MEAN"; "DEFAULT_POLY_DEGREE"; "DEFAULT_SPLINE_SMOOTH"; "DEFAULT_SPLINE_DEGREE";
    "DEFAULT_POLY_DEGREES"; "DEFAULT_SPLINE_SMOOTHS"; "DEFAULT_SPLINE_DEGREES"]%string
   ++ match p with
      | Windows => ["PROG"; "PROG_FREQUENCY"; "CONVERG_PROG_INTERVAL"; "LEVELVAR_PROG"; "RIGIDITY_PROG"; "CONVERG_PROG"; "PERCENT"]%string
      | OtherSystem => ["PROG"; "PROG_FREQUENCY"; "CONVERG_PROG_INTERVAL"; "LEVELVAR_PROG"; "RIGIDITY_PROG"; "CONVERG_PROG"; "PERCENT"; "ITER_COUNT"]%string
      end
   ++ ["MIN_ITERS"; "RIGIDITY_GRID"; "AUTO_MAX_ITERS"]%string.
(** _constants.py:20, 28 and 21, 34. *)
Definition PROG_FREQUENCY (p : platform) : Z := match p with Windows => 20 | OtherSystem => 50 end.
Definition CONVERG_PROG_INTERVAL (p : platform) : Z := match p with Windows => 20 | OtherSystem => 100000 / 50 end.

(** The import statements run when a module of the package is loaded: its name, the names it takes from _constants.py, and the other
    modules of the package it loads.  Imports inside functions and under [TYPE_CHECKING] (plot.py:29-30) do not run then.  Third-party
    packages are taken to be installed. *)
Record module_ := mkmodule { m_name : string; m_constants : list string; m_imports : list string }.
Definition package : list module_ :=
  [mkmodule "_constants" [] [];  (* _constants.py:1-3 *)
   mkmodule "_types" [] [];  (* _types.py *)
   mkmodule "utils" [] [];  (* utils.py *)
   mkmodule "_validate" [] ["_types"];  (* _validate.py:6 *)
   mkmodule "brody" [] ["_types"];  (* brody.py:7 *)
   mkmodule "compare" [] ["_types"; "_validate"];  (* compare.py:10-11 *)
   mkmodule "correlater" [] ["_types"];  (* correlater.py:5 *)
   mkmodule "detrend" [] ["_types"];  (* detrend.py:4 *)
   mkmodule "ensemble" [] ["_types"];  (* ensemble.py:9 *)
   mkmodule "exponentials" [] ["_types"];  (* exponentials.py:4 *)
   mkmodule "observables.step" [] ["_types"];  (* observables/step.py:7 *)
   mkmodule "signalproc.clean" [] ["_types"];  (* signalproc/clean.py:6 *)
   mkmodule "signalproc.detrend" [] ["_types"; "exponentials"; "utils"];  (* signalproc/detrend.py:15-17 *)
   mkmodule "plot" [] ["_types"; "brody"; "ensemble"; "observables.step"; "utils"];  (* plot.py:23-27 *)
   mkmodule "_eigvals" [] ["_types"; "_validate"; "observables.step"; "plot"];  (* _eigvals.py:6-11 *)
   mkmodule "observables.levelvariance"  (* observables/levelvariance.py:9-20 *)
     ["AUTO_MAX_ITERS"; "CONVERG_PROG"; "CONVERG_PROG_INTERVAL"; "ITER_COUNT"; "LEVELVAR_PROG"; "MIN_ITERS"; "PERCENT"; "PROG_FREQUENCY"]
     ["_types"; "utils"];
   mkmodule "observables.rigidity"  (* observables/rigidity.py:9-21 *)
     ["AUTO_MAX_ITERS"; "CONVERG_PROG"; "CONVERG_PROG_INTERVAL"; "ITER_COUNT"; "MIN_ITERS"; "PERCENT"; "RIGIDITY_GRID"; "RIGIDITY_PROG"]
     ["_types"; "observables.step"; "utils"];
   mkmodule "smoother"  (* smoother.py:16-25 *)
     ["DEFAULT_POLY_DEGREE"; "DEFAULT_SPLINE_DEGREE"; "DEFAULT_SPLINE_DEGREES"; "DEFAULT_SPLINE_SMOOTH"; "DEFAULT_SPLINE_SMOOTHS"]
     ["_types"; "detrend"; "exponentials"];
   mkmodule "unfold" ["RIGIDITY_GRID"]  (* unfold.py:14-26 *)
     ["plot"; "_eigvals"; "_types"; "_validate"; "brody"; "compare"; "ensemble"; "observables.levelvariance"; "observables.rigidity"];
   mkmodule "construct" [] ["_types"; "correlater"; "unfold"];  (* construct.py:11-13 *)
   mkmodule "trim"  (* trim.py:30-44 *)
     ["DEFAULT_POLY_DEGREE"; "DEFAULT_POLY_DEGREES"; "DEFAULT_SPLINE_DEGREES"; "DEFAULT_SPLINE_SMOOTH"; "DEFAULT_SPLINE_SMOOTHS";
      "EXPECTED_GOE_MEAN"; "EXPECTED_GOE_VARIANCE"]
     ["_eigvals"; "_types"; "plot"; "smoother"; "unfold"; "utils"];
   mkmodule "eigenvalues" ["DEFAULT_POLY_DEGREE"; "DEFAULT_POLY_DEGREES"; "DEFAULT_SPLINE_SMOOTH"]  (* eigenvalues.py:15-25 *)
     ["_eigvals"; "_types"; "construct"; "correlater"; "detrend"; "signalproc.detrend"; "smoother"; "trim"; "unfold"]]%string.

(** Loading a module: [from _constants import name] fails with ImportError when the name is not there; a failing import inside a module
    makes loading that module fail.  [fuel] bounds the depth of the imports. *)
Fixpoint loads (fuel : nat) (p : platform) (name : string) : bool :=
  match fuel with
  | O => false
  | S fuel' =>
      match find (fun m => String.eqb (m_name m) name) package with
      | None => false
      | Some m =>
          forallb (fun c => existsb (String.eqb c) (constants p)) (m_constants m) && forallb (loads fuel' p) (m_imports m)
      end
  end.
Definition import_module (p : platform) (name : string) : bool := loads (length package) p name.

(** ** Counting iterations *)
(** What one [print] of the loops shows: its number, or an empty line. *)
Inductive shown := Number (z : Z) | Blank.

Section Counting.
Context {F : Type} {N : Num F}.
(** levelvariance.py:220-222, rigidity.py:241-243. *)
Definition prog_interval (p : platform) (L : F) : Z :=
  if ngt L (nofZ 100) then CONVERG_PROG_INTERVAL p * 10 else CONVERG_PROG_INTERVAL p.

(** levelvariance.py:245-269 with the message of 264-265 (M_Loops.sigma_loop is the loop without it). *)
Fixpoint sigma_loop_shown (fuel : nat) (size : Z) (unfolded : list F) (lo hi L : F) (max_iters min_iters : Z) (tol : F)
  (interval : Z) (show : bool) (draws : nat -> F) (pos : nat) (st : sstate) : list shown * outcome sstate :=
  match fuel with
  | O => ([], Running)
  | S fuel' =>
      let st' := sigma_pass size unfolded L (uniform lo hi (draws pos)) st in
      let line := if show && (s_k st' mod interval =? 0) then [Number (s_k st' * 2)] else [] in
      if sigma_stop max_iters min_iters tol st' then (line, Done st')
      else let '(out, r) := sigma_loop_shown fuel' size unfolded lo hi L max_iters min_iters tol interval show draws (S pos) st' in
           (line ++ out, r)
  end.
(** levelvariance.py:171-275 [sigma_L] with [show_progress]: what is printed, and the result. *)
Definition sigma_L_shown (p : platform) (unfolded : list F) (L : F) (max_iters : Z) (tol : F) (min_iters : Z) (show : bool)
  (draws : nat -> F) : result (list shown * outcome (F * bool * Z)) :=
  match unfolded with
  | [] => Raise ValueError
  | h :: t =>
      let lo := nmin h t in let hi := nmax h t in
      let st := sigma_init BUFFER unfolded L (uniform lo hi (draws 0%nat)) in
      let first := if show then [Number 0] else [] in
      let '(out, r) := sigma_loop_shown (Z.to_nat (Z.max 1 max_iters)) BUFFER unfolded lo hi L max_iters min_iters tol
                         (prog_interval p L) show draws 1 st in
      Ok match r with
         | Done s => (first ++ out ++ (if show then [Number (s_k s); Blank] else []), Done (s_sigma s, spread_below (s_buf s) tol, s_k s))
         | OutOfBounds => (first ++ out, OutOfBounds)
         | Running => (first ++ out, Running)
         end
  end.

(** rigidity.py:251-293 from the second pass on, with the message of 284-285. *)
Fixpoint delta_loop_shown (fuel : nat) (size : Z) (sample : nat -> outcome F) (max_iters min_iters : Z) (tol : F) (interval : Z)
  (show : bool) (pos : nat) (st : dstate) : list shown * outcome dstate :=
  match fuel with
  | O => ([], Running)
  | S fuel' =>
      match sample pos with
      | Done d3 =>
          let st' := delta_pass size d3 st in
          let line := if show && (d_k st' mod interval =? 0) then [Number (d_k st' * 2)] else [] in
          if delta_stop size max_iters min_iters tol st' then (line, Done st')
          else let '(out, r) := delta_loop_shown fuel' size sample max_iters min_iters tol interval show (S pos) st' in (line ++ out, r)
      | OutOfBounds => ([], OutOfBounds)
      | Running => ([], Running)
      end
  end.
(** rigidity.py:229-301 [delta_L] with [show_progress]; the first pass ends with [continue] and prints nothing. *)
Definition delta_L_shown (p : platform) (unfolded : list F) (L : F) (gridsize : nat) (max_iters min_iters : Z) (tol : F) (use_simpson show : bool)
  (draws : nat -> F) : list shown * outcome (F * bool * Z) :=
  let first := if show then [Number 0] else [] in
  let sample := delta_sample use_simpson gridsize L unfolded draws in
  match sample 0%nat with
  | Done d3 =>
      let '(out, r) := delta_loop_shown (Z.to_nat (Z.max 1 (max_iters - 1))) BUFFER sample max_iters min_iters tol (prog_interval p L) show 1
                         (delta_init BUFFER d3) in
      match r with
      | Done s => (first ++ out ++ (if show then [Number (d_k s)] else []), Done (nmean (d_buf s), spread_below (d_buf s) tol, d_k s))
      | OutOfBounds => (first ++ out, OutOfBounds)
      | Running => (first ++ out, Running)
      end
  | OutOfBounds => (first, OutOfBounds)
  | Running => (first, Running)
  end.

(** ** Percentages of the parallel loops *)
(** What a thread does: store a result, or print the percentage. *)
Inductive event := EStore (s : @store F) | EShow.
(** levelvariance.py:145-147 with PROG_FREQUENCY, rigidity.py:200-202 with 50. *)
Definition show_interval (frequency : Z) (n : nat) : Z :=
  let i := Z.of_nat n / frequency in if i =? 0 then 1 else i.
(** levelvariance.py:154-164, rigidity.py:208-221: the events of iteration [i], whose result is [r], in their order. *)
Definition events_of (interval : Z) (show : bool) (i : nat) (r : F * bool * Z) : list event :=
  map EStore (stores_of i r) ++ (if show && (Z.of_nat i mod interval =? 0) then [EShow] else []).
(** levelvariance.py:163 ([counted v] is [v > 0]), rigidity.py:220 ([v != 0]): [int(100 * np.sum(..) / len(..))].  The quotient is a float;
    C148_percent_double shows that its whole part is the one of the exact quotient. *)
Definition percentage (counted : F -> bool) (v : list F) : Z :=
  100 * Z.of_nat (length (filter counted v)) / Z.of_nat (length v).
Definition do_event (counted : F -> bool) (s : @arrays F * list shown) (e : event) : @arrays F * list shown :=
  match e with
  | EStore st => (do_store (fst s) st, snd s)
  | EShow => (fst s, snd s ++ [Number (percentage counted (fst (fst (fst s))))])
  end.
(** The whole loop: what the arrays hold and what has been printed after the threads have performed [schedule].  levelvariance.py:152-153,
    165-166 and rigidity.py:206-207 print a zero before it; levelvariance.py also prints an empty line after it ([blank]). *)
Definition run_events (counted : F -> bool) (show blank : bool) (n : nat) (junk : list Z) (schedule : list event) : @arrays F * list shown :=
  let s := fold_left (do_event counted) schedule ((repeat n0 n, repeat false n, junk), if show then [Number 0] else []) in
  (fst s, snd s ++ (if show && blank then [Blank] else [])).
(** The events of all iterations when the loop runs from the first to the last. *)
Definition all_events (interval : Z) (show : bool) (n : nat) (f : nat -> F * bool * Z) : list event :=
  flat_map (fun i => events_of interval show i (f i)) (seq 0 n).
(** The two meanings of "counted". *)
Definition positive (v : F) : bool := nlt n0 v.
Definition nonzero (v : F) : bool := negb (neq v n0).
End Counting.

(** ** Trimming *)
Section Trimming.
Context {F : Type} {N : Num F} {U : Type}.
Variable hbos : nat -> list F -> result (list bool).
Variable fit_all : list F -> result U.
(** trim.py:570-579 with the message of 571-572: the numbers printed, and the iterations appended after [cur]. *)
Fixpoint trim_loop_shown (show : bool) (i : nat) (k : nat) (max_trim : F) (cur : trimiter F U) : list nat * result (list (trimiter F U)) :=
  match k with
  | O => ([], Ok [])
  | S k' =>
      let line := if show then [i] else [] in
      match next_iter hbos fit_all cur with
      | Raise e => (line, Raise e)
      | Ok t =>
          if ngt (proportion_removed t) max_trim then (line, Ok [])
          else if is_all_inliers t then (line, Ok [t])
          else let '(out, r) := trim_loop_shown show (S i) k' max_trim t in (line ++ out, let! rest := r in Ok (t :: rest))
      end
  end.
(** trim.py:229-241, 568-579. *)
Definition trim_iters_shown (show : bool) (eigenvalues : list F) (max_trim : F) (max_iters : Z) : list nat * result (list (trimiter F U)) :=
  let s := np_sort eigenvalues in
  match new_iter hbos fit_all 0 s s with
  | Raise e => ([], Raise e)
  | Ok t0 =>
      let '(out, r) := trim_loop_shown show 0 (Z.to_nat max_iters) max_trim t0 in
      (out, let! rest := r in Ok (t0 :: rest))
  end.
End Trimming.

Section Kept.
Context {F : Type} {N : Num F}.
Variables rnd store : F -> F.
(** eigenvalues.py:704-718 [trim_unfold_auto] with the percentage printed in 716-717 ([rnd] is [np.round(., 1)]). *)
Definition trim_unfold_auto_shown (hbos : nat -> list F -> result (list bool)) (fit : list F -> result (list column))
    (names : list string) (vals : list F) (max_trim : F) (max_iters : Z) : result (F * @unfolded F) :=
  let! its := trim_iters hbos fit vals max_trim max_iters in
  let! f := summary rnd store names its in
  let! (o, u) := autounfold_vals f its in
  Ok (rnd (ndiv (nmul (nofZ 100) (nlen o)) (nlen vals)), unfolded_init o u CNone).
End Kept.
