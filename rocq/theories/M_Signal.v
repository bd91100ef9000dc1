(** Model of empyricalRMT/signalproc/clean.py, signalproc/detrend.py, exponentials.py and Eigenvalues.detrend.
    The prange loops write disjoint rows, so they are modelled as maps over the rows. *)
From Coq Require Import String List ZArith Bool Arith Reals.
From Verif Require Import Base M_Step M_EigVals M_Enum M_Quad M_Compare.
Import ListNotations.
Local Notation length := List.length.

Section Signal.
Context {F : Type} {N : Num F}.
(** Correctly rounded square root. *)
Variable nsqrt : F -> F.

(** np.var with ddof = 0. *)
Definition np_var (l : list F) : F := nmean (map (fun x => square (nsub x (nmean l))) l).
(** np.linalg.norm of a 1-D array. *)
Definition np_norm (l : list F) : F := nsqrt (nsum (map square l)).

(** signalproc/clean.py:22-29 [fill_mask]: the mask entry of one row, starting from True. *)
Definition row_mask (threshold : F) (row : list F) : bool :=
  let m := true in
  let m := if nle (np_var row) threshold then false else m in
  if nle (np_norm row) threshold then false else m.

(** signalproc/clean.py:9-19 [get_signals]: the selected rows. *)
Definition get_signals (a : ndarray F) (threshold : F) : result (list (list F)) :=
  match shape a with
  | [r; c] =>
      let rs := rows r c (data a) in
      let mask := map (row_mask threshold) rs in
      Ok (map snd (filter (fun p => fst p) (combine mask rs)))
  | _ => Raise GenericException
  end.

(** np.arange(0, n) used in float arithmetic. *)
Definition arange (n : nat) : list F := map (fun i => nofZ (Z.of_nat i)) (seq 0 n).

(** signalproc/detrend.py:110-115 [mean_detrend]: the rows written to [ret]. *)
Definition mean_detrend (signals : list (list F)) : list (list F) :=
  map (fun y => map (fun v => nsub v (nmean y)) y) signals.

(** signalproc/detrend.py:96-107 [linear_detrend]: the rows written to [ret].  Line 105 multiplies by [m], the number of rows. *)
Definition linear_detrend (T : nat) (signals : list (list F)) : list (list F) :=
  let m : F := nofZ (Z.of_nat (length signals)) in
  let x := arange T in
  map (fun y =>
         let a := slope x y in
         let b := intercept x y a in
         let fitted := map (fun t => nadd (nmul m t) b) x in
         map (fun p => nsub (fst p) (snd p)) (combine y fitted)) signals.

(** scipy.stats.linregress(x, y): [slope; intercept; rvalue; pvalue; stderr]; the last three come from [stats]. *)
Variable stats : list F -> list F -> F * F * F.
Definition linregress (x y : list F) : result (list F) :=
  if Nat.eqb (length x) 0 || Nat.eqb (length y) 0 then Raise ValueError
  else if negb (Nat.eqb (length x) (length y)) then Raise ValueError
  else
    let xm := nmean x in let ym := nmean y in
    let ssxm := nmean (map (fun v => square (nsub v xm)) x) in
    let ssxym := nmean (map (fun p => nmul (nsub (fst p) xm) (nsub (snd p) ym)) (combine x y)) in
    let a := ndiv ssxym ssxm in
    let b := nsub ym (nmul a xm) in
    let s := stats x y in
    Ok [a; b; fst (fst s); snd (fst s); snd s].

(** [EMD().emd(signal)] of PyEMD and [Polynomial.fit(x, y, deg=2)] of NumPy: external. *)
Variable emd : list F -> result (list (list F)).
Variable polyfit2 : list F -> list F -> result (F -> F).

(** signalproc/detrend.py:42-67 [detrend].  A method that is neither a string nor a member passes [validate] and leaves [trend] unbound. *)
Definition detrend (eigs : list F) (method : enum_arg) : result (list F) :=
  let! method := M_Enum.validate DetrendMethod method in
  let time := arange (length eigs) in
  let! trend :=
    match method with
    | PMember m =>
        if String.eqb m "EMD" then
          let! imfs := emd eigs in
          match last_opt imfs with None => Raise IndexError | Some t => Ok t end
        else if String.eqb m "Linear" then
          let! r := linregress time eigs in
          match firstn 2 r with
          | [a; b] => Ok (map (fun t => nadd (nmul a t) b) time)
          | _ => Raise ValueError
          end
        else if String.eqb m "Quadratic" then
          let! p := polyfit2 time eigs in Ok (map p time)
        else Raise UnboundLocalErr
    | _ => Raise UnboundLocalErr
    end in
  np_minus eigs trend.

(** signalproc/detrend.py:74-80 [Detrend.linear]: unpacking into two names needs exactly two values. *)
Definition detrend_linear (series : list F) : result (list F) :=
  let time := arange (length series) in
  let! r := linregress time series in
  match r with
  | [m; b] => np_minus series (map (fun t => nadd (nmul m t) b) time)
  | _ => Raise ValueError
  end.

(** signalproc/detrend.py:82-86 [Detrend.emd]. *)
Definition detrend_emd (series : list F) : result (list F) :=
  let! imfs := emd series in
  match last_opt imfs with None => Raise IndexError | Some t => np_minus series t end.

(** signalproc/detrend.py:88-93 [Detrend.difference]: [len(series - 1)] is the length of the series; [junk] is the memory
    np.empty returned. *)
Fixpoint difference_loop (series : list F) (i : nat) (n : nat) (acc : list F) : list F :=
  match n with
  | O => acc
  | S n' => difference_loop series (S i) n' (set_nth acc i (nsub (nth (S i) series n0) (nth i series n0)))
  end.
Definition detrend_difference (series junk : list F) : list F := difference_loop series 0 (length series - 1) junk.

(** eigenvalues.py:34-65, the fields of an Eigenvalues object that matter here; [EigVals.__init__] sorts the values. *)
Record eigenvalues := mkeigs { e_vals : list F; e_kind : option string; e_detrending : option enum_arg }.
Definition new_eigenvalues (vals : list F) (kind : option string) (detrending : option enum_arg) : eigenvalues :=
  mkeigs (np_sort vals) kind detrending.

(** eigenvalues.py:308-313 [Eigenvalues.detrend]. *)
Definition eigenvalues_detrend (self : eigenvalues) (method : enum_arg) : result eigenvalues :=
  match e_detrending self with
  | Some _ => Raise ValueError
  | None => let! d := detrend (e_vals self) method in Ok (new_eigenvalues d None (Some method))
  end.

(** exponentials.py:7-18 [derivative]; compiled code, so [y[1]] of a one-point array is an out-of-bounds read. *)
Definition derivative (x y : list F) : outcome (list F) :=
  let L := length x in
  if Nat.ltb L 2 then OutOfBounds
  else
    let q i j := ndiv (nsub (nth i y n0) (nth j y n0)) (nsub (nth i x n0) (nth j x n0)) in
    Done (q 1%nat 0%nat :: map (fun i => q (i + 2)%nat i) (seq 0 (L - 2)) ++ [q (L - 1)%nat (L - 2)%nat]).
End Signal.

(** ** exponentials.py over the reals *)
Local Open Scope R_scope.
(** exponentials.py:46-48. *)
Definition gompertz (a b c x : R) : R := a * exp (- b * exp (- c * x)).
(** [x ** y] for x >= 0 and y > 0: zero at zero ([Rpower] takes ln 0 = 0 there). *)
Definition np_power (x y : R) : R := if Req_EM_T x 0 then 0 else Rpower x y.
(** exponentials.py:51-54 for x >= 0, d > 0. *)
Definition exponential (a b c d x : R) : R := b - a * exp (- c * np_power x (1 / d)).
(** Values arising in inverse_gompertz: numbers, infinities and NaN; np.log is -inf at 0 and NaN below. *)
Inductive ext := Fin (r : R) | PosInf | NegInf | NaN.
Definition np_log (x : ext) : ext :=
  match x with
  | Fin r => if Rlt_dec 0 r then Fin (ln r) else if Req_EM_T r 0 then NegInf else NaN
  | PosInf => PosInf
  | _ => NaN
  end.
Definition ext_sub (x y : ext) : ext :=
  match x, y with
  | Fin a, Fin b => Fin (a - b)
  | NaN, _ | _, NaN | PosInf, PosInf | NegInf, NegInf => NaN
  | PosInf, _ | _, NegInf => PosInf
  | NegInf, _ | _, PosInf => NegInf
  end.
(** Division by a finite number; by zero only as NaN (signs of infinities are not modelled there). *)
Definition ext_div (x : ext) (c : R) : ext :=
  if Req_EM_T c 0 then NaN
  else match x with
       | Fin a => Fin (a / c)
       | PosInf => if Rlt_dec 0 c then PosInf else NegInf
       | NegInf => if Rlt_dec 0 c then NegInf else PosInf
       | NaN => NaN
       end.
(** exponentials.py:21-43 [inverse_gompertz], a <> 0. *)
Definition inverse_gompertz (a b c x : R) : ext :=
  ext_div (np_log (ext_sub (np_log (Fin b)) (np_log (np_log (Fin (- x / a)))))) c.
