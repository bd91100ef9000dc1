(** Common vocabulary of the model: Python exceptions as values, Python sequence
    helpers, the record of float operations used by the numeric code, and its instances.
    No proofs here. *)
From Coq Require Import List ZArith Bool Reals QArith.
From Coq Require Import Floats.SpecFloat.
Import ListNotations.
Local Open Scope Z_scope.

(** Exception classes raised anywhere in the modelled code (empyricalRMT/*.py) or by the
    NumPy / pandas / Python operations it calls. *)
Inductive exn : Set :=
| ValueError | TypeError | IndexError | KeyError | RuntimeError | NotImplementedErr
| AttributeError | ConvergenceErr | UnboundLocalErr | LinAlgError | GenericException.

(** Outcome of a Python call: a value or a raised exception. *)
Inductive result (A : Type) : Type :=
| Ok (a : A)
| Raise (e : exn).
Arguments Ok {A} a.
Arguments Raise {A} e.

Definition bind {A B} (r : result A) (f : A -> result B) : result B :=
  match r with Ok a => f a | Raise e => Raise e end.
Notation "'let!' x := r 'in' k" := (bind r (fun x => k))
  (at level 200, x pattern, r at level 100, k at level 200).

(** ** Float operations *)

(** The operations on float64 the modelled code uses.  [nle], [nlt], [neq] are the IEEE
    comparisons [<=], [<], [==] (false when an operand is NaN). *)
Class Num (F : Type) := {
  n0 : F; n1 : F;
  nadd : F -> F -> F; nsub : F -> F -> F; nmul : F -> F -> F; ndiv : F -> F -> F;
  nopp : F -> F; nabs : F -> F;
  nle : F -> F -> bool; nlt : F -> F -> bool; neq : F -> F -> bool;
  nofZ : Z -> F
}.

(** Exact reals: no NaN, no infinities, no rounding; [ndiv _ 0] is an unspecified real, so
    theorems over [Num_R] that go through a division carry the hypothesis that keeps the divisor non-zero. *)
#[export] Instance Num_R : Num R := {
  n0 := 0%R; n1 := 1%R;
  nadd := Rplus; nsub := Rminus; nmul := Rmult; ndiv := Rdiv; nopp := Ropp; nabs := Rabs;
  nle x y := if Rle_dec x y then true else false;
  nlt x y := if Rlt_dec x y then true else false;
  neq x y := if Req_EM_T x y then true else false;
  nofZ := IZR
}.

(** Exact rationals, computable; used for executable examples. *)
#[export] Instance Num_Q : Num Q := {
  n0 := 0%Q; n1 := 1%Q;
  nadd x y := Qred (Qplus x y); nsub x y := Qred (Qminus x y); nmul x y := Qred (Qmult x y);
  ndiv x y := Qred (Qdiv x y); nopp x := Qred (Qopp x);
  nabs x := if Qle_bool 0 x then x else Qred (Qopp x);
  nle := Qle_bool;
  nlt x y := negb (Qle_bool y x);
  neq := Qeq_bool;
  nofZ := inject_Z
}.

(** IEEE-754 binary64 (round to nearest even), as specified by the standard library. *)
Definition b64 := spec_float.
Definition b64_prec := 53.
Definition b64_emax := 1024.

Definition b64_ofZ (z : Z) : b64 :=
  match z with
  | Z0 => S754_zero false
  | Zpos m => binary_normalize b64_prec b64_emax (Zpos m) 0 false
  | Zneg m => binary_normalize b64_prec b64_emax (Zneg m) 0 true
  end.

#[export] Instance Num_b64 : Num b64 := {
  n0 := S754_zero false; n1 := b64_ofZ 1;
  nadd := SFadd b64_prec b64_emax; nsub := SFsub b64_prec b64_emax;
  nmul := SFmul b64_prec b64_emax; ndiv := SFdiv b64_prec b64_emax;
  nopp := SFopp; nabs := SFabs;
  nle := SFleb; nlt := SFltb; neq := SFeqb;
  nofZ := b64_ofZ
}.

Section Generic.
Context {F : Type} {N : Num F}.

(** NaN is the value that differs from itself (IEEE). *)
Definition isnan (x : F) : bool := negb (neq x x).
Definition nge (x y : F) : bool := nle y x.
Definition ngt (x y : F) : bool := nlt y x.

(** np.sum; the summation order of NumPy (pairwise) is not modelled: left to right. *)
Definition nsum (l : list F) : F := fold_left nadd l n0.
(** Length of an array as a float. *)
Definition nlen {A} (l : list A) : F := nofZ (Z.of_nat (length l)).
(** np.mean. *)
Definition nmean (l : list F) : F := ndiv (nsum l) (nlen l).
(** np.max / np.min of a non-empty array given as head and tail (NaN-free reading). *)
Definition nmax2 (x y : F) : F := if nlt x y then y else x.
Definition nmin2 (x y : F) : F := if nlt y x then y else x.
Definition nmax (h : F) (t : list F) : F := fold_left nmax2 t h.
Definition nmin (h : F) (t : list F) : F := fold_left nmin2 t h.

(** np.diff of a 1-D array. *)
Fixpoint ndiff (l : list F) : list F :=
  match l with
  | x :: ((y :: _) as t) => nsub y x :: ndiff t
  | _ => []
  end.

(** NumPy's sort order: NaN compares greater than everything (numpy/core npysort:
    [a < b || (b != b && a == a)]). *)
Definition np_lt (x y : F) : bool := nlt x y || (isnan y && negb (isnan x)).
Definition np_le (x y : F) : bool := negb (np_lt y x).

Fixpoint insert_by (le : F -> F -> bool) (x : F) (l : list F) : list F :=
  match l with
  | [] => [x]
  | y :: t => if le x y then x :: l else y :: insert_by le x t
  end.

(** np.sort: any sorting algorithm gives an ascending rearrangement; insertion sort here. *)
Fixpoint np_sort (l : list F) : list F :=
  match l with
  | [] => []
  | x :: t => insert_by np_le x (np_sort t)
  end.
End Generic.

(** ** Python sequences *)

(** [l[i]] with Python's negative indices; [None] models IndexError. *)
Definition py_get {A} (l : list A) (i : Z) : option A :=
  let n := Z.of_nat (length l) in
  let j := if i <? 0 then n + i else i in
  if (j <? 0) || (n <=? j) then None else nth_error l (Z.to_nat j).

(** Python clips slice bounds: negative ones count from the end, all are clamped to [0,n]. *)
Definition py_clip (n i : Z) : Z :=
  let j := if i <? 0 then i + n else i in
  Z.max 0 (Z.min n j).

(** [l[a:b]] *)
Definition py_slice {A} (l : list A) (a b : Z) : list A :=
  let n := Z.of_nat (length l) in
  let s := py_clip n a in
  let e := py_clip n b in
  firstn (Z.to_nat (e - s)) (skipn (Z.to_nat s) l).

(** [l[i] = v] for 0 <= i < len. *)
Fixpoint set_nth {A} (l : list A) (i : nat) (v : A) : list A :=
  match l, i with
  | [], _ => []
  | _ :: t, O => v :: t
  | h :: t, S i' => h :: set_nth t i' v
  end.

(** First and last element with an explicit failure value. *)
Definition last_opt {A} (l : list A) : option A := nth_error l (length l - 1).
Definition head_opt {A} (l : list A) : option A := nth_error l 0.
