(** Model of empyricalRMT/_validate.py and empyricalRMT/_eigvals.py. *)
From Coq Require Import List ZArith Bool Arith.
From Verif Require Import Base M_Step.
Import ListNotations.

(** A NumPy array: shape and row-major data ([ravel] order).  Well-formedness is
    [length data = product of shape]. *)
Record ndarray (F : Type) := mkarr { shape : list nat; data : list F }.
Arguments mkarr {F}. Arguments shape {F}. Arguments data {F}.

Definition dims_prod (s : list nat) : nat := fold_right Nat.mul 1%nat s.
Definition wf_array {F} (a : ndarray F) : Prop := length (data a) = dims_prod (shape a).

Section EigVals.
Context {F : Type} {N : Num F}.

(** [len(arr)]: the first dimension; TypeError ("len() of unsized object") for a 0-D array. *)
Definition py_len (a : ndarray F) : result nat :=
  match shape a with [] => Raise TypeError | d :: _ => Ok d end.

(** _validate.py:9-19 [make_1d_array].  The conversion [np.array(array, dtype=f64)] of lines 10-15 is done
    before: the input here is already an array of floats. *)
Definition make_1d_array (a : ndarray F) : result (list F) :=
  let flat := data a in
  let! n := py_len a in
  if negb (Nat.eqb (length flat) n) then Raise ValueError else Ok flat.

(** State of an [EigVals] object (_eigvals.py:33-35): the private constructed array, the cache of
    [steps], and the [_vals] array (a second array: [np.sort] copies). *)
Record eigobj := mkobj { o_construct : list F; o_steps : option (list Z); o_vals : list F }.

(** The argument of the constructor: [None] or anything NumPy turns into a float array. *)
Inductive ctor_arg := ANone | AArr (a : ndarray F).

(** Rows of a 2-D array with shape [r; c]. *)
Fixpoint rows (r c : nat) (l : list F) : list (list F) :=
  match r with O => [] | S r' => firstn c l :: rows r' c (skipn c l) end.

(** [np.array_equal(vals.H, vals)] for a real 2-D array: same shape and equal entries
    (IEEE equality, so a NaN makes it false). *)
Definition is_self_adjoint (r c : nat) (l : list F) : bool :=
  Nat.eqb r c &&
  forallb (fun i => forallb (fun j =>
     match nth_error l (i * c + j), nth_error l (j * c + i) with
     | Some x, Some y => neq x y
     | _, _ => false
     end) (seq 0 c)) (seq 0 r).

Section Ctor.
(** External linear algebra: [np.linalg.eigvalsh] and the real parts of [np.linalg.eigvals]
    (the float64 cast of line 31 drops imaginary parts); they may raise. *)
Variable eigvalsh eigvals : ndarray F -> result (list F).

(** _eigvals.py:17-35 [EigVals.__init__]. *)
Definition eigvals_init (v : ctor_arg) : result eigobj :=
  match v with
  | ANone => Raise ValueError
  | AArr a =>
      let! eigs :=
        (match shape a with
         | [r; c] => if is_self_adjoint r c (data a) then eigvalsh a else eigvals a
         | _ :: _ :: _ :: _ => Raise ValueError
         | _ => make_1d_array a
         end) in
      let s := np_sort eigs in
      Ok (mkobj s None (np_sort s))
  end.
End Ctor.

(** _eigvals.py:63-65 [spacings] = [np.diff(np.sort(self.vals))]. *)
Definition spacings (vals : list F) : list F := ndiff (np_sort vals).

(** Accessor calls on one object, and in-place writes into the arrays the accessors hand out
    (they are the stored arrays themselves, not copies: _eigvals.py:37-47,57-68,
    eigenvalues.py:288-306). *)
Inductive op :=
| ReadVals | ReadOrig | ReadSteps | ReadSpacings | StepFn (x : list F)
| WriteVals (i : nat) (v : F) | WriteOrig (i : nat) (v : F) | WriteSteps (i : nat) (z : Z).

Inductive obs :=
| ObsF (l : list F)
| ObsZ (r : outcome (list Z))
| ObsUnit.

(** One call: _eigvals.py:37-47 (originals), 57-61 (steps, with cache), 63-65 (spacings), 67-68
    (step_function), eigenvalues.py:288-306 (values). *)
Definition exec (o : eigobj) (c : op) : eigobj * obs :=
  match c with
  | ReadVals => (o, ObsF (o_vals o))
  | ReadOrig => (o, ObsF (o_construct o))
  | ReadSteps =>
      match o_steps o with
      | Some s => (o, ObsZ (Done s))
      | None =>
          match step_function_fast (o_vals o) (o_vals o) with
          | Done s => (mkobj (o_construct o) (Some s) (o_vals o), ObsZ (Done s))
          | r => (o, ObsZ r)
          end
      end
  | ReadSpacings => (o, ObsF (spacings (o_vals o)))
  | StepFn x => (o, ObsZ (step_function_fast (o_vals o) x))
  | WriteVals i v => (mkobj (o_construct o) (o_steps o) (set_nth (o_vals o) i v), ObsUnit)
  | WriteOrig i v => (mkobj (set_nth (o_construct o) i v) (o_steps o) (o_vals o), ObsUnit)
  | WriteSteps i z =>
      (mkobj (o_construct o) (match o_steps o with Some s => Some (set_nth s i z) | None => None end)
             (o_vals o), ObsUnit)
  end.

(** A history of calls. *)
Definition run (o : eigobj) (h : list op) : eigobj := fold_left (fun o c => fst (exec o c)) h o.
End EigVals.
Arguments ANone {F}.
Arguments ReadVals {F}. Arguments ReadOrig {F}. Arguments ReadSteps {F}. Arguments ReadSpacings {F}.
Arguments WriteSteps {F}. Arguments ObsZ {F}. Arguments ObsUnit {F}.
