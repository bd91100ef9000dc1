(** Model of the array helpers of empyricalRMT/utils.py: is_symmetric, nd_find, flatten_4D, variance. *)
From Coq Require Import List ZArith Bool Arith.
From Verif Require Import Base M_EigVals.
Import ListNotations.

(** The index tuple at a row-major position (np.unravel_index). *)
Fixpoint unravel (shape : list nat) (k : nat) : list nat :=
  match shape with
  | [] => []
  | _ :: s => (k / dims_prod s)%nat :: unravel s (k mod dims_prod s)
  end.

Section Utils.
Context {F : Type} {N : Num F}.

(** np.isclose of finite numbers. *)
Definition isclose (rtol atol x y : F) : bool := nle (nabs (nsub x y)) (nadd atol (nmul rtol (nabs y))).

(** utils.py:31-32 [is_symmetric(a, rtol, atol)] for arrays of at most two dimensions: [np.allclose(a, a.T)].  Shapes (r, c) and (c, r)
    broadcast when r = c, r = 1 or c = 1; the transpose of a 0- or 1-dimensional array is the array itself. *)
Definition is_symmetric (rtol atol : F) (a : ndarray F) : result bool :=
  let close := isclose rtol atol in
  let at_ k := nth k (data a) n0 in
  match shape a with
  | [] | [_] => Ok (forallb (fun x => close x x) (data a))
  | [r; c] =>
      if Nat.eqb r c then Ok (forallb (fun i => forallb (fun j => close (at_ (i * c + j)%nat) (at_ (j * c + i)%nat)) (seq 0 c)) (seq 0 r))
      else if Nat.eqb r 1 then Ok (forallb (fun i => forallb (fun j => close (at_ j) (at_ i)) (seq 0 c)) (seq 0 c))
      else if Nat.eqb c 1 then Ok (forallb (fun i => forallb (fun j => close (at_ i) (at_ j)) (seq 0 r)) (seq 0 r))
      else Raise ValueError
  | _ => Raise NotImplementedErr (* not modelled *)
  end.

(** utils.py:106-111 [nd_find]: np.ndenumerate goes through the array in row-major order. *)
Fixpoint nd_find_from (value : F) (s : list nat) (k : nat) (l : list F) : option (list nat) :=
  match l with
  | [] => None
  | v :: t => if neq v value then Some (unravel s k) else nd_find_from value s (S k) t
  end.
Definition nd_find (a : ndarray F) (value : F) : option (list nat) := nd_find_from value (shape a) 0 (data a).

(** utils.py:131-133 [flatten_4D] of an array: [np.prod(())] is the float 1.0, which is no valid dimension; [shape[-1]] of a
    0-dimensional array raises. *)
Definition flatten_4D (a : ndarray F) : result (ndarray F) :=
  match last_opt (shape a) with
  | None => Raise IndexError
  | Some l =>
      match removelast (shape a) with
      | [] => Raise TypeError
      | s => Ok (mkarr [dims_prod s; l] (data a))
      end
  end.

(** utils.py:149-158 [variance]: compiled code, so dividing by n - 1 = 0 raises ZeroDivisionError. *)
Definition variance (arr : list F) : result F :=
  if Nat.eqb (length arr) 1 then Raise GenericException
  else
    let scale := ndiv n1 (nsub (nofZ (Z.of_nat (length arr))) n1) in
    let mean := nmean arr in
    let summed := nsum (map (fun x => let d := nsub x mean in nmul d d) arr) in
    Ok (nmul scale summed).
End Utils.
