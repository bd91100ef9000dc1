(** Model of empyricalRMT/observables/step.py. *)
From Coq Require Import List ZArith Bool Arith.
From Verif Require Import Base.
Import ListNotations.

(** Outcome of a jitted loop: a value, a read outside an array (numba does no bounds checking), or "the
    given fuel was not enough" (a loop that is still running). *)
Inductive outcome (A : Type) : Type :=
| Done (a : A)
| OutOfBounds
| Running.
Arguments Done {A} a.
Arguments OutOfBounds {A}.
Arguments Running {A}.

Section Step.
Context {F : Type} {N : Num F}.

(** step.py:51-52 [while j < len(x) and x[j] < eigs[0]: j += 1].
    One unit of fuel per loop test. *)
Fixpoint step_skip (fuel : nat) (x : list F) (e0 : F) (j : nat) : outcome nat :=
  match fuel with
  | O => Running
  | S fuel' =>
      if j <? length x then
        match nth_error x j with
        | None => OutOfBounds
        | Some xj => if nlt xj e0 then step_skip fuel' x e0 (S j) else Done j
        end
      else Done j
  end.

(** step.py:62-64, the inner look-ahead loop
    [while j < len(x) and x[j] < eigs[i]: ret[j] = count; j += 1]. *)
Fixpoint step_inner (fuel : nat) (x : list F) (ei : F) (count : Z) (j : nat) (ret : list Z)
  : outcome (nat * list Z) :=
  match fuel with
  | O => Running
  | S fuel' =>
      if j <? length x then
        match nth_error x j with
        | None => OutOfBounds
        | Some xj =>
            if nlt xj ei then step_inner fuel' x ei count (S j) (set_nth ret j count)
            else Done (j, ret)
        end
      else Done (j, ret)
  end.

(** step.py:57-64, the main loop; [continue] is the recursive call of the first branch. *)
Fixpoint step_main (fuel : nat) (eigs x : list F) (i j : nat) (count : Z) (ret : list Z)
  : outcome (nat * Z * list Z) :=
  match fuel with
  | O => Running
  | S fuel' =>
      if (j <? length x) && (i <? length eigs) then
        match nth_error x j, nth_error eigs i with
        | Some xj, Some ei =>
            if nge xj ei then step_main fuel' eigs x (S i) j (count + 1)%Z ret
            else
              match step_inner fuel' x ei count j ret with
              | Done (j', ret') => step_main fuel' eigs x i j' count ret'
              | OutOfBounds => OutOfBounds
              | Running => Running
              end
        | _, _ => OutOfBounds
        end
      else Done (j, count, ret)
  end.

(** step.py:66-68 [while j < len(x): ret[j] = count; j += 1]. *)
Fixpoint step_fill (fuel : nat) (len : nat) (count : Z) (j : nat) (ret : list Z) : outcome (list Z) :=
  match fuel with
  | O => Running
  | S fuel' =>
      if j <? len then step_fill fuel' len count (S j) (set_nth ret j count) else Done ret
  end.

(** step.py:36-70 [_step_function_fast(eigs, x)].  Simplification: [fastmath=True] lets the
    compiler assume no NaN; comparisons here are the plain IEEE ones. *)
Definition step_fast (fuel : nat) (eigs x : list F) : outcome (list Z) :=
  let ret := repeat 0%Z (length x) in
  match last_opt x, head_opt eigs, head_opt x, last_opt eigs with
  | Some xlast, Some e0, Some x0, Some elast =>
      if nle xlast e0 then Done ret
      else if ngt x0 elast then Done (map (fun _ => Z.of_nat (length eigs)) ret)
      else
        match step_skip fuel x e0 0 with
        | Done j =>
            match step_main fuel eigs x 0 j 0%Z ret with
            | Done (j', count, ret') => step_fill fuel (length x) count j' ret'
            | OutOfBounds => OutOfBounds
            | Running => Running
            end
        | OutOfBounds => OutOfBounds
        | Running => Running
        end
  | _, _, _, _ => OutOfBounds
  end.

(** Enough fuel for every NaN-free input (proved in P_Step). *)
Definition step_fuel (eigs x : list F) : nat := S (length eigs + (length x + length x)).

(** [_step_function_fast] as called by the rest of the package. *)
Definition step_function_fast (eigs x : list F) : outcome (list Z) :=
  step_fast (step_fuel eigs x) eigs x.

(** step.py:73-81 [_step_function_correct]: [ret[i] = np.sum(eigs <= x[i])]. *)
Definition step_function_correct (eigs x : list F) : list Z :=
  map (fun xi => Z.of_nat (length (filter (fun e => nle e xi) eigs))) x.

(** The argument [x] of [step_values]: a Python float, an array, or anything else. *)
Inductive step_arg := XFloat (x : F) | XArray (x : list F) | XOther.
Inductive step_res := RFloat (z : Z) | RArray (r : outcome (list Z)).

(** step.py:10-32 [step_values(eigs, x)].  The float returned by the scalar branch is an exact integer,
    kept as [Z]. *)
Definition step_values (eigs : list F) (x : step_arg) : result step_res :=
  match x with
  | XFloat v => Ok (RFloat (Z.of_nat (length (filter (fun e => nle e v) eigs))))
  | XArray l => Ok (RArray (step_function_fast eigs l))
  | XOther => Raise ValueError
  end.
End Step.
Arguments XOther {F}.
