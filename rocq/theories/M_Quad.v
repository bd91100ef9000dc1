(** Model of the numeric kernels of empyricalRMT/utils.py and empyricalRMT/observables/rigidity.py: compensated addition,
    least-squares line, squared deviations, trapezoidal and irregular Simpson rules, and np.linspace.
    [fastmath=True] (which allows re-association) is not modelled: operations are done in source order. *)
From Coq Require Import List ZArith Bool Arith.
From Verif Require Import Base M_Step.
Import ListNotations.

Section Quad.
Context {F : Type} {N : Num F}.

(** utils.py:88-103 [kahan_add(current_sum, update, carry_over)]: (updated sum, carry). *)
Definition kahan_add (current_sum update carry_over : F) : F * F :=
  let remainder := nsub update carry_over in
  let lossy := nadd current_sum remainder in
  let c := nsub (nsub lossy current_sum) remainder in
  (lossy, c).

(** Elementwise product of two arrays of the same length. *)
Definition np_mul (a b : list F) : list F := map (fun p => nmul (fst p) (snd p)) (combine a b).

(** rigidity.py:323-334 [_slope]; utils.py:136-146 [slope] is the same text. *)
Definition slope (x y : list F) : F :=
  let x_dev := map (fun v => nsub v (nmean x)) x in
  let y_dev := map (fun v => nsub v (nmean y)) y in
  let cov := nsum (np_mul x_dev y_dev) in
  let var := nsum (np_mul x_dev x_dev) in
  if neq var n0 then n0 else ndiv cov var.

(** rigidity.py:337-339 [_intercept]; utils.py:161-163 [intercept]. *)
Definition intercept (x y : list F) (sl : F) : F := nsub (nmean y) (nmul sl (nmean x)).

(** rigidity.py:357-389 [_sq_lin_deviation] (the argument [eigs] is not used by the code). *)
Definition sq_lin_deviation (steps : list F) (K w : F) (grid : list F) : list F :=
  map (fun p => let d := nsub (nsub (fst p) (nmul K (snd p))) w in nmul d d) (combine steps grid).

(** [a[i]] with wrap-around of negative indices, as compiled by numba; out-of-range reads (undefined in numba) are zero. *)
Definition at_ (a : list F) (i : Z) : F := match py_get a i with Some v => v | None => n0 end.

(** rigidity.py:342-352 [_integrate_fast]. *)
Definition integrate_fast (grid vals : list F) : F :=
  fold_left (fun acc i =>
    let w := nsub (at_ grid (Z.of_nat i + 1)) (at_ grid (Z.of_nat i)) in
    let h := nadd (at_ vals (Z.of_nat i)) (at_ vals (Z.of_nat i + 1)) in
    nadd acc (ndiv (nmul w h) (nofZ 2))) (seq 0 (length grid - 1)) n0.

(** [x**2], [x**3] *)
Definition sq (x : F) : F := nmul x x.
Definition cube (x : F) : F := nmul (nmul x x) x.

(** rigidity.py:417-421, one pass of the loop at index [i]. *)
Definition simps_pass (h vals : list F) (acc : F) (i : Z) : F :=
  let hi := at_ h i in let hm := at_ h (i - 1) in
  let hph := nadd hi hm in
  let r1 := nadd acc (ndiv (nmul (at_ vals i) (nadd (nadd (cube hi) (cube hm)) (nmul (nmul (nmul (nofZ 3) hi) hm) hph)))
                       (nmul (nmul (nofZ 6) hi) hm)) in
  let r2 := nadd r1 (ndiv (nmul (at_ vals (i - 1)) (nadd (nsub (nmul (nofZ 2) (cube hm)) (cube hi)) (nmul (nmul (nofZ 3) hi) (sq hm))))
                       (nmul (nmul (nofZ 6) hm) hph)) in
  nadd r2 (ndiv (nmul (at_ vals (i + 1)) (nadd (nsub (nmul (nofZ 2) (cube hi)) (cube hm)) (nmul (nmul (nofZ 3) hm) (sq hi))))
             (nmul (nmul (nofZ 6) hi) hph)).

(** rigidity.py:392-428 [_int_simps_nonunif]: [range(1, N, 2)] has N / 2 members 1, 3, ... *)
Definition int_simps_nonunif (grid vals : list F) : F :=
  let n := (Z.of_nat (length grid) - 1)%Z in
  let h := ndiff grid in
  let result := fold_left (fun acc j => simps_pass h vals acc (2 * Z.of_nat j + 1)%Z) (seq 0 (Z.to_nat (n / 2))) n0 in
  if ((n + 1) mod 2 =? 0)%Z then
    let h1 := at_ h (n - 1) in let h2 := at_ h (n - 2) in
    let r1 := nadd result (ndiv (nmul (at_ vals n) (nadd (nmul (nofZ 2) (sq h1)) (nmul (nmul (nofZ 3) h2) h1)))
                             (nmul (nofZ 6) (nadd h2 h1))) in
    let r2 := nadd r1 (ndiv (nmul (at_ vals (n - 1)) (nadd (sq h1) (nmul (nmul (nofZ 3) h1) h2))) (nmul (nofZ 6) h2)) in
    nsub r2 (ndiv (nmul (at_ vals (n - 2)) (cube h1)) (nmul (nmul (nofZ 6) h2) (nadd h2 h1)))
  else result.

(** np.linspace(start, stop, num): [num] = 1 gives [start]; otherwise the last entry is set to [stop]. *)
Definition linspace (start stop : F) (num : nat) : list F :=
  let step := ndiv (nsub stop start) (nofZ (Z.of_nat num - 1)) in
  map (fun i => if Nat.leb num 1 then start else if Nat.eqb (S i) num then stop else nadd start (nmul (nofZ (Z.of_nat i)) step)) (seq 0 num).

(** rigidity.py:254-264, one sampled value of the rigidity at the window centre [start]; the same text is in _delta_grid,
    rigidity.py:309-319. *)
Definition d3_sample (use_simpson : bool) (gridsize : nat) (L : F) (unfolded : list F) (start : F) : outcome F :=
  let grid := linspace (nsub start (ndiv L (nofZ 2))) (nadd start (ndiv L (nofZ 2))) gridsize in
  match step_function_fast unfolded grid with
  | Done counts =>
      let steps := map nofZ counts in
      let K := slope grid steps in
      let w := intercept grid steps K in
      let y_vals := sq_lin_deviation steps K w grid in
      let delta3_c := if use_simpson then int_simps_nonunif grid y_vals else integrate_fast grid y_vals in
      Done (ndiv delta3_c L)
  | OutOfBounds => OutOfBounds
  | Running => Running
  end.
End Quad.
