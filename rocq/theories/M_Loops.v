(** Model of the sampling loops of empyricalRMT/observables/levelvariance.py and rigidity.py, of the parallel loops over L,
    and of the methods of Unfolded that call them.
    Random numbers: [draws j] is the j-th number from [0, 1) handed out by the generator of the executing thread, an arbitrary
    stream.  Progress printing is not modelled.  Iteration counters (uint64) are integers. *)
From Coq Require Import List ZArith Bool Arith.
From Verif Require Import Base M_Step M_Quad.
Import ListNotations.
Local Open Scope Z_scope.

(** _constants.py: MIN_ITERS, RIGIDITY_GRID, AUTO_MAX_ITERS; the buffer sizes of levelvariance.py:226 and rigidity.py:240. *)
Definition MIN_ITERS : Z := 100.
Definition RIGIDITY_GRID : Z := 100.
Definition AUTO_MAX_ITERS : Z := 1000000000.
Definition BUFFER : Z := 1000.

Section Loops.
Context {F : Type} {N : Num F}.

(** np.random.uniform(lo, hi) from a number [u] in [0, 1). *)
Definition uniform (lo hi u : F) : F := nadd lo (nmul (nsub hi lo) u).

(** levelvariance.py:248-249, the number of values in the window of length [L] about [c]. *)
Definition n_within (unfolded : list F) (L c : F) : Z :=
  let start := nsub c (ndiv L (nofZ 2)) in let stop := nadd c (ndiv L (nofZ 2)) in
  Z.of_nat (length (filter (fun u => nge u start && nle u stop) unfolded)).

(** levelvariance.py:266, 274 and rigidity.py:291, 297: [np.abs(np.max(b) - np.min(b)) < tol]. *)
Definition spread_below (b : list F) (tol : F) : bool :=
  match b with
  | [] => false
  | h :: t => nlt (nabs (nsub (nmax h t) (nmin h t))) tol
  end.

(** ** Level number variance *)
Record sstate := { s_k : Z; s_mean : F; s_cmean : F; s_sq : F; s_csq : F; s_sigma : F; s_buf : list F }.

(** levelvariance.py:223-239, before the loop; [c] is the first centre. *)
Definition sigma_init (size : Z) (unfolded : list F) (L c : F) : sstate :=
  let n := n_within unfolded L c in
  let mean := nofZ n in let sqm := nofZ (n * n) in
  let sigma := nsub sqm (nmul mean mean) in
  {| s_k := 0; s_mean := mean; s_cmean := n0; s_sq := sqm; s_csq := n0; s_sigma := sigma;
     s_buf := set_nth (repeat n0 (Z.to_nat size)) 0 sigma |}.

(** levelvariance.py:246-263, one pass with centre [c]. *)
Definition sigma_pass (size : Z) (unfolded : list F) (L c : F) (st : sstate) : sstate :=
  let k := s_k st + 1 in
  let n := n_within unfolded L c in
  let u_mean := ndiv (nsub (nofZ n) (s_mean st)) (nofZ k) in
  let u_sq := ndiv (nsub (nofZ (n * n)) (s_sq st)) (nofZ k) in
  let m := kahan_add (s_mean st) u_mean (s_cmean st) in
  let q := kahan_add (s_sq st) u_sq (s_csq st) in
  let sigma := nsub (fst q) (nmul (fst m) (fst m)) in
  {| s_k := k; s_mean := fst m; s_cmean := snd m; s_sq := fst q; s_csq := snd q; s_sigma := sigma;
     s_buf := set_nth (s_buf st) (Z.to_nat (k mod size)) sigma |}.

(** levelvariance.py:266-269, the two [break] tests. *)
Definition sigma_stop (max_iters min_iters : Z) (tol : F) (st : sstate) : bool :=
  ((min_iters <? s_k st) && (s_k st mod 500 =? 0) && spread_below (s_buf st) tol) || (max_iters <=? s_k st).

(** levelvariance.py:245-269; [pos] is the position in the stream. *)
Fixpoint sigma_loop (fuel : nat) (size : Z) (unfolded : list F) (lo hi L : F) (max_iters min_iters : Z) (tol : F)
  (draws : nat -> F) (pos : nat) (st : sstate) : outcome sstate :=
  match fuel with
  | O => Running
  | S fuel' =>
      let st' := sigma_pass size unfolded L (uniform lo hi (draws pos)) st in
      if sigma_stop max_iters min_iters tol st' then Done st'
      else sigma_loop fuel' size unfolded lo hi L max_iters min_iters tol draws (S pos) st'
  end.

(** levelvariance.py:171-275 [sigma_L]: (sigma, converged, iterations).  [np.min] of an empty array raises ValueError.
    The fuel allows as many passes as the iteration limit (P_Loops proves it is never exhausted). *)
Definition sigma_L (unfolded : list F) (L : F) (max_iters : Z) (tol : F) (min_iters : Z) (draws : nat -> F)
  : result (outcome (F * bool * Z)) :=
  match unfolded with
  | [] => Raise ValueError
  | h :: t =>
      let lo := nmin h t in let hi := nmax h t in
      let st := sigma_init BUFFER unfolded L (uniform lo hi (draws 0%nat)) in
      Ok match sigma_loop (Z.to_nat (Z.max 1 max_iters)) BUFFER unfolded lo hi L max_iters min_iters tol draws 1 st with
         | Done s => Done (s_sigma s, spread_below (s_buf s) tol, s_k s)
         | OutOfBounds => OutOfBounds
         | Running => Running
         end
  end.

(** ** Spectral rigidity *)
Record dstate := { d_k : Z; d_mean : F; d_c : F; d_buf : list F }.

(** rigidity.py:245-269: the first pass ([k] = 0), with sampled value [d3]. *)
Definition delta_init (size : Z) (d3 : F) : dstate :=
  {| d_k := 1; d_mean := d3; d_c := n0; d_buf := set_nth (repeat n0 (Z.to_nat size)) 0 d3 |}.

(** rigidity.py:252-253, 276-282: a later pass with sampled value [d3]. *)
Definition delta_pass (size : Z) (d3 : F) (st : dstate) : dstate :=
  let k := d_k st + 1 in
  let update := ndiv (nsub d3 (d_mean st)) (nofZ k) in
  let m := kahan_add (d_mean st) update (d_c st) in
  {| d_k := k; d_mean := fst m; d_c := snd m; d_buf := set_nth (d_buf st) (Z.to_nat (k mod size)) (fst m) |}.

(** rigidity.py:286-293. *)
Definition delta_stop (size max_iters min_iters : Z) (tol : F) (st : dstate) : bool :=
  (max_iters <=? d_k st) || ((min_iters <? d_k st) && (d_k st mod size =? 0) && spread_below (d_buf st) tol).

(** rigidity.py:251-293 from the second pass on; [sample pos] is the value computed from the [pos]-th random number. *)
Fixpoint delta_loop (fuel : nat) (size : Z) (sample : nat -> outcome F) (max_iters min_iters : Z) (tol : F) (pos : nat) (st : dstate)
  : outcome dstate :=
  match fuel with
  | O => Running
  | S fuel' =>
      match sample pos with
      | Done d3 =>
          let st' := delta_pass size d3 st in
          if delta_stop size max_iters min_iters tol st' then Done st'
          else delta_loop fuel' size sample max_iters min_iters tol (S pos) st'
      | OutOfBounds => OutOfBounds
      | Running => Running
      end
  end.

(** The state when [delta_L] leaves its loop. *)
Definition delta_run (size : Z) (sample : nat -> outcome F) (max_iters min_iters : Z) (tol : F) : outcome dstate :=
  match sample 0%nat with
  | Done d3 => delta_loop (Z.to_nat (Z.max 1 (max_iters - 1))) size sample max_iters min_iters tol 1 (delta_init size d3)
  | OutOfBounds => OutOfBounds
  | Running => Running
  end.

(** rigidity.py:254-264: the value sampled from the [pos]-th random number; reading [unfolded[0]] of an empty array is out of bounds. *)
Definition delta_sample (use_simpson : bool) (gridsize : nat) (L : F) (unfolded : list F) (draws : nat -> F) (pos : nat) : outcome F :=
  match head_opt unfolded, last_opt unfolded with
  | Some lo, Some hi => d3_sample use_simpson gridsize L unfolded (uniform lo hi (draws pos))
  | _, _ => OutOfBounds
  end.

(** rigidity.py:229-301 [delta_L]: (mean of the buffer, converged, iterations). *)
Definition delta_L (unfolded : list F) (L : F) (gridsize : nat) (max_iters min_iters : Z) (tol : F) (use_simpson : bool)
  (draws : nat -> F) : outcome (F * bool * Z) :=
  match delta_run BUFFER (delta_sample use_simpson gridsize L unfolded draws) max_iters min_iters tol with
  | Done s => Done (nmean (d_buf s), spread_below (d_buf s) tol, d_k s)
  | OutOfBounds => OutOfBounds
  | Running => Running
  end.

(** ** Parallel loops over L *)
(** A store into one of the three result arrays; the iteration for L[i] performs one into each. *)
Inductive store := StoreV (i : nat) (v : F) | StoreB (i : nat) (b : bool) | StoreK (i : nat) (k : Z).
Definition arrays := (list F * list bool * list Z)%type.
Definition do_store (a : arrays) (s : store) : arrays :=
  match a, s with
  | (v, b, k), StoreV i x => (set_nth v i x, b, k)
  | (v, b, k), StoreB i x => (v, set_nth b i x, k)
  | (v, b, k), StoreK i x => (v, b, set_nth k i x)
  end.
(** The stores of iteration [i] given its result. *)
Definition stores_of (i : nat) (r : F * bool * Z) : list store :=
  match r with (v, b, k) => [StoreV i v; StoreB i b; StoreK i k] end.
(** levelvariance.py:140-163 and rigidity.py:203-218: allocate, then execute the stores in the order [schedule] in which the
    threads happen to perform them.  [iters] starts as uninitialised memory [junk] in levelvariance.py:142 (zeros in rigidity.py). *)
Definition run_stores (n : nat) (junk : list Z) (schedule : list store) : arrays :=
  fold_left do_store schedule (repeat n0 n, repeat false n, junk).
(** The stores of all iterations, [f i] being the result of iteration [i]. *)
Definition all_stores (n : nat) (f : nat -> F * bool * Z) : list store := flat_map (fun i => stores_of i (f i)) (seq 0 n).

(** ** Automatic iteration limit *)
(** np.max of a list; ValueError when empty. *)
Definition np_max (l : list F) : result F := match l with [] => Raise ValueError | h :: t => Ok (nmax h t) end.

(** levelvariance.py:60-92 / rigidity.py:150-186.  [probe L max min] is the pair (converged, iterations) of sigma_L / delta_L
    at [L]; [rest max] is the parallel loop with that limit. *)
Definition auto_limit {A} (L : list F) (max_iters : Z) (probe : F -> Z -> Z -> result (bool * Z)) (rest : Z -> result A) : result A :=
  if max_iters <=? 0 then
    let! Lmax := np_max L in
    let! r := probe Lmax AUTO_MAX_ITERS (10 * MIN_ITERS) in
    let m := 2 * snd r in
    if fst r then rest m else Raise ConvergenceErr
  else rest max_iters.

(** A computation that is still running or read out of bounds yields no Python value; callers below only use finished ones. *)
Definition finished {A} (o : outcome A) : result A := match o with Done a => Ok a | _ => Raise RuntimeError end.

(** Sequential reading of the parallel loop: element i is computed from L[i] and its own random stream. *)
Fixpoint each (i : nat) (L : list F) (f : nat -> F -> result (F * bool * Z)) : result (list (F * bool * Z)) :=
  match L with
  | [] => Ok []
  | x :: t => let! r := f i x in let! rs := each (S i) t f in Ok (r :: rs)
  end.

(** levelvariance.py:23-92 [level_number_variance].  [draws i] is the stream used for L[i], [draws0] the one of the probe. *)
Definition level_number_variance (unfolded L : list F) (tol : F) (max_iters : Z) (draws0 : nat -> F) (draws : nat -> nat -> F)
  : result (list (F * bool * Z)) :=
  auto_limit L max_iters
    (fun x mx mn => let! o := sigma_L unfolded x mx tol mn draws0 in let! r := finished o in Ok (snd (fst r), snd r))
    (fun mx => each 0 L (fun i x => let! o := sigma_L unfolded x mx tol MIN_ITERS (draws i) in finished o)).

(** rigidity.py:52-186 [spectral_rigidity]. *)
Definition spectral_rigidity (unfolded L : list F) (max_iters : Z) (gridsize : nat) (tol : F) (use_simpson : bool)
  (draws0 : nat -> F) (draws : nat -> nat -> F) : result (list (F * bool * Z)) :=
  auto_limit L max_iters
    (fun x mx mn => let! r := finished (delta_L unfolded x (Z.to_nat RIGIDITY_GRID) mx mn tol use_simpson draws0) in Ok (snd (fst r), snd r))
    (fun mx => each 0 L (fun i x => finished (delta_L unfolded x gridsize mx MIN_ITERS tol use_simpson (draws i)))).

(** unfold.py:114-168 [Unfolded.level_variance]: [min_L_iters] is accepted and not used. *)
Definition level_variance (values L : list F) (tol : F) (max_L_iters min_L_iters : Z) (draws0 : nat -> F) (draws : nat -> nat -> F)
  : result (list (F * bool * Z)) :=
  level_number_variance values L tol max_L_iters draws0 draws.
End Loops.
