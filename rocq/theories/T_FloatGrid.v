(** Property C109: the grids used by the rigidity, the staircases and the curves are ascending in binary64, so that the staircase
    algorithm is applied to what it needs. *)
From Coq Require Import List ZArith Bool Reals Lra Lia Arith.
From Coq Require Import Floats.SpecFloat.
From Flocq Require Import Core BinarySingleNaN.
From Verif Require Import Base S_Order M_Step M_Quad P_Order P_Step P_Float P_FloatGrid.
Import ListNotations.
Local Open Scope R_scope.

(** C109. Ends of magnitude at most 2^1000, at least 2^-900 apart, and at most 2^50 points: every point of np.linspace is a finite
    float between the ends, the points are in ascending order, the first has the value of the lower end and the last is the
    upper end itself.  [SF2R radix2] is the real value of a float. *)
Theorem C109_grid : forall (lo hi : b64) (n : nat),
  valid_binary b64_prec b64_emax lo = true -> valid_binary b64_prec b64_emax hi = true -> is_finite_SF lo = true -> is_finite_SF hi = true ->
  (2 <= Z.of_nat n <= 2 ^ 50)%Z -> Rabs (SF2R radix2 lo) <= bpow radix2 1000 -> Rabs (SF2R radix2 hi) <= bpow radix2 1000 ->
  bpow radix2 (-900) <= SF2R radix2 hi - SF2R radix2 lo ->
  let g := @linspace b64 Num_b64 lo hi n in
  length g = n /\ @Ascending b64 Num_b64 g /\
  List.Forall (fun x => is_finite_SF x = true /\ SF2R radix2 lo <= SF2R radix2 x <= SF2R radix2 hi) g /\
  (exists x, head_opt g = Some x /\ SF2R radix2 x = SF2R radix2 lo) /\ last_opt g = Some hi.
Proof.
  intros lo hi n V1 V2 F1 F2 Hn B1 B2 HD g. split; [unfold g, linspace; now rewrite map_length, seq_length|].
  split; [exact (grid_sorted lo hi n V1 V2 F1 F2 Hn B1 B2 HD)|]. split; [|exact (grid_ends lo hi n V1 V2 F1 F2 Hn B1 B2 HD)].
  eapply List.Forall_impl; [|exact (grid_all lo hi n V1 V2 F1 F2 Hn B1 B2 HD)]. cbv beta. tauto.
Qed.
Print Assumptions C109_grid.

(** C109. So the staircase sampled for the rigidity in binary64 is, at every grid point, the number of levels not above it, unless
    the window ends exactly at the lowest level. *)
Theorem C109_staircase : forall (u : list b64) (e0 c L : b64) (n : nat),
  let lo := nsub c (ndiv L (nofZ 2)) in let hi := nadd c (ndiv L (nofZ 2)) in
  List.Forall NotNaN u -> Ascending u -> head_opt u = Some e0 -> neq hi e0 = false ->
  valid_binary b64_prec b64_emax lo = true -> valid_binary b64_prec b64_emax hi = true -> is_finite_SF lo = true -> is_finite_SF hi = true ->
  (2 <= Z.of_nat n <= 2 ^ 50)%Z -> Rabs (SF2R radix2 lo) <= bpow radix2 1000 -> Rabs (SF2R radix2 hi) <= bpow radix2 1000 ->
  bpow radix2 (-900) <= SF2R radix2 hi - SF2R radix2 lo ->
  step_function_fast u (linspace lo hi n) = Done (map (CountLe u) (linspace lo hi n)).
Proof.
  intros u e0 c L n lo hi Hu Su H0 Hne V1 V2 F1 F2 Hn B1 B2 HD.
  destruct (C109_grid lo hi n V1 V2 F1 F2 Hn B1 B2 HD) as (_ & Sg & Fg & _ & Hl).
  rewrite (step_fast_sorted u (linspace lo hi n) e0 hi Hu) by first [assumption|eapply List.Forall_impl; [|exact Fg]; intros x (Fx & _); now apply fin_notnan].
  now rewrite Hne.
Qed.
Print Assumptions C109_staircase.

(** m * 2^e. *)
Definition fl (s : bool) (m : positive) (e : Z) : b64 := S754_finite s m e.
(** C109 is false outside that range.  Between 0 and 6 * 2^-1074 (subnormal numbers) ten points are not ascending: the ninth is
    8 * 2^-1074, and the staircase of the single level 7 * 2^-1074 is 0 there instead of 1; between
    -(2^1023) and 2^1023 the difference overflows and the points are NaN and infinite. *)
Theorem C109_refuted :
  (let g := linspace (S754_zero false) (fl false 6 (-1074)) 10 in
   nth 8 g S754_nan = fl false 8 (-1074) /\ ~ Ascending g /\
   step_function_fast [fl false 7 (-1074)] g = Done (repeat 0%Z 10) /\ CountLe [fl false 7 (-1074)] (nth 8 g S754_nan) = 1%Z) /\
  linspace (fl true (2 ^ 52) 971) (fl false (2 ^ 52) 971) 3 = [S754_nan; S754_infinity false; fl false (2 ^ 52) 971].
Proof.
  split; [|vm_compute; reflexivity]. intros g. split; [vm_compute; reflexivity|]. split; [|split; vm_compute; reflexivity].
  intros H. unfold Ascending in H. assert (E : g = map (fun k => match k with O => S754_zero false | S _ => fl false (Pos.of_nat k) (-1074) end) [0; 1; 2; 3; 4; 5; 6; 7; 8; 6]%nat) by (vm_compute; reflexivity).
  rewrite E in H. do 8 (apply Sorting.Sorted.StronglySorted_inv in H as (H & _)). apply Sorting.Sorted.StronglySorted_inv in H as (_ & H).
  inversion H as [|x l Hx]. vm_compute in Hx. discriminate.
Qed.
Print Assumptions C109_refuted.
(** From 0.1 to 0.8 in eight points, with all the rounding errors: 0.1, 0.2, 0.30000000000000004, 0.4, 0.5, 0.6, 0.7000000000000001, 0.8. *)
Example C109_case : linspace (fl false 7205759403792794 (-56)) (fl false 7205759403792794 (-53)) 8 =
  [fl false 7205759403792794 (-56); fl false 7205759403792794 (-55); fl false 5404319552844596 (-54); fl false 7205759403792794 (-54); fl false 4503599627370496 (-53); fl false 5404319552844595 (-53); fl false 6305039478318695 (-53); fl false 7205759403792794 (-53)].
Proof. vm_compute. reflexivity. Qed.
