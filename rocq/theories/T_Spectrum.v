(** Properties C01-C08: step function, construction, spacings, accessors. *)
From Coq Require Import List ZArith Bool Arith Reals Lia Lra Sorting.Sorted Sorting.Permutation.
From Coq Require Import Floats.SpecFloat.
From Verif Require Import Base S_Order S_EigVals M_Step M_EigVals P_Order P_Step P_EigVals.
Import ListNotations.

(** Sample binary64 data used by the examples. *)
Definition fl (z : Z) : b64 := b64_ofZ z.
Definition half : b64 := ndiv (fl 1) (fl 2).
Definition ex_eigs : list b64 := map fl [-3; -1; -1; 0; 2; 7]%Z.
Definition ex_grid : list b64 := S754_infinity true :: map fl [-4; -1; -1; 0]%Z ++ [half; fl 9; S754_infinity false].
Definition ex_nan : list b64 := [fl 1; fl 2; S754_nan].

Ltac vm_sorted := repeat (constructor; [|repeat (constructor; [vm_compute; reflexivity|]); constructor]); constructor.
Ltac vm_forall := repeat (constructor; [vm_compute; reflexivity|]); constructor.

Lemma ex_eigs_ok : Forall NotNaN ex_eigs /\ Ascending ex_eigs.
Proof. split; [vm_forall | unfold Ascending; cbv [ex_eigs map]; vm_sorted]. Qed.
Lemma ex_grid_ok : Forall NotNaN ex_grid /\ Ascending ex_grid.
Proof. split; [vm_forall | unfold Ascending; cbv [ex_grid map app]; vm_sorted]. Qed.

(** C01. For sorted NaN-free spectrum and grid whose last point does not equal the smallest eigenvalue, the array form
    of [step_values] is, at every grid point, the number of eigenvalues <= that point. *)
Theorem C01_step_counts : forall (F : Type) (N : Num F) (L : OrdLaws F N) (eigs x : list F) (e0 xl : F),
  Forall NotNaN eigs -> Forall NotNaN x -> Ascending eigs -> Ascending x ->
  head_opt eigs = Some e0 -> last_opt x = Some xl -> neq xl e0 = false ->
  step_values eigs (XArray x) = Ok (RArray (Done (map (CountLe eigs) x))).
Proof.
  intros F N L eigs x e0 xl He Hx Hse Hsx H0 H1 Hne. cbn [step_values].
  rewrite (step_fast_sorted eigs x e0 xl He Hx Hse Hsx H0 H1), Hne. reflexivity.
Qed.
Print Assumptions C01_step_counts.
Example C01_case :
  Forall NotNaN ex_eigs /\ Forall NotNaN ex_grid /\ Ascending ex_eigs /\ Ascending ex_grid /\
  head_opt ex_eigs = Some (fl (-3)) /\ last_opt ex_grid = Some (S754_infinity false) /\
  neq (S754_infinity false) (fl (-3)) = false /\
  step_values ex_eigs (XArray ex_grid) = Ok (RArray (Done [0; 0; 3; 3; 4; 4; 6; 6]%Z)).
Proof.
  destruct ex_eigs_ok, ex_grid_ok. repeat (split; [assumption || (vm_compute; reflexivity)|]).
  vm_compute; reflexivity.
Qed.

(** The function used as "for sure correct" reference in the package's own tests is the same count. *)
Theorem C01_reference_counts : forall (F : Type) (N : Num F) (eigs x : list F),
  step_function_correct eigs x = map (CountLe eigs) x.
Proof.
  intros. unfold step_function_correct. apply map_ext. intro v. symmetry. apply CountLe_filter.
Qed.
Print Assumptions C01_reference_counts.
(** Any order of the values, ties and grid points below, between and above them. *)
Example C01_reference_case : step_function_correct [b64_ofZ 3; b64_ofZ 1; b64_ofZ 3] [b64_ofZ 0; b64_ofZ 1; b64_ofZ 2; b64_ofZ 3; b64_ofZ 9] = [0; 1; 1; 3; 3]%Z.
Proof. vm_compute; reflexivity. Qed.

(** C02. Scalar and array forms disagree as soon as the last grid point equals the smallest eigenvalue: the
    array form is then identically zero whereas the scalar form at that point is at least one... *)
Theorem C02_scalar_array_agree_refuted :
  (forall (F : Type) (N : Num F) (L : OrdLaws F N) (eigs x : list F) (e0 xl : F),
    Forall NotNaN eigs -> Forall NotNaN x -> Ascending eigs -> Ascending x ->
    head_opt eigs = Some e0 -> last_opt x = Some xl -> neq xl e0 = true ->
    step_values eigs (XArray x) = Ok (RArray (Done (repeat 0%Z (length x)))) /\
    exists m, step_values eigs (XFloat xl) = Ok (RFloat m) /\ (1 <= m)%Z) /\
  (exists (eigs x : list b64) e0, Forall NotNaN eigs /\ Forall NotNaN x /\ Ascending eigs /\ Ascending x /\
    head_opt eigs = Some e0 /\ last_opt x = Some e0).
Proof.
  split.
  - intros F N L eigs x e0 xl He Hx Hse Hsx H0 H1 Hne. split.
    + cbn [step_values]. rewrite (step_fast_sorted eigs x e0 xl He Hx Hse Hsx H0 H1), Hne. reflexivity.
    + eexists. split; [reflexivity|].
      destruct eigs as [|a t]; [discriminate|]. injection H0 as ->.
      inversion He; subst.
      assert (NotNaN xl) by (eapply (nth_notnan x); [exact Hx|exact H1]).
      rewrite ol_eq in Hne by assumption. apply andb_true_iff in Hne as [_ Hle].
      cbn [filter]. rewrite Hle. cbn [length]. lia.
  - exists (map fl [1; 1; 2]%Z), (map fl [0; 1]%Z), (fl 1).
    repeat (split; [solve [vm_forall | unfold Ascending; cbn [map]; vm_sorted | vm_compute; reflexivity]|]).
    vm_compute; reflexivity.
Qed.
Print Assumptions C02_scalar_array_agree_refuted.

(** ... and agree at every grid point otherwise. *)
Theorem C02_scalar_array_agree_partial :
  forall (F : Type) (N : Num F) (L : OrdLaws F N) (eigs x : list F) (e0 xl : F),
  Forall NotNaN eigs -> Forall NotNaN x -> Ascending eigs -> Ascending x ->
  head_opt eigs = Some e0 -> last_opt x = Some xl -> neq xl e0 = false ->
  exists r, step_values eigs (XArray x) = Ok (RArray (Done r)) /\
    forall k v, nth_error x k = Some v -> exists m,
      nth_error r k = Some m /\ step_values eigs (XFloat v) = Ok (RFloat m).
Proof.
  intros F N L eigs x e0 xl He Hx Hse Hsx H0 H1 Hne.
  rewrite (C01_step_counts F N L eigs x e0 xl) by assumption.
  eexists. split; [reflexivity|]. intros k v Hv. exists (CountLe eigs v). split.
  - now rewrite nth_error_map, Hv.
  - cbn [step_values]. now rewrite CountLe_filter.
Qed.
Print Assumptions C02_scalar_array_agree_partial.
Example C02_case :
  step_values ex_eigs (XArray (map fl [-4; -3]%Z)) = Ok (RArray (Done [0; 0]%Z)) /\
  step_values ex_eigs (XFloat (fl (-3))) = Ok (RFloat 1%Z) /\
  step_values ex_eigs (XArray (map fl [-4; -3; -2]%Z)) = Ok (RArray (Done [0; 1; 1]%Z)).
Proof. repeat split; vm_compute; reflexivity. Qed.

(** C02. A float gives a number, an array an array of the same length, and anything else is a ValueError. *)
Theorem C02_argument_kinds : forall (F : Type) (N : Num F) (L : OrdLaws F N) (eigs : list F) (e0 : F),
  Forall NotNaN eigs -> Ascending eigs -> head_opt eigs = Some e0 ->
  (forall v, exists m, step_values eigs (XFloat v) = Ok (RFloat m) /\ (0 <= m <= Z.of_nat (length eigs))%Z) /\
  (forall x xl, Forall NotNaN x -> Ascending x -> last_opt x = Some xl ->
     exists r, step_values eigs (XArray x) = Ok (RArray (Done r)) /\ length r = length x) /\
  (forall x e, step_values eigs x = Raise e <-> e = ValueError /\ x = XOther).
Proof.
  intros F N L eigs e0 He Hse H0. split; [|split].
  - intro v. eexists. split; [reflexivity|]. split; [lia|]. apply Nat2Z.inj_le. clear. induction eigs as [|a t IH]; cbn [filter length]; [lia|].
    destruct (nle a v); cbn [length]; lia.
  - intros x xl Hx Hsx H1. cbn [step_values]. rewrite (step_fast_sorted eigs x e0 xl He Hx Hse Hsx H0 H1).
    eexists. split; [reflexivity|]. destruct (neq xl e0); [apply repeat_length|apply map_length].
  - intros x e. destruct x; cbn [step_values]; split; try discriminate; try (intros [_ K]; discriminate).
    + intros [= <-]. auto.
    + intros [-> _]. reflexivity.
Qed.
Print Assumptions C02_argument_kinds.
Example C02_kinds_case :
  step_values ex_eigs XOther = Raise ValueError /\ step_values ex_eigs (XFloat (fl 100)) = Ok (RFloat 6%Z).
Proof. repeat split; vm_compute; reflexivity. Qed.

(** C03. [.steps] of a freshly built object is the staircase of the stored values when these are
    not all equal, and identically zero when they are. *)
Theorem C03_steps_staircase :
  forall (F : Type) (N : Num F) (L : OrdLaws F N) eigvalsh eigvals (values : list F) (o : eigobj) (lo hi : F),
  Forall NotNaN values ->
  eigvals_init eigvalsh eigvals (AArr (mkarr [length values] values)) = Ok o ->
  head_opt (o_vals o) = Some lo -> last_opt (o_vals o) = Some hi ->
  (neq hi lo = false ->
     exists r, snd (exec o ReadSteps) = ObsZ (Done r) /\
       r = map (CountLe values) (o_vals o) /\
       StronglySorted Z.le r /\ last_opt r = Some (Z.of_nat (length values))) /\
  (neq hi lo = true -> snd (exec o ReadSteps) = ObsZ (Done (repeat 0%Z (length values)))).
Proof.
  intros F N L eigvalsh eigvals values o lo hi Hn Ho Hlo Hhi.
  rewrite init_1d in Ho. injection Ho as <-. cbn [o_vals o_steps] in *.
  assert (Hn' : Forall NotNaN (np_sort values)) by now apply Forall_np_sort.
  assert (Hs : Ascending (np_sort values)) by now apply np_sort_ascending.
  cbn [exec o_steps o_vals].
  rewrite (step_fast_sorted _ _ lo hi Hn' Hn' Hs Hs Hlo Hhi).
  split; intros ->; cbn [snd].
  - eexists. split; [reflexivity|].
    assert (E : map (CountLe (np_sort values)) (np_sort values) = map (CountLe values) (np_sort values)).
    { apply map_ext. intro v. apply CountLe_perm. symmetry. apply np_sort_perm. }
    rewrite E. splits; auto.
    + clear -Hs Hn' L. induction Hs as [|a t Hs IH Ha]; cbn; constructor.
      * apply IH. now inversion Hn'.
      * clear IH Hs Hn'. induction Ha; constructor; auto. now apply CountLe_mono.
    + unfold last_opt in *. rewrite map_length, nth_error_map, Hhi. cbn. f_equal.
      rewrite CountLe_perm with (l' := np_sort values) by apply np_sort_perm.
      rewrite <- (np_sort_length values). apply CountLe_all.
      apply Forall_forall. intros v Hv. apply In_nth_error in Hv as [k Hk].
      assert (k < length (np_sort values))%nat by (apply nth_error_Some; congruence).
      apply (ascending_nth_le (np_sort values) k (length (np_sort values) - 1) v hi); auto. lia.
  - now rewrite np_sort_length.
Qed.
Print Assumptions C03_steps_staircase.
Example C03_case :
  (exists o, eigvals_init (fun _ => Raise LinAlgError) (fun _ => Raise LinAlgError)
      (AArr (mkarr [4%nat] (map fl [5; -1; 5; 2]%Z))) = Ok o /\
    snd (exec o ReadSteps) = ObsZ (Done [1; 2; 4; 4]%Z)) /\
  (exists o, eigvals_init (fun _ => Raise LinAlgError) (fun _ => Raise LinAlgError)
      (AArr (mkarr [1%nat] (map fl [5]%Z))) = Ok o /\
    snd (exec o ReadSteps) = ObsZ (Done [0]%Z)).
Proof. split; eexists; split; vm_compute; reflexivity. Qed.

(** C04. On NaN-free non-empty arrays, in any order, the loops finish, stay inside the arrays, and return one integer between
    0 and n per grid point... *)
Theorem C04_step_terminates :
  forall (F : Type) (N : Num F) (L : OrdLaws F N) (eigs x : list F),
  Forall NotNaN eigs -> Forall NotNaN x -> eigs <> [] -> x <> [] ->
  exists r, length r = length x /\
    (forall z, In z r -> (0 <= z <= Z.of_nat (length eigs))%Z) /\
    forall fuel, (length eigs + 2 * length x < fuel)%nat -> step_fast fuel eigs x = Done r.
Proof.
  intros F N L eigs x He Hx Hne Hnx.
  destruct (step_terminates eigs x He Hx Hne Hnx) as (r & H1 & H2 & H3).
  exists r. splits; auto. intros fuel Hf.
  apply (step_fast_mono eigs x (step_fuel eigs x) fuel r); [unfold step_fuel; lia|exact H1].
Qed.
Print Assumptions C04_step_terminates.

(** ... with a NaN on the grid that the sweep reaches, no amount of work finishes the loops... *)
Theorem C04_step_nan_hangs :
  forall (F : Type) (N : Num F) (L : OrdLaws F N) (eigs x : list F) p nanv (e0 el x0 xl : F),
  Forall NotNaN eigs -> Ascending eigs ->
  head_opt eigs = Some e0 -> last_opt eigs = Some el -> head_opt x = Some x0 -> last_opt x = Some xl ->
  nth_error x p = Some nanv -> isnan nanv = true ->
  (forall k v, (k < p)%nat -> nth_error x k = Some v -> NotNaN v /\ nlt v el = true) ->
  (S p = length x \/ nle xl e0 = false) ->
  forall fuel, step_fast fuel eigs x = Running.
Proof.
  intros F N L eigs x p nanv e0 el x0 xl He Hs H0 Hl Hx0 Hxl Hp Hn Hbefore Hlast fuel.
  assert (Hel : NotNaN el) by (eapply (nth_notnan eigs); [exact He|exact Hl]).
  eapply (step_diverges eigs x p (length eigs - 1) nanv el e0 xl x0 el); eauto.
  - intros k v Hk Hv. destruct (Nat.eq_dec k p) as [->|].
    + assert (v = nanv) by congruence. subst. now destruct (ol_nan el nanv (or_intror Hn)).
    + destruct (Hbefore k v) as [Hv1 Hv2]; auto; [lia|]. now apply nlt_true in Hv2.
  - destruct Hlast as [Hlast|]; auto. unfold last_opt in Hxl. rewrite <- Hlast in Hxl.
    replace (S p - 1)%nat with p in Hxl by lia. assert (xl = nanv) by congruence. subst.
    now destruct (ol_nan nanv e0 (or_introl Hn)).
  - destruct p.
    + assert (x0 = nanv) by (unfold head_opt in Hx0; congruence). subst.
      now destruct (ol_nan el nanv (or_intror Hn)).
    + destruct (Hbefore 0%nat x0) as [Hv1 Hv2]; [lia|exact Hx0|].
      apply nlt_false; auto. apply nlt_true in Hv2; auto. now apply nle_false_flip.
Qed.
Print Assumptions C04_step_nan_hangs.

(** ... so [.steps] hangs on every spectrum that contains a NaN. *)
Theorem C04_steps_nan_hangs :
  forall (F : Type) (N : Num F) (L : OrdLaws F N) eigvalsh eigvals (values : list F) (o : eigobj),
  Exists (fun v => isnan v = true) values ->
  eigvals_init eigvalsh eigvals (AArr (mkarr [length values] values)) = Ok o ->
  forall fuel, step_fast fuel (o_vals o) (o_vals o) = Running.
Proof.
  intros F N L eigvalsh eigvals values o Hn Ho fuel. rewrite init_1d in Ho. injection Ho as <-.
  cbn [o_vals]. apply steps_nan_diverges; [apply np_sort_sorted|].
  apply Exists_exists in Hn as (v & Hin & Hv). apply Exists_exists. exists v. split; auto.
  eapply Permutation_in; [apply np_sort_perm|exact Hin].
Qed.
Print Assumptions C04_steps_nan_hangs.
Example C04_case :
  (step_function_fast (map fl [3; 1; 2]%Z) (map fl [9; 0; 2]%Z) = Done [0; 0; 0]%Z) /\
  (step_function_fast (map fl [3; 2; 5]%Z) (map fl [4; 0; 9]%Z) = Done [2; 2; 3]%Z) /\
  Exists (fun v => isnan v = true) ex_nan /\
  step_fast 200 ex_nan ex_nan = Running.
Proof.
  do 2 (split; [vm_compute; reflexivity|]). split; [|vm_compute; reflexivity].
  apply Exists_exists. exists S754_nan. split; [cbn; auto|vm_compute; reflexivity].
Qed.

(** C05. A one-dimensional input of any order is stored as an ascending rearrangement (NaNs last); the originals are the
    same list; re-construction changes nothing. *)
Theorem C05_construct_sorted :
  forall (F : Type) (N : Num F) (L : OrdLaws F N) eigvalsh eigvals (values : list F),
  exists o, eigvals_init eigvalsh eigvals (AArr (mkarr [length values] values)) = Ok o /\
    Permutation values (o_vals o) /\ AscendingNaNLast (o_vals o) /\ o_construct o = o_vals o /\
    eigvals_init eigvalsh eigvals (AArr (mkarr [length (o_vals o)] (o_vals o))) = Ok o.
Proof.
  intros. eexists. split; [apply init_1d|]. cbn [o_vals o_construct].
  destruct (np_sort_spec values). splits; auto. rewrite init_1d, np_sort_idem. reflexivity.
Qed.
Print Assumptions C05_construct_sorted.

(** C05 (order independence). Two permutations of the same values give objects that agree value by value; over the
    reals they are equal. *)
Theorem C05_construct_order_independent :
  (forall (F : Type) (N : Num F) (L : OrdLaws F N) eigvalsh eigvals (v w : list F) o o',
    Permutation v w ->
    eigvals_init eigvalsh eigvals (AArr (mkarr [length v] v)) = Ok o ->
    eigvals_init eigvalsh eigvals (AArr (mkarr [length w] w)) = Ok o' ->
    Forall2 SameValue (o_vals o) (o_vals o') /\ Forall2 SameValue (o_construct o) (o_construct o')) /\
  (forall eigvalsh eigvals (v w : list R), Permutation v w ->
    eigvals_init eigvalsh eigvals (AArr (mkarr [length v] v)) =
    eigvals_init eigvalsh eigvals (AArr (mkarr [length w] w))).
Proof.
  split.
  - intros F N L eigvalsh eigvals v w o o' Hp H1 H2. rewrite init_1d in H1, H2.
    injection H1 as <-. injection H2 as <-. cbn. split; now apply np_sort_order_irrelevant.
  - intros. rewrite !init_1d. now rewrite (np_sort_perm_R v w).
Qed.
Print Assumptions C05_construct_order_independent.
Example C05_case :
  exists o, eigvals_init (fun _ => Raise LinAlgError) (fun _ => Raise LinAlgError)
    (AArr (mkarr [5%nat] [fl 3; S754_nan; fl (-2); fl 3; S754_infinity true])) = Ok o /\
  o_vals o = [S754_infinity true; fl (-2); fl 3; fl 3; S754_nan].
Proof. eexists; split; vm_compute; reflexivity. Qed.

(** C06. Accepted shapes: exactly the one-dimensional ones, data unchanged; everything else is a ValueError, except
    a 0-D array, which is a TypeError (although documented as acceptable). *)
Theorem C06_make_1d_shapes :
  forall (F : Type) (a : ndarray F), wf_array a ->
  (OneDimensional (shape a) -> make_1d_array a = Ok (data a)) /\
  (~ OneDimensional (shape a) -> shape a <> [] -> make_1d_array a = Raise ValueError) /\
  (shape a = [] -> make_1d_array a = Raise TypeError).
Proof. exact @make_1d_ok. Qed.
Print Assumptions C06_make_1d_shapes.

(** C06 (constructor). More than two axes are rejected; two axes go to the symmetric or the general
    eigenvalue routine according to symmetry and the result is stored sorted; a scalar raises TypeError; [None] is rejected. *)
Theorem C06_constructor_dispatch :
  forall (F : Type) (N : Num F) (L : OrdLaws F N) eigvalsh eigvals,
  eigvals_init eigvalsh eigvals (ANone (F := F)) = Raise ValueError /\
  (forall a : ndarray F, (2 < length (shape a))%nat -> eigvals_init eigvalsh eigvals (AArr a) = Raise ValueError) /\
  (forall x : F, eigvals_init eigvalsh eigvals (AArr (mkarr [] [x])) = Raise TypeError) /\
  (forall (a : ndarray F) r c e o, shape a = [r; c] ->
     eigvals_init eigvalsh eigvals (AArr a) = Ok o ->
     (eigvalsh a = Ok e /\ eigvals a = Ok e) -> Permutation e (o_vals o)) /\
  (forall (a : ndarray F) r c x y i j, shape a = [r; c] -> (i < r)%nat -> (j < c)%nat ->
     nth_error (data a) (i * c + j) = Some x -> nth_error (data a) (j * c + i) = Some y -> neq x y = false ->
     forall e, eigvals a = Ok e -> exists o, eigvals_init eigvalsh eigvals (AArr a) = Ok o /\ Permutation e (o_vals o)).
Proof.
  intros F N L eigvalsh eigvals. splits.
  - reflexivity.
  - intros. now apply init_high_dim.
  - reflexivity.
  - intros a r c e o Hs Ho [H1 H2]. unfold eigvals_init in Ho. rewrite Hs in Ho.
    destruct (is_self_adjoint r c (data a)); rewrite ?H1, ?H2 in Ho; cbn in Ho; injection Ho as <-;
      cbn; rewrite np_sort_idem; apply np_sort_perm.
  - intros a r c x y i j Hs Hi Hj Hx Hy Hne e He. unfold eigvals_init. rewrite Hs.
    assert (is_self_adjoint r c (data a) = false) as ->.
    { unfold is_self_adjoint. apply not_true_is_false. intro K.
      apply andb_true_iff in K as [_ K]. rewrite forallb_forall in K.
      specialize (K i ltac:(apply in_seq; lia)). rewrite forallb_forall in K.
      specialize (K j ltac:(apply in_seq; lia)). rewrite Hx, Hy in K. congruence. }
    rewrite He. cbn. eexists. split; [reflexivity|]. cbn. rewrite np_sort_idem. apply np_sort_perm.
Qed.
Print Assumptions C06_constructor_dispatch.

(** C06 (constructor, exactly). A matrix goes to the symmetric routine if and only if it is square and equal to its transpose; the
    values are stored, or the exception of the routine passes through. *)
Definition Symmetric {F} {N : Num F} (r c : nat) (l : list F) : Prop :=
  r = c /\ forall i j x y, (i < r)%nat -> (j < c)%nat -> nth_error l (i * c + j) = Some x -> nth_error l (j * c + i) = Some y -> neq x y = true.
Theorem C06_constructor_exact :
  forall (F : Type) (N : Num F) (L : OrdLaws F N) eigvalsh eigvals (a : ndarray F) r c, shape a = [r; c] -> wf_array a ->
  let holds outcome := match outcome with
    | Ok e => exists o, eigvals_init eigvalsh eigvals (AArr a) = Ok o /\ Permutation e (o_vals o) /\ o_vals o = np_sort e
    | Raise x => eigvals_init eigvalsh eigvals (AArr a) = Raise x end in
  (Symmetric r c (data a) -> holds (eigvalsh a)) /\ (~ Symmetric r c (data a) -> holds (eigvals a)).
Proof.
  intros F N L eigvalsh eigvals a r c Hs Hw holds.
  assert (G : forall b : bool, (if b then holds (eigvalsh a) else holds (eigvals a)) \/ is_self_adjoint r c (data a) <> b).
  { intros b. destruct (bool_dec (is_self_adjoint r c (data a)) b) as [E|E]; [left|now right].
    unfold holds, eigvals_init. rewrite Hs, E. destruct b; [destruct (eigvalsh a) as [e|x]|destruct (eigvals a) as [e|x]]; cbn; try reflexivity;
      (eexists; split; [reflexivity|]; cbn; rewrite np_sort_idem; split; [apply np_sort_perm|reflexivity]). }
  assert (HL : length (data a) = (r * c)%nat) by (rewrite Hw, Hs; cbn; lia).
  assert (D : is_self_adjoint r c (data a) = true <-> Symmetric r c (data a)).
  { unfold is_self_adjoint, Symmetric. rewrite andb_true_iff, Nat.eqb_eq, forallb_forall. split; intros [E K]; (split; [exact E|]).
    - intros i j x y Hi Hj Hx Hy. specialize (K i ltac:(apply in_seq; lia)). rewrite forallb_forall in K.
      specialize (K j ltac:(apply in_seq; lia)). now rewrite Hx, Hy in K.
    - intros i Hi. apply in_seq in Hi. apply forallb_forall. intros j Hj. apply in_seq in Hj. subst c.
      destruct (nth_error (data a) (i * r + j)) as [x|] eqn:Ex; [|apply nth_error_None in Ex; nia].
      destruct (nth_error (data a) (j * r + i)) as [y|] eqn:Ey; [|apply nth_error_None in Ey; nia].
      apply (K i j x y); auto; lia. }
  split; intros H.
  - destruct (G true) as [K|K]; [exact K|]. destruct K. now apply D.
  - destruct (G false) as [K|K]; [exact K|]. exfalso. apply H, D. destruct (is_self_adjoint r c (data a)); congruence.
Qed.
Print Assumptions C06_constructor_exact.
Example C06_case :
  OneDimensional [3; 1; 1]%nat /\ ~ OneDimensional [1; 3]%nat /\
  make_1d_array (mkarr [3; 1]%nat [1; 2; 3]%Z) = Ok [1; 2; 3]%Z /\
  make_1d_array (mkarr [1; 3]%nat [1; 2; 3]%Z) = Raise ValueError.
Proof.
  splits; try reflexivity.
  - exists 3%nat, [1; 1]%nat. auto.
  - intros (d & rest & H & [->|Hr]); [discriminate|]. injection H as <- <-. now inversion Hr.
Qed.

(** A symmetric and an asymmetric matrix go to different solvers; a cube and [None] are refused. *)
Example C06_dispatch_case :
  let init := eigvals_init (F := b64) (fun _ => Ok (map fl [3; -1]%Z)) (fun _ => Ok (map fl [8; 7]%Z)) in
  (exists o, init (AArr (mkarr [2; 2]%nat (map fl [1; 2; 2; 1]%Z))) = Ok o /\ o_vals o = map fl [-1; 3]%Z) /\
  (exists o, init (AArr (mkarr [2; 2]%nat (map fl [1; 2; 5; 1]%Z))) = Ok o /\ o_vals o = map fl [7; 8]%Z) /\
  init (AArr (mkarr [1; 1; 1]%nat (map fl [1]%Z))) = Raise ValueError /\ init (AArr (mkarr [] [fl 1])) = Raise TypeError /\ init ANone = Raise ValueError.
Proof. cbv zeta. splits; try (eexists; split); vm_compute; reflexivity. Qed.

(** C07. Spacings. *)
Theorem C07_spacings : forall (values : list R),
  length (spacings values) = (length values - 1)%nat /\
  Forall (fun s => (0 <= s)%R) (spacings values) /\
  (forall mn mx, In mn values -> In mx values -> (forall v, In v values -> (mn <= v <= mx)%R) ->
     Rsum (spacings values) = (mx - mn)%R) /\
  (forall w, Permutation values w -> spacings w = spacings values) /\
  (forall c d, (0 < c)%R -> spacings (map (fun v => c * v + d)%R values) = map (Rmult c) (spacings values)).
Proof.
  intros values. unfold spacings. splits.
  - now rewrite ndiff_length, np_sort_length.
  - apply ndiff_nonneg, np_sort_ascending, notnan_R.
  - intros mn mx H1 H2 H3.
    destruct (head_opt (np_sort values)) as [a|] eqn:Ea.
    2:{ unfold head_opt in Ea. apply nth_error_None in Ea. rewrite np_sort_length in Ea.
        destruct values; [destruct H1|cbn in Ea; lia]. }
    destruct (last_opt (np_sort values)) as [b|] eqn:Eb.
    2:{ unfold last_opt in Eb. apply nth_error_None in Eb. rewrite np_sort_length in Eb.
        destruct values; [destruct H1|cbn in Eb; lia]. }
    rewrite (ndiff_sum _ _ _ Ea Eb).
    destruct (np_sort_head_min _ _ Ea) as [A1 A2], (np_sort_last_max _ _ Eb) as [B1 B2].
    pose proof (H3 _ A1). pose proof (H3 _ B1). pose proof (A2 _ H1). pose proof (B2 _ H2). lra.
  - intros w Hw. f_equal. symmetry. now apply np_sort_perm_R.
  - intros c d Hc. now rewrite np_sort_affine, ndiff_affine.
Qed.
Print Assumptions C07_spacings.
Example C07_case : spacings (map fl [4; -1; 4; 2]%Z) = map fl [3; 2; 0]%Z.
Proof. vm_compute. reflexivity. Qed.

(** C08. Reads, in any number and order, do not influence later reads. *)
Theorem C08_reads_pure :
  forall (F : Type) (N : Num F) eigvalsh eigvals (arg : ctor_arg (F := F)) (o : eigobj) (h : list op) (c : op),
  eigvals_init eigvalsh eigvals arg = Ok o ->
  Forall (fun c => match c with WriteVals _ _ | WriteOrig _ _ | WriteSteps _ _ => False | _ => True end) h ->
  match c with WriteVals _ _ | WriteOrig _ _ | WriteSteps _ _ => False | _ => True end ->
  snd (exec (run o h) c) = snd (exec o c) /\
  o_vals (run o h) = o_vals o /\ o_construct (run o h) = o_construct o.
Proof.
  intros F N eigvalsh eigvals arg o h c Ho Hh Hc.
  assert (Hnone : o_steps o = None).
  { unfold eigvals_init in Ho. destruct arg; [discriminate|].
    match type of Ho with bind ?r _ = _ => destruct r; [|discriminate Ho] end.
    cbn [bind] in Ho. injection Ho as <-. reflexivity. }
  assert (Hr : forallb is_read h = true).
  { apply forallb_forall. rewrite Forall_forall in Hh. intros x Hx. specialize (Hh x Hx). now destruct x. }
  splits.
  - apply reads_pure; auto. now destruct c.
  - apply run_reads; auto. intros s; congruence.
  - apply run_reads; auto. intros s; congruence.
Qed.
Print Assumptions C08_reads_pure.

(** C08 (isolation). Writing into the array handed out by [vals] never reaches the original values. *)
Theorem C08_originals_isolated :
  forall (F : Type) (N : Num F) (o : eigobj (F := F)) (h : list op),
  Forall (fun c => match c with WriteOrig _ _ => False | _ => True end) h ->
  snd (exec (run o h) ReadOrig) = snd (exec o ReadOrig).
Proof.
  intros F N o h Hh. cbn. f_equal. apply orig_isolated. apply forallb_forall.
  rewrite Forall_forall in Hh. intros x Hx. specialize (Hh x Hx). now destruct x.
Qed.
Print Assumptions C08_originals_isolated.

(** C08 (stale cache). After a write into [vals], a cached [.steps] is not recomputed. *)
Theorem C08_steps_fresh_after_write_refuted :
  exists (o : eigobj (F := b64)) (h : list op),
    eigvals_init (fun _ => Raise LinAlgError) (fun _ => Raise LinAlgError)
      (AArr (mkarr [3%nat] (map fl [1; 2; 3]%Z))) = Ok o /\
    snd (exec (run o h) ReadSteps) <> snd (exec (run o h) (StepFn (o_vals (run o h)))).
Proof.
  eexists. exists [ReadSteps; WriteVals 0 (fl 2)]. split; [vm_compute; reflexivity|].
  vm_compute. discriminate.
Qed.
Print Assumptions C08_steps_fresh_after_write_refuted.
Example C08_case : exists o : eigobj (F := b64),
  eigvals_init (fun _ => Raise LinAlgError) (fun _ => Raise LinAlgError)
      (AArr (mkarr [3%nat] (map fl [3; 2; 1]%Z))) = Ok o /\
  snd (exec (run o [ReadSpacings; ReadSteps; StepFn ex_grid; ReadVals]) ReadSteps) = ObsZ (Done [1; 2; 3]%Z).
Proof. eexists; split; vm_compute; reflexivity. Qed.
