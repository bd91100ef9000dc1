(** Properties C23, C24, C25 and C65: matrix generation, seeding, ensemble names. *)
From Coq Require Import String List ZArith Bool Arith Lia Reals Lra.
From Coq Require Import Sorting.Sorted Sorting.Permutation.
From Verif Require Import Base S_Order S_EigVals S_Generate M_Enum M_Generate P_Order P_Step P_EigVals P_Generate.
Import ListNotations.
Local Open Scope R_scope.

(** C23. Symmetry, shape and degrees of freedom, for every stream of draws. *)
Theorem C23_matrices : forall (size : nat) (draws re im chisq normals : list R),
  Symmetric size (goe_matrix sqrt size draws) /\
  (Symmetric size (gue_re size re im) /\ Antisymmetric size (gue_im size re im)) /\
  Symmetric size (goe_tridiagonal sqrt chisq normals) /\
  (forall i j, (S i < j \/ S j < i)%nat -> goe_tridiagonal sqrt chisq normals i j = 0) /\
  (forall i x, nth_error normals i = Some x -> goe_tridiagonal sqrt chisq normals i i = x / sqrt 2) /\
  (forall k c, nth_error chisq k = Some c -> goe_tridiagonal sqrt chisq normals k (S k) = sqrt c / sqrt 2) /\
  List.length (chi_range size) = (size - 1)%nat /\
  (forall k, (k < size - 1)%nat -> nth_error (chi_range size) k = Some (Z.of_nat (size - 1 - k))) /\
  Forall (fun dof => (1 <= dof)%Z) (chi_range size).
Proof.
  intros size draws re im chisq normals. splits.
  - apply goe_symmetric.
  - apply gue_hermitian.
  - apply gue_hermitian.
  - intros i j _ _. apply tri_symmetric.
  - intros i j H. rewrite tri_entry. destruct (Nat.eqb_spec i j); [lia|]. destruct (Nat.eqb_spec i (S j)); [lia|].
    destruct (Nat.eqb_spec j (S i)); [lia|reflexivity].
  - intros i x H. rewrite tri_entry, Nat.eqb_refl. rewrite (nth_error_nth _ _ _ H). reflexivity.
  - intros k c H. rewrite tri_entry. destruct (Nat.eqb_spec k (S k)); [lia|]. destruct (Nat.eqb_spec k (S (S k))); [lia|].
    rewrite Nat.eqb_refl. rewrite (nth_error_nth _ _ _ H). reflexivity.
  - apply chi_range_length.
  - apply chi_range_nth.
  - apply Forall_forall. intros d Hd. apply In_nth_error in Hd. destruct Hd as [k Hk].
    assert (k < size - 1)%nat as Hl. { rewrite <- chi_range_length. apply nth_error_Some. congruence. }
    rewrite (chi_range_nth size k Hl) in Hk. injection Hk as <-. lia.
Qed.
Print Assumptions C23_matrices.
(** Entries of the full matrix, over binary64 with an arbitrary square root. *)
Theorem C23_full_entries : forall (F : Type) (N : Num F) (nsqrt : F -> F) (size i j : nat) (draws : list F) x y,
  (i < size)%nat -> (j < size)%nat ->
  nth_error draws (i * size + j) = Some x -> nth_error draws (j * size + i) = Some y ->
  goe_matrix nsqrt size draws i j = ndiv (nadd x y) (nsqrt (nofZ 2)) /\
  gue_re size draws draws i j = ndiv (nadd x y) (nofZ 2) /\ gue_im size draws draws i j = ndiv (nadd x (nopp y)) (nofZ 2).
Proof.
  intros F N nsqrt size i j draws x y _ _ Hx Hy. unfold goe_matrix, gue_re, gue_im, square.
  rewrite (nth_error_nth _ _ _ Hx), (nth_error_nth _ _ _ Hy). splits; reflexivity.
Qed.
Print Assumptions C23_full_entries.
Example C23_case : chi_range 4 = [3; 2; 1]%Z /\ goe_tridiagonal sqrt [9; 4] [1; 2; 3] 1 0 = 3 / sqrt 2 /\
  goe_matrix sqrt 2 [1; 5; 7; 2] 0 1 = 12 / sqrt 2.
Proof.
  splits; [reflexivity| |].
  - rewrite tri_entry. cbn. replace 9 with (3 * 3) by lra. rewrite sqrt_square by lra. reflexivity.
  - unfold goe_matrix. cbn. f_equal. lra.
Qed.

(** C24 (refuted). For every size and every random source with the moments NumPy documents -- uncorrelated unit-variance
    normals; chi-square draws with the requested means, normals of variance 2 -- the expected trace of the squared
    matrix is N(N+1) for the full path and N(N+1)/2 for the tridiagonal path. *)
Theorem C24_same_scale_refuted : forall (n : nat) Omega (E : (Omega -> R) -> R) (draws : Omega -> list R)
    Omega' (E' : (Omega' -> R) -> R) (chisq normals : Omega' -> list R),
  (1 <= n)%nat -> Expectation E -> Expectation E' ->
  (forall a b, (a < n * n)%nat -> (b < n * n)%nat ->
     E (fun w => nth a (draws w) 0 * nth b (draws w) 0) = if Nat.eqb a b then 1 else 0) ->
  (forall w k, 0 <= nth k (chisq w) 0) ->
  (forall k dof, nth_error (chi_range n) k = Some dof -> E' (fun w => nth k (chisq w) 0) = IZR dof) ->
  (forall i, (i < n)%nat -> E' (fun w => nth i (normals w) 0 * nth i (normals w) 0) = 2) ->
  E (fun w => TraceSq n (goe_matrix sqrt n (draws w))) = INR n * (INR n + 1) /\
  E' (fun w => TraceSq n (goe_tridiagonal sqrt (chisq w) (normals w))) = INR n * (INR n + 1) / 2 /\
  E (fun w => TraceSq n (goe_matrix sqrt n (draws w))) <> E' (fun w => TraceSq n (goe_tridiagonal sqrt (chisq w) (normals w))).
Proof.
  intros n Omega E draws Omega' E' chisq normals Hn HE HE' H1 H2 H3 H4.
  rewrite (full_trace_sq Omega E n draws HE H1), (tri_exp_trace Omega' E' n chisq normals HE' Hn H2 H3 H4).
  splits; try reflexivity. assert (1 <= INR n) by (change 1 with (INR 1); apply le_INR; exact Hn). nra.
Qed.
Print Assumptions C24_same_scale_refuted.

(** The hypotheses are met: size 2, four independent fair signs, and degenerate chi-square / normal draws. *)
Definition sgn (b : bool) : R := if b then 1 else -1.
Definition four := (bool * bool * bool * bool)%type.
Definition allb : list bool := [true; false].
Definition all4 : list four := list_prod (list_prod (list_prod allb allb) allb) allb.
Definition avg4 (X : four -> R) : R := Rsum (map X all4) / 16.
Definition draws4 (w : four) : list R := let '(a, b, c, d) := w in [sgn a; sgn b; sgn c; sgn d].
Lemma Rsum_map_add {A} (f g : A -> R) l : Rsum (map (fun x => f x + g x) l) = Rsum (map f l) + Rsum (map g l).
Proof. induction l as [|x t IH]; cbn; [lra|]. rewrite IH. lra. Qed.
Lemma Rsum_map_scale {A} c (f : A -> R) l : Rsum (map (fun x => c * f x) l) = c * Rsum (map f l).
Proof. induction l as [|x t IH]; cbn; [lra|]. rewrite IH. lra. Qed.
Lemma avg4_exp : Expectation avg4.
Proof.
  split; unfold avg4.
  - intros X Y H. f_equal. f_equal. apply map_ext. exact H.
  - intros X Y. rewrite Rsum_map_add. lra.
  - intros c X. rewrite Rsum_map_scale. lra.
Qed.
Example C24_case :
  avg4 (fun w => TraceSq 2 (goe_matrix sqrt 2 (draws4 w))) = 6 /\
  TraceSq 2 (goe_tridiagonal sqrt [1] [sqrt 2; sqrt 2]) = 3.
Proof.
  destruct (C24_same_scale_refuted 2 four avg4 draws4 unit (fun X => X tt) (fun _ => [1]) (fun _ => [sqrt 2; sqrt 2]))
    as (H1 & H2 & _).
  - lia.
  - exact avg4_exp.
  - split; auto.
  - intros a b Ha Hb.
    destruct a as [|[|[|[|a]]]]; [| | | |lia]; (destruct b as [|[|[|[|b]]]]; [| | | |lia]); unfold avg4, all4, allb; cbn [list_prod map app Rsum draws4 sgn nth Nat.eqb]; lra.
  - intros w [|[|k]]; cbn; lra.
  - intros [|k] dof H; cbn in H; [injection H as <-; reflexivity|]. destruct k; discriminate.
  - intros [|[|i]] Hi; [| |lia]; cbn; apply sqrt2_sq.
  - rewrite H1, H2. cbn. split; lra.
Qed.

(** C25. With a seed, the outcome does not depend on the random state left by earlier calls. *)
Theorem C25_seed_reproducible : forall F (N : Num F) nsqrt St seed_with (os : St) sn nn cs ev size kind z tri st st',
  fst (generate nsqrt St seed_with os sn nn cs ev size kind (Some z) tri st) =
  fst (generate nsqrt St seed_with os sn nn cs ev size kind (Some z) tri st').
Proof. exact seeded_same. Qed.
Print Assumptions C25_seed_reproducible.

(** Without a seed, GOE and GUE generation only draws from the current state. *)
Theorem C25_no_seed_only_advances_partial : forall F (N : Num F) nsqrt St seed_with (os : St) sn nn cs ev size kind tri st,
  kind = PStr "goe"%string \/ kind = PStr "gue"%string ->
  Advances sn nn cs st (snd (generate nsqrt St seed_with os sn nn cs ev size kind None tri st)) /\
  (forall os', generate nsqrt St seed_with os sn nn cs ev size kind None tri st =
               generate nsqrt St seed_with os' sn nn cs ev size kind None tri st).
Proof.
  intros. split; [apply unseeded_advances; assumption | intro os'; apply unseeded_os; assumption].
Qed.
Print Assumptions C25_no_seed_only_advances_partial.

(** For Poisson it is false: without a seed the state is replaced by one from the operating system, whatever it was. *)
Theorem C25_no_seed_poisson_refuted :
  (forall F (N : Num F) nsqrt St seed_with (os : St) sn nn cs ev size tri st,
     generate nsqrt St seed_with os sn nn cs ev size (PStr "poisson"%string) None tri st =
     (Ok (np_sort (np_sort (fst (sn size os)))), snd (sn size os))) /\
  exists St seed_with (os : St) (sn nn : nat -> St -> list b64 * St) cs ev st,
     ~ Advances sn nn cs st
        (snd (generate (fun x => x) St seed_with os sn nn cs ev 3 (PStr "poisson"%string) None true st)).
Proof.
  split; [intros; apply poisson_unseeded|].
  pose (sn := fun (k : nat) (st : Z) => (repeat (b64_ofZ st) k, (st + 1)%Z)).
  pose (cs := fun (l : list Z) (st : Z) => (map b64_ofZ l, (st + 1)%Z)).
  exists Z, (fun z => Ok z), 0%Z, sn, sn, cs, (fun _ _ _ => Ok []), 10%Z.
  rewrite poisson_unseeded. intro H.
  assert (forall a b, Advances sn sn cs a b -> (a <= b)%Z) as M.
  { intros a b HA. induction HA; cbn in *; lia. }
  apply M in H. cbn in H. lia.
Qed.
Print Assumptions C25_no_seed_poisson_refuted.
(** A toy counter generator: seeding with 7 gives 7, 7, 7 from any earlier state. *)
Example C25_case : forall st,
  fst (generate (fun x : b64 => x) Z (fun z => Ok z) 0%Z (fun k s => (repeat (b64_ofZ s) k, (s + 1)%Z))
    (fun k s => (repeat (b64_ofZ s) k, (s + 1)%Z)) (fun l s => (map b64_ofZ l, (s + 1)%Z)) (fun _ _ _ => Ok [])
    3 (PStr "poisson"%string) (Some 7%Z) true st) = Ok [b64_ofZ 7; b64_ofZ 7; b64_ofZ 7].
Proof. intro st. reflexivity. Qed.

(** Every path returns the eigenvalues in ascending order (NaN last). *)
Theorem C25_generated_ascending : forall F (N : Num F) (L : OrdLaws F N) nsqrt St seed_with (os : St) sn nn cs ev size kind seed tri st vals,
  fst (generate nsqrt St seed_with os sn nn cs ev size kind seed tri st) = Ok vals -> AscendingNaNLast vals.
Proof.
  intros F N L nsqrt St seed_with os sn nn cs ev size kind seed tri st vals H.
  assert (forall l, AscendingNaNLast (np_sort l)) as HS by (intro l; apply np_sort_spec).
  unfold generate in H. destruct (validate MatrixKind kind) as [k|e]; [|discriminate].
  cbn [member value_of MatrixKind canonical String.eqb Ascii.eqb Bool.eqb] in H.
  repeat match type of H with
  | context [match ?x with _ => _ end] => destruct x; cbn [fst bind] in H; try discriminate
  end;
  try match type of H with bind ?x _ = _ => destruct x; cbn [bind] in H; [|discriminate] end;
  injection H as <-; apply HS.
Qed.
Print Assumptions C25_generated_ascending.
(** A solver that returns its eigenvalues in another order. *)
Example C25_ascending_case : let z := b64_ofZ in
  fst (generate (fun x : b64 => x) Z (fun z => Ok z) 0%Z (fun k s => (repeat (z s) k, (s + 1)%Z)) (fun k s => (repeat (z s) k, (s + 1)%Z))
    (fun l s => (map z l, (s + 1)%Z)) (fun _ _ _ => Ok [z 2; z (-1); z 1]%Z) 3 (PStr "goe"%string) None false 0%Z) = Ok [z (-1); z 1; z 2]%Z.
Proof. vm_compute; reflexivity. Qed.

(** C65. Names of enumeration members. *)
Theorem C65_names : forall (e : enum) (s : string),
  ((exists name, In (name, s) e) -> exists m, canonical e s = Some m /\ validate e (PStr s) = Ok (PMember m)) /\
  ((forall name, ~ In (name, s) e) -> validate e (PStr s) = Raise ValueError) /\
  (forall m, validate e (PMember m) = Ok (PMember m)) /\ validate e PObj = Ok PObj.
Proof.
  intros e s. splits; try reflexivity.
  - intro H. apply canonical_some in H. destruct H as [m H]. exists m. split; [exact H|]. cbn. rewrite H. reflexivity.
  - intro H. cbn. destruct (canonical e s) eqn:E; [|reflexivity].
    assert (exists m, canonical e s = Some m) as H2 by eauto. apply canonical_some in H2. destruct H2 as [nm H2].
    exfalso. exact (H nm H2).
Qed.
Print Assumptions C65_names.
(** For MatrixKind: the value of every member validates to it; GDE and Poisson are one member; "gde" and the member
    names themselves are rejected. *)
Theorem C65_matrix_kinds :
  validate MatrixKind (PStr "goe") = Ok (PMember "GOE") /\ validate MatrixKind (PStr "gue") = Ok (PMember "GUE") /\
  validate MatrixKind (PStr "poisson") = Ok (PMember "GDE") /\ validate MatrixKind (PStr "uniform") = Ok (PMember "Uniform") /\
  member MatrixKind "Poisson" = member MatrixKind "GDE" /\ member MatrixKind "GDE" = Some "GDE"%string /\
  (forall s, s <> "goe"%string -> s <> "gue"%string -> s <> "poisson"%string -> s <> "uniform"%string ->
     validate MatrixKind (PStr s) = Raise ValueError) /\
  validate MatrixKind (PStr "gde") = Raise ValueError.
Proof.
  splits; try reflexivity. intros s H1 H2 H3 H4. apply (C65_names MatrixKind s).
  intros nm H. cbn in H. decompose [or] H; try (injection H0; congruence); try (injection H5; congruence);
  repeat match goal with E : (_, _) = (_, _) |- _ => injection E; clear E; intros; subst end; congruence.
Qed.
Print Assumptions C65_matrix_kinds.
(** The validators of smoothing and detrending methods reject near misses. *)
Example C65_case : validate SmoothMethod (PStr "poly") = Ok (PMember "Polynomial") /\
  validate SmoothMethod (PStr "polynomial") = Raise ValueError /\
  validate DetrendMethod (PStr "quad") = Raise ValueError /\ validate DetrendMethod (PStr "quadratic") = Ok (PMember "Quadratic").
Proof. splits; reflexivity. Qed.

(** C102. Kinds that generate nothing: "uniform" is not implemented, other names and objects are refused; the random state is left
    alone, even when a seed is given. *)
Theorem C102_uniform : forall F (N : Num F) nsqrt St seed_with (os : St) sn nn cs ev size seed tri st,
  let run kind := generate nsqrt St seed_with os sn nn cs ev size kind seed tri st in
  run (PStr "uniform"%string) = (Raise NotImplementedErr, st) /\ run (PMember "Uniform"%string) = (Raise NotImplementedErr, st).
Proof. intros. split; reflexivity. Qed.
Print Assumptions C102_uniform.
Theorem C102_refused : forall F (N : Num F) nsqrt St seed_with (os : St) sn nn cs ev size seed tri st,
  let run kind := generate nsqrt St seed_with os sn nn cs ev size kind seed tri st in
  run PObj = (Raise ValueError, st) /\
  forall s, s <> "goe"%string -> s <> "gue"%string -> s <> "poisson"%string -> s <> "uniform"%string -> run (PStr s) = (Raise ValueError, st).
Proof.
  intros. split; [reflexivity|]. intros s H1 H2 H3 H4. unfold run, generate.
  destruct C65_matrix_kinds as (_ & _ & _ & _ & _ & _ & H & _). now rewrite H by assumption.
Qed.
Print Assumptions C102_refused.
(** The other three kinds are never "not implemented": only the solver or the seeding can fail. *)
Theorem C102_implemented : forall F (N : Num F) nsqrt St seed_with (os : St) sn nn cs ev size seed tri st e k,
  k = "goe"%string \/ k = "gue"%string \/ k = "poisson"%string ->
  fst (generate nsqrt St seed_with os sn nn cs ev size (PStr k) seed tri st) = Raise e ->
  (exists z, seed = Some z /\ seed_with z = Raise e) \/ (exists re im, ev size re im = Raise e).
Proof.
  intros F N nsqrt St seed_with os sn nn cs ev size seed tri st e k Hk H.
  destruct Hk as [-> | [-> | ->]]; unfold generate in H; cbn -[Z.ltb Z.of_nat Nat.mul] in H; unfold seed_if_given, np_seed in H;
  destruct seed as [z|];
  try (destruct (seed_with z) as [st1|e1] eqn:Es; [|left; exists z; split; [reflexivity|cbn in H; congruence]]);
  repeat match type of H with
  | context [if ?b then _ else _] => destruct b
  | context [let '(_, _) := ?p in _] => destruct p
  end; cbn [fst] in H; try discriminate;
  match type of H with bind (ev size ?re ?im) _ = _ => destruct (ev size re im) eqn:Ev; cbn [bind] in H; [discriminate|]; right; exists re, im; congruence end.
Qed.
Print Assumptions C102_implemented.
(** A toy generator whose state is a counter: an unimplemented kind leaves 41 in place, a Poisson spectrum advances it. *)
Example C102_case :
  let run kind := generate (fun x : b64 => x) Z (fun z => Ok z) 0%Z (fun k s => (repeat (b64_ofZ s) k, (s + 1)%Z))
    (fun k s => (repeat (b64_ofZ s) k, (s + 1)%Z)) (fun l s => (map b64_ofZ l, (s + 1)%Z)) (fun _ _ _ => Raise LinAlgError)
    2 (PStr kind) (Some 7%Z) true 41%Z in
  run "uniform"%string = (Raise NotImplementedErr, 41%Z) /\ run "gde"%string = (Raise ValueError, 41%Z) /\
  run "poisson"%string = (Ok [b64_ofZ 7; b64_ofZ 7], 8%Z) /\ fst (run "goe"%string) = Raise LinAlgError.
Proof. intro run; splits; vm_compute; reflexivity. Qed.
