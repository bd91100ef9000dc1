(** Proofs about matrix generation. *)
From Coq Require Import String List ZArith Bool Arith Lia Reals Lra.
From Verif Require Import Base S_Order S_Generate M_Enum M_Generate P_Order P_Step P_EigVals.
Import ListNotations.
Local Open Scope R_scope.

Lemma sqrt2_sq : sqrt 2 * sqrt 2 = 2.
Proof. apply sqrt_sqrt. lra. Qed.
Lemma sqrt2_nz : sqrt 2 <> 0.
Proof. pose proof sqrt2_sq. intro H1. rewrite H1 in H. lra. Qed.

Lemma goe_symmetric size (draws : list R) : Symmetric size (goe_matrix sqrt size draws).
Proof. intros i j _ _. unfold goe_matrix. cbn [ndiv nadd Num_R]. rewrite Rplus_comm. reflexivity. Qed.

Lemma gue_hermitian size (re im : list R) :
  Symmetric size (gue_re size re im) /\ Antisymmetric size (gue_im size re im).
Proof.
  split; intros i j _ _; unfold gue_re, gue_im, n2; cbn [ndiv nadd nopp nofZ Num_R]; [rewrite Rplus_comm; reflexivity|].
  field.
Qed.

Lemma nth_map_div (f : R -> R) (l : list R) k : f 0 = 0 -> nth k (map f l) 0 = f (nth k l 0).
Proof.
  intro H. destruct (Nat.lt_ge_cases k (length l)).
  - rewrite (nth_indep (map f l) 0 (f 0)) by (rewrite map_length; exact H0). apply map_nth.
  - rewrite !nth_overflow by (rewrite ?map_length; lia). symmetry. exact H.
Qed.

Lemma tri_entry (chisq normals : list R) i j :
  goe_tridiagonal sqrt chisq normals i j =
  if Nat.eqb i j then nth i normals 0 / sqrt 2
  else if Nat.eqb i (S j) then sqrt (nth j chisq 0) / sqrt 2
  else if Nat.eqb j (S i) then sqrt (nth i chisq 0) / sqrt 2
  else 0.
Proof.
  unfold goe_tridiagonal, n2. cbn [diags n0 ndiv nofZ Num_R].
  assert (forall l k, nth k (map (fun x => x / sqrt 2) l) 0 = nth k l 0 / sqrt 2) as H1.
  { intros l k. apply (nth_map_div (fun x => x / sqrt 2)). unfold Rdiv. ring. }
  assert (forall l k, nth k (map (fun x => x / sqrt 2) (map sqrt l)) 0 = sqrt (nth k l 0) / sqrt 2) as H2.
  { intros l k. rewrite H1. f_equal. apply nth_map_div. apply sqrt_0. }
  rewrite H1, !H2.
  destruct (Nat.eqb_spec i j) as [->|Hij].
  - rewrite Z.sub_diag. cbn [Z.eqb]. rewrite Nat.min_id. reflexivity.
  - destruct (Z.eqb_spec (Z.of_nat j - Z.of_nat i) 0); [lia|].
    destruct (Nat.eqb_spec i (S j)) as [->|].
    + destruct (Z.eqb_spec (Z.of_nat j - Z.of_nat (S j)) (-1)); [|lia]. rewrite Nat.min_r by lia. reflexivity.
    + destruct (Z.eqb_spec (Z.of_nat j - Z.of_nat i) (-1)); [lia|].
      destruct (Nat.eqb_spec j (S i)) as [->|].
      * destruct (Z.eqb_spec (Z.of_nat (S i) - Z.of_nat i) 1); [|lia]. rewrite Nat.min_l by lia. reflexivity.
      * destruct (Z.eqb_spec (Z.of_nat j - Z.of_nat i) 1); [lia|]. reflexivity.
Qed.

Lemma tri_symmetric (chisq normals : list R) i j :
  goe_tridiagonal sqrt chisq normals i j = goe_tridiagonal sqrt chisq normals j i.
Proof.
  rewrite !tri_entry. rewrite (Nat.eqb_sym j i). destruct (Nat.eqb_spec i j) as [->|]; [reflexivity|].
  destruct (Nat.eqb_spec i (S j)); destruct (Nat.eqb_spec j (S i)); try lia; subst; reflexivity.
Qed.

Lemma chi_range_length size : List.length (chi_range size) = (size - 1)%nat.
Proof. unfold chi_range. rewrite map_length, seq_length. reflexivity. Qed.
Lemma chi_range_nth size k : (k < size - 1)%nat -> nth_error (chi_range size) k = Some (Z.of_nat (size - 1 - k)).
Proof.
  intro H. unfold chi_range. rewrite nth_error_map.
  rewrite (nth_error_nth' (seq 0 (size - 1)) 0%nat) by (rewrite seq_length; exact H). rewrite seq_nth by exact H. cbn. f_equal. lia.
Qed.

(** Finite sums *)
Lemma SumTo_ext n f g : (forall i, (i < n)%nat -> f i = g i) -> SumTo n f = SumTo n g.
Proof. induction n as [|n IH]; intro H; cbn; [reflexivity|]. rewrite IH, H by auto. reflexivity. Qed.
Lemma SumTo_add n f g : SumTo n (fun i => f i + g i) = SumTo n f + SumTo n g.
Proof. induction n as [|n IH]; cbn; [lra|]. rewrite IH. lra. Qed.
Lemma SumTo_scale n c f : SumTo n (fun i => c * f i) = c * SumTo n f.
Proof. induction n as [|n IH]; cbn; [lra|]. rewrite IH. lra. Qed.
Lemma SumTo_const n c : SumTo n (fun _ => c) = INR n * c.
Proof. induction n as [|n IH]; [cbn; lra|]. cbn [SumTo]. rewrite IH, S_INR. lra. Qed.
Lemma SumTo_0 n f : (forall i, (i < n)%nat -> f i = 0) -> SumTo n f = 0.
Proof. intro H. rewrite (SumTo_ext n f (fun _ => 0)) by exact H. rewrite SumTo_const. lra. Qed.
Lemma SumTo_delta n k f : (k < n)%nat -> SumTo n (fun i => if Nat.eqb i k then f i else 0) = f k.
Proof.
  induction n as [|n IH]; intro H; [lia|]. cbn [SumTo].
  destruct (Nat.eqb_spec n k) as [->|Hne].
  - rewrite SumTo_0; [lra|]. intros i Hi. destruct (Nat.eqb_spec i k); [lia|reflexivity].
  - rewrite IH by lia. lra.
Qed.
Lemma SumTo_shift n f : SumTo (S n) f = f 0%nat + SumTo n (fun i => f (S i)).
Proof. induction n as [|n IH]; [cbn; lra|]. cbn [SumTo] in *. rewrite IH. lra. Qed.
Lemma SumTo_swap n m (f : nat -> nat -> R) : SumTo n (fun i => SumTo m (f i)) = SumTo m (fun j => SumTo n (fun i => f i j)).
Proof.
  induction n as [|n IH]; cbn [SumTo].
  - symmetry. apply SumTo_0. reflexivity.
  - rewrite IH, <- SumTo_add. reflexivity.
Qed.

Section Exp.
Context {Omega : Type} {E : (Omega -> R) -> R} (HE : Expectation E).
Lemma exp_zero : E (fun _ => 0) = 0.
Proof. rewrite (exp_ext E HE _ (fun w => 0 * 0)) by (intros; lra). rewrite (exp_scale E HE 0 (fun _ => 0)). lra. Qed.
Lemma exp_SumTo n (X : nat -> Omega -> R) : E (fun w => SumTo n (fun i => X i w)) = SumTo n (fun i => E (X i)).
Proof.
  induction n as [|n IH]; cbn [SumTo]; [apply exp_zero|].
  rewrite (exp_add E HE (fun w => SumTo n (fun i => X i w)) (X n)), IH. reflexivity.
Qed.
End Exp.

Lemma full_trace_sq Omega (E : (Omega -> R) -> R) n (draws : Omega -> list R) : Expectation E ->
  (forall a b, (a < n * n)%nat -> (b < n * n)%nat ->
     E (fun w => nth a (draws w) 0 * nth b (draws w) 0) = if Nat.eqb a b then 1 else 0) ->
  E (fun w => TraceSq n (goe_matrix sqrt n (draws w))) = INR n * (INR n + 1).
Proof.
  intros HE HM. unfold TraceSq. rewrite (exp_SumTo HE n (fun i w => SumTo n (fun j => _ i j * _ j i))).
  assert (forall i j, (i < n)%nat -> (j < n)%nat ->
    E (fun w => goe_matrix sqrt n (draws w) i j * goe_matrix sqrt n (draws w) j i) = 1 + (if Nat.eqb j i then 1 else 0)) as HT.
  { intros i j Hi Hj.
    set (a := (i * n + j)%nat). set (b := (j * n + i)%nat).
    assert (a < n * n)%nat as Ha by (subst a; nia). assert (b < n * n)%nat as Hb by (subst b; nia).
    rewrite (exp_ext E HE _ (fun w => / 2 * ((nth a (draws w) 0 * nth a (draws w) 0 + nth b (draws w) 0 * nth b (draws w) 0)
       + (nth a (draws w) 0 * nth b (draws w) 0 + nth a (draws w) 0 * nth b (draws w) 0)))).
    - rewrite (exp_scale E HE (/2)).
      rewrite (exp_add E HE (fun w => nth a (draws w) 0 * nth a (draws w) 0 + nth b (draws w) 0 * nth b (draws w) 0)
                 (fun w => nth a (draws w) 0 * nth b (draws w) 0 + nth a (draws w) 0 * nth b (draws w) 0)).
      rewrite (exp_add E HE (fun w => nth a (draws w) 0 * nth a (draws w) 0) (fun w => nth b (draws w) 0 * nth b (draws w) 0)).
      rewrite (exp_add E HE (fun w => nth a (draws w) 0 * nth b (draws w) 0) (fun w => nth a (draws w) 0 * nth b (draws w) 0)).
      rewrite !HM by assumption. rewrite !Nat.eqb_refl.
      destruct (Nat.eqb_spec j i) as [->|Hne].
      + subst a b. rewrite Nat.eqb_refl. lra.
      + destruct (Nat.eqb_spec a b); [|lra]. exfalso. subst a b. apply Hne.
        assert (i = j \/ (i < j)%nat \/ (j < i)%nat) as [|[|]] by lia; nia.
    - intro w. unfold goe_matrix, square, n2. cbn [ndiv nadd nofZ n0 Num_R]. fold a b.
      set (x := nth a (draws w) 0). set (y := nth b (draws w) 0).
      transitivity ((x + y) * (y + x) / (sqrt 2 * sqrt 2)); [field; exact sqrt2_nz|]. rewrite sqrt2_sq. field. }
  rewrite (SumTo_ext n _ (fun i => INR n + 1)).
  - apply SumTo_const.
  - intros i Hi. rewrite (exp_SumTo HE n (fun j w => goe_matrix sqrt n (draws w) i j * goe_matrix sqrt n (draws w) j i)).
    rewrite (SumTo_ext n _ (fun j => 1 + if Nat.eqb j i then 1 else 0)) by (intros j Hj; apply HT; assumption).
    rewrite SumTo_add, SumTo_const, (SumTo_delta n i (fun _ => 1)) by exact Hi. lra.
Qed.

(** A tridiagonal symmetric array given by its diagonal and off-diagonal functions. *)
Definition tri (d o : nat -> R) (i j : nat) : R :=
  if Nat.eqb i j then d i else if Nat.eqb i (S j) then o j else if Nat.eqb j (S i) then o i else 0.

Lemma tri_trace_sq d o n : TraceSq n (tri d o) = SumTo n (fun i => d i * d i) + 2 * SumTo (n - 1) (fun k => o k * o k).
Proof.
  induction n as [|n IH]; [cbn; lra|].
  unfold TraceSq. cbn [SumTo]. rewrite SumTo_add.
  change (SumTo n (fun i => SumTo n (fun j => tri d o i j * tri d o j i))) with (TraceSq n (tri d o)). rewrite IH.
  replace (S n - 1)%nat with n by lia.
  assert (tri d o n n = d n) as -> by (unfold tri; rewrite Nat.eqb_refl; reflexivity).
  assert (forall i, (i < n)%nat -> tri d o i n = if Nat.eqb i (n - 1) then o (n - 1)%nat else 0) as H1.
  { intros i Hi. unfold tri. destruct (Nat.eqb_spec i n); [lia|]. destruct (Nat.eqb_spec i (S n)); [lia|].
    destruct (Nat.eqb_spec n (S i)); destruct (Nat.eqb_spec i (n - 1)); subst; try lia; try reflexivity.
    f_equal. lia. }
  assert (forall i, (i < n)%nat -> tri d o n i = if Nat.eqb i (n - 1) then o (n - 1)%nat else 0) as H2.
  { intros i Hi. unfold tri. destruct (Nat.eqb_spec n i); [lia|]. destruct (Nat.eqb_spec i (S n)); [lia|].
    destruct (Nat.eqb_spec n (S i)); destruct (Nat.eqb_spec i (n - 1)); subst; try lia; try reflexivity.
    f_equal. lia. }
  rewrite (SumTo_ext n (fun i => tri d o i n * tri d o n i) (fun i => if Nat.eqb i (n - 1) then o (n - 1)%nat * o (n - 1)%nat else 0)).
  2: { intros i Hi. rewrite H1, H2 by exact Hi. destruct (Nat.eqb i (n - 1)); ring. }
  rewrite (SumTo_ext n (fun j => tri d o n j * tri d o j n) (fun i => if Nat.eqb i (n - 1) then o (n - 1)%nat * o (n - 1)%nat else 0)).
  2: { intros i Hi. rewrite H1, H2 by exact Hi. destruct (Nat.eqb i (n - 1)); ring. }
  destruct n as [|m]; [cbn; lra|].
  rewrite (SumTo_delta (S m) (S m - 1) (fun _ => o (S m - 1)%nat * o (S m - 1)%nat)) by lia.
  replace (S m - 1)%nat with m by lia. cbn [SumTo]. lra.
Qed.

Lemma sum_down n : SumTo n (fun k => INR (n - k)) = INR n * (INR n + 1) / 2.
Proof.
  induction n as [|n IH]; [cbn; lra|]. rewrite SumTo_shift.
  rewrite (SumTo_ext n _ (fun k => INR (n - k))) by (intros; f_equal; lia). rewrite IH, Nat.sub_0_r, S_INR. lra.
Qed.

Lemma tri_exp_trace Omega (E : (Omega -> R) -> R) n (chisq normals : Omega -> list R) : Expectation E ->
  (1 <= n)%nat ->
  (forall w k, 0 <= nth k (chisq w) 0) ->
  (forall k dof, nth_error (chi_range n) k = Some dof -> E (fun w => nth k (chisq w) 0) = IZR dof) ->
  (forall i, (i < n)%nat -> E (fun w => nth i (normals w) 0 * nth i (normals w) 0) = 2) ->
  E (fun w => TraceSq n (goe_tridiagonal sqrt (chisq w) (normals w))) = INR n * (INR n + 1) / 2.
Proof.
  intros HE Hn Hpos Hchi Hnorm.
  rewrite (exp_ext E HE _ (fun w => SumTo n (fun i => / 2 * (nth i (normals w) 0 * nth i (normals w) 0)) +
     SumTo (n - 1) (fun k => nth k (chisq w) 0))).
  - rewrite (exp_add E HE (fun w => SumTo n (fun i => / 2 * (nth i (normals w) 0 * nth i (normals w) 0)))
               (fun w => SumTo (n - 1) (fun k => nth k (chisq w) 0))).
    rewrite (exp_SumTo HE n (fun i w => / 2 * (nth i (normals w) 0 * nth i (normals w) 0))).
    rewrite (exp_SumTo HE (n - 1) (fun k w => nth k (chisq w) 0)).
    rewrite (SumTo_ext n _ (fun _ => 1)).
    2: { intros i Hi. rewrite (exp_scale E HE (/2) (fun w => nth i (normals w) 0 * nth i (normals w) 0)), Hnorm by exact Hi. lra. }
    rewrite (SumTo_ext (n - 1) _ (fun k => INR (n - 1 - k))).
    2: { intros k Hk. rewrite (Hchi k _ (chi_range_nth n k Hk)), INR_IZR_INZ. reflexivity. }
    rewrite sum_down, SumTo_const, minus_INR by exact Hn. cbn [INR]. lra.
  - intro w. unfold TraceSq.
    rewrite (SumTo_ext n _ (fun i => SumTo n (fun j => tri (fun i => nth i (normals w) 0 / sqrt 2) (fun k => sqrt (nth k (chisq w) 0) / sqrt 2) i j
        * tri (fun i => nth i (normals w) 0 / sqrt 2) (fun k => sqrt (nth k (chisq w) 0) / sqrt 2) j i))).
    2: { intros i _. apply SumTo_ext. intros j _. rewrite !tri_entry. reflexivity. }
    match goal with |- ?l = _ => change l with (TraceSq n (tri (fun i => nth i (normals w) 0 / sqrt 2) (fun k => sqrt (nth k (chisq w) 0) / sqrt 2))) end.
    rewrite tri_trace_sq, <- SumTo_scale. f_equal; apply SumTo_ext; intros k _.
    + transitivity (nth k (normals w) 0 * nth k (normals w) 0 / (sqrt 2 * sqrt 2)); [field; exact sqrt2_nz|].
      rewrite sqrt2_sq. field.
    + transitivity (2 * (sqrt (nth k (chisq w) 0) * sqrt (nth k (chisq w) 0)) / (sqrt 2 * sqrt 2)); [field; exact sqrt2_nz|].
      rewrite sqrt2_sq, sqrt_sqrt by apply Hpos. field.
Qed.

Ltac kind_cases :=
  repeat match goal with
  | |- context [String.eqb ?a ?b] => destruct (String.eqb a b)
  end.

Lemma seeded_same F (N : Num F) nsqrt St seed_with (os : St) sn nn cs ev size kind z tri st st' :
  fst (generate nsqrt St seed_with os sn nn cs ev size kind (Some z) tri st) =
  fst (generate nsqrt St seed_with os sn nn cs ev size kind (Some z) tri st').
Proof.
  unfold generate. destruct (validate MatrixKind kind) as [k|e]; [|reflexivity].
  cbn [np_seed seed_if_given]. cbn [member value_of MatrixKind canonical String.eqb Ascii.eqb Bool.eqb].
  destruct k as [s|m|]; kind_cases; try reflexivity; destruct (seed_with z); reflexivity.
Qed.

Lemma unseeded_os F (N : Num F) nsqrt St seed_with (os os' : St) sn nn cs ev size kind tri st :
  kind = PStr "goe"%string \/ kind = PStr "gue"%string ->
  generate nsqrt St seed_with os sn nn cs ev size kind None tri st =
  generate nsqrt St seed_with os' sn nn cs ev size kind None tri st.
Proof. intros [-> | ->]; reflexivity. Qed.

Lemma unseeded_advances F (N : Num F) nsqrt St seed_with (os : St) sn nn cs ev size kind tri st :
  kind = PStr "goe"%string \/ kind = PStr "gue"%string ->
  Advances sn nn cs st (snd (generate nsqrt St seed_with os sn nn cs ev size kind None tri st)).
Proof.
  intros [-> | ->]; unfold generate; cbn -[Z.ltb Z.of_nat Nat.mul].
  - destruct (Z.ltb 500 (Z.of_nat size) && tri).
    + destruct (cs (chi_range size) st) as [c st2] eqn:E1. destruct (nn size st2) as [d st3] eqn:E2. cbn [snd].
      apply (Adv_chi _ _ _ st (chi_range size)). rewrite E1. cbn [snd].
      apply (Adv_normal2 _ _ _ st2 size). rewrite E2. constructor.
    + destruct (sn (size * size)%nat st) as [d st2] eqn:E1. cbn [snd].
      apply (Adv_normal _ _ _ st (size * size)%nat). rewrite E1. constructor.
  - destruct (sn (size * size)%nat st) as [d st2] eqn:E1. destruct (sn (size * size)%nat st2) as [d' st3] eqn:E2. cbn [snd].
    apply (Adv_normal _ _ _ st (size * size)%nat). rewrite E1. cbn [snd].
    apply (Adv_normal _ _ _ st2 (size * size)%nat). rewrite E2. constructor.
Qed.

Lemma poisson_unseeded F (N : Num F) nsqrt St seed_with (os : St) sn nn cs ev size tri st :
  generate nsqrt St seed_with os sn nn cs ev size (PStr "poisson"%string) None tri st =
  (Ok (np_sort (np_sort (fst (sn size os)))), snd (sn size os)).
Proof. unfold generate. cbn -[np_sort]. destruct (sn size os) as [d s]. reflexivity. Qed.

(** Enumerations *)
Lemma canonical_some e v : (exists nm, In (nm, v) e) <-> exists m, canonical e v = Some m.
Proof.
  induction e as [|[nm w] t IH]; cbn [canonical In].
  - split; intros [x H]; [destruct H | discriminate].
  - destruct (String.eqb_spec w v) as [->|Hne].
    + split; [eauto|]. intros _. exists nm. left. reflexivity.
    + rewrite <- IH. split; intros [x H]; exists x.
      * destruct H as [H|H]; [injection H as _ H; congruence | exact H].
      * right. exact H.
Qed.
