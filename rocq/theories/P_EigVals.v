(** Proofs about EigVals (model: M_EigVals). *)
From Coq Require Import List ZArith Bool Arith Reals Lia Lra Sorting.Sorted Sorting.Permutation.
From Verif Require Import Base S_Order S_EigVals M_Step M_EigVals P_Order P_Step.
Import ListNotations.

Section Gen.
Context {F : Type} {N : Num F} {L : OrdLaws F N}.

Lemma sorted_nan_split (l : list F) : StronglySorted NpLe l -> AscendingNaNLast l.
Proof.
  induction 1 as [|x t Hs (a & b & -> & Ha & Hna & Hb) Hx].
  - exists [], []. repeat split; constructor.
  - destruct (isnan x) eqn:E.
    + exists [], (x :: a ++ b). repeat split; try constructor; auto.
      rewrite Forall_forall in *. intros v Hv. specialize (Hx v Hv). unfold NpLe in Hx.
      destruct (isnan v) eqn:Ev; auto. rewrite np_le_nan_l in Hx; auto.
    + exists (x :: a), b. splits; auto.
      constructor; auto. rewrite Forall_forall in *. intros v Hv. unfold Le.
      rewrite <- np_le_notnan; auto. apply Hx, in_or_app. now left.
Qed.

Lemma np_sort_spec (l : list F) : Permutation l (np_sort l) /\ AscendingNaNLast (np_sort l).
Proof. split; [apply np_sort_perm | apply sorted_nan_split, np_sort_sorted]. Qed.

Definition eqv (x y : F) : Prop := NpLe x y /\ NpLe y x.
Lemma eqv_same x y : eqv x y -> SameValue x y.
Proof.
  intros [H1 H2]. unfold NpLe in *. destruct (isnan x) eqn:Ex, (isnan y) eqn:Ey.
  - now left.
  - rewrite np_le_nan_l in H1; auto; discriminate.
  - rewrite np_le_nan_l in H2; auto; discriminate.
  - right. rewrite np_le_notnan in * by assumption. now split.
Qed.

Lemma NpLe_refl (x : F) : NpLe x x.
Proof. unfold NpLe. destruct (np_le_total x x); auto. Qed.

Lemma insert_eqv x x' l l' : eqv x x' -> Forall2 eqv l l' ->
  Forall2 eqv (insert_by np_le x l) (insert_by np_le x' l').
Proof.
  intros [Hx1 Hx2] H. unfold NpLe in *. induction H as [|y y' t t' [Hy1 Hy2] Ht IH]; cbn.
  - repeat constructor; auto.
  - unfold NpLe in *. destruct (np_le x y) eqn:E1, (np_le x' y') eqn:E2.
    + repeat constructor; auto.
    + rewrite (np_le_trans _ _ _ Hx2 (np_le_trans _ _ _ E1 Hy1)) in E2. discriminate.
    + rewrite (np_le_trans _ _ _ Hx1 (np_le_trans _ _ _ E2 Hy2)) in E1. discriminate.
    + constructor; [split; auto | exact IH].
Qed.
Lemma Forall2_eqv_refl l : Forall2 eqv l l.
Proof. induction l; constructor; auto. split; apply NpLe_refl. Qed.
Lemma Forall2_eqv_trans l1 l2 l3 : Forall2 eqv l1 l2 -> Forall2 eqv l2 l3 -> Forall2 eqv l1 l3.
Proof.
  intro H. revert l3. induction H as [|x y t t' [H1 H2] H IH]; intros l3 H3; inversion H3; subst; constructor.
  - destruct H5 as [? ?]; unfold NpLe in *; split; unfold NpLe; eapply np_le_trans; eassumption.
  - now apply IH.
Qed.
Lemma insert_swap x y l : Forall2 eqv (insert_by np_le x (insert_by np_le y l)) (insert_by np_le y (insert_by np_le x l)).
Proof.
  induction l as [|z t IH]; cbn.
  - destruct (np_le x y) eqn:E1, (np_le y x) eqn:E2; try apply Forall2_eqv_refl.
    + repeat constructor; auto.
    + destruct (np_le_total x y); congruence.
  - destruct (np_le y z) eqn:Eyz, (np_le x z) eqn:Exz; cbn; rewrite ?Eyz, ?Exz.
    + destruct (np_le x y) eqn:E1, (np_le y x) eqn:E2; try apply Forall2_eqv_refl.
      * constructor; [split; auto|]. constructor; [split; auto|]. apply Forall2_eqv_refl.
      * destruct (np_le_total x y); congruence.
    + destruct (np_le x y) eqn:E1; [|cbn; rewrite ?Exz; apply Forall2_eqv_refl].
      rewrite (np_le_trans _ _ _ E1 Eyz) in Exz. discriminate.
    + destruct (np_le y x) eqn:E2; [|cbn; rewrite ?Eyz; apply Forall2_eqv_refl].
      rewrite (np_le_trans _ _ _ E2 Exz) in Eyz. discriminate.
    + constructor; [split; apply NpLe_refl | apply IH].
Qed.
Lemma np_sort_perm_eqv (l l' : list F) : Permutation l l' -> Forall2 eqv (np_sort l) (np_sort l').
Proof.
  induction 1; cbn.
  - constructor.
  - apply insert_eqv; auto. split; apply NpLe_refl.
  - apply insert_swap.
  - eapply Forall2_eqv_trans; eassumption.
Qed.
Lemma np_sort_order_irrelevant (l l' : list F) :
  Permutation l l' -> Forall2 SameValue (np_sort l) (np_sort l').
Proof.
  intro H. apply np_sort_perm_eqv in H. induction H; constructor; auto. now apply eqv_same.
Qed.

(** *** Shapes *)
Lemma dims_prod_one (rest : list nat) : dims_prod rest = 1%nat <-> Forall (fun k => k = 1%nat) rest.
Proof.
  induction rest as [|k t IH]; cbn; split; intro H; auto.
  - apply Nat.eq_mul_1 in H as [-> H]. constructor; auto. now apply IH.
  - inversion H; subst. apply IH in H3. unfold dims_prod in H3. rewrite H3. reflexivity.
Qed.

Lemma make_1d_ok (a : ndarray F) : wf_array a ->
  (OneDimensional (shape a) -> make_1d_array a = Ok (data a)) /\
  (~ OneDimensional (shape a) -> shape a <> [] -> make_1d_array a = Raise ValueError) /\
  (shape a = [] -> make_1d_array a = Raise TypeError).
Proof.
  intro Hwf. unfold wf_array in Hwf. unfold make_1d_array, py_len. splits.
  - intros (d & rest & Hs & Hd). rewrite Hs in *. cbn [bind]. rewrite Hwf. cbn [dims_prod fold_right].
    change (fold_right Nat.mul 1%nat rest) with (dims_prod rest).
    destruct Hd as [->|Hr].
    + reflexivity.
    + apply dims_prod_one in Hr. rewrite Hr, Nat.mul_1_r, Nat.eqb_refl. reflexivity.
  - intros Hn Hs. destruct (shape a) as [|d rest] eqn:E; [congruence|]. cbn [bind].
    rewrite Hwf. cbn [dims_prod fold_right]. change (fold_right Nat.mul 1%nat rest) with (dims_prod rest).
    destruct (Nat.eqb_spec (d * dims_prod rest) d) as [Heq|]; auto. exfalso. apply Hn.
    exists d, rest. split; auto. destruct d; [now left|right]. apply dims_prod_one. nia.
  - intros ->. reflexivity.
Qed.

(** *** Construction *)
Lemma init_1d eigvalsh eigvals (vals : list F) :
  eigvals_init eigvalsh eigvals (AArr (mkarr [length vals] vals))
  = Ok (mkobj (np_sort vals) None (np_sort vals)).
Proof.
  cbn. unfold make_1d_array. cbn. rewrite Nat.eqb_refl. cbn. now rewrite np_sort_idem.
Qed.

Lemma init_high_dim eigvalsh eigvals (a : ndarray F) :
  (2 < length (shape a))%nat -> eigvals_init eigvalsh eigvals (AArr a) = Raise ValueError.
Proof.
  intro H. unfold eigvals_init. destruct (shape a) as [|? [|? [|? ?]]] eqn:E; cbn in H; try lia.
  reflexivity.
Qed.

(** *** Histories *)
Definition is_read (c : op (F := F)) : bool :=
  match c with ReadVals | ReadOrig | ReadSteps | ReadSpacings | StepFn _ => true | _ => false end.

(** Cache invariant: empty, or what a fresh computation gives. *)
Definition cache_ok (o : eigobj (F := F)) : Prop :=
  forall s, o_steps o = Some s -> step_function_fast (o_vals o) (o_vals o) = Done s.

Lemma exec_read o c : is_read c = true -> cache_ok o ->
  let o' := fst (exec o c) in
  o_vals o' = o_vals o /\ o_construct o' = o_construct o /\ cache_ok o'.
Proof.
  intros Hr Hc. destruct c; try discriminate; cbn; auto.
  destruct (o_steps o) eqn:E; cbn; auto.
  destruct (step_function_fast (o_vals o) (o_vals o)) eqn:E2; cbn; splits; auto.
  intros s. cbn. congruence.
Qed.
Lemma exec_read_obs o o' c : is_read c = true -> cache_ok o -> cache_ok o' ->
  o_vals o = o_vals o' -> o_construct o = o_construct o' ->
  snd (exec o c) = snd (exec o' c).
Proof.
  intros Hr H1 H2 Hv Hc. destruct c; try discriminate; cbn; try congruence.
  unfold cache_ok in *. rewrite Hv in *.
  destruct (o_steps o) eqn:E1, (o_steps o') eqn:E2; cbn.
  - specialize (H1 _ eq_refl). specialize (H2 _ eq_refl). congruence.
  - rewrite (H1 _ eq_refl). reflexivity.
  - rewrite (H2 _ eq_refl). reflexivity.
  - destruct (step_function_fast (o_vals o') (o_vals o')); reflexivity.
Qed.
Lemma run_reads h : forall o, forallb is_read h = true -> cache_ok o ->
  o_vals (run o h) = o_vals o /\ o_construct (run o h) = o_construct o /\ cache_ok (run o h).
Proof.
  induction h as [|c h IH]; cbn [run fold_left forallb]; intros o Hr Hc; [auto|].
  apply andb_true_iff in Hr as [Hr1 Hr2].
  destruct (exec_read o c Hr1 Hc) as (E1 & E2 & E3). cbn zeta in *.
  destruct (IH (fst (exec o c)) Hr2 E3) as (K1 & K2 & K3). unfold run in *.
  splits; congruence || auto.
Qed.
Lemma reads_pure o h c : o_steps o = None -> forallb is_read h = true -> is_read c = true ->
  snd (exec (run o h) c) = snd (exec o c).
Proof.
  intros Hn Hr Hc. assert (cache_ok o) by (intros s Hs; congruence).
  destruct (run_reads h o Hr H) as (K1 & K2 & K3). apply exec_read_obs; auto.
Qed.

Definition writes_orig (c : op (F := F)) : bool := match c with WriteOrig _ _ => true | _ => false end.
Lemma orig_isolated h : forall o, forallb (fun c => negb (writes_orig c)) h = true ->
  o_construct (run o h) = o_construct o.
Proof.
  induction h as [|c h IH]; cbn [run fold_left forallb]; intros o Hr; auto.
  apply andb_true_iff in Hr as [Hr1 Hr2]. unfold run in IH. rewrite IH by auto.
  destruct c; try discriminate; cbn; auto.
  destruct (o_steps o); cbn; auto. destruct (step_function_fast (o_vals o) (o_vals o)); auto.
Qed.
End Gen.

(** *** Spacings over the reals *)
Lemma nsum_R_acc (l : list R) : forall a, fold_left nadd l a = (a + Rsum l)%R.
Proof. induction l as [|x t IH]; intro a; cbn; [lra|]. rewrite IH. cbn. lra. Qed.
Lemma nsum_R (l : list R) : nsum l = Rsum l.
Proof. unfold nsum. rewrite nsum_R_acc. cbn. lra. Qed.

Lemma Le_R (x y : R) : Le x y <-> (x <= y)%R.
Proof. unfold Le; cbn. destruct (Rle_dec x y); split; intros; try lra; discriminate. Qed.
Lemma notnan_R (l : list R) : Forall NotNaN l.
Proof. apply Forall_forall. intros. apply isnan_R. Qed.

Lemma ndiff_length {F} {N : Num F} (l : list F) : length (ndiff l) = (length l - 1)%nat.
Proof.
  induction l as [|x [|y t] IH]; auto. cbn [ndiff length] in *. rewrite IH. lia.
Qed.
Lemma ndiff_nonneg (l : list R) : Ascending l -> Forall (fun s => (0 <= s)%R) (ndiff l).
Proof.
  induction 1 as [|x t Hs IH Hx]; cbn; [constructor|].
  destruct t as [|y t]; [constructor|]. constructor; auto.
  inversion Hx; subst. apply Le_R in H1. cbn. lra.
Qed.
Lemma ndiff_sum (l : list R) (a b : R) :
  head_opt l = Some a -> last_opt l = Some b -> Rsum (ndiff l) = (b - a)%R.
Proof.
  unfold head_opt, last_opt. revert a. induction l as [|x [|y t] IH]; intros a Ha Hb; cbn in Ha.
  - discriminate.
  - cbn in Hb. injection Ha as <-. injection Hb as <-. cbn. lra.
  - injection Ha as <-.
    assert (K : nth_error (y :: t) (length (y :: t) - 1) = Some b).
    { cbn in *. now rewrite Nat.sub_0_r. }
    specialize (IH y eq_refl K). cbn [ndiff Rsum] in *. cbn [nsub Num_R] in *. rewrite IH. lra.
Qed.
Lemma np_sort_perm_R (l l' : list R) : Permutation l l' -> np_sort l = np_sort l'.
Proof.
  intro H. apply np_sort_order_irrelevant in H. induction H as [|x y t t' Hxy H IH]; auto.
  f_equal; auto. destruct Hxy as [[Hx _]|[H1 H2]].
  - rewrite isnan_R in Hx. discriminate.
  - apply Le_R in H1, H2. lra.
Qed.
Lemma np_le_R (x y : R) : np_le x y = if Rle_dec x y then true else false.
Proof. rewrite np_le_notnan; [reflexivity|apply isnan_R|apply isnan_R]. Qed.
Lemma np_sort_affine (c d : R) (l : list R) : (0 < c)%R ->
  np_sort (map (fun v => c * v + d)%R l) = map (fun v => c * v + d)%R (np_sort l).
Proof.
  intro Hc. induction l as [|x t IH]; auto. cbn [map np_sort]. rewrite IH. clear IH.
  induction (np_sort t) as [|y u IH]; auto. cbn [map insert_by]. rewrite !np_le_R.
  destruct (Rle_dec x y), (Rle_dec (c * x + d) (c * y + d)); cbn [map]; auto; try (exfalso; nra).
  now rewrite IH.
Qed.
Lemma ndiff_affine (c d : R) (l : list R) :
  ndiff (map (fun v => c * v + d)%R l) = map (Rmult c) (ndiff l).
Proof.
  induction l as [|x [|y t] IH]; auto. cbn [map ndiff] in *. cbn [nsub Num_R] in *.
  f_equal; [lra|]. exact IH.
Qed.

Lemma np_sort_head_min (l : list R) a : head_opt (np_sort l) = Some a ->
  In a l /\ forall x, In x l -> (a <= x)%R.
Proof.
  intro H. split.
  - eapply Permutation_in; [symmetry; apply np_sort_perm|]. eapply nth_error_In, H.
  - intros x Hx. apply (Permutation_in x (np_sort_perm l)), In_nth_error in Hx as [k Hk].
    apply Le_R. eapply (ascending_nth_le (np_sort l) 0 k); eauto using notnan_R; [|lia].
    apply np_sort_ascending, notnan_R.
Qed.
Lemma np_sort_last_max (l : list R) b : last_opt (np_sort l) = Some b ->
  In b l /\ forall x, In x l -> (x <= b)%R.
Proof.
  intro H. split.
  - eapply Permutation_in; [symmetry; apply np_sort_perm|]. eapply nth_error_In, H.
  - intros x Hx. apply (Permutation_in x (np_sort_perm l)), In_nth_error in Hx as [k Hk].
    assert (k < length (np_sort l))%nat by (apply nth_error_Some; congruence).
    apply Le_R. eapply (ascending_nth_le (np_sort l) k (length (np_sort l) - 1)); eauto using notnan_R; [|lia].
    apply np_sort_ascending, notnan_R.
Qed.
