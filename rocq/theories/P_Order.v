(** Order laws of the instances, sorting facts, list facts. *)
From Coq Require Import List ZArith Bool Reals QArith Lia Lra Sorting.Sorted Sorting.Permutation.
From Coq Require Import Floats.SpecFloat.
From Verif Require Import Base S_Order.
Import ListNotations.
Local Open Scope Z_scope.

(** ** Instances of the order laws *)

#[export] Instance OrdLaws_R : OrdLaws R Num_R.
Proof.
  split; cbn; intros.
  - destruct (Rle_dec x y); [now left|]. destruct (Rle_dec y x); [now right|]. lra.
  - destruct (Rle_dec x y), (Rle_dec y z), (Rle_dec x z); try discriminate; auto; lra.
  - destruct (Rlt_dec x y), (Rle_dec y x); cbn; auto; lra.
  - destruct (Req_EM_T x y), (Rle_dec x y), (Rle_dec y x); cbn; auto; lra.
  - unfold isnan in H; cbn in H.
    destruct (Req_EM_T x x), (Req_EM_T y y); cbn in H; try congruence; destruct H; discriminate.
Qed.

Lemma isnan_R (x : R) : isnan x = false.
Proof. unfold isnan; cbn; destruct (Req_EM_T x x); cbn; congruence. Qed.

#[export] Instance OrdLaws_Q : OrdLaws Q Num_Q.
Proof.
  split; cbn; intros.
  - rewrite !Qle_bool_iff. destruct (Qlt_le_dec x y); [left; now apply Qlt_le_weak | now right].
  - rewrite !Qle_bool_iff in *. eapply Qle_trans; eassumption.
  - reflexivity.
  - destruct (Qeq_bool x y) eqn:E; symmetry.
    + apply Qeq_bool_iff in E. apply andb_true_iff. rewrite !Qle_bool_iff.
      split; apply Qle_lteq; right; [exact E | now symmetry].
    + apply not_true_is_false. intro H'. apply andb_true_iff in H'. rewrite !Qle_bool_iff in H'.
      destruct H'. assert (x == y)%Q by now apply Qle_antisym.
      apply Qeq_bool_iff in H3. congruence.
  - exfalso. unfold isnan in H; cbn in H.
    destruct H as [H|H]; apply negb_true_iff in H;
      [pose proof (Qeq_bool_refl x)|pose proof (Qeq_bool_refl y)]; congruence.
Qed.

Lemma isnan_Q (x : Q) : isnan x = false.
Proof. unfold isnan; cbn. now rewrite Qeq_bool_refl. Qed.

(** A lexicographic reading of [SFcompare]. *)
Lemma SFcompare_nan (x y : spec_float) :
  SFcompare x y = None <-> x = S754_nan \/ y = S754_nan.
Proof.
  destruct x as [sx|sx| |sx mx ex], y as [sy|sy| |sy my ey]; cbn; split; intro H;
    try (destruct H as [H|H]; discriminate); auto; try discriminate;
    repeat match goal with
           | H : context [if ?s then _ else _] |- _ => destruct s
           | H : context [match ?c with _ => _ end] |- _ => destruct c
           end; try discriminate.
Qed.

Lemma isnan_b64 (x : b64) : isnan x = true <-> x = S754_nan.
Proof.
  unfold isnan; cbn. rewrite negb_true_iff. unfold SFeqb.
  destruct x as [s|s| |s m e]; cbn; split; intro H; try discriminate; auto; exfalso.
  - destruct s; discriminate.
  - rewrite Z.compare_refl, Pos.compare_cont_refl in H. destruct s; discriminate.
Qed.

Definition b64_key (x : b64) : (Z * Z * Z) :=
  match x with
  | S754_infinity true => (-2, 0, 0)
  | S754_finite true m e => (-1, -e, Zneg m)
  | S754_zero _ => (0, 0, 0)
  | S754_finite false m e => (1, e, Zpos m)
  | S754_infinity false => (2, 0, 0)
  | S754_nan => (3, 0, 0)
  end.

Definition key_le (a b : Z * Z * Z) : Prop :=
  let '(a1, a2, a3) := a in let '(b1, b2, b3) := b in
  a1 < b1 \/ (a1 = b1 /\ (a2 < b2 \/ (a2 = b2 /\ a3 <= b3))).

Lemma SFleb_key (x y : b64) : x <> S754_nan -> y <> S754_nan ->
  (SFleb x y = true <-> key_le (b64_key x) (b64_key y)).
Proof.
  intros Hx Hy. unfold SFleb.
  destruct x as [sx|sx| |sx mx ex], y as [sy|sy| |sy my ey]; try congruence; cbn;
    try (destruct sx); try (destruct sy); cbn; try (split; [intros; lia | intros; reflexivity || lia]);
    try (split; [intros; discriminate || lia | intros; lia]).
  - destruct (Z.compare_spec ex ey); cbn; fold (Pos.compare mx my).
    + change (Pos.compare_cont Eq mx my) with (Pos.compare mx my).
      destruct (Pos.compare_spec mx my); cbn; split; intros; try discriminate; try reflexivity; lia.
    + split; intros; try discriminate; lia.
    + split; intros; try reflexivity; lia.
  - destruct (Z.compare_spec ex ey); cbn.
    + change (Pos.compare_cont Eq mx my) with (Pos.compare mx my).
      destruct (Pos.compare_spec mx my); cbn; split; intros; try discriminate; try reflexivity; lia.
    + split; intros; try reflexivity; lia.
    + split; intros; try discriminate; lia.
Qed.

Lemma SFcompare_anti (x y : b64) :
  SFcompare y x = match SFcompare x y with Some c => Some (CompOpp c) | None => None end.
Proof.
  destruct x as [sx|sx| |sx mx ex], y as [sy|sy| |sy my ey]; cbn;
    try (destruct sx); try (destruct sy); cbn; auto.
  - rewrite (Z.compare_antisym ey ex). destruct (Z.compare ey ex); cbn; auto.
    change (Pos.compare_cont Eq my mx) with (Pos.compare my mx).
    change (Pos.compare_cont Eq mx my) with (Pos.compare mx my).
    rewrite (Pos.compare_antisym mx my). now destruct (Pos.compare mx my).
  - rewrite (Z.compare_antisym ey ex). destruct (Z.compare ey ex); cbn; auto.
    change (Pos.compare_cont Eq my mx) with (Pos.compare my mx).
    change (Pos.compare_cont Eq mx my) with (Pos.compare mx my).
    rewrite (Pos.compare_antisym mx my). now destruct (Pos.compare mx my).
Qed.

Lemma isnan_b64_false (x : b64) : isnan x = false <-> x <> S754_nan.
Proof.
  pose proof (isnan_b64 x). destruct (isnan x); split; intros; try congruence; intuition congruence.
Qed.

#[export] Instance OrdLaws_b64 : OrdLaws b64 Num_b64.
Proof.
  split.
  - intros x y Hx Hy. apply isnan_b64_false in Hx, Hy. cbn [nle Num_b64].
    unfold SFleb. rewrite (SFcompare_anti x y).
    destruct (SFcompare x y) as [[]|] eqn:E; cbn; auto.
    apply SFcompare_nan in E. tauto.
  - intros x y z Hxy Hyz. cbn [nle Num_b64] in *.
    assert (x <> S754_nan /\ y <> S754_nan /\ z <> S754_nan) as (Hx & Hy & Hz).
    { unfold SFleb in *. repeat split; intro; subst; cbn in *; try discriminate.
      all: destruct x; try discriminate; destruct y; discriminate. }
    apply SFleb_key in Hxy; auto. apply SFleb_key in Hyz; auto. apply SFleb_key; auto.
    destruct (b64_key x) as [[? ?] ?], (b64_key y) as [[? ?] ?], (b64_key z) as [[? ?] ?].
    cbn in *. lia.
  - intros x y Hx Hy. apply isnan_b64_false in Hx, Hy. cbn [nlt nle Num_b64].
    unfold SFleb, SFltb. rewrite (SFcompare_anti x y).
    destruct (SFcompare x y) as [[]|] eqn:E; cbn; auto.
    apply SFcompare_nan in E. tauto.
  - intros x y Hx Hy. apply isnan_b64_false in Hx, Hy. cbn [neq nle Num_b64].
    unfold SFleb, SFeqb. rewrite (SFcompare_anti x y).
    destruct (SFcompare x y) as [[]|] eqn:E; cbn; auto.
  - intros x y H. rewrite !isnan_b64 in H. apply SFcompare_nan in H.
    cbn [neq nle nlt Num_b64]. unfold SFleb, SFltb, SFeqb. now rewrite H.
Qed.

(** ** Consequences of the laws *)
Section Laws.
Context {F : Type} {N : Num F} {L : OrdLaws F N}.

Lemma le_notnan_l (x y : F) : Le x y -> NotNaN x.
Proof.
  unfold Le, NotNaN; intro H. destruct (isnan x) eqn:E; auto.
  destruct (ol_nan x y (or_introl E)) as (H1 & _). congruence.
Qed.
Lemma le_notnan_r (x y : F) : Le x y -> NotNaN y.
Proof.
  unfold Le, NotNaN; intro H. destruct (isnan y) eqn:E; auto.
  destruct (ol_nan x y (or_intror E)) as (H1 & _). congruence.
Qed.
Lemma le_refl (x : F) : NotNaN x -> Le x x.
Proof. intro H. now destruct (ol_total x x H H). Qed.
Lemma le_trans (x y z : F) : Le x y -> Le y z -> Le x z.
Proof. apply ol_trans. Qed.
Lemma nle_false_flip (x y : F) : NotNaN x -> NotNaN y -> nle x y = false -> Le y x.
Proof. intros Hx Hy E. destruct (ol_total x y Hx Hy); congruence. Qed.
Lemma nlt_true (x y : F) : NotNaN x -> NotNaN y -> (nlt x y = true <-> nle y x = false).
Proof. intros Hx Hy. rewrite ol_lt by assumption. apply negb_true_iff. Qed.
Lemma nlt_false (x y : F) : NotNaN x -> NotNaN y -> (nlt x y = false <-> Le y x).
Proof. intros Hx Hy. rewrite ol_lt by assumption. apply negb_false_iff. Qed.
Lemma nlt_notnan_l (x y : F) : nlt x y = true -> NotNaN x.
Proof.
  unfold NotNaN; intro H. destruct (isnan x) eqn:E; auto.
  destruct (ol_nan x y (or_introl E)) as (_ & H1 & _). congruence.
Qed.
Lemma nlt_notnan_r (x y : F) : nlt x y = true -> NotNaN y.
Proof.
  unfold NotNaN; intro H. destruct (isnan y) eqn:E; auto.
  destruct (ol_nan x y (or_intror E)) as (_ & H1 & _). congruence.
Qed.

(** NumPy's sort order is a total preorder on all values, NaN included. *)
Lemma np_le_notnan (x y : F) : NotNaN x -> NotNaN y -> np_le x y = nle x y.
Proof.
  intros Hx Hy. unfold np_le, np_lt. rewrite Hx, Hy. cbn. rewrite orb_false_r.
  rewrite ol_lt by assumption. apply negb_involutive.
Qed.
Lemma np_le_nan_r (x y : F) : isnan y = true -> np_le x y = true.
Proof.
  intros Hy. unfold np_le, np_lt. destruct (ol_nan y x (or_introl Hy)) as (_ & -> & _).
  rewrite Hy. cbn. now rewrite andb_false_r.
Qed.
Lemma np_le_nan_l (x y : F) : isnan x = true -> isnan y = false -> np_le x y = false.
Proof.
  intros Hx Hy. unfold np_le, np_lt. rewrite Hx, Hy. cbn. now rewrite orb_true_r.
Qed.
Lemma np_le_total (x y : F) : np_le x y = true \/ np_le y x = true.
Proof.
  destruct (isnan x) eqn:Ex; [right; now apply np_le_nan_r|].
  destruct (isnan y) eqn:Ey; [left; now apply np_le_nan_r|].
  rewrite !np_le_notnan by assumption. now apply ol_total.
Qed.
Lemma np_le_trans (x y z : F) : np_le x y = true -> np_le y z = true -> np_le x z = true.
Proof.
  intros H1 H2.
  destruct (isnan z) eqn:Ez; [now apply np_le_nan_r|].
  destruct (isnan y) eqn:Ey.
  { rewrite np_le_nan_l in H2 by assumption. discriminate. }
  destruct (isnan x) eqn:Ex.
  { rewrite np_le_nan_l in H1 by assumption. discriminate. }
  rewrite np_le_notnan in * by assumption. eapply ol_trans; eassumption.
Qed.

Lemma insert_perm (le : F -> F -> bool) (x : F) (l : list F) : Permutation (x :: l) (insert_by le x l).
Proof.
  induction l as [|y t IH]; cbn; auto.
  destruct (le x y); auto. rewrite perm_swap. now constructor.
Qed.
Lemma np_sort_perm (l : list F) : Permutation l (np_sort l).
Proof.
  induction l as [|x t IH]; cbn; auto.
  rewrite <- insert_perm. now constructor.
Qed.
Lemma np_sort_length (l : list F) : length (np_sort l) = length l.
Proof. symmetry. apply Permutation_length, np_sort_perm. Qed.

Definition NpLe (x y : F) : Prop := np_le x y = true.

Lemma insert_sorted (x : F) (l : list F) :
  StronglySorted NpLe l -> StronglySorted NpLe (insert_by np_le x l).
Proof.
  induction l as [|y t IH]; cbn; intro H.
  - repeat constructor.
  - inversion H as [|? ? Ht Hy]; subst. destruct (np_le x y) eqn:E.
    + constructor; auto. constructor; auto.
      eapply Forall_impl; [|exact Hy]. intros a Ha. eapply np_le_trans; eassumption.
    + constructor; auto.
      assert (Hyx : NpLe y x) by (destruct (np_le_total x y); [congruence|assumption]).
      eapply Permutation_Forall; [apply insert_perm|]. now constructor.
Qed.
Lemma np_sort_sorted (l : list F) : StronglySorted NpLe (np_sort l).
Proof. induction l; cbn; [constructor|]. now apply insert_sorted. Qed.

Lemma NpLe_Le_sorted (l : list F) : Forall NotNaN l -> StronglySorted NpLe l -> Ascending l.
Proof.
  intros Hn Hs. induction Hs as [|x t Hs IH Hx]; constructor.
  - apply IH. now inversion Hn.
  - inversion Hn as [|? ? Hnx Hnt]; subst. clear IH Hs.
    rewrite Forall_forall in *. intros a Ha. unfold Le. rewrite <- np_le_notnan; auto.
    now apply Hx.
Qed.
Lemma Forall_np_sort (P : F -> Prop) (l : list F) : Forall P l -> Forall P (np_sort l).
Proof. intro H. eapply Permutation_Forall; [apply np_sort_perm | exact H]. Qed.
Lemma np_sort_ascending (l : list F) : Forall NotNaN l -> Ascending (np_sort l).
Proof. intro H. apply NpLe_Le_sorted; [now apply Forall_np_sort | apply np_sort_sorted]. Qed.

Lemma insert_sorted_id (x : F) (l : list F) :
  Forall (NpLe x) l -> insert_by np_le x l = x :: l.
Proof. destruct l; cbn; auto. intro H. inversion H; subst. unfold NpLe in H2. now rewrite H2. Qed.
Lemma np_sort_id (l : list F) : StronglySorted NpLe l -> np_sort l = l.
Proof.
  induction 1; cbn; auto. rewrite IHStronglySorted. now apply insert_sorted_id.
Qed.
Lemma np_sort_idem (l : list F) : np_sort (np_sort l) = np_sort l.
Proof. apply np_sort_id, np_sort_sorted. Qed.

Lemma Ascending_NpLe (l : list F) : Forall NotNaN l -> Ascending l -> StronglySorted NpLe l.
Proof.
  intros Hn Hs. induction Hs as [|x t Hs IH Hx]; constructor.
  - apply IH. now inversion Hn.
  - inversion Hn as [|? ? Hnx Hnt]; subst. clear IH Hs.
    rewrite Forall_forall in *. intros a Ha. unfold NpLe. rewrite np_le_notnan; auto.
    now apply Hx.
Qed.

(** Counting. *)
Lemma CountLe_perm (l l' : list F) (x : F) : Permutation l l' -> CountLe l x = CountLe l' x.
Proof. induction 1; cbn [CountLe length app]; lia. Qed.
Lemma CountLe_filter (l : list F) (x : F) :
  CountLe l x = Z.of_nat (length (filter (fun e => nle e x) l)).
Proof. induction l; cbn [CountLe length filter]; auto. destruct (nle a x); cbn [CountLe length filter]; lia. Qed.
Lemma CountLe_nonneg (l : list F) x : 0 <= CountLe l x <= Z.of_nat (length l).
Proof. induction l; cbn [CountLe length filter]; [cbn; lia|]. destruct (nle a x); lia. Qed.
Lemma CountLe_all (l : list F) x : Forall (fun e => Le e x) l -> CountLe l x = Z.of_nat (length l).
Proof. induction 1; cbn [CountLe length filter]; auto. rewrite H. lia. Qed.
Lemma CountLe_none (l : list F) x : Forall (fun e => nle e x = false) l -> CountLe l x = 0.
Proof. induction 1; cbn [CountLe length app]; auto. now rewrite H. Qed.
Lemma CountLe_app (l l' : list F) x : CountLe (l ++ l') x = CountLe l x + CountLe l' x.
Proof. induction l; cbn [CountLe length app]; lia. Qed.
Lemma CountLe_mono (l : list F) x y : Le x y -> CountLe l x <= CountLe l y.
Proof.
  intro H. induction l; cbn [CountLe length app]; [lia|].
  destruct (nle a x) eqn:E; [|destruct (nle a y); lia].
  now rewrite (ol_trans _ _ _ E H); lia.
Qed.

Lemma ascending_nth (l : list F) i j x y :
  Ascending l -> (i < j)%nat -> nth_error l i = Some x -> nth_error l j = Some y -> Le x y.
Proof.
  intro Hs. revert i j. induction Hs as [|a t Hs IH Ha]; intros i j Hij Hi Hj.
  - destruct i; discriminate.
  - destruct j; [lia|]. cbn in Hj. destruct i; cbn in Hi.
    + injection Hi as <-. rewrite Forall_forall in Ha. apply Ha. eapply nth_error_In; eassumption.
    + eapply (IH i j); eauto; lia.
Qed.
End Laws.

(** ** List facts *)
Lemma set_nth_length {A} (l : list A) i v : length (set_nth l i v) = length l.
Proof. revert i; induction l; destruct i; cbn; auto. Qed.
Lemma set_nth_same {A} (l : list A) i v : (i < length l)%nat -> nth_error (set_nth l i v) i = Some v.
Proof. revert i; induction l; destruct i; cbn; intros; try lia; auto. apply IHl; lia. Qed.
Lemma set_nth_other {A} (l : list A) i j v : i <> j -> nth_error (set_nth l i v) j = nth_error l j.
Proof. revert i j; induction l; destruct i, j; cbn; intros; auto; try congruence. Qed.

Lemma nth_error_ext {A} (l l' : list A) :
  (forall i, nth_error l i = nth_error l' i) -> l = l'.
Proof.
  revert l'; induction l as [|a l IH]; destruct l' as [|b l']; intro H; auto.
  - specialize (H 0%nat); discriminate.
  - specialize (H 0%nat); discriminate.
  - f_equal; [specialize (H 0%nat); cbn in H; congruence | apply IH; intro i; apply (H (S i))].
Qed.
