(** Proofs about M_Trim. *)
From Coq Require Import List ZArith Bool Arith Lia Reals Lra Sorting.Sorted Sorting.Permutation.
From Verif Require Import Base S_Order S_EigVals S_Trim M_EigVals M_Trim P_Order P_Step P_EigVals.
Import ListNotations.

(** ** find_first / find_last *)
Section Find.
Context {A : Type} (eqb : A -> A -> bool).

Lemma find_from_spec (l : list A) v : forall k,
  (Absent (fun x => eqb x v) l /\ find_from eqb l v k = (-1)%Z) \/
  (exists i, LeastIndex (fun x => eqb x v) l i /\ find_from eqb l v k = (k + Z.of_nat i)%Z).
Proof.
  induction l as [|a t IH]; intro k; cbn [find_from].
  - left. split; auto. intros x [].
  - destruct (eqb a v) eqn:E.
    + right. exists 0%nat. split; [|lia]. split; [exists a; auto|]. intros; lia.
    + destruct (IH (k + 1)%Z) as [[H1 H2]|(i & [[x [Hx Hx2]] Hl] & H2)].
      * left. split; auto. intros x [->|]; auto.
      * right. exists (S i). split; [|rewrite H2; lia]. split; [exists x; auto|].
        intros [|j] y Hj Hy; [cbn in Hj; congruence|]. specialize (Hl j y Hj Hy). lia.
Qed.
Lemma find_first_spec (l : list A) v :
  (Absent (fun x => eqb x v) l /\ find_first eqb l v = (-1)%Z) \/
  (exists i, LeastIndex (fun x => eqb x v) l i /\ find_first eqb l v = Z.of_nat i).
Proof. exact (find_from_spec l v 0). Qed.

Lemma find_last_loop_spec (l : list A) v : forall k, (k <= length l)%nat ->
  (Absent (fun x => eqb x v) (firstn k l) /\ find_last_loop eqb l v k = (-1)%Z) \/
  (exists i, (i < k)%nat /\ GreatestIndex (fun x => eqb x v) (firstn k l) i /\ find_last_loop eqb l v k = Z.of_nat i).
Proof.
  assert (Hsplit : forall k x, nth_error l k = Some x -> firstn (S k) l = firstn k l ++ [x]).
  { clear. induction l as [|a t IH]; intros [|k] x H; try discriminate.
    - now injection H as ->.
    - change (a :: firstn (S k) t = a :: (firstn k t ++ [x])). f_equal. now apply IH. }
  induction k as [|k IH]; intro Hk; cbn [find_last_loop].
  - left. split; auto. intros x [].
  - destruct (nth_error l k) as [x|] eqn:Ek; [|apply nth_error_None in Ek; lia].
    assert (Hlen : length (firstn k l) = k) by (rewrite firstn_length; lia).
    rewrite (Hsplit _ _ Ek).
    destruct (eqb x v) eqn:E.
    + right. exists k. splits; auto.
      split.
      * exists x. split; auto. rewrite nth_error_app2, Hlen, Nat.sub_diag by lia. reflexivity.
      * intros j y Hj _. assert (j < length (firstn k l ++ [x]))%nat by (apply nth_error_Some; congruence).
        rewrite app_length, Hlen in H. cbn in H. lia.
    + destruct (IH ltac:(lia)) as [[H1 H2]|(i & Hi & [[y [Hy Hy2]] Hg] & H2)].
      * left. split; auto. intros y Hy. apply in_app_or in Hy as [Hy|[->|[]]]; auto.
      * right. exists i. splits; auto. split.
        -- exists y. split; auto. rewrite nth_error_app1; auto. lia.
        -- intros j z Hj Hz. destruct (lt_dec j k).
           ++ rewrite nth_error_app1 in Hj by lia. eauto.
           ++ rewrite nth_error_app2 in Hj by lia. rewrite Hlen in Hj.
              destruct (j - k)%nat as [|m] eqn:Em; cbn in Hj; [congruence|destruct m; discriminate].
Qed.
Lemma find_last_spec (l : list A) v :
  (Absent (fun x => eqb x v) l /\ find_last eqb l v = (-1)%Z) \/
  (exists i, GreatestIndex (fun x => eqb x v) l i /\ find_last eqb l v = Z.of_nat i).
Proof.
  destruct (find_last_loop_spec l v (length l)) as [H|(i & _ & H)]; auto.
  - left. now rewrite firstn_all in H.
  - right. exists i. now rewrite firstn_all in H.
Qed.
End Find.

(** ** Outlier labels *)
Lemma py_set_ok {A} (l : list A) i v : (i < length l)%nat -> py_set l (Z.of_nat i) v = Ok (set_nth l i v).
Proof.
  intro H. unfold py_set. assert ((Z.of_nat i <? 0)%Z = false) as -> by (apply Z.ltb_ge; lia).
  assert ((Z.of_nat (length l) <=? Z.of_nat i)%Z = false) as -> by (apply Z.leb_gt; lia).
  assert ((Z.of_nat i <? 0)%Z = false) as -> by (apply Z.ltb_ge; lia).
  cbn [orb]. now rewrite Nat2Z.id.
Qed.
Lemma set_nth_app {A} (p : list A) x s v : set_nth (p ++ x :: s) (length p) v = p ++ v :: s.
Proof. induction p; cbn; congruence. Qed.
Lemma repeat_snoc {A} (x : A) n : repeat x n ++ [x] = x :: repeat x n.
Proof. induction n; cbn; congruence. Qed.

Lemma clear_range_app (p m s : list bool) :
  clear_range (p ++ m ++ s) (Z.of_nat (length p)) (length m) = Ok (p ++ repeat false (length m) ++ s).
Proof.
  revert p. induction m as [|x m IH]; intro p; cbn [length clear_range app repeat]; auto.
  rewrite py_set_ok by (rewrite app_length; cbn; lia). cbn [bind]. rewrite set_nth_app.
  specialize (IH (p ++ [false])). rewrite app_length in IH. cbn [length] in IH.
  replace (Z.of_nat (length p) + 1)%Z with (Z.of_nat (length p + 1)) by lia.
  rewrite <- !app_assoc in IH. cbn [app] in IH. exact IH.
Qed.

Lemma py_get_0 {A} (l : list A) : py_get l 0 = head_opt l.
Proof.
  unfold py_get, head_opt. destruct l as [|a t]; [reflexivity|].
  change (0 <? 0)%Z with false. cbn [orb].
  assert ((Z.of_nat (length (a :: t)) <=? 0)%Z = false) as -> by (apply Z.leb_gt; cbn; lia). reflexivity.
Qed.
Lemma py_get_m1 {A} (l : list A) : py_get l (-1) = last_opt l.
Proof.
  unfold py_get, last_opt. change (-1 <? 0)%Z with true. cbv iota. destruct l as [|a t]; [reflexivity|].
  set (n := length (a :: t)). assert (0 < n)%nat by (subst n; cbn; lia).
  assert ((Z.of_nat n + -1 <? 0)%Z = false) as -> by (apply Z.ltb_ge; lia).
  assert ((Z.of_nat n <=? Z.of_nat n + -1)%Z = false) as -> by (apply Z.leb_gt; lia).
  cbn [orb]. f_equal. lia.
Qed.
Lemma last_opt_snoc {A} (l : list A) x : last_opt (l ++ [x]) = Some x.
Proof.
  unfold last_opt. rewrite app_length. cbn [length]. rewrite nth_error_app2 by lia.
  replace (length l + 1 - 1 - length l)%nat with 0%nat by lia. reflexivity.
Qed.
Lemma last_opt_app {A} (l s : list A) : s <> [] -> last_opt (l ++ s) = last_opt s.
Proof.
  intro H. unfold last_opt. rewrite app_length. destruct s; [congruence|]. cbn [length].
  rewrite nth_error_app2 by lia. f_equal. lia.
Qed.
Lemma last_opt_repeat {A} (x : A) n : last_opt (repeat x (S n)) = Some x.
Proof. change (repeat x (S n)) with (x :: repeat x n). rewrite <- repeat_snoc. apply last_opt_snoc. Qed.
Lemma clear_all_neg (l : list bool) : l <> [] ->
  clear_range l (-1) (S (length l)) = Ok (repeat false (length l)).
Proof.
  intro H. cbn [clear_range]. unfold py_set.
  change (-1 <? 0)%Z with true. cbv iota.
  assert (0 < length l)%nat by (destruct l; cbn; [congruence|lia]).
  assert ((Z.of_nat (length l) + -1 <? 0)%Z = false) as -> by (apply Z.ltb_ge; lia).
  assert ((Z.of_nat (length l) <=? Z.of_nat (length l) + -1)%Z = false) as -> by (apply Z.leb_gt; lia).
  cbn [orb bind]. change (-1 + 1)%Z with 0%Z.
  set (l' := set_nth l _ _). assert (Hl : length l' = length l) by apply set_nth_length.
  pose proof (clear_range_app [] l' []) as K. cbn [app length] in K. rewrite !app_nil_r in K.
  rewrite Hl in K. exact K.
Qed.

Lemma leading_run (l : list bool) : (exists p rest, l = repeat true p ++ false :: rest) \/ l = repeat true (length l).
Proof.
  induction l as [|[] t IH]; cbn [length repeat].
  - now right.
  - destruct IH as [(p & r & ->)| ->]; [left; exists (S p), r; reflexivity|right; now rewrite repeat_length].
  - left. exists 0%nat, t. reflexivity.
Qed.
Lemma trailing_run (l : list bool) : (exists p rest, l = rest ++ false :: repeat true p) \/ l = repeat true (length l).
Proof.
  destruct (leading_run (rev l)) as [(p & r & H)|H].
  - left. exists p, (rev r). apply (f_equal (@rev bool)) in H. rewrite rev_involutive in H. subst.
    rewrite rev_app_distr. cbn [rev]. rewrite <- app_assoc. cbn. f_equal. f_equal.
    clear. induction p; [reflexivity|]. cbn [repeat rev]. rewrite IHp. apply repeat_snoc.
  - right. apply (f_equal (@rev bool)) in H. rewrite rev_involutive, rev_length in H. rewrite H at 1.
    clear. induction (length l); [reflexivity|]. cbn [repeat rev]. rewrite IHn. apply repeat_snoc.
Qed.

Lemma least_unique {A} (P : A -> bool) l i j : LeastIndex P l i -> LeastIndex P l j -> i = j.
Proof.
  intros [(x & Hx & Px) Hi] [(y & Hy & Py) Hj]. specialize (Hi _ _ Hy Py). specialize (Hj _ _ Hx Px). lia.
Qed.
Lemma greatest_unique {A} (P : A -> bool) l i j : GreatestIndex P l i -> GreatestIndex P l j -> i = j.
Proof.
  intros [(x & Hx & Px) Hi] [(y & Hy & Py) Hj]. specialize (Hi _ _ Hy Py). specialize (Hj _ _ Hx Px). lia.
Qed.
Lemma find_first_eq {A} eqb (l : list A) v i : LeastIndex (fun x => eqb x v) l i -> find_first eqb l v = Z.of_nat i.
Proof.
  intro H. destruct (find_first_spec eqb l v) as [[Ha _]|(j & Hj & ->)].
  - destruct H as [(x & Hx & Px) _]. apply nth_error_In in Hx. apply Ha in Hx. congruence.
  - f_equal. eapply least_unique; eauto.
Qed.
Lemma find_last_eq {A} eqb (l : list A) v i : GreatestIndex (fun x => eqb x v) l i -> find_last eqb l v = Z.of_nat i.
Proof.
  intro H. destruct (find_last_spec eqb l v) as [[Ha _]|(j & Hj & ->)].
  - destruct H as [(x & Hx & Px) _]. apply nth_error_In in Hx. apply Ha in Hx. congruence.
  - f_equal. eapply greatest_unique; eauto.
Qed.
Lemma find_first_absent {A} eqb (l : list A) v : Absent (fun x => eqb x v) l -> find_first eqb l v = (-1)%Z.
Proof.
  intro H. destruct (find_first_spec eqb l v) as [[_ ->]|(j & [(x & Hx & Px) _] & _)]; auto.
  apply nth_error_In in Hx. apply H in Hx. congruence.
Qed.

Lemma nth_repeat_ge {A} (x y : A) n i : nth_error (repeat x n) i = Some y -> y = x /\ (i < n)%nat.
Proof.
  intro H. split.
  - apply nth_error_In in H. eapply repeat_spec; eauto.
  - rewrite <- (repeat_length x n). apply nth_error_Some. congruence.
Qed.
Lemma find_first_run p rest : find_first Bool.eqb (repeat true p ++ false :: rest) false = Z.of_nat p.
Proof.
  apply find_first_eq. split.
  - exists false. split; auto. rewrite nth_error_app2, repeat_length, Nat.sub_diag by (rewrite repeat_length; lia). reflexivity.
  - intros j x Hj Hx. destruct (le_lt_dec p j) as [|Hlt]; auto.
    rewrite nth_error_app1 in Hj by (rewrite repeat_length; lia). apply nth_repeat_ge in Hj as [-> _]. discriminate.
Qed.
Lemma find_last_run p rest : find_last Bool.eqb (rest ++ false :: repeat true p) false = Z.of_nat (length rest).
Proof.
  apply find_last_eq. split.
  - exists false. split; auto. rewrite nth_error_app2, Nat.sub_diag by lia. reflexivity.
  - intros j x Hj Hx. destruct (le_lt_dec j (length rest)) as [|Hlt]; auto.
    rewrite nth_error_app2 in Hj by lia. destruct (j - length rest)%nat eqn:E; [lia|].
    cbn in Hj. apply nth_repeat_ge in Hj as [-> _]. discriminate.
Qed.

(** Complete behaviour of the label post-processing. *)
Inductive labels_case : list bool -> list bool -> Prop :=
| LAll n : labels_case (repeat true (S n)) (repeat false (S n))
| LBottom p rest : (0 < p)%nat ->
    labels_case (repeat true p ++ false :: rest) (repeat true p ++ repeat false (S (length rest)))
| LTop p rest : (0 < p)%nat -> head_opt (rest ++ [false]) = Some false ->
    labels_case (rest ++ false :: repeat true p) (repeat false (S (length rest)) ++ repeat true p)
| LNone l : head_opt l = Some false -> last_opt l = Some false -> labels_case l (repeat false (length l)).

Lemma outlier_labels_cases (lab : list bool) : lab <> [] ->
  exists r, outlier_labels lab = Ok r /\ labels_case lab r.
Proof.
  intro Hne. unfold outlier_labels. rewrite py_get_0.
  destruct lab as [|b t]; [congruence|]. cbn [head_opt nth_error].
  destruct b.
  - (* bottom flagged *)
    destruct (leading_run (true :: t)) as [(p & rest & E)|E].
    + destruct p as [|p]; [discriminate|].
      set (n := length (true :: t)). assert (Hn : n = (S p + S (length rest))%nat).
      { subst n. rewrite E, app_length, repeat_length. reflexivity. }
      clearbody n. rewrite E. rewrite find_first_run.
      replace (Z.to_nat (Z.of_nat n - Z.of_nat (S p))) with (S (length rest)) by lia.
      pose proof (clear_range_app (repeat true (S p)) (false :: rest) []) as K.
      rewrite repeat_length, !app_nil_r in K. change (length (false :: rest)) with (S (length rest)) in K.
      rewrite K. cbn [bind]. rewrite py_get_m1, last_opt_app by discriminate. rewrite last_opt_repeat.
      cbn [bind]. rewrite py_get_0, py_get_m1, last_opt_app by discriminate. rewrite last_opt_repeat.
      cbn [repeat app head_opt nth_error]. eexists. split; [reflexivity|].
      apply (LBottom (S p) rest). lia.
    + rewrite find_first_absent.
      2:{ rewrite E. intros x Hx. apply repeat_spec in Hx as ->. reflexivity. }
      replace (Z.to_nat (Z.of_nat (length (true :: t)) - -1)) with (S (length (true :: t))) by lia.
      rewrite clear_all_neg by discriminate. cbn [bind]. cbn [length].
      rewrite py_get_m1, last_opt_repeat. cbn [bind]. rewrite py_get_0, py_get_m1, last_opt_repeat.
      cbn [repeat head_opt nth_error]. eexists. split; [reflexivity|].
      cbn [length] in *. rewrite repeat_length. rewrite E at 1. apply (LAll (length t)).
  - cbn [bind]. rewrite py_get_m1.
    destruct (last_opt (false :: t)) as [[]|] eqn:El.
    + destruct (trailing_run (false :: t)) as [(p & rest & E)|E]; [|discriminate].
      destruct p as [|p].
      { exfalso. rewrite E in El. cbn [repeat] in El. rewrite last_opt_snoc in El. discriminate. }
      assert (Hh : head_opt (rest ++ [false]) = Some false).
      { destruct rest; cbn in *; congruence. }
      rewrite E. rewrite find_last_run, Nat2Z.id.
      pose proof (clear_range_app [] rest (false :: repeat true (S p))) as K. cbn [app length] in K.
      change (Z.of_nat 0) with 0%Z in K. rewrite K. cbn [bind].
      replace (repeat false (length rest) ++ false :: repeat true (S p))
        with (repeat false (S (length rest)) ++ repeat true (S p)).
      2:{ change (repeat false (S (length rest))) with (false :: repeat false (length rest)).
          rewrite <- repeat_snoc, <- app_assoc. reflexivity. }
      rewrite py_get_0, py_get_m1, last_opt_app by discriminate. rewrite last_opt_repeat.
      cbn [repeat app head_opt nth_error]. eexists. split; [reflexivity|].
      apply (LTop (S p) rest); auto. lia.
    + cbn [bind]. rewrite py_get_0, py_get_m1, El. cbn [head_opt nth_error].
      eexists. split; [reflexivity|]. now apply LNone.
    + unfold last_opt in El. apply nth_error_None in El. cbn in El. lia.
Qed.

Lemma labels_length lab r : labels_case lab r -> length r = length lab.
Proof. intros []; rewrite ?app_length, ?repeat_length; cbn [length]; rewrite ?repeat_length; lia. Qed.
Lemma labels_one_end lab r : lab <> [] -> labels_case lab r -> OneEnd r.
Proof.
  intros Hne [].
  - exists 0%nat, (S n). cbn. split; [lia|auto].
  - exists p, (S (length rest)). split; [lia|auto].
  - exists p, (S (length rest)). split; [lia|auto].
  - exists 0%nat, (length l). split; [destruct l; cbn in *; [discriminate|lia]|auto].
Qed.
Lemma labels_le lab r : labels_case lab r -> forall i, nth_error r i = Some true -> nth_error lab i = Some true.
Proof.
  intros [] i Hi.
  - apply nth_repeat_ge in Hi as [? _]. discriminate.
  - destruct (le_lt_dec p i).
    + rewrite nth_error_app2 in Hi by (rewrite repeat_length; lia). apply nth_repeat_ge in Hi as [? _]. discriminate.
    + rewrite nth_error_app1 in * by (rewrite repeat_length; lia). auto.
  - destruct (le_lt_dec (S (length rest)) i).
    + rewrite nth_error_app2 in Hi by (rewrite repeat_length; lia). rewrite repeat_length in Hi.
      rewrite nth_error_app2 by lia. replace (i - length rest)%nat with (S (i - S (length rest))) by lia. auto.
    + rewrite nth_error_app1 in Hi by (rewrite repeat_length; lia). apply nth_repeat_ge in Hi as [? _]. discriminate.
  - apply nth_repeat_ge in Hi as [? _]. discriminate.
Qed.

(** ** Iterations *)
Definition mask {A} (l : list A) (c : list bool) : list A :=
  map fst (filter (fun p => negb (snd p)) (combine l c)).
Lemma mask_app {A} (a b : list A) c d : length a = length c -> mask (a ++ b) (c ++ d) = mask a c ++ mask b d.
Proof.
  revert c. induction a as [|x a IH]; intros [|y c] H; try discriminate; auto.
  cbn [app]. unfold mask in *. cbn [combine filter snd]. injection H as H. destruct y; cbn [negb map fst app]; rewrite IH; auto.
Qed.
Lemma mask_true {A} (a : list A) n : mask a (repeat true n) = [].
Proof. revert n. induction a as [|x a IH]; intros [|n]; auto. unfold mask in *. cbn. apply IH. Qed.
Lemma mask_false {A} (a : list A) n : length a = n -> mask a (repeat false n) = a.
Proof. revert n. induction a as [|x a IH]; intros [|n] H; try discriminate; auto. unfold mask in *. cbn. now rewrite IH by (injection H; auto). Qed.

Lemma one_end_mask {A} (l : list A) c : length l = length c -> OneEnd c ->
  EndTrim l (mask l c) /\ mask l c <> [] /\
  (forallb negb c = true -> mask l c = l) /\
  (forallb negb c = false -> (length (mask l c) < length l)%nat).
Proof.
  intros Hlen (p & q & Hq & [-> | ->]); rewrite app_length, !repeat_length in Hlen.
  - rewrite <- (firstn_skipn p l).
    assert (H1 : length (firstn p l) = p) by (rewrite firstn_length; lia).
    assert (H2 : length (skipn p l) = q) by (rewrite skipn_length; lia).
    rewrite mask_app, mask_true, mask_false by (rewrite ?repeat_length; auto). cbn [app].
    splits.
    + exists (firstn p l). auto.
    + intro K. rewrite K in H2. cbn in H2. lia.
    + rewrite forallb_app. destruct p; cbn; [auto|discriminate].
    + intro K. rewrite app_length. destruct p; [|lia].
      exfalso. rewrite forallb_app in K. cbn [repeat forallb andb] in K.
      assert (forallb negb (repeat false q) = true) by (apply forallb_forall; intros x Hx; apply repeat_spec in Hx as ->; auto).
      congruence.
  - rewrite <- (firstn_skipn q l).
    assert (H1 : length (firstn q l) = q) by (rewrite firstn_length; lia).
    assert (H2 : length (skipn q l) = p) by (rewrite skipn_length; lia).
    rewrite mask_app, mask_true, mask_false by (rewrite ?repeat_length; auto). rewrite app_nil_r.
    splits.
    + exists (skipn q l). auto.
    + intro K. rewrite K in H1. cbn in H1. lia.
    + rewrite forallb_app. destruct p; [|intro K; apply andb_true_iff in K as [_ K]; discriminate].
      intros _. destruct (skipn q l); [now rewrite app_nil_r|cbn in H2; lia].
    + intro K. rewrite app_length. destruct p; [|lia].
      exfalso. rewrite forallb_app in K. cbn [repeat forallb] in K. rewrite andb_true_r in K.
      assert (forallb negb (repeat false q) = true) by (apply forallb_forall; intros x Hx; apply repeat_spec in Hx as ->; auto).
      congruence.
Qed.

Section Iter.
Context {F U : Type} {N : Num F}.
Variable hbos : nat -> list F -> result (list bool).
Variable fit_all : list F -> result U.
Hypothesis hbos_len : forall id l lab, hbos id l = Ok lab -> length lab = length l.
Notation trimiter := (trimiter F U).

Definition iter_wf (t : trimiter) : Prop :=
  length (ti_eigs t) = length (ti_clusters t) /\ OneEnd (ti_clusters t) /\ ti_eigs t <> [].

Lemma new_iter_ok id origs eigs t : new_iter hbos fit_all id origs eigs = Ok t ->
  ti_origs t = origs /\ ti_eigs t = eigs /\ ti_id t = id /\ iter_wf t /\
  exists lab, hbos id eigs = Ok lab /\ labels_case lab (ti_clusters t).
Proof.
  unfold new_iter. intro H. destruct (hbos id eigs) as [lab|] eqn:Eh; [|discriminate]. cbn [bind] in H.
  assert (Hne : lab <> []) by (intros ->; discriminate).
  destruct (outlier_labels_cases lab Hne) as (r & Er & Hr). rewrite Er in H. cbn [bind] in H.
  destruct (fit_all eigs); [|discriminate]. cbn [bind] in H. injection H as <-. cbn.
  pose proof (labels_length _ _ Hr) as Hl. pose proof (hbos_len _ _ _ Eh) as Hl2.
  splits; auto.
  - unfold iter_wf. cbn. splits.
    + congruence.
    + eapply labels_one_end; eauto.
    + intros ->. destruct lab; [congruence|discriminate].
  - eauto.
Qed.

(** One recorded iteration to the next. *)
Definition iter_step (max_trim : F) (a b : trimiter) : Prop :=
  ti_origs b = ti_origs a /\ ti_id b = S (ti_id a) /\ ti_eigs b = inliers a /\
  nlt max_trim (proportion_removed b) = false /\ iter_wf b.

Lemma trim_loop_ok max_trim k : forall cur its, trim_loop hbos fit_all k max_trim cur = Ok its ->
  (length its <= k)%nat /\
  (forall i a b, nth_error (cur :: its) i = Some a -> nth_error (cur :: its) (S i) = Some b ->
     iter_step max_trim a b /\ ((0 < i)%nat -> is_all_inliers a = false)) /\
  ((length its < k)%nat -> forall l, last_opt (cur :: its) = Some l ->
     (its <> [] /\ is_all_inliers l = true) \/
     exists nx, next_iter hbos fit_all l = Ok nx /\ nlt max_trim (proportion_removed nx) = true).
Proof.
  induction k as [|k IH]; intros cur its H; cbn [trim_loop] in H.
  - injection H as <-. splits; auto; [|cbn; lia].
    intros [|i] a b Ha Hb; [discriminate|destruct i; discriminate].
  - destruct (next_iter hbos fit_all cur) as [t|] eqn:En; [|discriminate]. cbn [bind] in H.
    destruct (ngt (proportion_removed t) max_trim) eqn:Eg.
    + injection H as <-. splits; [cbn; lia| |].
      * intros [|i] a b Ha Hb; [discriminate|destruct i; discriminate].
      * intros _ l Hl. injection Hl as <-. right. eauto.
    + assert (Hst : iter_step max_trim cur t).
      { unfold next_iter in En. destruct (new_iter_ok _ _ _ _ En) as (H1 & H2 & H3 & H4 & _).
        unfold iter_step. splits; auto; apply H4. }
      destruct (is_all_inliers t) eqn:Ea.
      * injection H as <-. splits; [cbn; lia| |].
        -- intros [|[|i]] a b Ha Hb; [|discriminate|destruct i; discriminate].
           injection Ha as <-. injection Hb as <-. split; auto. lia.
        -- intros _ l Hl. injection Hl as <-. left. split; [discriminate|auto].
      * destruct (trim_loop hbos fit_all k max_trim t) as [rest|] eqn:El; [|discriminate]. cbn [bind] in H.
        injection H as <-. destruct (IH _ _ El) as (I1 & I2 & I3). splits; [cbn; lia| |].
        -- intros [|i] a b Ha Hb.
           ++ injection Ha as <-. injection Hb as <-. split; auto. lia.
           ++ destruct (I2 i a b Ha Hb) as [J1 J2]. split; auto. intros _.
              destruct i; [|apply J2; lia]. injection Ha as <-. exact Ea.
        -- intros Hlt l Hl. cbn [length] in Hlt. destruct (I3 ltac:(lia) l) as [[J1 J2]|J].
           ++ rewrite <- Hl. symmetry. apply (last_opt_app [cur] (t :: rest)). discriminate.
           ++ left. split; auto. discriminate.
           ++ right. exact J.
Qed.

Lemma trim_iters_ok values max_trim max_iters its : trim_iters hbos fit_all values max_trim max_iters = Ok its ->
  exists t0 rest, its = t0 :: rest /\ new_iter hbos fit_all 0 (np_sort values) (np_sort values) = Ok t0 /\
  trim_loop hbos fit_all (Z.to_nat max_iters) max_trim t0 = Ok rest.
Proof.
  unfold trim_iters. intro H. destruct (new_iter _ _ _ _ _) as [t0|] eqn:E0; [|discriminate]. cbn [bind] in H.
  destruct (trim_loop _ _ _ _ _) as [rest|] eqn:El; [|discriminate]. injection H as <-. eauto 6.
Qed.

Lemma inliers_mask (t : trimiter) : inliers t = mask (ti_eigs t) (ti_clusters t).
Proof. reflexivity. Qed.

(** Everything about one recorded row. *)
Lemma row_ok values max_trim max_iters its : trim_iters hbos fit_all values max_trim max_iters = Ok its ->
  forall k t, nth_error its k = Some t ->
    ti_id t = k /\ ti_origs t = np_sort values /\ iter_wf t /\ Contiguous (np_sort values) (ti_eigs t) /\
  (k = 0%nat -> ti_eigs t = np_sort values) /\
  ((0 < k)%nat -> nlt max_trim (proportion_removed t) = false).
Proof.
  intro H. apply trim_iters_ok in H as (t0 & rest & -> & H0 & Hl).
  apply new_iter_ok in H0 as (A1 & A2 & A3 & A4 & _). apply trim_loop_ok in Hl as (_ & Hl & _).
  induction k as [|k IH]; intros t Ht.
  - injection Ht as <-. splits; auto; try lia.
    rewrite A2. exists [], []. now rewrite app_nil_r.
  - assert (exists a, nth_error (t0 :: rest) k = Some a) as [a Ha].
    { destruct (nth_error (t0 :: rest) k) as [a|] eqn:E; [eauto|]. exfalso. apply nth_error_None in E.
      assert (S k < length (t0 :: rest))%nat by (apply nth_error_Some; congruence). lia. }
    destruct (IH a Ha) as (I1 & I2 & I3 & (p & s & I4) & _ & _).
    destruct (Hl k a t Ha Ht) as ((J1 & J2 & J3 & J4 & J5) & _).
    splits; auto; try congruence; try lia.
    destruct I3 as (K1 & K2 & K3). destruct (one_end_mask (ti_eigs a) _ K1 K2) as ((r & Hr) & _).
    rewrite J3, inliers_mask. destruct Hr as [Hr|Hr]; rewrite I4.
    + exists (p ++ r), s. rewrite Hr at 1. now rewrite <- !app_assoc.
    + exists p, (r ++ s). rewrite Hr at 1. now rewrite <- !app_assoc.
Qed.

Lemma pair_ok values max_trim max_iters its : trim_iters hbos fit_all values max_trim max_iters = Ok its ->
  forall k a b, nth_error its k = Some a -> nth_error its (S k) = Some b ->
    EndTrim (ti_eigs a) (ti_eigs b) /\
  (is_all_inliers a = true -> ti_eigs b = ti_eigs a) /\
  (is_all_inliers a = false -> (length (ti_eigs b) < length (ti_eigs a))%nat) /\
  ((0 < k)%nat -> is_all_inliers a = false).
Proof.
  intros H k a b Ha Hb. pose proof (row_ok _ _ _ _ H) as Hrow.
  apply trim_iters_ok in H as (t0 & rest & -> & H0 & Hl).
  apply trim_loop_ok in Hl as (_ & Hl & _). destruct (Hl k a b Ha Hb) as ((J1 & J2 & J3 & J4 & J5) & J6).
  destruct (Hrow k a Ha) as (_ & _ & (K1 & K2 & K3) & _).
  destruct (one_end_mask (ti_eigs a) _ K1 K2) as (M1 & M2 & M3 & M4).
  rewrite J3, inliers_mask. unfold is_all_inliers. splits; auto.
Qed.

End Iter.
