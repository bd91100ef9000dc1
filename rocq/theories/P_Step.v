(** Proofs about the step function (model: M_Step). *)
From Coq Require Import List ZArith Bool Arith Lia Sorting.Sorted Sorting.Permutation.
From Verif Require Import Base S_Order M_Step P_Order.
Import ListNotations.

Ltac splits := repeat match goal with |- _ /\ _ => split end.

Section Step.
Context {F : Type} {N : Num F}.

(** ** The skip loop *)
Lemma step_skip_done (x : list F) e0 : forall fuel j,
  (j <= length x)%nat -> (length x - j < fuel)%nat ->
  exists j', step_skip fuel x e0 j = Done j' /\ (j <= j' <= length x)%nat
    /\ (forall k, (j <= k < j')%nat -> forall v, nth_error x k = Some v -> nlt v e0 = true)
    /\ (forall v, nth_error x j' = Some v -> nlt v e0 = false).
Proof.
  induction fuel as [|fuel IH]; intros j Hj Hf; [lia|]. cbn [step_skip].
  destruct (Nat.ltb_spec j (length x)) as [Hlt|Hge].
  - destruct (nth_error x j) as [xj|] eqn:E; [|apply nth_error_None in E; lia].
    destruct (nlt xj e0) eqn:El.
    + destruct (IH (S j)) as (j' & H1 & H2 & H3 & H4); [lia|lia|].
      exists j'. rewrite H1. splits; auto; try lia.
      intros k Hk v Hv. destruct (Nat.eq_dec k j) as [->|]; [congruence|]. apply (H3 k); [lia|auto].
    + exists j. splits; auto; try lia. intros v Hv. congruence.
  - exists j. splits; auto; try lia.
    intros v Hv. assert (nth_error x j = None) by (apply nth_error_None; lia). congruence.
Qed.

(** ** The look-ahead loop *)
Lemma step_inner_done (x : list F) ei count : forall fuel j ret,
  (j <= length x)%nat -> (length x - j < fuel)%nat -> length ret = length x ->
  exists j' ret', step_inner fuel x ei count j ret = Done (j', ret')
    /\ (j <= j' <= length x)%nat /\ length ret' = length x
    /\ (forall k, (j <= k < j')%nat -> nth_error ret' k = Some count)
    /\ (forall k, (k < j \/ j' <= k)%nat -> nth_error ret' k = nth_error ret k)
    /\ (forall k, (j <= k < j')%nat -> forall v, nth_error x k = Some v -> nlt v ei = true)
    /\ (forall v, nth_error x j' = Some v -> nlt v ei = false).
Proof.
  induction fuel as [|fuel IH]; intros j ret Hj Hf Hr; [lia|]. cbn [step_inner].
  destruct (Nat.ltb_spec j (length x)) as [Hlt|Hge].
  - destruct (nth_error x j) as [xj|] eqn:E; [|apply nth_error_None in E; lia].
    destruct (nlt xj ei) eqn:El.
    + destruct (IH (S j) (set_nth ret j count)) as (j' & ret' & H1 & H2 & H3 & H4 & H5 & H6 & H7);
        [lia|lia|now rewrite set_nth_length|].
      exists j', ret'. rewrite H1. splits; auto; try lia.
      * intros k Hk. destruct (Nat.eq_dec k j) as [->|]; [|apply H4; lia].
        rewrite H5 by lia. apply set_nth_same. lia.
      * intros k Hk. rewrite H5 by lia. apply set_nth_other. lia.
      * intros k Hk v Hv. destruct (Nat.eq_dec k j) as [->|]; [congruence|]. apply (H6 k); [lia|auto].
    + exists j, ret. splits; auto; try lia. intros v Hv. congruence.
  - exists j, ret. splits; auto; try lia.
    intros v Hv. assert (nth_error x j = None) by (apply nth_error_None; lia). congruence.
Qed.

(** ** The final fill *)
Lemma step_fill_done len count : forall fuel j ret,
  (j <= len)%nat -> (len - j < fuel)%nat -> length ret = len ->
  exists ret', step_fill fuel len count j ret = Done ret' /\ length ret' = len
    /\ (forall k, (j <= k < len)%nat -> nth_error ret' k = Some count)
    /\ (forall k, (k < j)%nat -> nth_error ret' k = nth_error ret k).
Proof.
  induction fuel as [|fuel IH]; intros j ret Hj Hf Hr; [lia|]. cbn [step_fill].
  destruct (Nat.ltb_spec j len) as [Hlt|Hge].
  - destruct (IH (S j) (set_nth ret j count)) as (ret' & H1 & H2 & H3 & H4);
      [lia|lia|now rewrite set_nth_length|].
    exists ret'. rewrite H1. splits; auto.
    + intros k Hk. destruct (Nat.eq_dec k j) as [->|]; [|apply H3; lia].
      rewrite H4 by lia. apply set_nth_same. lia.
    + intros k Hk. rewrite H4 by lia. apply set_nth_other. lia.
  - exists ret. splits; auto; try lia. 
Qed.

(** ** The main loop, no ordering assumed: termination and value range *)
Context {L : OrdLaws F N}.

Lemma step_main_done (eigs x : list F) :
  Forall NotNaN eigs -> Forall NotNaN x ->
  forall fuel i j count ret,
  (i <= length eigs)%nat -> (j <= length x)%nat ->
  (length eigs - i + 2 * (length x - j) < fuel)%nat -> length ret = length x ->
  count = Z.of_nat i -> (forall z, In z ret -> (0 <= z <= Z.of_nat (length eigs))%Z) ->
  exists i' j' ret', step_main fuel eigs x i j count ret = Done (j', Z.of_nat i', ret')
    /\ (i <= i' <= length eigs)%nat /\ (j <= j' <= length x)%nat /\ length ret' = length x
    /\ (j' = length x \/ i' = length eigs)
    /\ (forall z, In z ret' -> (0 <= z <= Z.of_nat (length eigs))%Z).
Proof.
  intros He Hx. induction fuel as [|fuel IH]; intros i j count ret Hi Hj Hf Hr Hc Hz; [lia|].
  cbn [step_main].
  destruct (Nat.ltb_spec j (length x)) as [Hjl|Hjl], (Nat.ltb_spec i (length eigs)) as [Hil|Hil];
    cbn [andb]; try (exists i, j, ret; subst count; splits; auto; try lia; fail).
  destruct (nth_error x j) as [xj|] eqn:Ex; [|apply nth_error_None in Ex; lia].
  destruct (nth_error eigs i) as [ei|] eqn:Ee; [|apply nth_error_None in Ee; lia].
  assert (Hxj : NotNaN xj) by (rewrite Forall_forall in Hx; apply Hx; eapply nth_error_In; eauto).
  assert (Hei : NotNaN ei) by (rewrite Forall_forall in He; apply He; eapply nth_error_In; eauto).
  unfold nge. destruct (nle ei xj) eqn:Ege.
  - destruct (IH (S i) j (count + 1)%Z ret) as (i' & j' & ret' & H1 & H2 & H3 & H4 & H5 & H6);
      auto; try lia.
    exists i', j', ret'. splits; auto; lia.
  - destruct (step_inner_done x ei count fuel j ret) as (j' & ret' & H1 & H2 & H3 & H4 & H5 & H6 & H7);
      auto; try lia.
    rewrite H1.
    assert (j < j')%nat.
    { destruct (Nat.eq_dec j j') as [<-|]; [|lia]. specialize (H7 _ Ex).
      apply nlt_false in H7; auto. unfold Le in H7. congruence. }
    destruct (IH i j' count ret') as (i2 & j2 & ret2 & K1 & K2 & K3 & K4 & K5 & K6); auto; try lia.
    { intros z Hin. apply In_nth_error in Hin as [k Hk].
      destruct (Nat.lt_ge_cases k j) as [|]; [rewrite H5 in Hk by lia; eauto using nth_error_In|].
      destruct (Nat.lt_ge_cases k j') as [|]; [rewrite H4 in Hk by lia; injection Hk as <-; lia|].
      rewrite H5 in Hk by lia; eauto using nth_error_In. }
    exists i2, j2, ret2. splits; auto; lia.
Qed.

Lemma step_terminates (eigs x : list F) :
  Forall NotNaN eigs -> Forall NotNaN x -> eigs <> [] -> x <> [] ->
  exists ret, step_function_fast eigs x = Done ret /\ length ret = length x
    /\ forall z, In z ret -> (0 <= z <= Z.of_nat (length eigs))%Z.
Proof.
  intros He Hx Hne Hnx. unfold step_function_fast, step_fast.
  assert (Hlx : (0 < length x)%nat) by (destruct x; cbn; [congruence|lia]).
  assert (Hle : (0 < length eigs)%nat) by (destruct eigs; cbn; [congruence|lia]).
  unfold last_opt, head_opt.
  destruct (nth_error x (length x - 1)) as [xl|] eqn:E1; [|apply nth_error_None in E1; lia].
  destruct (nth_error eigs 0) as [e0|] eqn:E2; [|apply nth_error_None in E2; lia].
  destruct (nth_error x 0) as [x0|] eqn:E3; [|apply nth_error_None in E3; lia].
  destruct (nth_error eigs (length eigs - 1)) as [el|] eqn:E4; [|apply nth_error_None in E4; lia].
  assert (Hrep : forall z, In z (repeat 0%Z (length x)) -> (0 <= z <= Z.of_nat (length eigs))%Z).
  { intros z Hz. apply repeat_spec in Hz. lia. }
  destruct (nle xl e0).
  { exists (repeat 0%Z (length x)). rewrite repeat_length. auto. }
  destruct (ngt x0 el).
  { eexists; split; [reflexivity|]. rewrite map_length, repeat_length. split; auto.
    intros z Hz. apply in_map_iff in Hz as (? & <- & _). lia. }
  destruct (step_skip_done x e0 (step_fuel eigs x) 0) as (j & H1 & H2 & H3 & H4);
    [lia|unfold step_fuel; lia|].
  rewrite H1.
  destruct (step_main_done eigs x He Hx (step_fuel eigs x) 0 j 0%Z (repeat 0%Z (length x)))
    as (i' & j' & ret' & K1 & K2 & K3 & K4 & K5 & K6); auto; try lia.
  { unfold step_fuel; lia. } { apply repeat_length. }
  rewrite K1.
  destruct (step_fill_done (length x) (Z.of_nat i') (step_fuel eigs x) j' ret')
    as (r & R1 & R2 & R3 & R4); auto; try lia. { unfold step_fuel; lia. }
  rewrite R1. exists r. splits; auto. intros z H.
  apply In_nth_error in H as [k Hk].
  destruct (Nat.lt_ge_cases k j'); [rewrite R4 in Hk by lia; eapply K6; eauto using nth_error_In|].
  assert (k < length x)%nat by (rewrite <- R2; apply nth_error_Some; congruence).
  rewrite R3 in Hk by lia. injection Hk as <-; lia.
Qed.

(** More fuel never changes a finished run, so the chosen fuel is immaterial. *)
Lemma step_skip_mono x (e0 : F) : forall f g j r, (f <= g)%nat ->
  step_skip f x e0 j = Done r -> step_skip g x e0 j = Done r.
Proof.
  induction f as [|f IH]; intros [|g] j r Hfg; cbn [step_skip step_inner step_main step_fill]; try discriminate; try lia.
  destruct (j <? length x); auto. destruct (nth_error x j); auto.
  destruct (nlt f0 e0); auto. apply IH. lia.
Qed.
Lemma step_inner_mono x (ei : F) c : forall f g j ret r, (f <= g)%nat ->
  step_inner f x ei c j ret = Done r -> step_inner g x ei c j ret = Done r.
Proof.
  induction f as [|f IH]; intros [|g] j ret r Hfg; cbn [step_skip step_inner step_main step_fill]; try discriminate; try lia.
  destruct (j <? length x); auto. destruct (nth_error x j); auto.
  destruct (nlt f0 ei); auto. apply IH. lia.
Qed.
Lemma step_main_mono (eigs x : list F) : forall f g i j c ret r, (f <= g)%nat ->
  step_main f eigs x i j c ret = Done r -> step_main g eigs x i j c ret = Done r.
Proof.
  induction f as [|f IH]; intros [|g] i j c ret r Hfg; cbn [step_skip step_inner step_main step_fill]; try discriminate; try lia.
  destruct ((j <? length x) && (i <? length eigs)); auto.
  destruct (nth_error x j) as [xj|]; auto. destruct (nth_error eigs i) as [ei|]; auto.
  destruct (nge xj ei); [apply IH; lia|].
  destruct (step_inner f x ei c j ret) as [[j' ret']| |] eqn:E; try discriminate.
  rewrite (step_inner_mono _ _ _ f g) with (r := (j', ret')) by (auto; lia). apply IH. lia.
Qed.
Lemma step_fill_mono n c : forall f g j ret r, (f <= g)%nat ->
  step_fill f n c j ret = Done r -> step_fill g n c j ret = Done r.
Proof.
  induction f as [|f IH]; intros [|g] j ret r Hfg; cbn [step_skip step_inner step_main step_fill]; try discriminate; try lia.
  destruct (j <? n); auto. apply IH. lia.
Qed.
Lemma step_fast_mono (eigs x : list F) f g r : (f <= g)%nat ->
  step_fast f eigs x = Done r -> step_fast g eigs x = Done r.
Proof.
  intro Hfg. unfold step_fast.
  destruct (last_opt x), (head_opt eigs), (head_opt x), (last_opt eigs); auto.
  destruct (nle f0 f1); auto. destruct (ngt f2 f3); auto.
  destruct (step_skip f x f1 0) as [j| |] eqn:E1; try discriminate.
  rewrite (step_skip_mono _ _ f g) with (r := j) by auto.
  destruct (step_main f eigs x 0 j 0 (repeat 0%Z (length x))) as [[[j' c] ret']| |] eqn:E2; try discriminate.
  rewrite (step_main_mono _ _ f g) with (r := (j', c, ret')) by auto.
  now apply step_fill_mono.
Qed.

(** ** Counting in a sorted array *)
Lemma CountLe_split (l : list F) (i : nat) x :
  (forall m v, (m < i)%nat -> nth_error l m = Some v -> Le v x) ->
  (forall m v, (i <= m)%nat -> nth_error l m = Some v -> nle v x = false) ->
  (i <= length l)%nat -> CountLe l x = Z.of_nat i.
Proof.
  revert i. induction l as [|a t IH]; intros i H1 H2 Hi.
  - cbn in Hi. replace i with 0%nat by lia. reflexivity.
  - cbn [CountLe]. destruct i as [|i].
    + rewrite (H2 0%nat a) by (auto; lia). rewrite (IH 0%nat); try lia.
      intros m v Hm Hv. apply (H2 (S m) v); [lia|exact Hv].
    + pose proof (H1 0%nat a ltac:(lia) eq_refl) as Ha. unfold Le in Ha. rewrite Ha.
      rewrite (IH i); cbn in Hi; try lia.
      * intros m v Hm Hv. apply (H1 (S m) v); [lia|exact Hv].
      * intros m v Hm Hv. apply (H2 (S m) v); [lia|exact Hv].
Qed.

Lemma nth_notnan (l : list F) k v : Forall NotNaN l -> nth_error l k = Some v -> NotNaN v.
Proof. intros H Hv. rewrite Forall_forall in H. eapply H, nth_error_In, Hv. Qed.

Lemma lt_le_false (v e e' : F) : NotNaN v -> NotNaN e -> nlt v e = true -> Le e e' -> nle e' v = false.
Proof.
  intros Hv He Hlt Hle. apply nlt_true in Hlt; auto.
  destruct (nle e' v) eqn:E; auto. unfold Le in *.
  rewrite (ol_trans _ _ _ Hle E) in Hlt. discriminate.
Qed.

Lemma ascending_nth_le (l : list F) i j x y : Forall NotNaN l ->
  Ascending l -> (i <= j)%nat -> nth_error l i = Some x -> nth_error l j = Some y -> Le x y.
Proof.
  intros Hn Hs Hij Hi Hj. destruct (Nat.eq_dec i j) as [->|].
  - assert (x = y) by congruence. subst. apply le_refl. eapply nth_notnan; eauto.
  - eapply (ascending_nth l i j); eauto; lia.
Qed.

(** ** The main loop on sorted inputs *)
Definition good (eigs x : list F) (j : nat) (ret : list Z) : Prop :=
  forall k v, (k < j)%nat -> nth_error x k = Some v -> nth_error ret k = Some (CountLe eigs v).

Lemma step_main_sorted (eigs x : list F) :
  Forall NotNaN eigs -> Forall NotNaN x -> Ascending eigs -> Ascending x ->
  forall fuel i j ret j' c' ret',
  (i <= length eigs)%nat -> (j <= length x)%nat ->
  (length eigs - i + 2 * (length x - j) < fuel)%nat -> length ret = length x ->
  good eigs x j ret ->
  (forall m k e v, (m < i)%nat -> (j <= k)%nat -> nth_error eigs m = Some e -> nth_error x k = Some v -> Le e v) ->
  step_main fuel eigs x i j (Z.of_nat i) ret = Done (j', c', ret') ->
  length ret' = length x /\ (j' <= length x)%nat /\ good eigs x j' ret'
  /\ (forall k v, (j' <= k)%nat -> nth_error x k = Some v -> CountLe eigs v = c').
Proof.
  intros He Hx Hse Hsx.
  induction fuel as [|fuel IH]; intros i j ret j' c' ret' Hi Hj Hf Hr Hg Hinv Hrun; [lia|].
  cbn [step_main] in Hrun.
  destruct (Nat.ltb_spec j (length x)) as [Hjl|Hjl]; cbn [andb] in Hrun.
  2:{ injection Hrun as <- <- <-. splits; auto; try lia.
      intros k v Hk Hv. assert (nth_error x k = None) by (apply nth_error_None; lia). congruence. }
  destruct (Nat.ltb_spec i (length eigs)) as [Hil|Hil].
  2:{ injection Hrun as <- <- <-. splits; auto; try lia.
      intros k v Hk Hv. apply CountLe_split; try lia.
      - intros m e Hm Hev. eapply Hinv; eauto.
      - intros m e Hm Hev. assert (nth_error eigs m = None) by (apply nth_error_None; lia). congruence. }
  destruct (nth_error x j) as [xj|] eqn:Ex; [|apply nth_error_None in Ex; lia].
  destruct (nth_error eigs i) as [ei|] eqn:Ee; [|apply nth_error_None in Ee; lia].
  assert (Hxj : NotNaN xj) by eauto using nth_notnan.
  assert (Hei : NotNaN ei) by eauto using nth_notnan.
  unfold nge in Hrun. destruct (nle ei xj) eqn:Ege.
  - replace (Z.of_nat i + 1)%Z with (Z.of_nat (S i)) in Hrun by lia.
    eapply IH; [..|exact Hrun]; auto; try lia.
    intros m k e v Hm Hk Hem Hvk. destruct (Nat.eq_dec m i) as [->|]; [|eapply Hinv; eauto; lia].
    assert (e = ei) by congruence. subst e. eapply le_trans; [exact Ege|].
    eapply (ascending_nth_le x j k); eauto.
  - destruct (step_inner_done x ei (Z.of_nat i) fuel j ret)
      as (j1 & ret1 & H1 & H2 & H3 & H4 & H5 & H6 & H7); auto; try lia.
    rewrite H1 in Hrun.
    assert (j < j1)%nat.
    { destruct (Nat.eq_dec j j1) as [<-|]; [|lia]. specialize (H7 _ Ex).
      apply nlt_false in H7; auto. unfold Le in H7. congruence. }
    eapply IH; [..|exact Hrun]; auto; try lia.
    + intros k v Hk Hv. destruct (Nat.lt_ge_cases k j).
      * rewrite H5 by lia. apply Hg; auto.
      * rewrite H4 by lia. f_equal. symmetry. apply CountLe_split; try lia.
        -- intros m e Hm Hev. eapply (Hinv m k); eauto.
        -- intros m e Hm Hev. eapply (lt_le_false v ei e); eauto using nth_notnan.
           eapply (ascending_nth_le eigs i m); eauto.
    + intros m k e v Hm Hk Hem Hvk. apply (Hinv m k e v); auto; lia.
Qed.

Lemma nth_error_map_repeat {A} (l : list A) (f : A -> Z) ret :
  length ret = length l ->
  (forall k v, nth_error l k = Some v -> nth_error ret k = Some (f v)) -> ret = map f l.
Proof.
  intros Hl H. apply nth_error_ext. intro k. rewrite nth_error_map.
  destruct (nth_error l k) as [v|] eqn:E; cbn; [now apply H|].
  apply nth_error_None. rewrite Hl. now apply nth_error_None.
Qed.

(** Complete behaviour on sorted, NaN-free, non-empty inputs. *)
Lemma step_fast_sorted (eigs x : list F) (e0 xl : F) :
  Forall NotNaN eigs -> Forall NotNaN x -> Ascending eigs -> Ascending x ->
  head_opt eigs = Some e0 -> last_opt x = Some xl ->
  step_function_fast eigs x =
    Done (if neq xl e0 then repeat 0%Z (length x) else map (CountLe eigs) x).
Proof.
  intros He Hx Hse Hsx He0 Hxl.
  assert (Hne : eigs <> []) by (intros ->; discriminate).
  assert (Hnx : x <> []) by (intros ->; discriminate).
  destruct (step_terminates eigs x He Hx Hne Hnx) as (ret & Hret & Hlen & _).
  rewrite Hret. f_equal.
  assert (NN0 : NotNaN e0) by (eapply nth_notnan; [exact He|exact He0]).
  assert (NNl : NotNaN xl) by (eapply nth_notnan; [exact Hx|exact Hxl]).
  rewrite ol_eq by auto.
  unfold step_function_fast, step_fast in Hret. rewrite Hxl, He0 in Hret.
  destruct (head_opt x) as [x0|] eqn:E3; [|destruct x; [congruence|discriminate]].
  destruct (last_opt eigs) as [el|] eqn:E4; [|discriminate].
  assert (NNx0 : NotNaN x0) by (eapply nth_notnan; [exact Hx|exact E3]).
  assert (NNel : NotNaN el) by (eapply nth_notnan; [exact He|exact E4]).
  destruct (nle xl e0) eqn:Elast.
  { injection Hret as <-. cbn. destruct (nle e0 xl) eqn:Eeq; auto.
    apply nth_error_map_repeat; [apply repeat_length|].
    intros k v Hv. assert (k < length x)%nat by (apply nth_error_Some; congruence).
    rewrite nth_error_repeat by auto. f_equal. symmetry. apply CountLe_none.
    rewrite Forall_forall. intros e Hin. apply In_nth_error in Hin as [m Hm].
    destruct (nle e v) eqn:Eev; auto. exfalso.
    assert (Le e0 e) by (apply (ascending_nth_le eigs 0 m); auto; lia).
    assert (Le v xl) by (apply (ascending_nth_le x k (length x - 1)); auto; lia).
    assert (Le e0 xl) by (eapply le_trans; [|eassumption]; eapply le_trans; eassumption).
    unfold Le in *. congruence. }
  cbn. unfold ngt in Hret. destruct (nlt el x0) eqn:Efirst.
  { injection Hret as <-.
    apply nth_error_map_repeat; [now rewrite map_length, repeat_length|].
    intros k v Hv. assert (k < length x)%nat by (apply nth_error_Some; congruence).
    rewrite nth_error_map, nth_error_repeat by auto. cbn. f_equal. symmetry. apply CountLe_all.
    rewrite Forall_forall. intros e Hin. apply In_nth_error in Hin as [m Hm].
    assert (m < length eigs)%nat by (apply nth_error_Some; congruence).
    assert (Le e el) by (apply (ascending_nth_le eigs m (length eigs - 1)); auto; lia).
    assert (Le x0 v) by (apply (ascending_nth_le x 0 k); auto; lia).
    apply nlt_true in Efirst; auto.
    assert (Le el x0) by now apply nle_false_flip.
    eapply le_trans; [|eassumption]. eapply le_trans; eassumption. }
  destruct (step_skip_done x e0 (step_fuel eigs x) 0) as (j & H1 & H2 & H3 & H4);
    [lia|unfold step_fuel; lia|].
  rewrite H1 in Hret.
  destruct (step_main (step_fuel eigs x) eigs x 0 j 0 (repeat 0%Z (length x)))
    as [[[j' c'] ret']| |] eqn:Em; try discriminate.
  change 0%Z with (Z.of_nat 0) in Em at 1.
  apply step_main_sorted in Em as (M1 & M2 & M3 & M4); auto; try lia.
  2:{ unfold step_fuel; lia. }
  2:{ apply repeat_length. }
  2:{ intros k v Hk Hv. rewrite nth_error_repeat by lia. f_equal. symmetry. apply CountLe_none.
      rewrite Forall_forall. intros e Hin. apply In_nth_error in Hin as [m Hm].
      eapply (lt_le_false v e0 e); eauto using nth_notnan.
      - apply (H3 k); auto; lia.
      - apply (ascending_nth_le eigs 0 m); auto; lia. }
  destruct (step_fill_done (length x) c' (step_fuel eigs x) j' ret')
    as (r & R1 & R2 & R3 & R4); auto; try lia. { unfold step_fuel; lia. }
  rewrite R1 in Hret. injection Hret as <-.
  apply nth_error_map_repeat; auto.
  intros k v Hv. assert (k < length x)%nat by (apply nth_error_Some; congruence).
  destruct (Nat.lt_ge_cases k j').
  - rewrite R4 by lia. now apply M3.
  - rewrite R3 by lia. f_equal. symmetry. now apply (M4 k).
Qed.

(** ** Divergence on NaN *)
Lemma step_skip_stop (x : list F) e0 p : forall fuel j r,
  nth_error x p = Some r -> isnan r = true -> (j <= p)%nat ->
  step_skip fuel x e0 j = Running \/ exists j', step_skip fuel x e0 j = Done j' /\ (j' <= p)%nat.
Proof.
  induction fuel as [|fuel IH]; intros j r Hp Hn Hj; [now left|]. cbn [step_skip].
  assert (p < length x)%nat by (apply nth_error_Some; congruence).
  destruct (Nat.ltb_spec j (length x)); [|lia].
  destruct (nth_error x j) as [xj|] eqn:E; [|apply nth_error_None in E; lia].
  destruct (nlt xj e0) eqn:El; [|right; eauto].
  apply (IH _ r); auto. destruct (Nat.eq_dec j p) as [->|]; [|lia].
  assert (xj = r) by congruence. subst.
  destruct (ol_nan r e0 (or_introl Hn)) as (_ & ? & _). congruence.
Qed.
Lemma step_inner_stop (x : list F) ei c p : forall fuel j ret r,
  nth_error x p = Some r -> isnan r = true -> (j <= p)%nat ->
  step_inner fuel x ei c j ret = Running \/
  exists j' ret', step_inner fuel x ei c j ret = Done (j', ret') /\ (j' <= p)%nat.
Proof.
  induction fuel as [|fuel IH]; intros j ret r Hp Hn Hj; [now left|]. cbn [step_inner].
  assert (p < length x)%nat by (apply nth_error_Some; congruence).
  destruct (Nat.ltb_spec j (length x)); [|lia].
  destruct (nth_error x j) as [xj|] eqn:E; [|apply nth_error_None in E; lia].
  destruct (nlt xj ei) eqn:El; [|right; eauto].
  apply (IH _ _ r); auto. destruct (Nat.eq_dec j p) as [->|]; [|lia].
  assert (xj = r) by congruence. subst.
  destruct (ol_nan r ei (or_introl Hn)) as (_ & ? & _). congruence.
Qed.
Lemma step_main_stuck (eigs x : list F) p q r eq' :
  nth_error x p = Some r -> isnan r = true -> nth_error eigs q = Some eq' ->
  (forall k v, (k <= p)%nat -> nth_error x k = Some v -> nle eq' v = false) ->
  forall fuel i j c ret, (i <= q)%nat -> (j <= p)%nat ->
  step_main fuel eigs x i j c ret = Running.
Proof.
  intros Hp Hn Hq Hk. induction fuel as [|fuel IH]; intros i j c ret Hi Hj; auto. cbn [step_main].
  assert (p < length x)%nat by (apply nth_error_Some; congruence).
  assert (q < length eigs)%nat by (apply nth_error_Some; congruence).
  destruct (Nat.ltb_spec j (length x)); [|lia]. destruct (Nat.ltb_spec i (length eigs)); [|lia].
  cbn [andb].
  destruct (nth_error x j) as [xj|] eqn:Ex; [|apply nth_error_None in Ex; lia].
  destruct (nth_error eigs i) as [ei|] eqn:Ee; [|apply nth_error_None in Ee; lia].
  unfold nge. destruct (nle ei xj) eqn:Ege.
  - apply IH; auto. destruct (Nat.eq_dec i q) as [->|]; [|lia].
    assert (ei = eq') by congruence. subst. rewrite (Hk j) in Ege; auto; congruence.
  - destruct (step_inner_stop x ei c p fuel j ret r Hp Hn Hj) as [->|(j' & ret' & -> & Hj')]; auto.
Qed.

(** If a grid point is NaN and some eigenvalue is not <= any grid point up to there, the loop
    never finishes (unless one of the two early returns fires first). *)
Lemma step_diverges (eigs x : list F) p q r eq' e0 xl x0 el :
  nth_error x p = Some r -> isnan r = true -> nth_error eigs q = Some eq' ->
  (forall k v, (k <= p)%nat -> nth_error x k = Some v -> nle eq' v = false) ->
  head_opt eigs = Some e0 -> last_opt x = Some xl -> nle xl e0 = false ->
  head_opt x = Some x0 -> last_opt eigs = Some el -> nlt el x0 = false ->
  forall fuel, step_fast fuel eigs x = Running.
Proof.
  intros Hp Hn Hq Hk H1 H2 H3 H4 H5 H6 fuel. unfold step_fast. rewrite H1, H2, H4, H5, H3.
  unfold ngt. rewrite H6.
  destruct (step_skip_stop x e0 p fuel 0 r Hp Hn) as [->|(j' & -> & Hj')]; [lia|auto|].
  rewrite (step_main_stuck eigs x p q r eq'); auto. lia.
Qed.

(** A sorted array containing a NaN ends in one. *)
Lemma sorted_nan_last (l : list F) : StronglySorted NpLe l ->
  Exists (fun v => isnan v = true) l -> exists v, last_opt l = Some v /\ isnan v = true.
Proof.
  intros Hs He. unfold last_opt. apply Exists_exists in He as (v & Hin & Hv).
  induction Hs as [|a t Hs IH Ha]; [destruct Hin|]. cbn [length].
  destruct t as [|b t'].
  - destruct Hin as [->|[]]. exists v; auto.
  - replace (S (length (b :: t')) - 1)%nat with (S (length (b :: t') - 1)) by (cbn; lia).
    cbn [nth_error]. destruct Hin as [->|Hin]; [|apply IH; auto].
    clear IH. destruct (nth_error (b :: t') (length (b :: t') - 1)) as [w|] eqn:E.
    + exists w; split; auto. apply nth_error_In in E. rewrite Forall_forall in Ha.
      specialize (Ha _ E). unfold NpLe in Ha.
      destruct (isnan w) eqn:Ew; auto. rewrite np_le_nan_l in Ha; auto.
    + apply nth_error_None in E. cbn in E. lia.
Qed.

Lemma steps_nan_diverges (l : list F) : StronglySorted NpLe l ->
  Exists (fun v => isnan v = true) l -> forall fuel, step_fast fuel l l = Running.
Proof.
  intros Hs He fuel. destruct (sorted_nan_last l Hs He) as (v & Hv & Hn).
  assert (exists e0, head_opt l = Some e0) as (e0 & He0).
  { destruct l; [inversion He|]. eexists; reflexivity. }
  eapply (step_diverges l l (length l - 1) (length l - 1) v v e0 v e0 v); eauto.
  - intros k w _ _. now destruct (ol_nan v w (or_introl Hn)).
  - now destruct (ol_nan v e0 (or_introl Hn)).
  - now destruct (ol_nan v e0 (or_introl Hn)).
Qed.
End Step.
