(** Proofs about the directory helpers. *)
From Coq Require Import String List Bool Arith Lia.
From Verif Require Import S_Files M_Files.
Import ListNotations.

Lemma path_eqb_true p q : path_eqb p q = true <-> p = q.
Proof. unfold path_eqb. destruct (list_eq_dec string_dec p q); split; congruence. Qed.
Lemma path_eqb_false p q : path_eqb p q = false <-> p <> q.
Proof. unfold path_eqb. destruct (list_eq_dec string_dec p q); split; congruence. Qed.
Lemma put_same t p : put t p p = Some Dir.
Proof. unfold put. rewrite (proj2 (path_eqb_true p p) eq_refl). reflexivity. Qed.
Lemma put_other t p q : q <> p -> put t p q = t q.
Proof. intro H. unfold put. rewrite (proj2 (path_eqb_false q p) H). reflexivity. Qed.

Lemma within_refl p : Within p p.
Proof. now exists []. Qed.
Lemma within_cons q x p : Within q (x :: p) <-> q = x :: p \/ Within q p.
Proof.
  split.
  - intros [[|y pre] E]; cbn in E; [left; congruence|]. injection E as E1 E2. right. now exists pre.
  - intros [E | [pre E]]; [exists []; cbn; congruence|]. exists (x :: pre). cbn. congruence.
Qed.
Lemma ancestor_cons q x p : Ancestor q (x :: p) <-> Within q p.
Proof.
  split.
  - intros (y & pre & E). injection E as E1 E2. now exists pre.
  - intros [pre E]. exists x, pre. congruence.
Qed.
Lemma ancestor_nil q : ~ Ancestor q [].
Proof. intros (x & pre & E). discriminate. Qed.
Lemma ancestor_length q p : Ancestor q p -> (List.length q < List.length p)%nat.
Proof. intros (x & pre & ->). cbn. rewrite app_length. lia. Qed.
Lemma within_ancestor q p : Within q p <-> q = p \/ Ancestor q p.
Proof.
  destruct p as [|x p].
  - split; [intros [pre E]; symmetry in E; apply app_eq_nil in E; left; tauto | intros [-> | H]; [apply within_refl | now apply ancestor_nil in H]].
  - rewrite within_cons, ancestor_cons. reflexivity.
Qed.
Lemma within_trans a b c : Within a b -> Within b c -> Within a c.
Proof. intros [p ->] [q ->]. exists (q ++ p). now rewrite app_assoc. Qed.
Lemma ancestor_within_trans a b c : Ancestor a b -> Within b c -> Ancestor a c.
Proof.
  intros (x & p & ->) [[|y q] ->]; [now exists x, p|]. exists y, (q ++ x :: p). cbn. now rewrite <- app_assoc.
Qed.
Lemma within_linear a b c : Within a c -> Within b c -> Within a b \/ Ancestor b a.
Proof.
  induction c as [|x c IH].
  - intros [p1 E1] [p2 E2]. symmetry in E1, E2. apply app_eq_nil in E1, E2. destruct E1 as [_ ->], E2 as [_ ->]. left. apply within_refl.
  - intros Ha Hb. apply within_cons in Ha. apply within_cons in Hb. destruct Ha as [-> | Ha], Hb as [-> | Hb].
    + left. apply within_refl.
    + right. now apply ancestor_cons.
    + left. apply within_cons. now right.
    + now apply IH.
Qed.

Section Tree.
Implicit Types t : tree.

Lemma wf_within t p q : WellFormed t -> t p <> None -> Ancestor q p -> t q = Some Dir.
Proof.
  intros [Hr Hp]. induction p as [|x p IH]; intros Hx Ha; [now apply ancestor_nil in Ha|].
  apply ancestor_cons in Ha. apply within_ancestor in Ha. destruct Ha as [-> | Ha]; [now apply (Hp x)|].
  apply IH; [|exact Ha]. rewrite (Hp x p Hx). discriminate.
Qed.

(** [t'] is [t] with directories added at the missing places described by [S]. *)
Definition Filled (S : path -> Prop) t t' : Prop :=
  (forall q k, t q = Some k -> t' q = Some k) /\
  (forall q, t q = None -> (t' q = Some Dir /\ S q) \/ (t' q = None /\ ~ S q)).

Lemma exists_true t p : exists_ t p = true <-> t p <> None.
Proof. unfold exists_. destruct (t p); split; congruence. Qed.
Lemma exists_false t p : exists_ t p = false <-> t p = None.
Proof. unfold exists_. destruct (t p); split; congruence. Qed.

Lemma put_wf t x p : WellFormed t -> t p = Some Dir -> WellFormed (put t (x :: p)).
Proof.
  intros [Hr Hp] Hd. split; [rewrite put_other by discriminate; exact Hr|]. intros y q Hq.
  destruct (list_eq_dec string_dec (y :: q) (x :: p)) as [E | E].
  - injection E as E1 E2. subst. rewrite put_other; [exact Hd|]. intro E. apply (f_equal (@List.length _)) in E. cbn in E. lia.
  - rewrite put_other in Hq by exact E. specialize (Hp y q Hq).
    destruct (list_eq_dec string_dec q (x :: p)) as [-> | E2]; [apply put_same | now rewrite put_other].
Qed.

Lemma makedirs_ok t p : WellFormed t -> Unobstructed t p -> t p = None ->
  exists t', makedirs t p = inl t' /\ WellFormed t' /\ Filled (fun q => Within q p) t t'.
Proof.
  intros Hwf. induction p as [|x p IH]; intros Hun Hn; [destruct Hwf as [Hr _]; congruence|].
  assert (Hgo : forall t1, WellFormed t1 -> t1 (x :: p) = None -> t1 p = Some Dir -> mkdir t1 (x :: p) = inl (put t1 (x :: p))).
  { intros t1 _ H1 H2. unfold mkdir. rewrite (proj2 (exists_false _ _) H1), H2. reflexivity. }
  cbn [makedirs]. destruct (exists_ t p) eqn:Ex.
  - assert (Hd : t p = Some Dir).
    { apply exists_true in Ex. destruct (t p) as [[|]|] eqn:E; [reflexivity| |congruence].
      exfalso. apply (Hun p); [apply ancestor_cons, within_refl | exact E]. }
    rewrite (Hgo t Hwf Hn Hd). eexists. split; [reflexivity|]. split; [now apply put_wf|].
    split.
    + intros q k Hq. rewrite put_other; [exact Hq | congruence].
    + intros q Hq. destruct (list_eq_dec string_dec q (x :: p)) as [-> | E].
      * left. split; [apply put_same | apply within_refl].
      * right. rewrite put_other by exact E. split; [exact Hq|]. intro Hw. apply within_cons in Hw. destruct Hw as [Hw | Hw]; [congruence|].
        apply within_ancestor in Hw. destruct Hw as [-> | Hw]; [congruence|]. rewrite (wf_within t p q Hwf) in Hq; [discriminate| congruence | exact Hw].
  - apply exists_false in Ex. destruct IH as (t1 & E1 & W1 & [F1 F2]); [|exact Ex|].
    { intros f Hf. apply Hun. apply ancestor_cons, within_ancestor. now right. }
    rewrite E1. assert (D1 : t1 p = Some Dir).
    { destruct (F2 p Ex) as [[H _] | [_ H]]; [exact H | exfalso; apply H, within_refl]. }
    assert (N1 : t1 (x :: p) = None).
    { destruct (F2 _ Hn) as [[_ H] | [H _]]; [|exact H]. exfalso. destruct H as [pre H]. apply (f_equal (@List.length _)) in H.
      rewrite app_length in H. cbn in H. lia. }
    rewrite (Hgo t1 W1 N1 D1). eexists. split; [reflexivity|]. split; [now apply put_wf|]. split.
    + intros q k Hq. rewrite put_other by congruence. now apply F1.
    + intros q Hq. destruct (list_eq_dec string_dec q (x :: p)) as [-> | E].
      * left. split; [apply put_same | apply within_refl].
      * rewrite put_other by exact E. destruct (F2 q Hq) as [[H1 H2] | [H1 H2]]; [left | right]; (split; [exact H1|]).
        -- apply within_cons. now right.
        -- intro Hw. apply within_cons in Hw. destruct Hw as [Hw | Hw]; [congruence | now apply H2].
Qed.

Lemma makedirs_fail t p : WellFormed t -> ~ Unobstructed t p -> t p = None -> makedirs t p = inr NotADirectory.
Proof.
  intros Hwf. induction p as [|x p IH]; intros Hun Hn; [destruct Hwf as [Hr _]; congruence|].
  cbn [makedirs]. destruct (t p) as [[|]|] eqn:E.
  - exfalso. apply Hun. intros f Hf. apply ancestor_cons, within_ancestor in Hf. destruct Hf as [-> | Hf]; [congruence|].
    rewrite (wf_within t p f Hwf); [discriminate | congruence | exact Hf].
  - unfold exists_. rewrite E. unfold mkdir, exists_. rewrite Hn, E. reflexivity.
  - rewrite (proj2 (exists_false _ _) E). rewrite IH; [reflexivity| |reflexivity]. intro Hu. apply Hun. intros f Hf.
    apply ancestor_cons, within_ancestor in Hf. destruct Hf as [-> | Hf]; [congruence | now apply Hu].
Qed.

Lemma filled_unobstructed S t t' p : Filled S t t' -> Unobstructed t p <-> Unobstructed t' p.
Proof.
  intros [F1 F2]. split; intros H f Hf E; apply (H f Hf).
  - destruct (t f) as [k|] eqn:Ef; [rewrite (F1 _ _ Ef) in E; exact E|]. destruct (F2 f Ef) as [[H1 _] | [H1 _]]; congruence.
  - now apply F1.
Qed.

Lemma make_directory_ok t p : WellFormed t -> Unobstructed t p ->
  exists t', make_directory t p = inl t' /\ WellFormed t' /\ Filled (fun q => Within q p) t t'.
Proof.
  intros Hwf Hun. unfold make_directory. destruct (exists_ t p) eqn:E.
  - apply exists_true in E. exists t. split; [reflexivity|]. split; [exact Hwf|]. split; [tauto|]. intros q Hq. right. split; [exact Hq|].
    intro Hw. apply within_ancestor in Hw. destruct Hw as [-> | Hw]; [congruence|]. rewrite (wf_within t p q Hwf E Hw) in Hq. discriminate.
  - apply exists_false in E. now apply makedirs_ok.
Qed.

Lemma make_directory_fail t p : WellFormed t -> ~ Unobstructed t p -> make_directory t p = inr NotADirectory.
Proof.
  intros Hwf Hun. unfold make_directory. destruct (exists_ t p) eqn:E.
  - apply exists_true in E. exfalso. apply Hun. intros f Hf. rewrite (wf_within t p f Hwf E Hf). discriminate.
  - apply exists_false in E. now apply makedirs_fail.
Qed.

Lemma make_all_ok t ps : WellFormed t -> (forall p, In p ps -> Unobstructed t p) ->
  exists t', make_all t ps = inl t' /\ WellFormed t' /\ Filled (fun q => exists p, In p ps /\ Within q p) t t'.
Proof.
  revert t. induction ps as [|p ps IH]; intros t Hwf Hun.
  - exists t. split; [reflexivity|]. split; [exact Hwf|]. split; [tauto|]. intros q Hq. right. split; [exact Hq|]. now intros (p & [] & _).
  - destruct (make_directory_ok t p Hwf) as (t1 & E1 & W1 & HF); [apply Hun; now left|].
    destruct (IH t1 W1) as (t2 & E2 & W2 & [G1 G2]).
    { intros r Hr. apply (filled_unobstructed _ t t1 r HF). apply Hun. now right. }
    destruct HF as [F1 F2].
    exists t2. cbn [make_all]. rewrite E1. split; [exact E2|]. split; [exact W2|]. split.
    + intros q k Hq. apply G1, F1, Hq.
    + intros q Hq. destruct (F2 q Hq) as [[H1 H2] | [H1 H2]].
      * left. split; [now apply G1|]. exists p. split; [now left | exact H2].
      * destruct (G2 q H1) as [[H3 (r & Hr & Hw)] | [H3 H4]]; [left | right]; (split; [exact H3|]).
        -- exists r. split; [now right | exact Hw].
        -- intros (r & [-> | Hr] & Hw); [now apply H2 | apply H4; now exists r].
Qed.

Lemma make_all_fail t ps : WellFormed t -> (exists p, In p ps /\ ~ Unobstructed t p) -> make_all t ps = inr NotADirectory.
Proof.
  revert t. induction ps as [|p ps IH]; intros t Hwf (r & Hr & Hn); [destruct Hr|]. cbn [make_all].
  assert (D : Unobstructed t p \/ ~ Unobstructed t p).
  { clear. induction p as [|x p IH].
    - left. intros f Hf. now apply ancestor_nil in Hf.
    - destruct IH as [IH | IH].
      + destruct (t p) as [[|]|] eqn:E.
        * left. intros f Hf. apply ancestor_cons, within_ancestor in Hf. destruct Hf as [-> | Hf]; [congruence | now apply IH].
        * right. intro H. apply (H p); [apply ancestor_cons, within_refl | exact E].
        * left. intros f Hf. apply ancestor_cons, within_ancestor in Hf. destruct Hf as [-> | Hf]; [congruence | now apply IH].
      + right. intro H. apply IH. intros f Hf. apply H. apply ancestor_cons, within_ancestor. now right. }
  destruct D as [D | D].
  - destruct (make_directory_ok t p Hwf D) as (t1 & E1 & W1 & HF). rewrite E1. apply IH; [exact W1|]. exists r.
    split; [destruct Hr as [-> | Hr]; [contradiction | exact Hr]|]. intro H. apply Hn. now apply (filled_unobstructed _ t t1 r HF).
  - now rewrite (make_directory_fail t p Hwf D).
Qed.

Lemma make_all_id t ps : (forall p, In p ps -> t p <> None) -> make_all t ps = inl t.
Proof.
  induction ps as [|p ps IH]; intro H; [reflexivity|]. cbn [make_all]. unfold make_directory.
  rewrite (proj2 (exists_true t p)) by (apply H; now left). apply IH. intros q Hq. apply H. now right.
Qed.

Lemma parents_in q p : In q (parents p) <-> Ancestor q p.
Proof.
  induction p as [|x p IH]; [split; [intros [] | intro H; now apply ancestor_nil in H]|]. cbn [parents In].
  rewrite ancestor_cons, within_ancestor, IH. split; intros [H | H]; auto.
Qed.

Lemma until_home_in home p q : In q (until_home home (parents p)) <-> Required home p q.
Proof.
  induction p as [|x p IH].
  - split; [intros [] | intros [H _]; now apply ancestor_nil in H].
  - cbn [parents until_home]. destruct (path_eqb p home) eqn:E.
    + apply path_eqb_true in E. subst p. cbn [negb]. split; [intros []|]. intros [H1 H2].
      assert (H3 : Ancestor home q) by (apply H2, ancestor_cons, within_refl). apply ancestor_cons in H1.
      destruct H1 as [pre H1]. apply ancestor_length in H3. rewrite H1, app_length in H3. lia.
    + apply path_eqb_false in E. cbn [negb In]. rewrite IH. unfold Required. rewrite !ancestor_cons. split.
      * intros [<- | [H1 H2]].
        -- split; [apply within_refl|]. intro H. apply within_ancestor in H. destruct H as [H | H]; [congruence | exact H].
        -- split; [apply within_ancestor; now right|]. intro H. apply within_ancestor in H. destruct H as [H | H]; [congruence | now apply H2].
      * intros [H1 H2]. apply within_ancestor in H1. destruct H1 as [H1 | H1]; [left; congruence | right]. split; [exact H1|].
        intro H. apply H2, within_ancestor. now right.
Qed.
End Tree.
