(** C60: make_parent_directories. *)
From Coq Require Import String List Bool Arith Lia.
From Verif Require Import S_Files M_Files P_Files.
Import ListNotations.
Local Open Scope string_scope.

(** After the call every required folder exists, nothing else was created, nothing was changed, and a second call does nothing. *)
Theorem C60_effect (cwd home : path) (t : tree) (is_abs : bool) (p : path) :
  let full := Located cwd is_abs p in
  WellFormed t -> (Ancestor home full -> t home = Some Dir) -> (forall q, Required home full q -> Unobstructed t q) ->
  exists t', make_parent_directories cwd home t is_abs p = inl t' /\ WellFormed t' /\
    (forall q, Required home full q -> t' q <> None) /\
    (forall q, t q = None -> t' q <> None -> Required home full q /\ t' q = Some Dir) /\
    (forall q k, t q = Some k -> t' q = Some k) /\
    make_parent_directories cwd home t' is_abs p = inl t'.
Proof.
  intros full Hwf Hhome Hun. unfold make_parent_directories. change (absolute cwd is_abs p) with full.
  set (ps := rev (until_home home (parents full))).
  assert (Hin : forall q, In q ps <-> Required home full q) by (intro q; unfold ps; rewrite <- in_rev; apply until_home_in).
  destruct (make_all_ok t ps Hwf) as (t' & E & W & [F1 F2]); [intros q Hq; apply Hun, Hin, Hq|].
  assert (Hall : forall q, Required home full q -> t' q <> None).
  { intros q Hq. destruct (t q) as [k|] eqn:Eq; [rewrite (F1 _ _ Eq); discriminate|].
    destruct (F2 q Eq) as [[H _] | [_ H]]; [congruence|]. exfalso. apply H. exists q. split; [now apply Hin | apply within_refl]. }
  exists t'. split; [exact E|]. split; [exact W|]. split; [exact Hall|]. split.
  - intros q Hn Hs. destruct (F2 q Hn) as [[H1 (r & Hr & Hw)] | [H1 _]]; [|congruence]. split; [|exact H1].
    apply Hin in Hr. destruct Hr as [Ha Hb]. split.
    + apply within_ancestor in Hw. destruct Hw as [-> | Hw]; [exact Ha|]. apply (ancestor_within_trans q r full Hw). apply within_ancestor. now right.
    + intro Hh. specialize (Hb Hh). specialize (Hhome Hh).
      destruct (within_linear q home r Hw) as [H | H]; [apply within_ancestor; now right| |exact H].
      exfalso. apply within_ancestor in H. destruct H as [-> | H]; [congruence|].
      rewrite (wf_within t home q Hwf) in Hn; [discriminate | congruence | exact H].
  - split; [exact F1|]. apply make_all_id. intros q Hq. apply Hall, Hin, Hq.
Qed.
Print Assumptions C60_effect.

(** The call fails exactly when a regular file stands above a required folder. *)
Theorem C60_failure (cwd home : path) (t : tree) (is_abs : bool) (p : path) :
  let full := Located cwd is_abs p in
  WellFormed t ->
  (exists q f, Required home full q /\ Ancestor f q /\ t f = Some File) <-> (exists e, make_parent_directories cwd home t is_abs p = inr e).
Proof.
  intros full Hwf. unfold make_parent_directories. change (absolute cwd is_abs p) with full. set (ps := rev (until_home home (parents full))).
  assert (Hin : forall q, In q ps <-> Required home full q) by (intro q; unfold ps; rewrite <- in_rev; apply until_home_in).
  split.
  - intros (q & f & Hq & Hf & Ef). exists NotADirectory. apply make_all_fail; [exact Hwf|]. exists q. split; [now apply Hin|].
    intro H. now apply (H f Hf).
  - intros [e He].
    assert (D : Exists (fun q => Exists (fun f => t f = Some File) (parents q)) ps \/ ~ Exists (fun q => Exists (fun f => t f = Some File) (parents q)) ps).
    { assert (X : forall q, {Exists (fun f => t f = Some File) (parents q)} + {~ Exists (fun f => t f = Some File) (parents q)}).
      { intro q. apply Exists_dec. intro f. destruct (t f) as [[|]|]; [right; discriminate | now left | right; discriminate]. }
      destruct (Exists_dec _ ps X); tauto. }
    destruct D as [D | D].
    + apply Exists_exists in D. destruct D as (q & Hq & D). apply Exists_exists in D. destruct D as (f & Hf & Ef).
      exists q, f. split; [now apply Hin|]. split; [now apply parents_in | exact Ef].
    + exfalso. destruct (make_all_ok t ps Hwf) as (t' & E & _); [|congruence]. intros q Hq f Hf Ef. apply D. apply Exists_exists. exists q.
      split; [exact Hq|]. apply Exists_exists. exists f. split; [now apply parents_in | exact Ef].
Qed.
Print Assumptions C60_failure.

(** A small disk: / and /home and /home/u and the file /home/u/notes; plus optionally more. *)
Definition disk (home_exists : bool) : tree := fun p =>
  match p with
  | [] => Some Dir
  | ["home"] => Some Dir
  | ["u"; "home"] => if home_exists then Some Dir else None
  | ["notes"; "u"; "home"] => if home_exists then Some File else None
  | _ => None
  end.
Lemma disk_wf b : WellFormed (disk b).
Proof.
  split; [reflexivity|]. intros x p H.
  assert (D : forall q, disk b q <> None -> In q [[]; ["home"]; ["u"; "home"]; ["notes"; "u"; "home"]]).
  { intros q Hq. destruct (in_dec (list_eq_dec string_dec) q [[]; ["home"]; ["u"; "home"]; ["notes"; "u"; "home"]]) as [i | n]; [exact i|].
    exfalso. apply Hq. unfold disk.
    repeat match goal with |- context [match ?y with _ => _ end] => is_var y; destruct y; try reflexivity; try (exfalso; apply n; cbn; tauto) end. }
  specialize (D _ H). cbn [In] in D. destruct D as [D | [D | [D | [D | []]]]]; [discriminate| | |]; injection D as <- <-; try reflexivity.
  destruct b; [reflexivity | now cbn in H].
Qed.

(** Saving to the relative path out/figs/a.png from the home directory. *)
Example C60_effect_example :
  exists t', make_parent_directories ["u"; "home"] ["u"; "home"] (disk true) false ["a.png"; "figs"; "out"] = inl t' /\
    t' ["out"; "u"; "home"] = Some Dir /\ t' ["figs"; "out"; "u"; "home"] = Some Dir /\ t' ["a.png"; "figs"; "out"; "u"; "home"] = None.
Proof. eexists. split; [reflexivity|]. split; [reflexivity|]. split; reflexivity. Qed.
Example C60_effect_hypotheses : let full := Located ["u"; "home"] false ["a.png"; "figs"; "out"] in
  WellFormed (disk true) /\ (Ancestor ["u"; "home"] full -> disk true ["u"; "home"] = Some Dir) /\
  (forall q, Required ["u"; "home"] full q -> Unobstructed (disk true) q).
Proof.
  split; [apply disk_wf|]. split; [reflexivity|]. intros q Hq f Hf. apply until_home_in in Hq. cbn in Hq.
  destruct Hq as [<- | [<- | []]]; apply parents_in in Hf; cbn in Hf; repeat (destruct Hf as [<- | Hf]; [discriminate|]); destruct Hf.
Qed.
(** A figure below the regular file /home/u/notes cannot be saved; the file itself in place of the last folder is not noticed. *)
Example C60_failure_example :
  make_parent_directories [] ["u"; "home"] (disk true) true ["a.png"; "figs"; "notes"; "u"; "home"] = inr NotADirectory /\
  make_parent_directories [] ["u"; "home"] (disk true) true ["a.png"; "notes"; "u"; "home"] = inl (disk true).
Proof. split; reflexivity. Qed.

(** If the home directory is missing, it is created too although it is not strictly below itself. *)
Theorem C60_missing_home_refuted :
  ~ (forall (cwd home : path) (t t' : tree) (is_abs : bool) (p : path), WellFormed t ->
       make_parent_directories cwd home t is_abs p = inl t' ->
       forall q, t q = None -> t' q <> None -> Required home (Located cwd is_abs p) q).
Proof.
  intro H.
  destruct (make_parent_directories [] ["u"; "home"] (disk false) true ["a.png"; "figs"; "u"; "home"]) as [t'|e] eqn:E; [|discriminate].
  specialize (H [] ["u"; "home"] (disk false) t' true ["a.png"; "figs"; "u"; "home"] (disk_wf false) E ["u"; "home"] eq_refl).
  injection E as <-. destruct H as [_ H]; [discriminate|].
  assert (A : Ancestor ["u"; "home"] ["a.png"; "figs"; "u"; "home"]) by (exists "a.png", ["figs"]; reflexivity).
  specialize (H A). apply ancestor_length in H. lia.
Qed.
Print Assumptions C60_missing_home_refuted.
