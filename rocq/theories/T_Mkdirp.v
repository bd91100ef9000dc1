(** C116: mkdirp, and make_directory compared with it. *)
From Coq Require Import String List Bool Arith Lia.
From Verif Require Import S_Files M_Files P_Files M_Mkdirp T_Files.
Import ListNotations.
Local Open Scope string_scope.

Lemma mkdirp_dir t p : WellFormed t -> t p = Some Dir -> mkdirp t p = inl t.
Proof.
  intros Hwf Hd. assert (mkdir_exist_ok t p = inl t) as H.
  { unfold mkdir_exist_ok, mkdir, exists_, isdir. rewrite Hd. reflexivity. }
  unfold mkdirp. destruct p as [|x p]; [exact H|]. cbn. destruct Hwf as [_ Hp]. unfold exists_. rewrite (Hp x p) by congruence. exact H.
Qed.
Lemma mkdirp_file t p : WellFormed t -> t p = Some File -> mkdirp t p = inr FileExists.
Proof.
  intros Hwf Hd. assert (mkdir_exist_ok t p = inr FileExists) as H.
  { unfold mkdir_exist_ok, mkdir, exists_, isdir. rewrite Hd. reflexivity. }
  unfold mkdirp. destruct p as [|x p]; [exact H|]. cbn. destruct Hwf as [_ Hp]. unfold exists_. rewrite (Hp x p) by congruence. exact H.
Qed.
Lemma mkdir_exist_ok_new t p : t p = None -> mkdir_exist_ok t p = mkdir t p.
Proof. intro H. unfold mkdir_exist_ok, isdir. rewrite H. destruct (mkdir t p); reflexivity. Qed.
Lemma mkdirp_new t p : WellFormed t -> t p = None -> mkdirp t p = makedirs t p.
Proof.
  intros Hwf. unfold mkdirp. induction p as [|x p IH]; intro Hn; cbn.
  - apply mkdir_exist_ok_new, Hn.
  - destruct (exists_ t p) eqn:E; [apply mkdir_exist_ok_new, Hn|]. apply exists_false in E. rewrite (IH E). destruct (makedirs t p) as [t1|[]] eqn:E1; try reflexivity.
    + apply mkdir_exist_ok_new. assert (U : Unobstructed t p).
      { intros f Hf Ef. rewrite (makedirs_fail t p Hwf) in E1; [discriminate| |exact E]. intro U. apply (U f Hf Ef). }
      destruct (makedirs_ok t p Hwf U E) as (t2 & E2 & _ & [_ F2]). assert (t2 = t1) as -> by congruence. destruct (F2 _ Hn) as [[_ H]|[H _]]; [|exact H].
      exfalso. destruct H as [pre H]. apply (f_equal (@List.length _)) in H. rewrite app_length in H. cbn in H. lia.
    + apply mkdir_exist_ok_new, Hn.
Qed.

(** C116: a directory stands at the path afterwards, everything that existed is as it was, only the path and its ancestors were added, and a
    second call does nothing; it fails exactly when a regular file stands at the path (FileExistsError) or above it (NotADirectoryError). *)
Theorem C116_mkdirp : forall (t : tree) (p : path), WellFormed t ->
  (Unobstructed t p -> t p <> Some File ->
     exists t', mkdirp t p = inl t' /\ WellFormed t' /\ t' p = Some Dir /\ (forall q k, t q = Some k -> t' q = Some k) /\
       (forall q, t q = None -> t' q <> None -> t' q = Some Dir /\ Within q p) /\ mkdirp t' p = inl t') /\
  (t p = Some File -> mkdirp t p = inr FileExists) /\
  (forall f, Ancestor f p -> t f = Some File -> mkdirp t p = inr NotADirectory).
Proof.
  intros t p Hwf. split; [|split].
  - intros U Nf. destruct (t p) as [[|]|] eqn:E; [|congruence|].
    + exists t. rewrite (mkdirp_dir t p Hwf E). split; [reflexivity|]. split; [exact Hwf|]. split; [exact E|]. split; [auto|]. split; [congruence|reflexivity].
    + rewrite (mkdirp_new t p Hwf E). destruct (makedirs_ok t p Hwf U E) as (t' & E' & W & [F1 F2]). exists t'.
      assert (t' p = Some Dir) as D by (destruct (F2 p E) as [[H _]|[_ H]]; [exact H|exfalso; apply H, within_refl]).
      split; [exact E'|]. split; [exact W|]. split; [exact D|]. split; [exact F1|]. split; [|apply mkdirp_dir; assumption].
      intros q Hq Hq'. destruct (F2 q Hq) as [H|[H _]]; [exact H|congruence].
  - apply mkdirp_file, Hwf.
  - intros f Hf Ef. destruct (t p) as [k|] eqn:E.
    + exfalso. rewrite (wf_within t p f Hwf) in Ef; [discriminate|congruence|exact Hf].
    + rewrite (mkdirp_new t p Hwf E). apply makedirs_fail; [exact Hwf| |exact E]. intro U. apply (U f Hf Ef).
Qed.
Print Assumptions C116_mkdirp.

(** make_directory does the same unless a regular file stands at the path; then it reports success and there is still no directory. *)
Theorem C116_make_directory_refuted : forall (t : tree) (p : path), WellFormed t ->
  (make_directory t p = mkdirp t p <-> t p <> Some File) /\
  (t p = Some File -> make_directory t p = inl t /\ t p <> Some Dir).
Proof.
  intros t p Hwf. assert (t p = Some File -> make_directory t p = inl t) as HF by (intro E; unfold make_directory, exists_; rewrite E; reflexivity).
  split; [split|].
  - intros E Ef. rewrite (HF Ef), (mkdirp_file t p Hwf Ef) in E. discriminate.
  - intro Nf. unfold make_directory, exists_. destruct (t p) as [[|]|] eqn:E; [symmetry; apply mkdirp_dir; assumption|congruence|symmetry; apply mkdirp_new; assumption].
  - intro Ef. split; [apply HF, Ef|congruence].
Qed.
Print Assumptions C116_make_directory_refuted.

Example C116_case : (exists t', mkdirp (disk true) ["figs"; "out"; "u"; "home"] = inl t' /\ t' ["out"; "u"; "home"] = Some Dir /\ t' ["figs"; "out"; "u"; "home"] = Some Dir) /\
  mkdirp (disk true) ["u"; "home"] = inl (disk true) /\
  mkdirp (disk true) ["notes"; "u"; "home"] = inr FileExists /\ make_directory (disk true) ["notes"; "u"; "home"] = inl (disk true) /\
  mkdirp (disk true) ["x"; "notes"; "u"; "home"] = inr NotADirectory.
Proof. split; [eexists; split; [reflexivity|split; reflexivity]|]. repeat split. Qed.
