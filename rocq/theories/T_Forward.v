(** Property C120: the spacing plot methods of Unfolded forward their options. *)
From Coq Require Import String List ZArith Bool Arith Lia.
From Verif Require Import Base S_Call M_Call M_Forward P_Step T_Call.
Import ListNotations.
Local Open Scope string_scope.
Local Notation length := List.length.

Section Bind.
Context {V : Type}.
Lemma passed_none (l : list (string * V)) k : ~ In k (map fst l) <-> Passed l k = None.
Proof.
  induction l as [|[q w] l IH]; cbn [map fst In Passed]; [tauto|]. destruct (string_dec q k) as [->|Hn]; [split; [tauto|discriminate]|].
  rewrite <- IH. tauto.
Qed.
Lemma fill_positional_held names : forall pos : list V, NoDup names ->
  fill_positional (optional names) pos =
    if Nat.leb (length pos) (length names) then Ok (held (Passed (combine names pos)) names) else Raise TypeError.
Proof.
  induction names as [|n names IH]; intros pos Hd.
  - destruct pos; reflexivity.
  - inversion_clear Hd as [|? ? Hn Hd']. cbn [optional map]. fold (optional names). destruct pos as [|v pos]; cbn [fill_positional length].
    + rewrite IH by exact Hd'. cbn [length Nat.leb bind combine]. destruct names; reflexivity.
    + rewrite IH by exact Hd'. cbn [Nat.leb]. destruct (Nat.leb (length pos) (length names)); [|reflexivity]. cbn [bind combine held map Passed].
      destruct (string_dec n n); [|congruence]. do 2 f_equal. apply map_ext_in. intros p Hp. f_equal. destruct (string_dec n p) as [->|]; [contradiction|reflexivity].
Qed.
Lemma combine_names (names : list string) (pos : list V) : map fst (combine names pos) = firstn (length pos) names.
Proof. revert pos. induction names as [|n names IH]; intros [|v pos]; cbn; [reflexivity..|]. now rewrite IH. Qed.
Lemma nodup_split (names : list string) k x : NoDup names -> In x names -> ~ In x (firstn k names) <-> In x (skipn k names).
Proof.
  revert k. induction names as [|n names IH]; intros [|k] Hd Hx; cbn in *; try tauto. inversion_clear Hd as [|? ? Hn Hd'].
  destruct Hx as [->|Hx].
  - split; [tauto|]. intro Hs. exfalso. apply Hn. clear -Hs. revert k Hs. induction names as [|m names IH]; intros [|k] H; cbn in *; eauto.
  - rewrite <- (IH k Hd' Hx). split; [tauto|]. intros H [->|H2]; tauto.
Qed.
Lemma received_held (names : list string) (pos : list V) kw : NoDup names -> incl (map fst kw) (skipn (length pos) names) -> forall o, 
  held (fun p => match Passed kw p with Some v => Some v | None => Passed (combine names pos) p end) names =
  map (fun ip => (snd ip, Received pos kw (fst ip - o) (snd ip))) (combine (seq o (length names)) names).
Proof.
  intros Hd Hi o. unfold held.
  assert (forall j p, nth_error names j = Some p -> match Passed kw p with Some v => Some v | None => Passed (combine names pos) p end = Received pos kw j p) as K.
  { intros j p Hj. unfold Received. assert (In p names) as Hp by (eapply nth_error_In; exact Hj).
    assert (Passed (combine names pos) p = nth_error pos j) as E.
    { clear -Hd Hj. revert pos j Hj. induction names as [|n names IH]; intros pos [|j] Hj; try discriminate; inversion_clear Hd as [|? ? Hn Hd'].
      - cbn in Hj. injection Hj as ->. destruct pos; [reflexivity|]. cbn. destruct (string_dec p p); [reflexivity|congruence].
      - cbn in Hj. destruct pos as [|v pos]; [reflexivity|]. cbn. destruct (string_dec n p) as [->|]; [|now apply IH].
        exfalso. apply Hn. eapply nth_error_In. exact Hj. }
    rewrite E. destruct (nth_error pos j) as [v|] eqn:Ev.
    - destruct (Passed kw p) eqn:Ek; [|reflexivity]. exfalso.
      assert (In p (skipn (length pos) names)) as Hs. { apply Hi. destruct (in_dec string_dec p (map fst kw)) as [H|H]; [exact H|]. apply passed_none in H. congruence. }
      apply (nodup_split names (length pos) p Hd Hp) in Hs. apply Hs. rewrite <- combine_names.
      destruct (in_dec string_dec p (map fst (combine names pos))) as [H|H]; [exact H|]. apply passed_none in H. congruence.
    - destruct (Passed kw p); reflexivity. }
  assert (forall ns k, (forall j p, nth_error ns j = Some p -> nth_error names (k + j) = Some p) ->
    map (fun p => (p, match Passed kw p with Some v => Some v | None => Passed (combine names pos) p end)) ns =
    map (fun ip => (snd ip, Received pos kw (fst ip - o) (snd ip))) (combine (seq (o + k) (length ns)) ns)) as G.
  { induction ns as [|n ns IH]; intros k Hk; [reflexivity|]. cbn [length seq combine map fst snd]. f_equal.
    - f_equal. replace (o + k - o) with k by lia. apply K. rewrite <- (Nat.add_0_r k). now apply Hk.
    - rewrite <- Nat.add_succ_r. apply IH. intros j p Hj. replace (S k + j) with (k + S j) by lia. now apply Hk. }
  rewrite (G names 0) by auto. now rewrite Nat.add_0_r.
Qed.
Lemma bind_optional names (pos : list V) kw : NoDup names ->
  (LegalCall names pos kw -> call_binds (optional names) pos kw =
     Ok (map (fun ip => (snd ip, Received pos kw (fst ip) (snd ip))) (combine (seq 0 (length names)) names))) /\
  (~ LegalCall names pos kw -> call_binds (optional names) pos kw = Raise TypeError).
Proof.
  intro Hd. unfold call_binds. rewrite fill_positional_held by exact Hd. unfold LegalCall.
  destruct (Nat.leb_spec (length pos) (length names)) as [Hl|Hl]; [|split; [intros (? & _); lia|reflexivity]].
  cbn [bind]. destruct (fill_keywords_held names Hd kw (Passed (combine names pos))) as [F1 F2].
  assert ((incl (map fst kw) names /\ (forall k, In k (map fst kw) -> Passed (combine names pos) k = None)) <-> incl (map fst kw) (skipn (length pos) names)) as Q.
  { split.
    - intros [H1 H2] x Hx. apply nodup_split; auto. rewrite <- combine_names. apply passed_none. auto.
    - intro H. assert (forall x, In x (skipn (length pos) names) -> In x names) as Hs.
      { intros x Hx. rewrite <- (firstn_skipn (length pos) names). apply in_or_app. now right. }
      split; [intros x Hx; auto|]. intros k Hk. apply passed_none. rewrite combine_names. apply nodup_split; auto. }
  split.
  - intros (_ & H1 & H2). apply Q in H2 as H3. rewrite F1 by tauto. cbn [bind]. rewrite all_given_optional.
    f_equal. rewrite (received_held names pos kw Hd H2 0). apply map_ext. intros [i p]. cbn. now rewrite Nat.sub_0_r.
  - intro H. rewrite F2; [reflexivity|]. intros (H1 & H2). apply H. split; [exact Hl|]. split; [exact H1|]. now apply Q.
Qed.
Lemma call_defaults_spec (ps : params) (pos : list V) kw : NoDup (map fst ps) ->
  (LegalCall (map fst ps) pos kw -> call_defaults Given ps pos kw =
     Ok (map (fun ip => (fst (snd ip), match Received pos kw (fst ip) (fst (snd ip)) with Some v => Given v | None => Default (snd (snd ip)) end))
       (combine (seq 0 (length ps)) ps))) /\
  (~ LegalCall (map fst ps) pos kw -> call_defaults Given ps pos kw = Raise TypeError).
Proof.
  intro Hd. destruct (bind_optional (map fst ps) pos kw Hd) as [B1 B2]. unfold call_defaults. split; intro H.
  - rewrite B1 by exact H. cbn [bind]. f_equal. rewrite map_length. generalize 0. induction ps as [|[p d] ps IH]; intro o; [reflexivity|].
    cbn [length map fst snd seq combine]. f_equal.
    clear -IH. assert (forall (l : params) o, map (fun pb : string * literal * (string * option V) => (fst (fst pb), match snd (snd pb) with Some v => Given v | None => Default (snd (fst pb)) end))
      (combine l (map (fun ip => (snd ip, Received pos kw (fst ip) (snd ip))) (combine (seq o (length l)) (map fst l)))) =
      map (fun ip => (fst (snd ip), match Received pos kw (fst ip) (fst (snd ip)) with Some v => Given v | None => Default (snd (snd ip)) end)) (combine (seq o (length l)) l)) as G.
    { induction l as [|[q e] l IHl]; intro o'; [reflexivity|]. cbn [length map fst snd seq combine]. f_equal. apply IHl. }
    apply G.
  - rewrite B2 by exact H. reflexivity.
Qed.
End Bind.

(** What the drawing function is called with: the data, then every option with the value received or the method's default. *)
Definition WithOptions {V : Type} (ps : list (string * literal)) (pos : list V) kw : list (string * arg V) :=
  map (fun ip => (fst (snd ip), match Received pos kw (fst ip) (fst (snd ip)) with Some v => Given v | None => Default (snd (snd ip)) end))
    (combine (seq 0 (length ps)) ps).

Definition nnsd_options : list (string * literal) :=
  [("bins", LInt 50); ("kde", LBool true); ("trim", LFloat 10); ("trim_kde", LBool false); ("kde_bw", LStr "scott"); ("brody", LBool false);
   ("brody_fit", LStr "spacing"); ("title", LStr "Unfolded Spacing Distribution"); ("mode", LReturn); ("outfile", LNone);
   ("ensembles", LStrs ["poisson"; "goe"; "gue"; "gse"]); ("fig", LNone); ("axes", LNone)].
Definition next_nnsd_options : list (string * literal) :=
  [("bins", LInt 50); ("kde", LBool true); ("trim", LFloat 10); ("trim_kde", LBool false); ("brody", LBool false);
   ("brody_fit", LStr "spacing"); ("title", LStr "next Nearest-Neigbors Spacing Distribution"); ("mode", LReturn); ("outfile", LNone);
   ("ensembles", LStrs ["goe"; "poisson"]); ("fig", LNone); ("axes", LNone)].
Definition brody_options : list (string * literal) :=
  [("method", LStr "spacing"); ("title", LStr "Brody distribution fit"); ("mode", LReturn); ("outfile", LNone); ("save_dpi", LNone);
   ("ensembles", LStrs ["goe"; "poisson"]); ("bins", LInt 50); ("kde", LBool true); ("trim", LFloat 5); ("trim_kde", LBool false);
   ("kde_bw", LStr "scott")].
Definition fit_options : list (string * literal) :=
  [("title", LStr "Unfolding Fit"); ("mode", LReturn); ("outfile", LNone); ("fig", LNone); ("axes", LNone)].

Lemma nodup_concrete : NoDup (map fst nnsd_options) /\ NoDup (map fst next_nnsd_options) /\ NoDup (map fst brody_options) /\ NoDup (map fst fit_options).
Proof. splits; repeat (constructor; [cbn [map fst In]; intuition discriminate|]); constructor. Qed.

(** C120. Positional or by keyword, every option of the four methods reaches the drawing function under its own name and the others
    keep the documented defaults; the data are the object's own unfolded values; anything else is a TypeError. *)
Theorem C120_forwarding : forall (V : Type) (eigs vals : V) pos kw,
  let forwards (method : list V -> list (string * V) -> result (list (string * arg V))) data options :=
    (LegalCall (map fst options) pos kw -> method pos kw = Ok (data ++ WithOptions options pos kw)%list) /\
    (~ LegalCall (map fst options) pos kw -> method pos kw = Raise TypeError) in
  let own := [("unfolded", Given vals)] in
  forwards (plot_nnsd vals) own nnsd_options /\
  forwards (plot_next_nnsd vals) own next_nnsd_options /\
  forwards (plot_nnnsd vals) own next_nnsd_options /\
  forwards (plot_brody_fit vals) own brody_options /\
  forwards (plot_fit eigs vals) (("eigs", Given eigs) :: own) fit_options.
Proof.
  intros V eigs vals pos kw. cbv zeta. destruct nodup_concrete as (D1 & D2 & D3 & D4).
  pose proof (call_defaults_spec nnsd_options pos kw D1) as [A1 B1]. pose proof (call_defaults_spec next_nnsd_options pos kw D2) as [A2 B2].
  pose proof (call_defaults_spec brody_options pos kw D3) as [A3 B3]. pose proof (call_defaults_spec fit_options pos kw D4) as [A4 B4].
  assert (forall A (x : result A) y, x = y -> x = y) as T by auto.
  splits; intro H;
    [unfold plot_nnsd; change plot_nnsd_ps with nnsd_options; rewrite (A1 H)
    |unfold plot_nnsd; change plot_nnsd_ps with nnsd_options; rewrite (B1 H)
    |unfold plot_next_nnsd; change plot_next_nnsd_ps with next_nnsd_options; rewrite (A2 H)
    |unfold plot_next_nnsd; change plot_next_nnsd_ps with next_nnsd_options; rewrite (B2 H)
    |unfold plot_nnnsd, plot_next_nnsd; change plot_next_nnsd_ps with next_nnsd_options; rewrite (A2 H)
    |unfold plot_nnnsd, plot_next_nnsd; change plot_next_nnsd_ps with next_nnsd_options; rewrite (B2 H)
    |unfold plot_brody_fit; change plot_brody_fit_ps with brody_options; rewrite (A3 H)
    |unfold plot_brody_fit; change plot_brody_fit_ps with brody_options; rewrite (B3 H)
    |unfold plot_fit; change plot_fit_ps with fit_options; rewrite (A4 H)
    |unfold plot_fit; change plot_fit_ps with fit_options; rewrite (B4 H)]; reflexivity.
Qed.
Print Assumptions C120_forwarding.

(** C120. The inherited [plot_spacings], whose options are those of the figure itself: by keyword each option reaches the figure under
    its own name and the others keep the figure's defaults; a positional argument or any other keyword is a TypeError. *)
Definition spacings_figure : list (string * literal) :=
  [("bins", LInt 50); ("kde", LBool true); ("trim", LFloat 5); ("trim_kde", LBool false); ("kde_bw", LStr "scott"); ("brody", LBool false);
   ("brody_fit", LStr "spacing"); ("title", LStr "Unfolded Spacing Distribution"); ("mode", LReturn); ("outfile", LNone);
   ("ensembles", LStrs ["poisson"; "goe"; "gue"; "gse"]); ("fig", LNone); ("axes", LNone)].
Theorem C120_spacings : forall (V : Type) (vals : V) kw,
  let legal := NoDup (map fst kw) /\ incl (map fst kw) (map fst spacings_figure) in
  (legal -> plot_spacings_full vals [] kw = Ok (("unfolded", Given vals) :: WithOptions spacings_figure [] kw)) /\
  (~ legal -> plot_spacings_full vals [] kw = Raise TypeError) /\
  (forall v vs, plot_spacings_full vals (v :: vs) kw = Raise TypeError).
Proof.
  intros V vals kw legal. destruct (C103_keywords V vals kw) as (_ & _ & _ & K1 & K2). unfold plot_spacings_full. splits.
  - intro H. rewrite (K1 H). reflexivity.
  - intro H. rewrite (K2 H). reflexivity.
  - intros v vs. destruct (C103_positional_refuted V vals v vs kw) as (_ & _ & _ & E). rewrite E. reflexivity.
Qed.
Print Assumptions C120_spacings.
Example C120_spacings_case : plot_spacings_full 8%Z [] [("trim", 3%Z)] = Ok (("unfolded", Given 8%Z) :: WithOptions spacings_figure [] [("trim", 3%Z)]) /\
  nth 3 (WithOptions spacings_figure [] [("trim", 3%Z)]) ("", Default LNone) = ("trim_kde", Default (LBool false)) /\
  nth 2 (WithOptions spacings_figure [] [("trim", 3%Z)]) ("", Default LNone) = ("trim", Given 3%Z).
Proof. splits; reflexivity. Qed.

(** C120 is false of the defaults: without options, the inherited [plot_spacings] and [plot_nnsd] draw the same figure except that
    the first drops spacings above 5 and the second above 10; and [plot_next_nnsd] has no [kde_bw]. *)
Theorem C120_defaults_refuted : forall (V : Type) (vals w : V),
  (exists a b, plot_spacings_full vals [] [] = Ok (a ++ ("trim", Default (LFloat 5)) :: b)%list /\
     plot_nnsd vals [] [] = Ok (a ++ ("trim", Default (LFloat 10)) :: b)%list) /\
  plot_nnsd vals [] [("kde_bw", w)] <> Raise TypeError /\ plot_next_nnsd vals [] [("kde_bw", w)] = Raise TypeError.
Proof.
  intros. split; [|split].
  - exists [("unfolded", Given vals); ("bins", Default (LInt 50)); ("kde", Default (LBool true))]. eexists. split; reflexivity.
  - discriminate.
  - reflexivity.
Qed.
Print Assumptions C120_defaults_refuted.
Example C120_case :
  plot_fit 7%Z 8%Z [1%Z] [("axes", 2%Z)] = Ok [("eigs", Given 7%Z); ("unfolded", Given 8%Z); ("title", Given 1%Z); ("mode", Default LReturn);
    ("outfile", Default LNone); ("fig", Default LNone); ("axes", Given 2%Z)] /\
  LegalCall (map fst fit_options) [1%Z] [("axes", 2%Z)] /\
  plot_fit 7%Z 8%Z [1%Z] [("title", 2%Z)] = Raise TypeError /\
  plot_fit 7%Z 8%Z [1; 2; 3; 4; 5; 6]%Z [] = Raise TypeError.
Proof.
  splits; try reflexivity. split; [cbn; lia|]. split; [repeat constructor; cbn; tauto|]. intros x [<-|[]]. cbn. tauto.
Qed.
