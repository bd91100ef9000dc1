(** Proofs about the string handling of the summary table (model: M_Report). *)
From Coq Require Import String Ascii List ZArith Bool Arith Lia QArith.
From Verif Require Import Base M_Smooth M_Report S_Report P_Smooth.
Import ListNotations.
Local Notation length := List.length.

Lemma letters_chars s : letters s = chars s.
Proof. induction s; cbn; congruence. Qed.

(** ** Regular expressions over lists of characters *)
Definition wchar (p t : ascii) : Prop := if Ascii.eqb p "."%char then Ascii.eqb t (ascii_of_nat 10) = false else p = t.
Lemma re_here_spec pat text : re_here pat text = true <->
  exists m rest, chars text = m ++ rest /\ Forall2 wchar (chars pat) m.
Proof.
  revert text. induction pat as [|p pat IH]; intros text; cbn [re_here chars].
  - split; [|reflexivity]. intros _. exists [], (chars text). split; [reflexivity|constructor].
  - destruct text as [|t text].
    + split; [discriminate|]. intros (m & rest & E & H). inversion H; subst. discriminate.
    + rewrite andb_true_iff, IH. split.
      * intros [H1 (m & rest & E & H)]. exists (t :: m), rest. cbn [chars app]. split; [congruence|]. constructor; [|assumption].
        unfold wchar. destruct (Ascii.eqb p "."); [now apply negb_true_iff|now apply Ascii.eqb_eq].
      * intros (m & rest & E & H). inversion H as [|? t' ? m' Hw Hm]; subst. cbn [chars app] in E. injection E as -> E. split.
        -- unfold wchar in Hw. destruct (Ascii.eqb p "."); [now apply negb_true_iff|now apply Ascii.eqb_eq].
        -- eauto.
Qed.
Lemma re_search_spec pat text : re_search pat text = true <->
  exists a m rest, chars text = a ++ m ++ rest /\ Forall2 wchar (chars pat) m.
Proof.
  induction text as [|t text IH]; cbn [re_search]; rewrite orb_true_iff, re_here_spec.
  - split.
    + intros [(m & rest & E & H)|H]; [|discriminate]. exists [], m, rest. auto.
    + intros (a & m & rest & E & H). left. destruct a; [|discriminate]. exists m, rest. auto.
  - rewrite IH. split.
    + intros [(m & rest & E & H)|(a & m & rest & E & H)]; [exists [], m, rest; auto|].
      exists (t :: a), m, rest. cbn [chars]. rewrite E. auto.
    + intros ([|x a] & m & rest & E & H); [left; exists m, rest; auto|]. right. injection E as -> E. exists a, m, rest. auto.
Qed.
Lemma re_search_refl s : ~ In (ascii_of_nat 10) (chars s) -> re_search s s = true.
Proof.
  intro H. apply re_search_spec. exists [], (chars s), []. rewrite app_nil_r. split; [reflexivity|].
  induction (chars s) as [|c l IH]; constructor.
  - unfold wchar. destruct (Ascii.eqb c "."); [|reflexivity]. apply Ascii.eqb_neq. intro E. apply H. now left.
  - apply IH. intro K. apply H. now right.
Qed.

(** Pieces without a full stop match themselves only. *)
Definition plain (l : list ascii) : Prop := ~ In "."%char l.
Lemma wmatch_plain l m : plain l -> Forall2 wchar l m -> m = l.
Proof.
  intros H. induction 1 as [|p t l m Hw Hm IH]; [reflexivity|]. unfold wchar in Hw. destruct (Ascii.eqb_spec p ".").
  - exfalso. apply H. now left.
  - f_equal; [congruence|]. apply IH. intro K. apply H. now right.
Qed.
Lemma Forall2_app_l {A B} (P : A -> B -> Prop) l l' m : Forall2 P (l ++ l') m ->
  exists m1 m2, m = m1 ++ m2 /\ Forall2 P l m1 /\ Forall2 P l' m2.
Proof. intro H. apply Forall2_app_inv_l in H. destruct H as (a & b & H1 & H2 & ->). eauto. Qed.

(** ** Where "sc" can occur *)
Definition nosc (l : list ascii) : Prop := forall x y, l <> x ++ "s"%char :: "c"%char :: y.
Lemma nosc_locate (n suf a rest : list ascii) : nosc n -> (forall y, suf <> "c"%char :: y) ->
  n ++ suf = a ++ "s"%char :: "c"%char :: rest -> exists a', a = n ++ a' /\ suf = a' ++ "s"%char :: "c"%char :: rest.
Proof.
  intros Hn Hs. revert a. induction n as [|c n IH]; intros a E; [exists a; auto|].
  destruct a as [|d a].
  - exfalso. cbn in E. injection E as -> E. destruct n as [|c' n].
    + cbn in E. apply (Hs rest). exact E.
    + cbn in E. injection E as -> E. now apply (Hn [] n).
  - cbn in E. injection E as -> E. destruct (IH) with (a := a) as (a' & -> & E').
    + intros x y K. apply (Hn (d :: x) y). cbn. congruence.
    + exact E.
    + exists a'. auto.
Qed.
Lemma nosc_app (l m : list ascii) : ~ In "s"%char l -> nosc m -> nosc (l ++ m).
Proof.
  intros Hl Hm. induction l as [|c l IH]; [assumption|]. intros x y E. destruct x as [|d x].
  - injection E as -> _. apply Hl. now left.
  - injection E as _ E. revert E. apply IH. intro K. apply Hl. now right.
Qed.
Lemma nosc_none (l : list ascii) : ~ In "s"%char l -> nosc l.
Proof. intros H x y ->. apply H. apply in_app_iff. right. now left. Qed.
Lemma nosc_s (d : ascii) (l : list ascii) : d <> "c"%char -> nosc (d :: l) -> nosc ("s"%char :: d :: l).
Proof.
  intros Hd H x y E. destruct x as [|e x].
  - injection E as E _. congruence.
  - injection E as _ E. now apply (H x y).
Qed.

(** ** Forms of smoother names *)
Definition numeric (l : list ascii) : Prop := Forall (fun c => is_digit c \/ c = "-"%char) l.
Lemma numeric_not c l : ~ is_digit c -> c <> "-"%char -> numeric l -> ~ In c l.
Proof. intros H1 H2 Hl Hi. unfold numeric in Hl. rewrite Forall_forall in Hl. destruct (Hl c Hi); auto. Qed.
Lemma int_numeric z : numeric (chars (str_of_int z)).
Proof. apply str_of_int_chars. Qed.

(** [tail] is what every spline name of the table ends with ("" or "_heuristic"). *)
Inductive name_form (tail : string) : string -> Prop :=
| nf_poly d : name_form tail ("poly_" ++ str_of_int d)
| nf_spline d x : Decimals 3 x -> name_form tail (spline_name d ++ "-spline_" ++ x ++ tail)
| nf_gompertz : name_form tail "gompertz".
Definition good_tail (tail : string) : Prop := tail = ""%string \/ tail = "_heuristic"%string.

Lemma decimals_parts k s : Decimals k s -> exists x y, chars s = x ++ "."%char :: y /\ length y = k /\ numeric x /\ Forall is_digit y.
Proof.
  intros (x & y & -> & Hk & Hx & Hy). exists (chars x), (chars y). rewrite !chars_app. cbn [chars]. rewrite !letters_chars in *.
  repeat split; auto. rewrite <- Hk. clear. induction y; cbn; congruence.
Qed.
Lemma notin_dec (c : ascii) l : existsb (Ascii.eqb c) l = false -> ~ In c l.
Proof. intros H Hi. assert (existsb (Ascii.eqb c) l = true); [|congruence]. apply existsb_exists. exists c. split; [assumption|apply Ascii.eqb_refl]. Qed.
Lemma in_dec' (c : ascii) l : existsb (Ascii.eqb c) l = true -> In c l.
Proof. intros H. apply existsb_exists in H. destruct H as (x & Hx & E). apply Ascii.eqb_eq in E. now subst. Qed.
Ltac nin := apply notin_dec; reflexivity.
Ltac yin := apply in_dec'; reflexivity.
Lemma decimals_not k s c : Decimals k s -> ~ is_digit c -> c <> "-"%char -> c <> "."%char -> ~ In c (chars s).
Proof.
  intros H H1 H2 H3 Hi. apply decimals_parts in H. destruct H as (x & y & E & _ & Hx & Hy). rewrite E in Hi.
  apply in_app_iff in Hi. destruct Hi as [Hi|[Hi|Hi]]; [|congruence|].
  - revert Hi. now apply numeric_not.
  - revert Hi. now apply not_digit.
Qed.
Definition spl : list ascii := ["-"; "s"; "p"; "l"; "i"; "n"; "e"]%char.
Lemma spline_chars d x tail : chars (spline_name d ++ "-spline_" ++ x ++ tail) =
  chars (spline_name d) ++ spl ++ "_"%char :: chars x ++ chars tail.
Proof. rewrite !chars_app. reflexivity. Qed.
Lemma spline_name_cases d : chars (spline_name d) = chars "cubic" \/ chars (spline_name d) = chars "quartic" \/
  chars (spline_name d) = chars "quintic" \/ chars (spline_name d) = chars "deg" ++ chars (str_of_int d).
Proof.
  unfold spline_name. repeat match goal with |- context [Z.eqb ?a ?b] => destruct (Z.eqb_spec a b) end; auto.
Qed.
Lemma spline_name_not d c : ~ is_digit c -> ~ In c (chars "cubicquarticquinticdeg-") -> ~ In c (chars (spline_name d)).
Proof.
  intros H1 H2 Hi.
  assert (forall l, incl l (chars "cubicquarticquinticdeg-") -> ~ In c l) as K by (intros l Hl Hc; apply H2, Hl, Hc).
  assert (forall l, forallb (fun x => existsb (Ascii.eqb x) (chars "cubicquarticquinticdeg-")) l = true -> ~ In c l) as K'.
  { intros l Hl. apply K. intros x Hx. rewrite forallb_forall in Hl. apply in_dec'. auto. }
  destruct (spline_name_cases d) as [E|[E|[E|E]]]; rewrite E in Hi; try (revert Hi; apply K'; reflexivity).
  apply in_app_iff in Hi. destruct Hi as [Hi|Hi]; [revert Hi; apply K'; reflexivity|].
  revert Hi. apply numeric_not; [assumption| |apply int_numeric]. intros ->. apply H2. yin.
Qed.

(** ** Uniqueness of a match *)
Lemma split_unique {A} (c : A) (u v u' v' : list A) : ~ In c u' -> ~ In c v' -> u ++ c :: v = u' ++ c :: v' -> u = u' /\ v = v'.
Proof.
  intros H1 H2. revert u'  H1. induction u as [|x u IH]; intros [|x' u'] H1 E; cbn in E.
  - injection E as E. auto.
  - injection E as E _. exfalso. apply H1. now left.
  - injection E as -> E. exfalso. apply H2. rewrite <- E. apply in_app_iff. right. now left.
  - injection E as -> E. destruct (IH u') as [-> ->]; auto. intro K. apply H1. now right.
Qed.
Lemma app_len_inj {A} (a b a' b' : list A) : length b = length b' -> a ++ b = a' ++ b' -> a = a' /\ b = b'.
Proof.
  revert a'. induction a as [|x a IH]; intros [|x' a'] Hl E; cbn in E.
  - auto.
  - exfalso. subst b. cbn in Hl. rewrite app_length in Hl. lia.
  - exfalso. subst b'. cbn in Hl. rewrite app_length in Hl. lia.
  - injection E as -> E. destruct (IH a') as [-> ->]; auto.
Qed.
Lemma in_mid {A} (c : A) u v : In c (u ++ c :: v).
Proof. apply in_app_iff. right. now left. Qed.

Lemma deg_not c d : ~ is_digit c -> ~ In c (chars "deg-") -> ~ In c (chars "deg" ++ chars (str_of_int d)).
Proof.
  intros H1 H2 Hi. apply in_app_iff in Hi. destruct Hi as [Hi|Hi].
  - apply H2. change (chars "deg-") with (chars "deg" ++ ["-"%char]). apply in_app_iff. now left.
  - revert Hi. apply numeric_not; [assumption| |apply int_numeric]. intros ->. apply H2. yin.
Qed.
Lemma spline_name_tail a d d' : a ++ chars (spline_name d) = chars (spline_name d') -> spline_name d = spline_name d'.
Proof.
  intro E. apply chars_inj.
  assert (forall c, In c (chars (spline_name d)) -> In c (chars (spline_name d'))) as K
    by (intros c Hc; rewrite <- E; apply in_app_iff; now right).
  assert (forall c, existsb (Ascii.eqb c) (chars (spline_name d)) = true -> existsb (Ascii.eqb c) (chars (spline_name d')) = true) as K'.
  { intros c Hc. apply existsb_exists. exists c. split; [apply K, in_dec', Hc|apply Ascii.eqb_refl]. }
  destruct (spline_name_cases d) as [E1|[E1|[E1|E1]]], (spline_name_cases d') as [E2|[E2|[E2|E2]]]; rewrite E1, E2 in *; clear E1 E2;
    try reflexivity;
    try (discriminate (K' "b"%char eq_refl));
    try (discriminate (K' "r"%char eq_refl));
    try (discriminate (K' "n"%char eq_refl));
    try (discriminate (K' "g"%char eq_refl)).
  - exfalso. apply (deg_not "b"%char d'); [unfold is_digit; nin|nin|]. apply K. yin.
  - exfalso. apply (deg_not "r"%char d'); [unfold is_digit; nin|nin|]. apply K. yin.
  - exfalso. apply (deg_not "n"%char d'); [unfold is_digit; nin|nin|]. apply K. yin.
  - change (chars "deg") with (chars "de" ++ ["g"%char]) in *. rewrite <- !app_assoc in *. cbn [app] in E |- *.
    rewrite app_assoc in E. apply (split_unique "g"%char) in E.
    + destruct E as [_ ->]. reflexivity.
    + nin.
    + apply numeric_not; [unfold is_digit; nin|discriminate|apply int_numeric].
Qed.
Lemma name_not tail n c : good_tail tail -> name_form tail n -> ~ is_digit c ->
  ~ In c (chars "poly_gompertzcubicquarticquinticdeg-spline_._heuristic") -> ~ In c (chars n).
Proof.
  intros Ht Hn H1 H2.
  assert (forall l, forallb (fun x => existsb (Ascii.eqb x) (chars "poly_gompertzcubicquarticquinticdeg-spline_._heuristic")) l = true ->
    ~ In c l) as K.
  { intros l Hl Hc. apply H2. rewrite forallb_forall in Hl. apply in_dec'. auto. }
  assert (c <> "-"%char /\ c <> "."%char) as [Hm Hd] by (split; intros ->; apply H2; yin).
  destruct Hn as [d|d x Hx|].
  - rewrite chars_app, in_app_iff. intros [Hi|Hi]; revert Hi; [now apply K|]. apply numeric_not; auto. apply int_numeric.
  - rewrite spline_chars, !in_app_iff. cbn [In]. rewrite in_app_iff. intros [Hi|[Hi|[Hi|[Hi|Hi]]]].
    + revert Hi. apply spline_name_not; [assumption|]. now apply K.
    + revert Hi. now apply K.
    + subst. apply H2. yin.
    + revert Hi. eapply decimals_not; eauto.
    + revert Hi. destruct Ht as [-> | ->]; now apply K.
  - now apply K.
Qed.

Lemma digits_numeric l : Forall is_digit l -> numeric l.
Proof. apply Forall_impl. auto. Qed.
Ltac nodig := unfold is_digit; nin.
Ltac nnum := apply numeric_not; [nodig|discriminate|auto using int_numeric, digits_numeric].

(** A name matched at the end of another one is that name. *)
Lemma name_match tail n n' a m : good_tail tail -> name_form tail n -> name_form tail n' ->
  Forall2 wchar (chars n) m -> a ++ m = chars n' -> n = n'.
Proof.
  intros Ht Hn Hn' Hm E. apply chars_inj. destruct Hn as [d|d x Hx|].
  - apply wmatch_plain in Hm; [subst m|].
    2:{ rewrite chars_app. unfold plain. rewrite in_app_iff. intros [H|H]; revert H; [nin|nnum]. }
    rewrite chars_app in *. change (chars "poly_") with (chars "pol" ++ "y"%char :: ["_"%char]) in *.
    rewrite <- !app_assoc in *. cbn [app] in E |- *. rewrite app_assoc in E.
    assert (In "y"%char (chars n')) as Hy by (rewrite <- E; apply in_mid).
    destruct Hn' as [d'|d' x' Hx'|].
    + rewrite chars_app in *. change (chars "poly_") with (chars "pol" ++ "y"%char :: ["_"%char]) in *.
      rewrite <- !app_assoc in *. cbn [app] in E |- *. rewrite app_assoc in E. apply split_unique in E.
      * destruct E as [_ ->]. reflexivity.
      * nin.
      * cbn [In]. intros [H|H]; [discriminate|]. revert H. nnum.
    + exfalso. rewrite spline_chars, !in_app_iff in Hy. cbn [In] in Hy. rewrite in_app_iff in Hy. destruct Hy as [H|[H|[H|[H|H]]]]; revert H.
      * apply spline_name_not; [nodig|nin].
      * nin.
      * discriminate.
      * eapply decimals_not; [eassumption|nodig|discriminate|discriminate].
      * destruct Ht as [-> | ->]; nin.
    + exfalso. revert Hy. nin.
  - rewrite spline_chars in Hm. apply Forall2_app_l in Hm. destruct Hm as (m1 & m2 & -> & Hm1 & Hm).
    apply Forall2_app_l in Hm. destruct Hm as (m3 & m4 & -> & Hm3 & Hm).
    change ("_"%char :: chars x ++ chars tail) with (["_"%char] ++ chars x ++ chars tail) in Hm.
    apply Forall2_app_l in Hm. destruct Hm as (m5 & m6 & -> & Hm5 & Hm).
    apply Forall2_app_l in Hm. destruct Hm as (xm & m7 & -> & Hxm & Hm7).
    apply wmatch_plain in Hm1; [subst m1|apply spline_name_not; [nodig|nin]].
    apply wmatch_plain in Hm3; [subst m3|unfold plain; nin].
    apply wmatch_plain in Hm5; [subst m5|unfold plain; nin].
    apply wmatch_plain in Hm7; [subst m7|unfold plain; destruct Ht as [-> | ->]; nin].
    apply decimals_parts in Hx. destruct Hx as (p & y & Ex & Hy & Hp & Hyd). rewrite Ex in Hxm.
    apply Forall2_app_l in Hxm. destruct Hxm as (pm & ym & -> & Hpm & Hym).
    apply wmatch_plain in Hpm; [subst pm|unfold plain; nnum].
    inversion Hym as [|? c ? ym' _ Hym']; subst. apply wmatch_plain in Hym'; [subst ym'|unfold plain; nnum].
    assert (In "l"%char (chars n')) as Hl.
    { rewrite <- E. apply in_app_iff. right. apply in_app_iff. right. apply in_app_iff. left. yin. }
    destruct Hn' as [d'|d' x' Hx'|].
    + exfalso. assert (In "s"%char (chars ("poly_" ++ str_of_int d')%string)) as Hs.
      { rewrite <- E. apply in_app_iff. right. apply in_app_iff. right. apply in_app_iff. left. yin. }
      rewrite chars_app, in_app_iff in Hs. destruct Hs as [H|H]; revert H; [nin|nnum].
    + rewrite !spline_chars in *. pose proof Hx' as Hx''. apply decimals_parts in Hx'. destruct Hx' as (p' & y' & Ex' & Hy' & Hp' & Hyd').
      assert (forall u v : list ascii, u ++ spl ++ v = (u ++ ["-"; "s"; "p"]%char) ++ "l"%char :: (["i"; "n"; "e"]%char ++ v)) as R
        by (intros; rewrite <- app_assoc; reflexivity).
      rewrite app_assoc in E. rewrite (R (a ++ chars (spline_name d))), (R (chars (spline_name d'))) in E. cbn [app] in E.
      apply split_unique in E.
      2:{ rewrite in_app_iff. intros [H|H]; revert H; [apply spline_name_not; [nodig|nin]|nin]. }
      2:{ cbn [In]. rewrite in_app_iff. intros [H|[H|[H|[H|[H|H]]]]]; try discriminate; revert H.
          - eapply decimals_not; [eassumption|nodig|discriminate|discriminate].
          - destruct Ht as [-> | ->]; nin. }
      destruct E as [E1 E2]. apply app_inv_tail in E1. apply spline_name_tail in E1.
      injection E2 as E2. apply app_inv_tail in E2. rewrite Ex' in E2.
      apply app_len_inj in E2; [|cbn; congruence]. destruct E2 as [-> E2]. injection E2 as -> ->.
      rewrite Ex, Ex', E1. reflexivity.
    + exfalso. revert Hl. nin.
  - apply wmatch_plain in Hm; [subst m|unfold plain; nin].
    assert (In "z"%char (chars n')) as Hz by (rewrite <- E; apply in_app_iff; right; yin).
    destruct Hn' as [d'|d' x' Hx'|].
    + exfalso. rewrite chars_app, in_app_iff in Hz. destruct Hz as [H|H]; revert H; [nin|nnum].
    + exfalso. rewrite spline_chars, !in_app_iff in Hz. cbn [In] in Hz. rewrite in_app_iff in Hz. destruct Hz as [H|[H|[H|[H|H]]]]; revert H.
      * apply spline_name_not; [nodig|nin].
      * nin.
      * discriminate.
      * eapply decimals_not; [eassumption|nodig|discriminate|discriminate].
      * destruct Ht as [-> | ->]; nin.
    + reflexivity.
Qed.

(** ** "sc" in names *)
Lemma name_nosc tail n : good_tail tail -> name_form tail n -> nosc (chars n).
Proof.
  intros Ht [d|d x Hx|].
  - apply nosc_none. rewrite chars_app, in_app_iff. intros [H|H]; revert H; [nin|nnum].
  - rewrite spline_chars. apply nosc_app; [apply spline_name_not; [nodig|nin]|].
    change (spl ++ "_"%char :: chars x ++ chars tail) with (["-"%char] ++ "s"%char :: "p"%char :: "l"%char :: "i"%char :: "n"%char :: "e"%char :: "_"%char :: chars x ++ chars tail).
    apply nosc_app; [nin|]. apply nosc_s; [discriminate|].
    change ("p"%char :: "l"%char :: "i"%char :: "n"%char :: "e"%char :: "_"%char :: chars x ++ chars tail) with (chars "pline_" ++ chars x ++ chars tail).
    apply nosc_app; [nin|]. apply nosc_app; [eapply decimals_not; [eassumption|nodig|discriminate|discriminate]|].
    destruct Ht as [-> | ->]; [apply nosc_none; nin|].
    change (chars "_heuristic") with (chars "_heuri" ++ "s"%char :: "t"%char :: chars "ic"). apply nosc_app; [nin|].
    apply nosc_s; [discriminate|]. apply nosc_none. nin.
  - apply nosc_none. nin.
Qed.

Definition suffixes : list string := ["--mean_spacing"; "--var_spacing"; "--msqe"; "--score"]%string.
Lemma suffix_sc suf a rest : In suf suffixes -> chars suf = a ++ "s"%char :: "c"%char :: rest ->
  suf = "--score"%string /\ a = ["-"; "-"]%char /\ rest = chars "ore".
Proof.
  intros [<-|[<-|[<-|[<-|[]]]]] E; cbn in E;
    repeat (destruct a as [|? a]; cbn in E; [first [discriminate E | injection E as E; subst rest; auto]|first [discriminate E | injection E as <- E]]).
Qed.
Lemma suffix_not_c suf : In suf suffixes -> forall y, chars suf <> "c"%char :: y.
Proof. intros [<-|[<-|[<-|[<-|[]]]]] y; discriminate. Qed.
Lemma score_plain : plain (chars "score").
Proof. unfold plain. nin. Qed.

(** [re.search("score", label)] and [re.search(name + "--score", label)] on the labels of the table. *)
Lemma search_score tail n' suf : good_tail tail -> name_form tail n' -> In suf suffixes ->
  re_search "score" (n' ++ suf) = true <-> suf = "--score"%string.
Proof.
  intros Ht Hn' Hs. rewrite re_search_spec. split.
  - intros (a & m & rest & E & Hm). apply wmatch_plain in Hm; [subst m|exact score_plain].
    rewrite chars_app in E. cbn [chars app] in E. apply nosc_locate in E; [|eapply name_nosc; eassumption|now apply suffix_not_c].
    destruct E as (a' & -> & E). apply suffix_sc in E; tauto.
  - intros ->. exists (chars n' ++ ["-"; "-"]%char), (chars "score"), []. split.
    + rewrite chars_app, app_nil_r, <- app_assoc. reflexivity.
    + repeat constructor.
Qed.
Lemma no_newline tail n : good_tail tail -> name_form tail n -> ~ In (ascii_of_nat 10) (chars n).
Proof. intros Ht Hn. eapply name_not; [exact Ht|exact Hn|nodig|nin]. Qed.
Lemma search_full tail n n' suf : good_tail tail -> name_form tail n -> name_form tail n' -> In suf suffixes ->
  re_search (n ++ "--score") (n' ++ suf) = true <-> n = n' /\ suf = "--score"%string.
Proof.
  intros Ht Hn Hn' Hs. split.
  - rewrite re_search_spec. intros (a & m & rest & E & Hm). rewrite chars_app in Hm. apply Forall2_app_l in Hm.
    destruct Hm as (m1 & m2 & -> & Hm1 & Hm2). apply wmatch_plain in Hm2; [subst m2|unfold plain; nin].
    rewrite chars_app in E.
    assert (a ++ (m1 ++ chars "--score") ++ rest = (a ++ m1 ++ ["-"; "-"]%char) ++ "s"%char :: "c"%char :: (chars "ore" ++ rest)) as R
      by (rewrite <- !app_assoc; reflexivity).
    rewrite R in E. apply nosc_locate in E; [|eapply name_nosc; eassumption|now apply suffix_not_c].
    destruct E as (a' & E1 & E2). apply suffix_sc in E2; [|assumption]. destruct E2 as (-> & -> & _).
    rewrite app_assoc in E1. apply app_inv_tail in E1. split; [|reflexivity]. eapply name_match; eassumption.
  - intros [-> ->]. apply re_search_refl. rewrite chars_app, in_app_iff. intros [H|H]; revert H; [|nin].
    eapply no_newline; eassumption.
Qed.
Lemma search_full_trim tail n lab : good_tail tail -> name_form tail n ->
  In lab ["trim_percent"; "trim_low"; "trim_high"]%string -> re_search (n ++ "--score") lab = false.
Proof.
  intros Ht Hn Hl. apply not_true_iff_false. rewrite re_search_spec. intros (a & m & rest & E & Hm).
  rewrite chars_app in Hm. apply Forall2_app_l in Hm. destruct Hm as (m1 & m2 & -> & Hm1 & Hm2).
  apply wmatch_plain in Hm2; [subst m2|unfold plain; nin].
  assert (In "s"%char (chars lab)) as Hs by (rewrite E; apply in_app_iff; right; apply in_app_iff; left; apply in_app_iff; right; yin).
  destruct Hl as [<-|[<-|[<-|[]]]]; revert Hs; nin.
Qed.

(** Removing the suffix. *)
Lemma starts_with_spec s text : starts_with s text = true -> exists rest, chars text = chars s ++ rest.
Proof.
  revert text. induction s as [|c s IH]; intros text H; [eexists; reflexivity|]. destruct text as [|d text]; [discriminate|].
  cbn in H. apply andb_true_iff in H. destruct H as [H1 H2]. apply Ascii.eqb_eq in H1. subst. destruct (IH _ H2) as [r E].
  exists r. cbn. congruence.
Qed.
Lemma str_remove_suffix n : nosc (chars n) -> str_remove "--score" (n ++ "--score") = n.
Proof.
  unfold str_remove. induction n as [|c n IH]; intro Hn; [reflexivity|].
  assert (nosc (chars n)) as Hn' by (intros x y E; apply (Hn (c :: x) y); cbn; congruence).
  cbn [String.append]. cbn [str_remove_from]. destruct (starts_with _ _) eqn:E.
  - exfalso. apply starts_with_spec in E. destruct E as [rest E].
    change (chars (String c (n ++ "--score"))) with (c :: chars (n ++ "--score")) in E. rewrite chars_app in E.
    change (chars "--score" ++ rest) with (["-"; "-"]%char ++ "s"%char :: "c"%char :: (chars "ore" ++ rest)) in E.
    rewrite app_comm_cons in E. apply nosc_locate in E; [|exact Hn|intros y; discriminate].
    destruct E as (a' & E1 & E2). apply (suffix_sc "--score") in E2; [|cbn; tauto]. destruct E2 as (_ & -> & _).
    apply (f_equal (@length _)) in E1. cbn in E1. rewrite app_length in E1. cbn in E1. lia.
  - f_equal. apply IH. assumption.
Qed.

(** ** The names made by [_get_smoother_names] *)
Lemma append_nil_r s : (s ++ "")%string = s.
Proof. induction s; cbn; congruence. Qed.
Lemma pad_digits_length k : forall x, String.length (pad_digits k x) = k.
Proof.
  induction k; intro x; [reflexivity|]. cbn [pad_digits].
  destruct (str_of_digit (x mod 10)) as [c ->]; [apply Z.mod_pos_bound; lia|].
  assert (forall a b, String.length (a ++ b) = (String.length a + String.length b)%nat) as L by (clear; induction a; cbn; auto).
  rewrite L, IHk. cbn. lia.
Qed.
Lemma format_fixed_decimals k q : Decimals k (format_fixed k q).
Proof.
  unfold format_fixed. fold (fmt_mant k q). pose proof (fmt_mant_nonneg k q). set (m := fmt_mant k q) in *.
  assert (0 < 10 ^ Z.of_nat k)%Z as Hp by (apply Z.pow_pos_nonneg; lia).
  exists ((if (Qnum q <? 0)%Z then "-" else "") ++ str_of_int (m / 10 ^ Z.of_nat k))%string, (pad_digits k (m mod 10 ^ Z.of_nat k)).
  split; [|split; [apply pad_digits_length|split]].
  - assert (forall a b c, ((a ++ b) ++ c)%string = (a ++ b ++ c)%string) as L by (clear; induction a; cbn; congruence).
    rewrite L. reflexivity.
  - rewrite letters_chars, chars_app. apply Forall_app. split.
    + destruct (_ <? _)%Z; [constructor; [now right|constructor]|constructor].
    + eapply Forall_impl; [|apply str_of_int_chars]. exact (fun a H => H).
  - rewrite letters_chars. apply pad_digits_digits. apply Z.mod_pos_bound. exact Hp.
Qed.
Section Names.
Context {F : Type}.
Variables (fmt3 : F -> string) (dflt : list F).
Hypothesis Hfmt : forall x, Decimals 3 (fmt3 x).
Definition smooth_tail (s : @smooths_arg F) : string := match s with SHeuristic => "_heuristic" | SList _ => "" end.
Lemma smooth_tail_good s : good_tail (smooth_tail s).
Proof. destruct s; [left|right]; reflexivity. Qed.
Lemma names_form polys ss degs gomp : Forall (name_form (smooth_tail ss)) (get_smoother_names fmt3 dflt polys ss degs gomp).
Proof.
  unfold get_smoother_names. apply Forall_app. split; [|apply Forall_app; split].
  - apply Forall_forall. intros n H. apply in_map_iff in H. destruct H as (d & <- & _). constructor.
  - apply Forall_forall. intros n H. destruct ss; apply in_flat_map in H; destruct H as (s & _ & H);
      apply in_map_iff in H; destruct H as (d & <- & _); cbn [smooth_tail].
    + rewrite <- (append_nil_r (fmt3 s)). now constructor.
    + now constructor.
  - destruct gomp; repeat constructor.
Qed.
End Names.
