(** C61 and C72: the helpers at the end of plot.py. *)
From Coq Require Import String List ZArith Bool Arith Lia Reals Lra Permutation QArith_base.
From Verif Require Import Base S_EigVals S_Quad S_Files M_Step M_Quad M_Plot P_Order P_EigVals P_Trim P_TrimStat P_Ols P_Loops.
Import ListNotations.
Local Notation length := List.length.

Section Mode.
Context {P Fig Axes : Type} (makes : P -> result unit) (saves : P -> option Z -> result unit).
Notation handle := (@handle_plot_mode P Fig Axes makes saves).

(** A figure is written only in Save mode with an output path, once, to that path and with that resolution, after its folders were
    made. *)
Theorem C61_saves mode fig axes outfile dpi p d :
  In (SaveFigure p d) (fst (handle mode fig axes outfile dpi)) ->
  mode = Mode Save /\ outfile = Some p /\ d = dpi /\ makes p = Ok tt /\
  exists rest, fst (handle mode fig axes outfile dpi) = MakeParents p :: PrintSaving p :: SaveFigure p d :: rest /\ (rest = [] \/ rest = [CloseFigure]).
Proof.
  destruct mode as [[| | | |]|]; cbn [handle_plot_mode fst In]; try (intuition discriminate).
  destruct outfile as [o|]; cbn [fst In]; [|intuition].
  destruct (makes o) as [[]|e] eqn:E; cbn [fst In]; [|intuition discriminate].
  destruct (saves o dpi) as [[]|e] eqn:E2; cbn [fst In]; intros H;
    (assert (K : SaveFigure o dpi = SaveFigure p d) by (intuition (congruence || discriminate)); injection K as <- <-);
    (split; [reflexivity|]; split; [reflexivity|]; split; [reflexivity|]; split; [exact E|]; eexists; split; [reflexivity|]; tauto).
Qed.

(** Which calls raise, and with what; otherwise the figure and axes come back unchanged. *)
Theorem C61_result mode fig axes outfile dpi :
  match snd (handle mode fig axes outfile dpi) with
  | Ok r => r = (fig, axes) /\ mode <> NotAMode /\ (mode = Mode Save -> exists p, outfile = Some p /\ In (SaveFigure p dpi) (fst (handle mode fig axes outfile dpi)))
  | Raise e => (mode = NotAMode /\ e = ValueError) \/ (mode = Mode Save /\ outfile = None /\ e = ValueError) \/
               (exists p, mode = Mode Save /\ outfile = Some p /\ (makes p = Raise e \/ saves p dpi = Raise e))
  end /\
  (mode = NotAMode \/ (mode = Mode Save /\ outfile = None) -> handle mode fig axes outfile dpi = ([], Raise ValueError)).
Proof.
  split; [|intros [-> | [-> ->]]; reflexivity].
  destruct mode as [[| | | |]|]; cbn [handle_plot_mode snd fst];
    try (split; [reflexivity|]; split; [discriminate|]; discriminate); [|left; split; reflexivity].
  destruct outfile as [o|]; cbn [fst snd]; [|right; left; repeat split].
  destruct (makes o) as [[]|e] eqn:E; cbn [fst snd]; [|right; right; exists o; repeat split; left; exact E].
  destruct (saves o dpi) as [[]|e] eqn:E2; cbn [fst snd].
  - split; [reflexivity|]. split; [discriminate|]. intros _. exists o. split; [reflexivity|]. cbn [In]. tauto.
  - right. right. exists o. repeat split. right. exact E2.
Qed.

(** What else happens: a window is shown only by the two showing modes, and waits only in the blocking one; the figure is closed by the
    test mode and after a successful save, and never otherwise; nothing at all happens in the returning mode. *)
Theorem C61_effects mode fig axes outfile dpi :
  let calls := fst (handle mode fig axes outfile dpi) in
  (forall b, In (Show b) calls <-> (mode = Mode Block /\ b = true) \/ (mode = Mode NoBlock /\ b = false)) /\
  (In Pause calls <-> mode = Mode NoBlock) /\
  (In CloseFigure calls <-> mode = Mode Test \/ (mode = Mode Save /\ snd (handle mode fig axes outfile dpi) = Ok (fig, axes))) /\
  (In ClearFigure calls <-> mode = Mode Test) /\ (In ClearAxes calls <-> mode = Mode Test) /\
  (forall p, In (MakeParents p) calls <-> mode = Mode Save /\ outfile = Some p) /\
  (mode = Mode Return -> calls = []).
Proof.
  cbv zeta. destruct mode as [[| | | |]|]; cbn [handle_plot_mode fst snd In];
    try (repeat split; intros; intuition (try congruence); fail).
  destruct outfile as [o|]; cbn [fst snd In]; [|repeat split; intros; intuition congruence].
  destruct (makes o) as [[]|e]; cbn [fst snd In]; [|repeat split; intros; intuition congruence].
  destruct (saves o dpi) as [[]|e]; cbn [fst snd In]; repeat split; intros; intuition congruence.
Qed.
End Mode.
Print Assumptions C61_effects.
Print Assumptions C61_saves.
Print Assumptions C61_result.

Example C61_example :
  let ok := fun _ : string => Ok tt in let sv := fun (_ : string) (_ : option Z) => Ok tt in
  handle_plot_mode ok sv (Mode Save) 7%Z true (Some "out/a.png"%string) (Some 300%Z)
    = ([MakeParents "out/a.png"%string; PrintSaving "out/a.png"%string; SaveFigure "out/a.png"%string (Some 300%Z); CloseFigure], Ok (7%Z, true)) /\
  snd (handle_plot_mode ok sv (Mode Save) 7%Z true None None) = Raise ValueError /\
  snd (handle_plot_mode ok sv NotAMode 7%Z true (Some "a"%string) None) = Raise ValueError /\
  snd (handle_plot_mode (fun _ => Raise GenericException) sv (Mode Save) 7%Z true (Some "a"%string) None) = Raise GenericException.
Proof. repeat split. Qed.

(** ** Bin sizes *)
Local Open Scope R_scope.

Definition below (e : R) (l : list R) : nat := length (filter (fun v => nlt v e) l).

Lemma count_in_none e l : CountIn None e l = below e l.
Proof. reflexivity. Qed.
Lemma count_in_some a e l : a <= e -> (CountIn (Some a) e l + below a l = below e l)%nat.
Proof.
  intro H. unfold CountIn, below. induction l as [|v l IH]; [reflexivity|]. cbn [filter].
  destruct (Rle_dec a v) as [h1 | h1], (Rlt_dec v e) as [h2 | h2]; cbn [andb].
  - rewrite (proj2 (nlt_R v e)) by lra. rewrite (proj2 (nlt_R_false v a)) by lra. cbn [length]. lia.
  - rewrite (proj2 (nlt_R_false v e)) by lra. rewrite (proj2 (nlt_R_false v a)) by lra. exact IH.
  - rewrite (proj2 (nlt_R v e)) by lra. rewrite (proj2 (nlt_R v a)) by lra. cbn [length]. lia.
  - lra.
Qed.
Lemma count_in_perm lo hi l l' : Permutation l l' -> CountIn lo hi l = CountIn lo hi l'.
Proof.
  unfold CountIn. set (f := fun v : R => _). clearbody f. induction 1; cbn [filter]; try congruence.
  - destruct (f x); cbn [length]; congruence.
  - destruct (f x), (f y); reflexivity.
Qed.

(** The counts that should be found. *)
Fixpoint bin_counts (vals : list R) (prev : option R) (ends : list R) : list R :=
  match ends with [] => [] | e :: t => INR (CountIn prev e vals) :: bin_counts vals (Some e) t end.

Lemma count_below_INR vals e : count_below vals e = INR (below e vals).
Proof. unfold count_below, below. cbn. now rewrite <- INR_IZR_INZ. Qed.

Fixpoint AscendingFrom (prev : option R) (ends : list R) : Prop :=
  match ends with [] => True | e :: t => (match prev with None => True | Some a => a <= e end) /\ AscendingFrom (Some e) t end.

Lemma bin_loop_counts vals ends : forall prev counts warned,
  AscendingFrom prev ends ->
  (match prev with None => counts = [] | Some a => counts <> [] /\ Rsum counts = INR (below a vals) end) ->
  fst (bin_loop vals ends counts warned) = counts ++ bin_counts vals prev ends /\
  Rsum (fst (bin_loop vals ends counts warned)) = match last_opt ends with None => Rsum counts | Some e => INR (below e vals) end.
Proof.
  induction ends as [|e t IH]; intros prev counts warned Hasc Hp; [cbn; rewrite app_nil_r; split; reflexivity|].
  cbn [bin_loop bin_counts]. set (i := length counts).
  set (c := if Nat.eqb i 0 then _ else _). destruct Hasc as [Hle Hasc].
  assert (Hc : c = INR (CountIn prev e vals) /\ Rsum (counts ++ [c]) = INR (below e vals)).
  { unfold c, i. destruct prev as [a|].
    - destruct Hp as [Hne Hs]. destruct counts as [|c0 counts']; [congruence|]. cbn [length Nat.eqb].
      rewrite nsum_R, Hs, count_below_INR. pose proof (count_in_some a e vals Hle) as K. apply (f_equal INR) in K. rewrite plus_INR in K.
      split; [change (INR (below e vals) - INR (below a vals) = INR (CountIn (Some a) e vals)); lra|].
      rewrite Rsum_app, Hs. cbn [Rsum]. change (nsub (INR (below e vals)) (INR (below a vals))) with (INR (below e vals) - INR (below a vals)). lra.
    - subst counts. cbn [length Nat.eqb]. rewrite count_below_INR. split; [reflexivity|]. cbn [app Rsum]. lra. }
  destruct Hc as [Hc Hs].
  destruct (IH (Some e) (counts ++ [c]) (if nlt (ndiv (nofZ 4) (nofZ 10)) (ndiv c (nofZ (Z.of_nat (length vals)))) then warned ++ [i] else warned) Hasc) as [K1 K2].
  { split; [intro E; apply app_eq_nil in E; destruct E; discriminate | exact Hs]. }
  split.
  - rewrite K1. rewrite <- app_assoc. cbn [app]. now rewrite Hc.
  - rewrite K2. destruct t as [|e' t']; [exact Hs|].  assert (Hl : last_opt (e :: e' :: t') = last_opt (e' :: t')) by (apply (last_opt_app [e]); discriminate). rewrite Hl. destruct (last_opt (e' :: t')) eqn:El; [reflexivity|].
    unfold last_opt in El. apply nth_error_None in El. cbn [length] in El. lia.
Qed.

Lemma bin_loop_warned vals ends : forall counts warned i,
  (forall j, In j warned <-> (j < length counts)%nat /\ nlt (ndiv (nofZ 4) (nofZ 10)) (ndiv (nth j counts 0) (nofZ (Z.of_nat (length vals)))) = true) ->
  let '(cs, ws) := bin_loop vals ends counts warned in
  In i ws <-> (i < length cs)%nat /\ nlt (ndiv (nofZ 4) (nofZ 10)) (ndiv (nth i cs 0) (nofZ (Z.of_nat (length vals)))) = true.
Proof.
  induction ends as [|e t IH]; intros counts warned i H; [apply H|]. cbn [bin_loop]. set (c := if Nat.eqb (length counts) 0 then _ else _).
  apply IH. intro j. rewrite app_length. cbn [length].
  assert (Hj : (j < length counts + 1)%nat <-> (j < length counts)%nat \/ j = length counts) by lia.
  destruct (nlt (ndiv (nofZ 4) (nofZ 10)) (ndiv c (nofZ (Z.of_nat (length vals))))) eqn:Ef; [rewrite in_app_iff|]; rewrite H, Hj; clear H Hj; split.
  - intros [[H1 H2] | [<- | []]].
    + split; [now left|]. now rewrite app_nth1.
    + split; [now right|]. rewrite app_nth2, Nat.sub_diag by lia. exact Ef.
  - intros [[H1 | ->] H2]; [left; rewrite app_nth1 in H2 by exact H1; tauto | right; now left].
  - intros [H1 H2]. split; [now left|]. now rewrite app_nth1.
  - intros [[H1 | ->] H2]; [rewrite app_nth1 in H2 by exact H1; tauto|]. rewrite app_nth2, Nat.sub_diag in H2 by lia. cbn [nth] in H2. congruence.
Qed.

Lemma bin_counts_nth vals ends : forall prev i, (i < length ends)%nat ->
  nth i (bin_counts vals prev ends) 0 = INR (CountIn (match i with O => prev | S j => Some (nth j ends 0) end) (nth i ends 0) vals).
Proof.
  induction ends as [|e t IH]; intros prev i Hi; cbn [length] in Hi; [lia|]. destruct i as [|i]; [reflexivity|].
  cbn [bin_counts nth]. rewrite IH by lia. destruct i; reflexivity.
Qed.
Lemma bin_counts_length vals ends : forall prev, length (bin_counts vals prev ends) = length ends.
Proof. induction ends as [|e t IH]; intro prev; cbn; [reflexivity | now rewrite IH]. Qed.

(** The i-th right end (numbered from 0) of [bins - 1] equal bins over [lo, hi]. *)
Definition End (lo hi : R) (n i : nat) : R := lo + INR (i + 1) * ((hi - lo) / (INR n - 1)).

Lemma asc_nth ends : forall prev, (forall i, (S i < length ends)%nat -> nth i ends 0 <= nth (S i) ends 0) ->
  (match prev with None => True | Some a => (0 < length ends)%nat -> a <= nth 0 ends 0 end) -> AscendingFrom prev ends.
Proof.
  induction ends as [|e t IH]; intros prev H Hp; [exact I|]. cbn [AscendingFrom]. split.
  - destruct prev; [apply Hp; cbn; lia | exact I].
  - apply IH.
    + intros i Hi. apply (H (S i)). cbn [length]. lia.
    + intro Ht. apply (H 0%nat). cbn [length]. lia.
Qed.

(** The counts, the warnings, and the number of values counted at all. *)
Theorem C72_counts (vals : list R) (lo hi : R) (n : nat) :
  In lo vals -> In hi vals -> (forall v, In v vals -> lo <= v <= hi) -> (2 <= n)%nat ->
  exists counts warned, validate_bin_sizes vals (Z.of_nat n) = Ok (counts, warned) /\ length counts = (n - 1)%nat /\
    (forall i, (i < n - 1)%nat ->
       nth i counts 0 = INR (CountIn (match i with O => None | S j => Some (End lo hi n j) end) (End lo hi n i) vals) /\
       (In i warned <-> 4 / 10 < nth i counts 0 / INR (length vals))) /\
    (forall i, In i warned -> (i < n - 1)%nat) /\
    Rsum counts = INR (CountIn None hi vals).
Proof.
  intros Hlo Hhi Hall Hn.
  assert (Hperm : Permutation vals (np_sort vals)) by apply np_sort_perm.
  destruct (np_sort vals) as [|a s] eqn:Es.
  { apply Permutation_sym, Permutation_nil in Hperm. subst vals. destruct Hlo. }
  assert (Ea : a = lo).
  { destruct (np_sort_head_min vals a) as [Ha Hm]; [now rewrite Es|]. pose proof (Hall a Ha). pose proof (Hm lo Hlo). lra. }
  assert (Eb : last_opt (a :: s) = Some hi).
  { destruct (last_opt (a :: s)) as [b|] eqn:El.
    - destruct (np_sort_last_max vals b) as [Hb Hm]; [now rewrite Es|]. pose proof (Hall b Hb). pose proof (Hm hi Hhi). f_equal. lra.
    - unfold last_opt in El. apply nth_error_None in El. cbn [length] in El. lia. }
  unfold validate_bin_sizes. rewrite Es, Eb. subst a. set (sv := lo :: s) in *.
  replace (Z.of_nat n <? 0)%Z with false by (symmetry; apply Z.ltb_ge; lia). rewrite Nat2Z.id.
  set (ends := tl (linspace lo hi n)).
  assert (Hlen : length ends = (n - 1)%nat).
  { unfold ends. pose proof (linspace_length lo hi n) as K. destruct (linspace lo hi n); cbn [tl length] in *; lia. }
  assert (Hnth : forall i, (i < n - 1)%nat -> nth i ends 0 = End lo hi n i).
  { intros i Hi. pose proof (linspace_nth lo hi n (i + 1) Hn) as K. unfold ends. pose proof (linspace_length lo hi n) as K2.
    destruct (linspace lo hi n) as [|x l]; cbn [length] in K2; [lia|]. cbn [tl]. rewrite Nat.add_1_r in K. cbn [nth] in K.
    unfold End. rewrite Nat.add_1_r. apply K. lia. }
  assert (Hn1 : 0 < INR n - 1) by (apply le_INR in Hn; cbn [INR] in Hn; lra).
  assert (Hlh : lo <= hi) by (apply (Hall lo Hlo)).
  assert (Hst : 0 <= (hi - lo) / (INR n - 1)) by (apply Rle_mult_inv_pos; lra).
  assert (Hasc : AscendingFrom None ends).
  { apply asc_nth; [|exact I]. intros i Hi. rewrite !Hnth by lia. unfold End.
    assert (INR (S i + 1) = INR (i + 1) + 1) as -> by (replace (S i + 1)%nat with (S (i + 1)) by lia; apply S_INR). nra. }
  destruct (bin_loop_counts sv ends None [] [] Hasc eq_refl) as [K1 K2].
  pose proof (fun i => bin_loop_warned sv ends [] [] i) as K3.
  destruct (bin_loop sv ends [] []) as [cs ws]. cbn [fst app] in K1, K2. exists cs, ws.
  assert (Hcl : length cs = (n - 1)%nat) by (rewrite K1, bin_counts_length; exact Hlen).
  assert (Hw : forall i, In i ws <-> (i < n - 1)%nat /\ 4 / 10 < nth i cs 0 / INR (length vals)).
  { intro i. rewrite K3; [|intro j; cbn; split; [tauto | lia]]. rewrite Hcl, nlt_R, (Permutation_length Hperm), INR_IZR_INZ. reflexivity. }
  split; [reflexivity|]. split; [exact Hcl|]. split; [|split].
  - intros i Hi. split; [|rewrite Hw; tauto].
    rewrite K1, bin_counts_nth by lia. rewrite Hnth by exact Hi. f_equal. rewrite (count_in_perm _ _ _ _ Hperm). f_equal.
    destruct i as [|j]; [reflexivity|]. now rewrite Hnth by lia.
  - intros i Hi. now apply Hw.
  - rewrite K2. assert (El : last_opt ends = Some hi).
    { unfold last_opt. rewrite Hlen. rewrite (nth_error_nth' ends 0) by lia. f_equal. rewrite Hnth by lia. unfold End.
      replace (n - 1 - 1 + 1)%nat with (n - 1)%nat by lia. rewrite minus_INR by lia. cbn [INR]. field. lra. }
    rewrite El. rewrite <- count_in_none. f_equal. symmetry. apply count_in_perm. exact Hperm.
Qed.
Print Assumptions C72_counts.

(** Degenerate calls. *)
Theorem C72_degenerate (vals : list R) (bins : Z) :
  (vals = [] -> validate_bin_sizes vals bins = Raise IndexError) /\
  (vals <> [] -> (bins < 0)%Z -> validate_bin_sizes vals bins = Raise ValueError) /\
  (vals <> [] -> (bins = 0 \/ bins = 1)%Z -> validate_bin_sizes vals bins = Ok ([], [])).
Proof.
  assert (H : vals <> [] -> exists a s b, np_sort vals = a :: s /\ last_opt (a :: s) = Some b).
  { intro H. destruct (np_sort vals) as [|a s] eqn:E.
    - pose proof (np_sort_length vals) as K. rewrite E in K. destruct vals; [congruence | discriminate].
    - exists a, s. destruct (last_opt (a :: s)) as [b|] eqn:El; [exists b; split; reflexivity|].
      unfold last_opt in El. apply nth_error_None in El. cbn [length] in El. lia. }
  split; [intros ->; reflexivity|]. split; intros Hv Hb; destruct (H Hv) as (a & s & b & E & El); unfold validate_bin_sizes; rewrite E, El.
  - now rewrite (proj2 (Z.ltb_lt _ _) Hb).
  - destruct Hb as [-> | ->]; reflexivity.
Qed.
Print Assumptions C72_degenerate.

Local Close Scope R_scope.
(** Five values, two bins over [0, 4]: bin 0 = [.., 2) holds two values, bin 1 = [2, 4) one; the two maxima are in no bin. *)
Example C72_example : validate_bin_sizes (F := QArith_base.Q) (map inject_Z [4; 0; 1; 4; 2]%Z) 3
  = Ok (map inject_Z [2; 1]%Z, []) /\
  validate_bin_sizes (F := QArith_base.Q) (map inject_Z [8; 0; 1; 2; 1]%Z) 3 = Ok (map inject_Z [4; 0]%Z, [0%nat]).
Proof. split; vm_compute; reflexivity. Qed.
