(** Property theorems about the unfolding-fit figure, the four-panel figure of observables and the values returned by the plotting methods. *)
From Coq Require Import String List ZArith Bool Arith Lia Reals Lra Permutation Sorted.
From Coquelicot Require Import Coquelicot.
From Verif Require Import Base S_Order S_EigVals S_Trim S_Quad S_Loops S_Draw S_Ensemble S_Brody M_Step M_EigVals M_Quad M_Trim M_Smooth M_Loops M_Ensemble M_Brody
  M_Draw M_Observ P_Order P_Step P_EigVals P_Trim P_TrimStat P_Ols P_Loops P_Delta P_Report P_Brody P_Draw P_DrawLong T_Loops T_Draw.
Import ListNotations.
Local Open Scope R_scope.
Local Notation length := List.length.

(** ** C86: the unfolding-fit figure *)

Lemma count_strict (eigs : list R) : StronglySorted Rlt eigs -> forall i e, nth_error eigs i = Some e -> CountLe eigs e = Z.of_nat (S i).
Proof.
  induction 1 as [|a l Hs IH Ha]; intros i e He; [destruct i; discriminate|]. destruct i as [|i]; cbn in He.
  - injection He as <-. cbn [CountLe]. assert (nle a a = true) as -> by (apply nle_R_true; lra).
    rewrite CountLe_none; [reflexivity|]. eapply Forall_impl; [|exact Ha]. cbn beta. intros x Hx. destruct (nle x a) eqn:E; [|reflexivity].
    apply nle_R_true in E. lra.
  - cbn [CountLe]. rewrite (IH _ _ He). assert (nle a e = true) as ->; [|lia]. apply nle_R_true. rewrite Forall_forall in Ha.
    left. apply Ha. eapply nth_error_In. exact He.
Qed.

Lemma nth_idx n i : (i < n)%nat -> nth_error (map INR (seq 0 n)) i = Some (INR i).
Proof. intro H. rewrite nth_error_map, (nth_error_nth' _ 0%nat) by (rewrite seq_length; lia). rewrite seq_nth by lia. reflexivity. Qed.

Lemma nth_combine {A B} (l : list A) (l' : list B) i a b : nth_error l i = Some a -> nth_error l' i = Some b -> nth_error (combine l l') i = Some (a, b).
Proof. revert l l'. induction i as [|i IH]; intros [|x l] [|y l'] K Hv; cbn in *; try discriminate; [congruence|now apply IH]. Qed.

(** The line labelled "Step Function" is one below the step function at every eigenvalue, and the point sizes, shown as differences,
    are taken from that line: an unfolding that equals the step function is shown with difference 1 everywhere. *)
Theorem C86_off_by_one_refuted (eigs u : list R) : StronglySorted Rlt eigs -> length u = length eigs ->
  exists xs ys fig sizes, unfolded_fit_plot u = (fig, sizes) /\ In (Line "Step Function" xs ys) fig /\ In (Line "Unfolded" xs u) fig /\
    In (Points "heat" (Some "MSE"%string) xs u) fig /\ length sizes = length u /\
    (forall i e v, nth_error eigs i = Some e -> nth_error u i = Some v ->
       nth_error ys i = Some (IZR (CountLe eigs e) - 1) /\ nth_error sizes i = Some (Rabs (v - (IZR (CountLe eigs e) - 1)))) /\
    (u = map (fun e => IZR (CountLe eigs e)) eigs -> sizes = repeat 1 (length eigs)).
Proof.
  intros Hs Hl. unfold unfolded_fit_plot. cbv zeta. set (idx := map INR (seq 0 (length u))).
  exists idx, idx. eexists _, _. split; [reflexivity|]. split; [now left|]. split; [right; now left|]. split; [right; right; now left|].
  assert (length idx = length u) as Hi by (unfold idx; now rewrite map_length, seq_length).
  split; [rewrite map_length, combine_length; lia|].
  assert (forall i e v, nth_error eigs i = Some e -> nth_error u i = Some v ->
    nth_error idx i = Some (IZR (CountLe eigs e) - 1) /\
    nth_error (map (fun p => Rabs (fst p - snd p)) (combine idx u)) i = Some (Rabs (v - (IZR (CountLe eigs e) - 1)))) as G.
  { intros i e v He Hv. assert (i < length u)%nat as Hlt by (apply nth_error_Some; congruence).
    assert (nth_error idx i = Some (IZR (CountLe eigs e) - 1)) as K.
    { unfold idx. rewrite nth_idx by assumption. rewrite (count_strict _ Hs _ _ He). rewrite <- INR_IZR_INZ, S_INR. f_equal. lra. }
    split; [exact K|]. rewrite nth_error_map.
    assert (nth_error (combine idx u) i = Some (IZR (CountLe eigs e) - 1, v)) as ->.
    { apply nth_combine; assumption. }
    cbn. f_equal. rewrite Rabs_minus_sym. reflexivity. }
  split; [exact G|]. intro E. apply nth_ext with (d := 0) (d' := 0).
  - rewrite map_length, combine_length, repeat_length. lia.
  - intros n Hn. rewrite map_length, combine_length in Hn. assert (n < length eigs)%nat as Hn' by lia.
    destruct (nth_error eigs n) as [e|] eqn:He; [|apply nth_error_None in He; lia].
    assert (nth_error u n = Some (IZR (CountLe eigs e))) as Hv by (rewrite E, nth_error_map, He; reflexivity).
    destruct (G _ _ _ He Hv) as [_ K]. apply nth_error_nth with (d := 0) in K. rewrite K.
    assert (forall m k, (k < m)%nat -> nth k (repeat 1 m) 0 = 1) as R1 by (induction m; intros [|k] ?; cbn; try lia; auto; apply IHm; lia).
    rewrite R1 by assumption. replace (_ - _) with 1 by ring. apply Rabs_R1.
Qed.
Print Assumptions C86_off_by_one_refuted.
Example C86_ex : StronglySorted Rlt [-2; 0; 5] /\ [1; 2; 3] = map (fun e => IZR (CountLe [-2; 0; 5] e)) [-2; 0; 5] /\
  snd (unfolded_fit_plot [1; 2; 3]) = [1; 1; 1] /\ snd (unfolded_fit_plot [0; 1; 2]) = [0; 0; 0].
Proof.
  split; [repeat constructor; lra|]. split.
  - cbn [map]. assert (StronglySorted Rlt [-2; 0; 5]) as H by (repeat constructor; lra).
    rewrite (count_strict _ H 0 (-2)), (count_strict _ H 1 0), (count_strict _ H 2 5) by reflexivity. reflexivity.
  - cbn. split; repeat f_equal; unfold Rabs; destruct (Rcase_abs _); lra.
Qed.

(** ** C87: the figure of observables *)
Section C87.
Context (gamma : R -> R) (opt : (R -> R) -> R -> R -> bool * R) (BW : Type) (scott : BW) (kde_gau : BW -> list R -> option (R -> R))
  (kde_default : list R -> R -> R) (eg : R) (Si Ci : R -> R) (Si_inf : R) (quad : R -> R).
Local Notation figure := (plot_observables gamma opt BW scott kde_gau kde_default eg Si Ci Si_inf quad).

(** What each panel shows.  [value], [conv] give, row by row, what was computed for that L. *)
Definition RowsOf (L value : list R) (conv : list bool) (a : artist) : Prop :=
  exists (b : bool) lab, a = Points (if b then "black" else "red") lab (Rows b conv L) (Rows b conv value) /\
    ((In false conv /\ lab = Some (if b then "converged" else "non-converged")%string) \/ (~ In false conv /\ lab = None)).
Definition SpacingPanel (srt : list R) (ens : list string) (fig : list artist) : Prop :=
  exists lo hi, let kept := AtMost 5 (Gaps srt) in let g := EvenGrid lo hi (Z.to_nat 10000) in
    IsMin kept lo /\ IsMax kept hi /\ NoDup (map artist_label fig) /\
    forall a, In a fig <->
      a = Hist kept 50 \/
      (exists e, In (ens_key e) ens /\ a = Line (ens_label e) g (nnsd e 0 3 (Z.to_nat 10000) (Some g))) \/
      (exists v f, v = Positive (Gaps srt) /\ v <> [] /\
         (kde_gau scott v = Some f \/ kde_gau scott v = None /\ f = kde_default v) /\ a = Line "Kernel Density Estimate" g (map f g)).
Definition RigidityPanel (u L delta : list R) (conv : list bool) (ens : list string) (fig : list artist) : Prop :=
  forall a, In a fig <-> RowsOf L delta conv a \/
    exists e, In (ens_key e) ens /\ a = Line (ens_label e) L (map (fun l => rigidity_at eg e (match e with Poisson => l | _ => l / Rmean (Gaps u) end)) L).
Definition VariancePanel (L sigma : list R) (conv : list bool) (ens : list string) (fig : list artist) : Prop :=
  forall a, In a fig <-> RowsOf L sigma conv a \/ exists e, In (ens_key e) ens /\ a = Line (ens_label e) L (map (VarianceCurve eg Si Ci e) L).

Lemma spacing_panel u srt ens : Permutation u srt -> Ascending srt -> AtMost 5 (Gaps srt) <> [] ->
  exists fig, spacings_plot gamma opt BW kde_gau kde_default u 50 true 5 false scott false "spacing" ens OneAxes = Ok fig /\ SpacingPanel srt ens fig.
Proof.
  intros Hp Ha Hne. assert (Kept 5 (Gaps srt) = AtMost 5 (Gaps srt)) as EK by (unfold Kept; destruct (Rlt_dec 0 5); [reflexivity|lra]).
  destruct (C77_errors gamma opt BW kde_gau kde_default u srt 50 true 5 false scott false "spacing" ens Hp Ha) as [_ H].
  rewrite EK in H. destruct (H Hne) as [[_ H'] _]. destruct (H' (or_introl eq_refl)) as [fig E]. exists fig. split; [exact E|].
  destruct (C77_figure gamma opt BW kde_gau kde_default _ _ _ _ _ _ _ _ _ _ _ Hp Ha E) as (lo & hi & K). cbv zeta in K. rewrite EK in K.
  exists lo, hi. cbv zeta. destruct K as (K1 & K2 & K3 & K4). split; [assumption|]. split; [assumption|]. split; [assumption|].
  intro a. rewrite K4. split.
  - intros [?|[?|[(_ & ?)|(? & _)]]]; [auto|auto|auto|discriminate].
  - intros [?|[?|?]]; [auto|auto|]. right. right. left. split; [reflexivity|assumption].
Qed.

Lemma scatter_rows_of df conv L y a : d_converged df = Some conv -> ScatterOf df conv L y a <-> RowsOf L y conv a.
Proof.
  intro E. unfold ScatterOf, RowsOf. split; intros (b & lab & -> & H); exists b, lab; (split; [reflexivity|]).
  - destruct H as [(_ & H1 & H2)|(H1 & H2)]; [left; auto|right]. split; [|assumption]. intro. apply H1. rewrite E. split; [discriminate|assumption].
  - destruct H as [(H1 & H2)|(H1 & H2)]; [left|right].
    + rewrite E. repeat split; [discriminate|assumption|assumption].
    + split; [|assumption]. intros [_ ?]. auto.
Qed.

Lemma rigidity_panel u L rs ens : length rs = length L -> exists fig, rigidity_plot eg (Some u) (rigidity_frame L rs) ens = Ok fig /\
  RigidityPanel u L (map (fun r => fst (fst r)) rs) (map (fun r => snd (fst r)) rs) ens fig.
Proof.
  intro Hl. destruct (C82_columns eg (Some u) (rigidity_frame L rs) ens) as (_ & _ & H). destruct H as [fig E]; [discriminate..|].
  exists fig. split; [exact E|]. destruct (C82_figure _ _ _ _ _ E) as (L' & d' & m' & E1 & E2 & E3 & K). cbn in E1, E2.
  injection E1 as <-. injection E2 as <-. destruct E3 as [E3|[E3 _]]; [|discriminate]. cbn in E3. injection E3 as <-.
  intro a. rewrite K. rewrite (scatter_rows_of (rigidity_frame L rs) _ _ _ _ eq_refl).
  split; (intros [?|(e & He & ->)]; [auto|right; exists e; split; [assumption|]]); destruct e; reflexivity.
Qed.
Lemma variance_panel L rs ens : SineIntegral Si (PI / 2) -> Si_inf = PI / 2 -> SincSquareTail quad -> List.Forall (fun l => 0 < l) L -> length rs = length L ->
  exists fig, levelvar_plot eg Si Ci Si_inf quad (variance_frame L rs) ens = Ok fig /\
  VariancePanel L (map (fun r => fst (fst r)) rs) (map (fun r => snd (fst r)) rs) ens fig.
Proof.
  intros H1 H2 H3 HL Hl.
  destruct (C83_figure eg Si Ci Si_inf quad (variance_frame L rs) ens L (map (fun r => fst (fst r)) rs) (map (fun r => snd (fst r)) rs) H1 H2 H3
    eq_refl eq_refl (or_introl eq_refl) HL eq_refl) as (fig & E & K).
  exists fig. split; [exact E|]. intro a. rewrite K. rewrite (scatter_rows_of (variance_frame L rs) _ _ _ _ eq_refl). reflexivity.
Qed.

(** With positive iteration limits the figure can always be drawn, its panels showing the unfolding, its spacings, and the rigidity and
    level variance computed for each L. *)
Theorem C87_panels u srt Lr Lv mx tol mxv mnv ens da0 da db0 db :
  SineIntegral Si (PI / 2) -> Si_inf = PI / 2 -> SincSquareTail quad ->
  Permutation u srt -> Ascending srt -> AtMost 5 (Gaps srt) <> [] -> (0 < mx)%Z -> (0 < mxv)%Z -> List.Forall (fun l => 0 < l) Lv ->
  exists fit sp rg lv delta dconv sigma sconv, figure u Lr Lv mx tol mxv mnv ens da0 da db0 db = Ok (fit, sp, rg, lv) /\
    (exists xs, In (Line "Unfolded" xs u) fit) /\ SpacingPanel srt ens sp /\
    RigidityPanel u Lr delta dconv ens rg /\ length delta = length Lr /\
    (forall i l, nth_error Lr i = Some l -> exists d c k, delta_L u l 100 mx 100 (1 / 100) true (da i) = Done (d, c, k) /\
        nth_error delta i = Some d /\ nth_error dconv i = Some c) /\
    VariancePanel Lv sigma sconv ens lv /\ length sigma = length Lv /\
    (forall i l, nth_error Lv i = Some l -> exists s c k, sigma_L u l mxv tol 100 (db i) = Ok (Done (s, c, k)) /\
        nth_error sigma i = Some s /\ nth_error sconv i = Some c).
Proof.
  intros H1 H2 H3 Hp Ha Hne Hmx Hmxv HL.
  assert (u <> []) as Hu. { intros ->. apply Permutation_nil in Hp. subst. cbn in Hne. congruence. }
  destruct (C45_rigidity_limit u Lr (1 / 100) mx 100 true da0 da Hu ltac:(lia) Hmx) as (rs & _ & E1 & Hl1 & _).
  destruct (C45_levelvariance_limit u Lv tol mxv db0 db Hu Hmxv) as (vs & _ & E2 & Hl2 & _).
  destruct (spacing_panel u srt ens Hp Ha Hne) as (sp & E3 & K3).
  destruct (rigidity_panel u Lr rs ens Hl1) as (rg & E4 & K4).
  destruct (variance_panel Lv vs ens H1 H2 H3 HL Hl2) as (lv & E5 & K5).
  exists (fst (unfolded_fit_plot u)), sp, rg, lv, (map (fun r => fst (fst r)) rs), (map (fun r => snd (fst r)) rs),
    (map (fun r => fst (fst r)) vs), (map (fun r => snd (fst r)) vs).
  split.
  { unfold plot_observables. change (Z.to_nat RIGIDITY_GRID) with 100%nat. rewrite E1. cbn [bind]. unfold M_Loops.level_variance. rewrite E2. cbn [bind].
    unfold observables_plot. cbv zeta. rewrite E3. cbn [bind]. rewrite E4. cbn [bind]. rewrite E5. reflexivity. }
  split; [eexists; right; left; reflexivity|]. split; [assumption|]. split; [assumption|]. split; [now rewrite map_length|]. split.
  { unfold M_Loops.spectral_rigidity, auto_limit in E1. rewrite (proj2 (Z.leb_gt mx 0)) in E1 by lia. apply each_spec in E1. destruct E1 as [_ E1].
    intros i l Hi. destruct (E1 _ _ Hi) as (r & Hr & E). cbn [Nat.add] in E. change MIN_ITERS with 100%Z in E.
    destruct (delta_L u l 100 mx 100 (1 / 100) true (da i)) as [[[d c] k]| |]; cbn in E; try discriminate. injection E as <-.
    exists d, c, k. split; [reflexivity|]. rewrite !nth_error_map, Hr. auto. }
  split; [assumption|]. split; [now rewrite map_length|].
  unfold level_number_variance, auto_limit in E2. rewrite (proj2 (Z.leb_gt mxv 0)) in E2 by lia. apply each_spec in E2. destruct E2 as [_ E2].
  intros i l Hi. destruct (E2 _ _ Hi) as (r & Hr & E). cbn [Nat.add] in E. change MIN_ITERS with 100%Z in E.
  destruct (sigma_L u l mxv tol 100 (db i)) as [[[[d c] k]| |]|]; cbn in E; try discriminate. injection E as <-.
  exists d, c, k. split; [reflexivity|]. rewrite !nth_error_map, Hr. auto.
Qed.

(** With the default limit the rigidity is probed at the largest L first: no convergence there, no figure. *)
Theorem C87_automatic u Lr Lv mx tol mxv mnv ens da0 da db0 db Lmax : u <> [] -> IsMax Lr Lmax -> (mx <= 0)%Z ->
  exists d conv k, delta_L u Lmax 100 1000000000 1000 (1 / 100) true da0 = Done (d, conv, k) /\
    (conv = false -> figure u Lr Lv mx tol mxv mnv ens da0 da db0 db = Raise ConvergenceErr) /\
    (conv = true -> figure u Lr Lv mx tol mxv mnv ens da0 da db0 db = figure u Lr Lv (2 * k) tol mxv mnv ens da0 da db0 db).
Proof.
  intros Hu HL Hmx. destruct (C45_rigidity_auto u Lr (1 / 100) mx 100 true da0 da Lmax Hu HL Hmx) as (d & conv & k & E & _ & K1 & K2).
  exists d, conv, k. split; [exact E|]. unfold plot_observables. change (Z.to_nat RIGIDITY_GRID) with 100%nat.
  split; intro C; [rewrite (K1 C); reflexivity|rewrite (K2 C); reflexivity].
Qed.

(** An unfolding whose neighbours are all more than 5 apart, or with fewer than two values, has no such figure. *)
Theorem C87_no_spacing u srt Lr Lv mx tol mxv mnv ens da0 da db0 db :
  Permutation u srt -> Ascending srt -> u <> [] -> AtMost 5 (Gaps srt) = [] -> (0 < mx)%Z -> (0 < mxv)%Z ->
  figure u Lr Lv mx tol mxv mnv ens da0 da db0 db = Raise ValueError.
Proof.
  intros Hp Ha Hu Hne Hmx Hmxv. assert (Kept 5 (Gaps srt) = AtMost 5 (Gaps srt)) as EK by (unfold Kept; destruct (Rlt_dec 0 5); [reflexivity|lra]).
  destruct (C45_rigidity_limit u Lr (1 / 100) mx 100 true da0 da Hu ltac:(lia) Hmx) as (rs & _ & E1 & Hl1 & _).
  destruct (C45_levelvariance_limit u Lv tol mxv db0 db Hu Hmxv) as (vs & _ & E2 & Hl2 & _).
  destruct (C77_errors gamma opt BW kde_gau kde_default u srt 50 true 5 false scott false "spacing" ens Hp Ha) as [H _].
  rewrite EK in H. unfold plot_observables. change (Z.to_nat RIGIDITY_GRID) with 100%nat. rewrite E1. cbn [bind]. unfold M_Loops.level_variance. rewrite E2. cbn [bind].
  unfold observables_plot. cbv zeta. rewrite (H Hne). reflexivity.
Qed.
End C87.
Print Assumptions C87_panels.
Print Assumptions C87_automatic.
Print Assumptions C87_no_spacing.
Example C87_ex : Permutation [2; 0; 9] [0; 2; 9] /\ Ascending [0; 2; 9] /\ AtMost 5 (Gaps [0; 2; 9]) = [2] /\ AtMost 5 (Gaps [0; 6]) = [] /\
  List.Forall (fun l => 0 < l) [1; 3] /\ IsMax [1; 3] 3 /\ exists Si quad, SineIntegral Si (PI / 2) /\ SincSquareTail quad.
Proof.
  split; [apply perm_swap|]. split; [apply asc3; lra|].
  split. { unfold AtMost. cbn. destruct (Rle_dec _ 5); [|lra]. destruct (Rle_dec _ 5); [lra|]. f_equal. lra. }
  split. { unfold AtMost. cbn. destruct (Rle_dec _ 5); [lra|reflexivity]. }
  split; [repeat constructor; lra|]. split; [split; [right; now left|repeat constructor; lra]|].
  destruct (sine_integral_exists (PI / 2)) as (Si & H). destruct sinc_tail_exists as (q & Hq). exists Si, q. split; assumption.
Qed.

(** ** C88: what the plotting methods return *)
Section C88.
Context (eg : R) (Si Ci : R -> R) (Si_inf : R) (quad : R -> R).
Local Notation variance_method := (plot_level_variance eg Si Ci Si_inf quad).
(** All points of the figure, as pairs of coordinates. *)
Definition PlottedPoints (fig : list artist) (p : R * R) : Prop := exists c lab xs ys, In (Points c lab xs ys) fig /\ In p (combine xs ys).

Lemma rows_combine (mask : list bool) : forall (L y : list R) p, length mask = length L -> length y = length L ->
  In p (combine L y) <-> exists b, In p (combine (Rows b mask L) (Rows b mask y)).
Proof.
  induction mask as [|m mask IH]; intros [|x L] [|z y] p H1 H2; try discriminate; cbn in *.
  - split; [intros []|intros [b []]].
  - rewrite (IH L y p) by lia. split.
    + intros [<-|[b Hb]].
      * exists m. rewrite eqb_reflx. now left.
      * exists b. destruct (eqb m b); [now right|assumption].
    + intros [b Hb]. destruct (eqb m b); [destruct Hb as [<-|Hb]; [now left|right; eauto]|right; eauto].
Qed.
Lemma points_of (P : artist -> Prop) fig L y conv : (forall a, In a fig <-> RowsOf L y conv a \/ P a) -> (forall c lab xs ys, ~ P (Points c lab xs ys)) ->
  length conv = length L -> length y = length L -> forall p, PlottedPoints fig p <-> In p (combine L y).
Proof.
  intros K HP H1 H2 p. rewrite (rows_combine conv L y p H1 H2). split.
  - intros (c & lab & xs & ys & Hin & Hp). apply K in Hin. destruct Hin as [(b & lab' & E & _)|Hin]; [|destruct (HP _ _ _ _ Hin)].
    injection E as _ _ -> ->. eauto.
  - intros [b Hb]. exists (if b then "black" else "red")%string, (if existsb negb conv then Some (if b then "converged" else "non-converged")%string else None), (Rows b conv L), (Rows b conv y).
    split; [|assumption]. apply K. left. exists b. eexists. split; [reflexivity|].
    destruct (existsb negb conv) eqn:E.
    + left. split; [|reflexivity]. apply existsb_exists in E. destruct E as ([|] & ? & ?); [discriminate|assumption].
    + right. split; [|reflexivity]. intro Hin. assert (existsb negb conv = true) by (apply existsb_exists; exists false; auto). congruence.
Qed.

(** plot_level_variance returns the points it draws: given values are drawn over L, otherwise those computed for each L. *)
Theorem C88_variance u L sigma tol mx ens d0 d L' sigma' fig :
  SineIntegral Si (PI / 2) -> Si_inf = PI / 2 -> SincSquareTail quad -> List.Forall (fun l => 0 < l) L -> u <> [] -> (0 < mx)%Z ->
  variance_method u L sigma tol mx ens d0 d = Ok (L', sigma', fig) ->
  L' = L /\ length sigma' = length L' /\ (forall p, PlottedPoints fig p <-> In p (combine L' sigma')) /\
  (forall s, sigma = Some s -> sigma' = s) /\
  (sigma = None -> forall i l, nth_error L i = Some l -> exists s c k, sigma_L u l mx tol 100 (d i) = Ok (Done (s, c, k)) /\ nth_error sigma' i = Some s).
Proof.
  intros H1 H2 H3 HL Hu Hmx H. unfold plot_level_variance in H. destruct sigma as [s|].
  - destruct (Nat.eqb (length L) (length s)) eqn:E; [|discriminate]. apply Nat.eqb_eq in E. cbv zeta in H.
    destruct (C83_figure eg Si Ci Si_inf quad (mkdframe (row_labels L) (Some L) None (Some s) (Some (map (fun _ => true) s))) ens L s (map (fun _ => true) s) H1 H2 H3
      eq_refl eq_refl (or_introl eq_refl) HL eq_refl) as (f & Ef & K).
    rewrite Ef in H. cbn [bind] in H. injection H as <- <- <-. split; [reflexivity|]. split; [congruence|]. split; [|split; [congruence|discriminate]].
    apply points_of with (conv := map (fun _ => true) s) (P := fun a => exists e, In (ens_key e) ens /\ a = Line (ens_label e) L (map (VarianceCurve eg Si Ci e) L)).
    + intro a. rewrite K. rewrite (scatter_rows_of (mkdframe (row_labels L) (Some L) None (Some s) (Some (map (fun _ => true) s))) _ _ _ _ eq_refl). reflexivity.
    + intros c lab xs ys (e & _ & ?). discriminate.
    + rewrite map_length. congruence.
    + congruence.
  - destruct (C45_levelvariance_limit u L tol mx d0 d Hu Hmx) as (vs & _ & E2 & Hl2 & _). rewrite E2 in H. cbn [bind] in H.
    destruct (variance_panel eg Si Ci Si_inf quad L vs ens H1 H2 H3 HL Hl2) as (f & Ef & K). rewrite Ef in H. cbn [bind] in H. injection H as <- <- <-.
    split; [reflexivity|]. split; [now rewrite map_length|]. split; [|split; [discriminate|]].
    + eapply points_of; [exact K| |rewrite map_length; assumption|rewrite map_length; assumption]. intros c lab xs ys (e & _ & ?). discriminate.
    + intros _. unfold level_number_variance, auto_limit in E2. rewrite (proj2 (Z.leb_gt mx 0)) in E2 by lia. apply each_spec in E2. destruct E2 as [_ E2].
      intros i l Hi. destruct (E2 _ _ Hi) as (r & Hr & E). cbn [Nat.add] in E. change MIN_ITERS with 100%Z in E.
      destruct (sigma_L u l mx tol 100 (d i)) as [[[[s c] k]| |]|]; cbn in E; try discriminate. injection E as <-.
      exists s, c, k. split; [reflexivity|]. rewrite nth_error_map, Hr. reflexivity.
Qed.
(** Given values that do not match L are refused. *)
Theorem C88_lengths u L s tol mx ens d0 d : (exists r, variance_method u L (Some s) tol mx ens d0 d = Ok r) <-> length s = length L.
Proof.
  unfold plot_level_variance. destruct (Nat.eqb (length L) (length s)) eqn:E.
  - apply Nat.eqb_eq in E. split; [congruence|]. intros _. cbv zeta.
    destruct (levelvar_plot eg Si Ci Si_inf quad _ ens) as [f|e] eqn:Ef; [eexists; reflexivity|exfalso].
    revert Ef. unfold levelvar_plot. cbn [d_L d_sigma converged_column d_converged bind d_index].
    assert (forall post pre i, length pre = i -> exists v, goe_loop eg Si Ci Si_inf quad (row_labels (pre ++ post)) (pre ++ post) post (Z.of_nat i) = Ok v) as G.
    { induction post as [|x post IH]; intros pre i Hi; cbn [goe_loop]; [eauto|].
      assert (series_get (row_labels (pre ++ x :: post)) (pre ++ x :: post) (Z.of_nat i) = Ok x) as ->.
      { unfold series_get, row_labels. subst i. clear. rewrite app_length. cbn [length].
        assert (forall (l : list R) k m, (m < k)%nat -> filter (fun p => Z.eqb (fst p) (Z.of_nat m)) (combine (map Z.of_nat (seq k (length l))) l) = []) as Z0.
        { induction l as [|y l IH]; intros k m Hm; cbn; [reflexivity|]. destruct (Z.eqb_spec (Z.of_nat k) (Z.of_nat m)); [lia|]. apply IH. lia. }
        assert (forall (l : list R) k, filter (fun p => Z.eqb (fst p) (Z.of_nat (k + length l))) (combine (map Z.of_nat (seq k (length l + S (length post)))) (l ++ x :: post)) = [(Z.of_nat (k + length l), x)]) as Z1.
        { induction l as [|y l IH]; intros k; cbn [length Nat.add seq map app combine filter fst].
          - rewrite Nat.add_0_r, Z.eqb_refl. f_equal. apply Z0. lia.
          - destruct (Z.eqb_spec (Z.of_nat k) (Z.of_nat (k + S (length l)))); [lia|]. rewrite <- (Nat.add_succ_comm k). apply IH. }
        pose proof (Z1 pre 0%nat) as Z2. cbn [Nat.add] in Z2. rewrite Z2. reflexivity. }
      cbn [bind]. destruct (IH (pre ++ [x]) (S i)) as [v Ev]; [rewrite app_length; cbn; lia|]. rewrite <- app_assoc in Ev. cbn [app] in Ev.
      rewrite Nat2Z.inj_succ in Ev. unfold Z.succ in Ev. rewrite Ev. cbn [bind]. eauto. }
    destruct (G L [] 0%nat eq_refl) as [v Ev]. cbn [app Z.of_nat] in Ev. rewrite Ev. destruct (requested "goe" ens); discriminate.
  - apply Nat.eqb_neq in E. split; [intros [r H]; discriminate|congruence].
Qed.
Theorem C88_mismatch u L s tol mx ens d0 d : length s <> length L -> variance_method u L (Some s) tol mx ens d0 d = Raise ValueError.
Proof. intro H. unfold plot_level_variance. destruct (Nat.eqb_spec (length L) (length s)); [congruence|reflexivity]. Qed.

(** plot_spectral_rigidity returns the points it draws when it computes them itself ... *)
Theorem C88_rigidity u L grid mx tol simpson d0 d ens : u <> [] -> (1 <= grid)%nat -> (0 < mx)%Z ->
  exists delta fig, plot_spectral_rigidity eg u (fun L => let! rs := M_Loops.spectral_rigidity u L mx grid tol simpson d0 d in
      Ok (L, map (fun r => fst (fst r)) rs, map (fun r => snd (fst r)) rs)) None L ens = Ok (L, delta, fig) /\
    length delta = length L /\ (forall p, PlottedPoints fig p <-> In p (combine L delta)) /\
    (forall i l, nth_error L i = Some l -> exists x c k, delta_L u l grid mx 100 tol simpson (d i) = Done (x, c, k) /\ nth_error delta i = Some x).
Proof.
  intros Hu Hg Hmx. destruct (C45_rigidity_limit u L tol mx grid simpson d0 d Hu Hg Hmx) as (rs & _ & E1 & Hl1 & _).
  destruct (rigidity_panel eg u L rs ens Hl1) as (fig & Ef & K). exists (map (fun r => fst (fst r)) rs), fig. split.
  { unfold plot_spectral_rigidity. rewrite E1. cbn [bind]. unfold rigidity_frame, row_labels in Ef. rewrite Ef. reflexivity. }
  split; [now rewrite map_length|]. split.
  - eapply points_of; [exact K| |rewrite map_length; assumption|rewrite map_length; assumption]. intros c lab xs ys (e & _ & ?). discriminate.
  - unfold M_Loops.spectral_rigidity, auto_limit in E1. rewrite (proj2 (Z.leb_gt mx 0)) in E1 by lia. apply each_spec in E1. destruct E1 as [_ E1].
    intros i l Hi. destruct (E1 _ _ Hi) as (r & Hr & E). cbn [Nat.add] in E. change MIN_ITERS with 100%Z in E.
    destruct (delta_L u l grid mx 100 tol simpson (d i)) as [[[x c] k]| |]; cbn in E; try discriminate. injection E as <-.
    exists x, c, k. split; [reflexivity|]. rewrite nth_error_map, Hr. reflexivity.
Qed.
(** ... but when a frame is given it returns its argument L, whatever the values of L in the frame and the figure are. *)
Theorem C88_rigidity_data_refuted u compute L Ld delta conv ens : length delta = length Ld -> length conv = length Ld ->
  exists fig, plot_spectral_rigidity eg u compute (Some (mkdframe (row_labels Ld) (Some Ld) (Some delta) None (Some conv))) L ens = Ok (L, delta, fig) /\
    forall p, PlottedPoints fig p <-> In p (combine Ld delta).
Proof.
  intros Hd Hc. destruct (C82_columns eg (Some u) (mkdframe (row_labels Ld) (Some Ld) (Some delta) None (Some conv)) ens) as (_ & _ & H).
  destruct H as [fig E]; [discriminate..|]. exists fig. split.
  { unfold plot_spectral_rigidity. cbn [bind]. rewrite E. reflexivity. }
  destruct (C82_figure _ _ _ _ _ E) as (L' & d' & m' & E1 & E2 & E3 & K). cbn in E1, E2. injection E1 as <-. injection E2 as <-.
  destruct E3 as [E3|[E3 _]]; [|discriminate]. cbn in E3. injection E3 as <-.
  apply points_of with (conv := conv) (P := fun a => exists e, In (ens_key e) ens /\
     a = Line (ens_label e) Ld (map (fun l => rigidity_at eg e (match e with GOE | GUE | GSE => l / Rmean (Gaps u) | _ => l end)) Ld)).
  - intro a. rewrite K, (scatter_rows_of (mkdframe (row_labels Ld) (Some Ld) (Some delta) None (Some conv)) _ _ _ _ eq_refl). reflexivity.
  - intros c lab xs ys (e & _ & ?). discriminate.
  - assumption.
  - assumption.
Qed.
End C88.
Print Assumptions C88_variance.
Print Assumptions C88_lengths.
Print Assumptions C88_mismatch.
Print Assumptions C88_rigidity.
Print Assumptions C88_rigidity_data_refuted.
Example C88_ex (eg : R) (Si Ci : R -> R) (Si_inf : R) (quad : R -> R) :
  (exists fig, plot_level_variance eg Si Ci Si_inf quad [0; 1] [12; 20] (Some [3; 4]) 0 5 ["poisson"%string] (fun _ => 0) (fun _ _ => 0) = Ok ([12; 20], [3; 4], fig) /\
     PlottedPoints fig (20, 4)) /\
  plot_level_variance eg Si Ci Si_inf quad [0; 1] [12; 20] (Some [3]) 0 5 [] (fun _ => 0) (fun _ _ => 0) = Raise ValueError /\
  (exists fig, plot_spectral_rigidity eg [0; 1] (fun _ => Raise ValueError) (Some (mkdframe [0]%Z (Some [7]) (Some [3]) None (Some [true]))) [1; 2] [] = Ok ([1; 2], [3], fig) /\
     PlottedPoints fig (7, 3)).
Proof.
  split; [|split; [reflexivity|]].
  - eexists. split; [reflexivity|]. exists "black"%string, None, [12; 20], [3; 4]. split; [now left|right; now left].
  - eexists. split; [reflexivity|]. exists "black"%string, None, [7], [3]. split; [now left|now left].
Qed.
