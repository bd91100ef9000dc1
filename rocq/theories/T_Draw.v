(** Property theorems about the figures. *)
From Coq Require Import String List ZArith Bool Arith Lia Reals Lra Permutation.
From Coquelicot Require Import Coquelicot.
From Verif Require T_Ensemble.
From Verif Require Import Base S_Order S_EigVals S_Trim S_Quad S_Loops S_Draw S_Ensemble S_Brody M_Step M_EigVals M_Quad M_Trim M_Smooth M_Ensemble M_Brody M_Draw
  P_Order P_Step P_EigVals P_Trim P_TrimStat P_Ols P_Loops P_Report P_Brody P_Draw P_DrawLong.
Import ListNotations.
Local Open Scope R_scope.
Local Notation length := List.length.

Ltac line_neq := let H := fresh in intro H; apply (f_equal artist_label) in H; cbn in H; discriminate.

(** ** C77: the nearest-neighbour spacing figure *)
Section C77.
Context (gamma : R -> R) (opt : (R -> R) -> R -> R -> bool * R) (BW : Type) (kde_gau : BW -> list R -> option (R -> R)) (kde_default : list R -> R -> R).
Local Notation figure := (spacings_plot gamma opt BW kde_gau kde_default).

(** Exactly these things are drawn, each once. *)
Theorem C77_figure unfolded srt bins kde trim trim_kde bw brody brody_fit ens fig :
  Permutation unfolded srt -> Ascending srt ->
  figure unfolded bins kde trim trim_kde bw brody brody_fit ens OneAxes = Ok fig ->
  exists lo hi, let kept := Kept trim (Gaps srt) in let g := EvenGrid lo hi (Z.to_nat 10000) in
    IsMin kept lo /\ IsMax kept hi /\ NoDup (map artist_label fig) /\
    forall a, In a fig <->
      a = Hist kept bins \/
      (exists e, In (ens_key e) ens /\ a = Line (ens_label e) g (nnsd e 0 3 (Z.to_nat 10000) (Some g))) \/
      (kde = true /\ exists v f, v = Positive (if trim_kde then kept else Gaps srt) /\ v <> [] /\
         (kde_gau bw v = Some f \/ kde_gau bw v = None /\ f = kde_default v) /\ a = Line "Kernel Density Estimate" g (map f g)) \/
      (brody = true /\ exists beta, fit_brody gamma opt kept "spacing" = Ok beta /\ a = Line "Brody dist." g (map (brody_dist gamma beta) g)).
Proof.
  intros Hp Ha H. destruct (spacings_plot_ok _ _ _ _ _ _ _ _ _ _ _ _ _ _ _ _ Hp Ha H) as (lo & hi & b & K). cbv zeta in K.
  destruct K as (Hne & Hlo & Hhi & Hb & ->). exists lo, hi. cbv zeta. split; [assumption|]. split; [assumption|].
  remember (EvenGrid lo hi (Z.to_nat 10000)) as g eqn:Eg. clear Eg.
  set (vs := Positive (if trim_kde then Kept trim (Gaps srt) else Gaps srt)) in *. clearbody vs.
  apply brody_curve_ok in Hb. split.
  - assert (map artist_label (spacing_curves g ens) = flat_map (fun e => if requested (ens_key e) ens then [ens_label e] else []) [Poisson; GOE; GUE; GSE]) as E.
    { rewrite spacing_curves_eq. unfold ens_lines. cbn [flat_map ens_key ens_label]. rewrite !map_app.
      destruct (requested "poisson" ens), (requested "goe" ens), (requested "gue" ens), (requested "gse" ens); reflexivity. }
    rewrite !map_app, E. clear E.
    set (k := map artist_label (if kde then _ else _)).
    assert (k = [] \/ k = ["Kernel Density Estimate"%string]) as Hk by (unfold k; destruct kde; [destruct vs; auto|auto]). clearbody k.
    assert (map artist_label b = [] \/ map artist_label b = ["Brody dist."%string]) as Hb'.
    { destruct Hb as [[_ ->]|[_ (beta & _ & ->)]]; auto. }
    set (l := map artist_label b) in *. clearbody l. cbn [flat_map ens_key ens_label map artist_label].
    destruct Hk as [-> | ->], Hb' as [-> | ->], (requested "poisson" ens), (requested "goe" ens), (requested "gue" ens), (requested "gse" ens); cbn [app];
      repeat (constructor; [cbn [In]; intro Q; repeat (destruct Q as [Q|Q]; [discriminate|]); exact Q|]); constructor.
  - intro a. rewrite !in_app_iff, in_curves. cbn [In]. split.
    + intros [[<-|[]]|[(e & He & ->)|[Hk|Hb']]].
      * now left.
      * right. left. exists e. split; [assumption|reflexivity].
      * right. right. left. destruct kde; [|destruct Hk].
        assert (vs <> [] /\ a = Line "Kernel Density Estimate" g (map (density BW kde_gau kde_default bw vs) g)) as [Hv ->].
        { destruct vs; [destruct Hk|]. destruct Hk as [<-|[]]. split; [discriminate|reflexivity]. }
        split; [reflexivity|]. exists vs, (density BW kde_gau kde_default bw vs). split; [reflexivity|]. split; [assumption|].
        split; [|reflexivity]. unfold density. destruct (kde_gau bw vs); auto.
      * right. right. right. destruct Hb as [[_ ->]|[-> (beta & E & ->)]]; [destruct Hb'|]. destruct Hb' as [<-|[]]. split; [reflexivity|]. exists beta. auto.
    + intros [->|[(e & He & ->)|[(-> & v & f & -> & Hv & Hf & ->)|(-> & beta & E & ->)]]].
      * left. now left.
      * right. left. exists e. split; [assumption|reflexivity].
      * right. right. left.
        assert (map f g = map (density BW kde_gau kde_default bw vs) g) as ->.
        { apply map_ext. intro x. unfold density. destruct Hf as [-> | [-> ->]]; reflexivity. }
        destruct vs; [congruence|]. now left.
      * right. right. right. destruct Hb as [[? _]|[_ (beta' & E' & ->)]]; [discriminate|]. rewrite E in E'. injection E' as <-. now left.
Qed.

(** It can be drawn unless no spacing is kept or the Brody fit fails. *)
Theorem C77_errors unfolded srt bins kde trim trim_kde bw brody brody_fit ens :
  Permutation unfolded srt -> Ascending srt ->
  let r := figure unfolded bins kde trim trim_kde bw brody brody_fit ens OneAxes in
  let kept := Kept trim (Gaps srt) in
  (kept = [] -> r = Raise ValueError) /\
  (kept <> [] -> ((exists fig, r = Ok fig) <-> (brody = false \/ exists beta, fit_brody gamma opt kept "spacing" = Ok beta)) /\
                 (forall e, brody = true -> fit_brody gamma opt kept "spacing" = Raise e -> r = Raise e)).
Proof.
  intros Hp Ha r kept. destruct (spacings_plot_done gamma opt BW kde_gau kde_default unfolded srt bins kde trim trim_kde bw brody brody_fit ens Hp Ha) as [H1 H2].
  fold kept in H1, H2. split; [intro H; apply (H1 H)|]. intro H. destruct (H2 H) as (K1 & K2 & K3 & _). fold r in K1, K2, K3. split; [|intros e Hb; apply (K2 Hb)].
  split.
  - intros [fig Hf]. destruct brody; [right|now left]. destruct (fit_brody gamma opt kept "spacing") as [beta|e] eqn:E; [eauto|].
    rewrite (K2 eq_refl e eq_refl) in Hf. discriminate.
  - intros [Hb|[beta Hb]]; [apply (K1 Hb)|]. destruct brody; [apply (K3 eq_refl beta Hb)|apply (K1 eq_refl)].
Qed.
End C77.
Print Assumptions C77_figure.
Print Assumptions C77_errors.

Lemma asc3 (a b c : R) : a <= b -> b <= c -> Ascending [a; b; c].
Proof.
  intros H1 H2. unfold Ascending. repeat constructor; cbv [Le]; apply nle_R_true; lra.
Qed.
Lemma asc2 (a b : R) : a <= b -> Ascending [a; b].
Proof. intros H1. unfold Ascending. repeat constructor; cbv [Le]; apply nle_R_true; lra. Qed.
Lemma perm_201 {A} (a b c : A) : Permutation [c; a; b] [a; b; c].
Proof. apply (Permutation_cons_append [a; b] c). Qed.

Example C77_ex gamma opt : exists fig,
  spacings_plot gamma opt unit (fun _ _ => None) (fun _ x => x) [3; 0; 1] 50 true (3 / 2) false tt false "mle" ["goe"%string] OneAxes = Ok fig /\
  In (Hist [1] 50) fig /\ length fig = 3%nat /\
  spacings_plot gamma opt unit (fun _ _ => None) (fun _ x => x) [3; 0; 1] 50 true (1 / 2) false tt false "mle" ["goe"%string] OneAxes = Raise ValueError.
Proof.
  assert (Permutation [3; 0; 1] [0; 1; 3]) as P by apply perm_201. assert (Ascending [0; 1; 3]) as A by (apply asc3; lra).
  assert (Kept (3 / 2) (Gaps [0; 1; 3]) = [1]) as E.
  { unfold Kept, AtMost. cbn [Gaps filter]. destruct (Rlt_dec 0 (3 / 2)); [|lra]. destruct (Rle_dec (1 - 0) (3 / 2)); [|lra].
    destruct (Rle_dec (3 - 1) (3 / 2)); [lra|]. f_equal. ring. }
  assert (Kept (1 / 2) (Gaps [0; 1; 3]) = []) as E'.
  { unfold Kept, AtMost. cbn [Gaps filter]. destruct (Rlt_dec 0 (1 / 2)); [|lra]. destruct (Rle_dec (1 - 0) (1 / 2)); [lra|].
    destruct (Rle_dec (3 - 1) (1 / 2)); [lra|]. reflexivity. }
  destruct (C77_errors gamma opt unit (fun _ _ => None) (fun _ x => x) [3; 0; 1] [0; 1; 3] 50 true (3 / 2) false tt false "mle" ["goe"%string] P A) as [_ H].
  destruct H as [[_ H] _]; [rewrite E; discriminate|]. destruct H as [fig H]; [now left|]. exists fig. split; [exact H|].
  destruct (spacings_plot_ok _ _ _ _ _ _ _ _ _ _ _ _ _ _ _ _ P A H) as (lo & hi & b & K). cbv zeta in K. rewrite E in K.
  destruct K as (_ & _ & _ & Hb & ->). injection Hb as <-. split; [now left|]. split.
  - rewrite !app_length. assert (Positive (Gaps [0; 1; 3]) <> []) as N.
    { unfold Positive. cbn [Gaps filter]. destruct (Rlt_dec 0 (1 - 0)); [discriminate|lra]. }
    destruct (Positive (Gaps [0; 1; 3])); [congruence|]. reflexivity.
  - destruct (C77_errors gamma opt unit (fun _ _ => None) (fun _ x => x) [3; 0; 1] [0; 1; 3] 50 true (1 / 2) false tt false "mle" ["goe"%string] P A) as [K _].
    exact (K E').
Qed.

(** ** C78: the Brody curve ignores the fitting method asked for *)
Theorem C78_method_refuted (gamma : R -> R) : GammaFunction gamma -> exists opt unfolded b_mle b_spacing fig,
  (forall f lo hi, lo <= 1 / 4 -> 3 / 4 <= hi -> exists x, opt f lo hi = (true, x) /\ lo <= x <= hi) /\
  Ascending unfolded /\ fit_brody gamma opt (Gaps unfolded) "mle" = Ok b_mle /\ fit_brody gamma opt (Gaps unfolded) "spacing" = Ok b_spacing /\
  b_mle <> b_spacing /\
  spacings_plot gamma opt unit (fun _ _ => None) (fun _ x => x) unfolded 50 false 5 false tt true "mle" [] OneAxes = Ok fig /\
  exists g, forall l xs ys, In (Line l xs ys) fig <-> l = "Brody dist."%string /\ xs = g /\ ys = map (brody_dist gamma b_spacing) g.
Proof.
  intro Hg.
  exists (fun f _ _ => (true, if Rlt_dec (f (1 / 2)) 0 then 1 / 4 else 3 / 4)), [0; 1], (1 / 4), (3 / 4).
  set (opt := fun (f : R -> R) (_ _ : R) => (true, if Rlt_dec (f (1 / 2)) 0 then 1 / 4 else 3 / 4)).
  assert (Ascending [0; 1]) as A by (apply asc2; lra).
  assert (Kept 5 (Gaps [0; 1]) = [1 - 0]) as E.
  { unfold Kept, AtMost. cbn [Gaps filter]. destruct (Rlt_dec 0 5); [|lra]. destruct (Rle_dec (1 - 0) 5); [|lra]. reflexivity. }
  assert (fit_brody gamma opt (Gaps [0; 1]) "mle" = Ok (1 / 4)) as E1.
  { change (fit_brody gamma opt (Gaps [0; 1]) "mle") with (optimize opt (mle_objective gamma (Gaps [0; 1]))).
    unfold optimize, opt. destruct (Rlt_dec _ 0) as [_|K]; [reflexivity|]. exfalso. apply K. clear K.
    unfold mle_objective, nsum. cbn [Gaps map fold_left]. change nadd with Rplus. change n0 with 0.
    assert (0 < brody_dist gamma (1 / 2) (1 - 0)) by (apply brody_dist_pos; [exact Hg|lra|lra]). lra. }
  assert (fit_brody gamma opt (Gaps [0; 1]) "spacing" = Ok (3 / 4)) as E2.
  { change (fit_brody gamma opt (Gaps [0; 1]) "spacing") with (optimize opt (spacing_objective gamma (Gaps [0; 1]))).
    unfold optimize, opt. destruct (Rlt_dec _ 0) as [K|_]; [|reflexivity]. exfalso.
    unfold spacing_objective, nsum in K. cbn [Gaps np_sort insert_by map ndiff positives filter fold_left length] in K. change n0 with 0 in K.
    assert (- 0 / IZR (Z.of_nat 1 - 1 + 1) = 0) as Z by (unfold Rdiv; ring). rewrite Z in K. lra. }
  destruct (C77_errors gamma opt unit (fun _ _ => None) (fun _ x => x) [0; 1] [0; 1] 50 false 5 false tt true "mle" [] (Permutation_refl _) A) as [_ H].
  destruct H as [[_ H] _]; [rewrite E; discriminate|]. destruct H as [fig H]; [right; rewrite E; exists (3 / 4); exact E2|].
  exists fig. split; [intros f lo hi H1 H2; exists (if Rlt_dec (f (1 / 2)) 0 then 1 / 4 else 3 / 4); split; [reflexivity|destruct (Rlt_dec (f (1 / 2)) 0); lra]|].
  split; [assumption|]. split; [assumption|]. split; [assumption|]. split; [lra|]. split; [exact H|].
  destruct (C77_figure _ _ _ _ _ _ _ _ _ _ _ _ _ _ _ _ (Permutation_refl _) A H) as (lo & hi & K). cbv zeta in K. destruct K as (_ & _ & _ & K).
  exists (EvenGrid lo hi (Z.to_nat 10000)). remember (EvenGrid lo hi (Z.to_nat 10000)) as g eqn:Eg. clear Eg.
  intros l xs ys. rewrite K. split.
  - intros [Q|[(e & [] & _)|[(Q & _)|(_ & beta & Eb & Q)]]]; [discriminate|discriminate|].
    rewrite E in Eb. change [1 - 0] with (Gaps [0; 1]) in Eb. rewrite E2 in Eb. injection Eb as <-. now injection Q as -> -> ->.
  - intros (-> & -> & ->). right. right. right. split; [reflexivity|]. exists (3 / 4). split; [|reflexivity]. rewrite E. exact E2.
Qed.
Print Assumptions C78_method_refuted.
Example C78_ex : exists gamma opt b fig, GammaFunction gamma /\ fit_brody gamma opt (Gaps [0; 1]) "spacing" = Ok b /\
  spacings_plot gamma opt unit (fun _ _ => None) (fun _ x => x) [0; 1] 50 false 5 false tt true "mle" [] OneAxes = Ok fig /\ length fig = 2%nat.
Proof.
  destruct gamma_exists as (gamma & HG). exists gamma, (fun _ _ _ => (true, 1 / 2)), (1 / 2).
  assert (Ascending [0; 1]) as A by (apply asc2; lra).
  destruct (C77_errors gamma (fun _ _ _ => (true, 1 / 2)) unit (fun _ _ => None) (fun _ x => x) [0; 1] [0; 1] 50 false 5 false tt true "mle" [] (Permutation_refl _) A) as [_ H].
  assert (Kept 5 (Gaps [0; 1]) = [1 - 0]) as E.
  { unfold Kept, AtMost. cbn [Gaps filter]. destruct (Rlt_dec 0 5); [|lra]. destruct (Rle_dec (1 - 0) 5); [|lra]. reflexivity. }
  destruct H as [[_ H] _]; [rewrite E; discriminate|]. destruct H as [fig H]; [right; exists (1 / 2); reflexivity|].
  exists fig. split; [exact HG|]. split; [reflexivity|]. split; [exact H|].
  destruct (spacings_plot_ok _ _ _ _ _ _ _ _ _ _ _ _ _ _ _ _ (Permutation_refl _) A H) as (lo & hi & b & K). cbv zeta in K.
  destruct K as (_ & _ & _ & Hb & ->). apply brody_curve_ok in Hb. destruct Hb as [[? _]|[_ (beta & _ & ->)]]; [discriminate|]. reflexivity.
Qed.

(** ** C79: the next-nearest-neighbour spacing figure *)
Section C79.
Context (gamma : R -> R) (opt : (R -> R) -> R -> R -> bool * R) (BW : Type) (scott : BW) (kde_gau : BW -> list R -> option (R -> R)) (kde_default : list R -> R -> R).
Theorem C79_figure unfolded bins kde trim trim_kde brody brody_fit ens fig :
  next_spacings_plot gamma opt BW scott kde_gau kde_default unfolded bins kde trim trim_kde brody brody_fit ens OneAxes = Ok fig ->
  exists srt lo hi, let kept := Kept trim srt in let g := EvenGrid lo hi (Z.to_nat 10000) in
    Permutation (HalfSecondGaps unfolded) srt /\ Ascending srt /\ IsMin kept lo /\ IsMax kept hi /\ NoDup (map artist_label fig) /\
    forall a, In a fig <->
      a = Hist kept bins \/
      (exists e y, (e = GOE \/ e = Poisson) /\ In (ens_key e) ens /\ nnnsd gamma e 0 4 (Z.to_nat 1000) (Some g) = Ok y /\ a = Line (ens_label e) g y) \/
      (kde = true /\ exists v f, v = Positive (if trim_kde then kept else srt) /\ v <> [] /\
         (kde_gau scott v = Some f \/ kde_gau scott v = None /\ f = kde_default v) /\ a = Line "Kernel Density Estimate" g (map f g)) \/
      (brody = true /\ exists beta, fit_brody gamma opt kept "spacing" = Ok beta /\ a = Line "Brody dist." g (map (brody_dist gamma beta) g)).
Proof.
  intro H. destruct (next_plot_ok _ _ _ _ _ _ _ _ _ _ _ _ _ _ _ H) as (srt & lo & hi & b & K). cbv zeta in K.
  destruct K as (Hp & Ha & Hne & Hlo & Hhi & Hb & ->). exists srt, lo, hi. cbv zeta.
  split; [assumption|]. split; [assumption|]. split; [assumption|]. split; [assumption|].
  remember (EvenGrid lo hi (Z.to_nat 10000)) as g eqn:Eg. clear Eg.
  set (vs := Positive (if trim_kde then Kept trim srt else srt)) in *. clearbody vs.
  apply brody_curve_ok in Hb. split.
  - rewrite !map_app.
    set (k := map artist_label (if kde then _ else _)).
    assert (k = [] \/ k = ["Kernel Density Estimate"%string]) as Hk by (unfold k; destruct kde; [destruct vs; auto|auto]). clearbody k.
    assert (map artist_label b = [] \/ map artist_label b = ["Brody dist."%string]) as Hb'.
    { destruct Hb as [[_ ->]|[_ (beta & _ & ->)]]; auto. }
    set (l := map artist_label b) in *. clearbody l.
    destruct Hk as [-> | ->], Hb' as [-> | ->], (requested "poisson" ens), (requested "goe" ens); cbn [app when map artist_label];
      repeat (constructor; [cbn [In]; intro Q; repeat (destruct Q as [Q|Q]; [discriminate|]); exact Q|]); constructor.
  - intro a. rewrite !in_app_iff, !in_when, !requested_in. cbn [In]. split.
    + intros [[<-|[]]|[Hk|[Hb'|[[He [<-|[]]]|[He [<-|[]]]]]]].
      * now left.
      * right. right. left. destruct kde; [|destruct Hk].
        assert (vs <> [] /\ a = Line "Kernel Density Estimate" g (map (density BW kde_gau kde_default scott vs) g)) as [Hv ->].
        { destruct vs; [destruct Hk|]. destruct Hk as [<-|[]]. split; [discriminate|reflexivity]. }
        split; [reflexivity|]. exists vs, (density BW kde_gau kde_default scott vs). split; [reflexivity|]. split; [assumption|].
        split; [|reflexivity]. unfold density. destruct (kde_gau scott vs); auto.
      * right. right. right. destruct Hb as [[_ ->]|[-> (beta & E & ->)]]; [destruct Hb'|]. destruct Hb' as [<-|[]]. split; [reflexivity|]. exists beta. auto.
      * right. left. exists GOE, (map goe_nnnsd_at g). auto.
      * right. left. exists Poisson, (map (brody_dist gamma (6 / 10)) g). auto.
    + intros [->|[(e & y & Hoe & He & Hy & ->)|[(-> & v & f & -> & Hv & Hf & ->)|(-> & beta & E & ->)]]].
      * left. now left.
      * right. right. right. destruct Hoe as [-> | ->]; cbn [nnnsd] in Hy; injection Hy as <-; [left|right]; (split; [exact He|now left]).
      * right. left.
        assert (map f g = map (density BW kde_gau kde_default scott vs) g) as ->.
        { apply map_ext. intro x. unfold density. destruct Hf as [-> | [-> ->]]; reflexivity. }
        destruct vs; [congruence|]. now left.
      * right. right. left. destruct Hb as [[? _]|[_ (beta' & E' & ->)]]; [discriminate|]. rewrite E in E'. injection E' as <-. now left.
Qed.
Theorem C79_too_few unfolded bins kde trim trim_kde brody brody_fit ens ax : (length unfolded <= 2)%nat ->
  next_spacings_plot gamma opt BW scott kde_gau kde_default unfolded bins kde trim trim_kde brody brody_fit ens ax = Raise ValueError.
Proof.
  intro H. unfold next_spacings_plot. cbv zeta. rewrite half_second.
  assert (HalfSecondGaps unfolded = []) as ->.
  { unfold HalfSecondGaps. replace (length unfolded - 2)%nat with 0%nat by lia. reflexivity. }
  unfold trim_spacings. cbn [np_sort]. destruct (nlt n0 trim); reflexivity.
Qed.
End C79.
Print Assumptions C79_figure.
Print Assumptions C79_too_few.
Example C79_ex gamma opt : exists fig,
  next_spacings_plot gamma opt unit tt (fun _ _ => None) (fun _ x => x) [0; 1; 3] 50 false 0 false false "mle" ["goe"%string; "gue"%string] OneAxes = Ok fig /\
  length fig = 2%nat /\ (exists x, In (Hist [x] 50) fig /\ x = 3 / 2).
Proof.
  unfold next_spacings_plot. cbv zeta. rewrite half_second.
  replace (HalfSecondGaps [0; 1; 3]) with [(3 - 0) / 2] by reflexivity.
  cbn [np_sort insert_by]. assert (trim_spacings 0 [(3 - 0) / 2] = [(3 - 0) / 2]) as ->.
  { rewrite trim_kept. unfold Kept. destruct (Rlt_dec 0 0); [lra|reflexivity]. }
  cbn [arr_range bind fst snd histplot brody_curve]. set (g := linspace _ _ _). clearbody g. eexists. split; [reflexivity|]. split; [reflexivity|].
  exists ((3 - 0) / 2). split; [now left|lra].
Qed.

(** ** C80: the density estimate of the eigenvalue histograms uses the positive values only *)
Section C80.
Context (BW : Type) (scott : BW) (kde_gau : BW -> list R -> option (R -> R)) (kde_default : list R -> R -> R).
Local Notation figure := (dist_plot BW scott kde_gau kde_default).
Theorem C80_figure eigs bins kde fig : figure eigs bins kde = Ok fig ->
  (kde = false -> fig = [Hist eigs bins]) /\
  (kde = true -> exists lo hi, let g := EvenGrid lo hi (Z.to_nat 10000) in IsMin eigs lo /\ IsMax eigs hi /\
     ((Positive eigs = [] /\ fig = [Hist eigs bins]) \/
      (Positive eigs <> [] /\ exists f, (kde_gau scott (Positive eigs) = Some f \/ kde_gau scott (Positive eigs) = None /\ f = kde_default (Positive eigs)) /\
         fig = [Hist eigs bins; Line "Kernel Density Estimate" g (map f g)]))).
Proof.
  unfold dist_plot. destruct kde; [|intros [= <-]; split; [reflexivity|discriminate]].
  destruct (arr_range eigs) as [[lo hi]|e] eqn:E; cbn [bind fst snd]; [|discriminate]. apply range_ok in E. destruct E as (_ & Hlo & Hhi).
  rewrite grid_even, kde_plot_eq. intro H. split; [discriminate|]. intros _. exists lo, hi. cbv zeta.
  remember (EvenGrid lo hi (Z.to_nat 10000)) as g eqn:Eg. clear Eg. split; [assumption|]. split; [assumption|].
  assert (forall x, Ok x = Ok fig -> x = fig) as I by congruence. apply I in H. subst fig.
  destruct (Positive eigs) as [|v vs]; [left; auto|]. right. split; [discriminate|].
  exists (density BW kde_gau kde_default scott (v :: vs)). split; [|reflexivity]. unfold density. destruct (kde_gau scott (v :: vs)); auto.
Qed.
(** Two spectra with the same positive eigenvalues get the same estimate; a spectrum without positive eigenvalues gets none. *)
Theorem C80_negatives_refuted : exists eigs1 eigs2 bins fig1 fig2 g ys,
  figure eigs1 bins true = Ok fig1 /\ figure eigs2 bins true = Ok fig2 /\ fig1 = [Hist eigs1 bins; Line "Kernel Density Estimate" g ys] /\
  fig2 = [Hist eigs2 bins; Line "Kernel Density Estimate" g ys] /\ ~ Permutation eigs1 eigs2 /\
  (exists eigs3, eigs3 <> [] /\ figure eigs3 bins true = Ok [Hist eigs3 bins]).
Proof.
  exists [-1; 1], [-1; -1 / 2; -1 / 3; 1], 50%Z.
  assert (forall l, (forall x, In x l -> x <= 0) -> Positive l = []) as Pn.
  { induction l as [|a t IH]; [reflexivity|]. intro K. unfold Positive. cbn [filter]. destruct (Rlt_dec 0 a) as [Hlt|_].
    - exfalso. specialize (K a (or_introl eq_refl)). lra.
    - apply IH. intros x Hx. apply K. now right. }
  assert (Positive [-1; 1] = [1]) as P1.
  { unfold Positive. cbn [filter]. destruct (Rlt_dec 0 (-1)); [lra|]. destruct (Rlt_dec 0 1); [reflexivity|lra]. }
  assert (Positive [-1; -1 / 2; -1 / 3; 1] = [1]) as P2.
  { unfold Positive. cbn [filter]. destruct (Rlt_dec 0 (-1)); [lra|]. destruct (Rlt_dec 0 (-1 / 2)); [lra|]. destruct (Rlt_dec 0 (-1 / 3)); [lra|].
    destruct (Rlt_dec 0 1); [reflexivity|lra]. }
  assert (arr_range [-1; 1] = Ok (-1, 1)) as R1.
  { destruct (range_some [-1; 1] ltac:(discriminate)) as (lo & hi & E). rewrite E. apply range_ok in E. destruct E as (_ & [L1 L2] & [U1 U2]).
    cbn [In] in L1, U1. rewrite Forall_forall in L2, U2. assert (lo <= -1) by (apply L2; now left). assert (1 <= hi) by (apply U2; cbn [In]; auto).
    do 2 f_equal; [destruct L1 as [<-|[<-|[]]]|destruct U1 as [<-|[<-|[]]]]; lra. }
  assert (arr_range [-1; -1 / 2; -1 / 3; 1] = Ok (-1, 1)) as R2.
  { destruct (range_some [-1; -1 / 2; -1 / 3; 1] ltac:(discriminate)) as (lo & hi & E). rewrite E. apply range_ok in E. destruct E as (_ & [L1 L2] & [U1 U2]).
    cbn [In] in L1, U1. rewrite Forall_forall in L2, U2. assert (lo <= -1) by (apply L2; now left). assert (1 <= hi) by (apply U2; cbn [In]; auto).
    do 2 f_equal; [destruct L1 as [<-|[<-|[<-|[<-|[]]]]]|destruct U1 as [<-|[<-|[<-|[<-|[]]]]]]; lra. }
  unfold dist_plot. rewrite R1, R2. cbn [bind fst snd]. rewrite !kde_plot_eq, P1, P2.
  remember (linspace (-1) 1 (Z.to_nat 10000)) as g eqn:Eg. clear Eg.
  eexists _, _, g, (map (density BW kde_gau kde_default scott [1]) g). split; [reflexivity|]. split; [reflexivity|]. split; [reflexivity|]. split; [reflexivity|].
  split; [intro Q; apply Permutation_length in Q; discriminate|].
  exists [-1]. split; [discriminate|]. cbn [arr_range bind fst snd]. rewrite kde_plot_eq, Pn; [reflexivity|]. intros x [<-|[]]. lra.
Qed.
End C80.
Print Assumptions C80_figure.
Print Assumptions C80_negatives_refuted.
Example C80_ex : exists fig, dist_plot unit tt (fun _ _ => None) (fun _ x => x) [1; 2] 10 true = Ok fig /\ length fig = 2%nat.
Proof.
  unfold dist_plot. cbn [arr_range bind]. eexists. split; [reflexivity|]. rewrite kde_plot_eq.
  assert (Positive [1; 2] <> []) as N. { unfold Positive. cbn [filter]. destruct (Rlt_dec 0 1); [discriminate|lra]. }
  destruct (Positive [1; 2]); [congruence|]. reflexivity.
Qed.

(** ** C81: the Brody fit figure *)
Theorem C81_never_drawn_refuted gamma opt BW kde_gau kde_default unfolded srt method ens bins kde trim trim_kde (bw : BW) :
  Permutation unfolded srt -> Ascending srt ->
  let r := brody_fit_plot gamma opt BW kde_gau kde_default unfolded method ens bins kde trim trim_kde bw in
  (Kept trim (Gaps srt) = [] -> r = Raise ValueError) /\ (Kept trim (Gaps srt) <> [] -> r = Raise AttributeError).
Proof.
  intros Hp Ha r. destruct (spacings_plot_done gamma opt BW kde_gau kde_default unfolded srt bins kde trim trim_kde bw true method ens Hp Ha) as [H1 H2].
  unfold r, brody_fit_plot. split; intro H.
  - rewrite (H1 H). reflexivity.
  - destruct (H2 H) as (_ & _ & _ & K). rewrite K. reflexivity.
Qed.
Print Assumptions C81_never_drawn_refuted.
Example C81_ex gamma opt : brody_fit_plot gamma opt unit (fun _ _ => None) (fun _ x => x) [0; 1; 3] "spacing" ["goe"%string] 50 false 5 false tt = Raise AttributeError.
Proof.
  apply (C81_never_drawn_refuted gamma opt unit (fun _ _ => None) (fun _ x => x) [0; 1; 3] [0; 1; 3]); [reflexivity|apply asc3; lra|].
  unfold Kept, AtMost. cbn [Gaps filter]. destruct (Rlt_dec 0 5); [|lra]. destruct (Rle_dec (1 - 0) 5); [discriminate|lra].
Qed.

(** ** C82: the spectral rigidity figure *)
(** The mask used: the [converged] column, or all rows when there is none. *)
Definition ConvergedMask (df : dframe) (mask : list bool) : Prop :=
  d_converged df = Some mask \/ (d_converged df = None /\ exists sg, d_sigma df = Some sg /\ mask = repeat true (length sg)).
Lemma converged_mask df mask : converged_column df = Ok mask <-> ConvergedMask df mask.
Proof.
  unfold converged_column, ConvergedMask. destruct (d_converged df) as [c|].
  - split; [intros [= ->]; now left|]. intros [[= ->]|[? _]]; [reflexivity|discriminate].
  - assert (forall sg : list R, map (fun _ => true) sg = repeat true (length sg)) as E by (induction sg; cbn; congruence).
    destruct (d_sigma df) as [sg|].
    + rewrite E. split; [intros [= <-]; right; eauto|]. intros [?|[_ (sg' & [= <-] & ->)]]; [discriminate|reflexivity].
    + split; [discriminate|]. intros [?|[_ (sg' & ? & _)]]; discriminate.
Qed.
(** The two scatter plots: every row once, black when converged and red otherwise; named when the two kinds were told apart. *)
Definition ScatterOf (df : dframe) (mask : list bool) (L y : list R) (a : artist) : Prop :=
  exists (b : bool) lab, a = Points (if b then "black" else "red") lab (Rows b mask L) (Rows b mask y) /\
    ((d_converged df <> None /\ In false mask /\ lab = Some (if b then "converged" else "non-converged")%string) \/
     (~ (d_converged df <> None /\ In false mask) /\ lab = None)).
Lemma scatter_spec df mask L y a : In a (scatter_rows (has_info df) mask L y) <-> ScatterOf df mask L y a.
Proof.
  unfold scatter_rows, ScatterOf. cbv zeta. rewrite !masked_rows.
  assert (has_info df && existsb negb mask = true <-> d_converged df <> None /\ In false mask) as E.
  { rewrite andb_true_iff, existsb_exists. unfold has_info. destruct (d_converged df); (split; [|]).
    - intros [_ ([|] & H & ?)]; [discriminate|]. split; [discriminate|assumption].
    - intros [_ H]. split; [reflexivity|]. exists false. auto.
    - intros [? _]; discriminate.
    - intros [H _]. congruence. }
  destruct (has_info df && existsb negb mask); cbn [In]; split.
  - intros [<-|[<-|[]]]; [exists true|exists false]; eexists; (split; [reflexivity|left]); destruct (proj1 E eq_refl); auto.
  - intros (b & lab & -> & [(_ & _ & ->)|(N & _)]); [destruct b; auto|]. destruct N. now apply E.
  - intros [<-|[<-|[]]]; [exists true|exists false]; eexists; (split; [reflexivity|right]); (split; [|reflexivity]); intro N; apply E in N; discriminate.
  - intros (b & lab & -> & [(H1 & H2 & _)|(_ & ->)]); [|destruct b; auto]. assert (false = true) by (apply E; auto). discriminate.
Qed.

Theorem C82_figure eg unfolded df ens fig : rigidity_plot eg unfolded df ens = Ok fig ->
  exists L delta mask, d_L df = Some L /\ d_delta df = Some delta /\ ConvergedMask df mask /\
    forall a, In a fig <-> ScatterOf df mask L delta a \/
      exists e, In (ens_key e) ens /\
        a = Line (ens_label e) L (map (fun l => rigidity_at eg e (match unfolded, e with Some u, (GOE | GUE | GSE) => l / Rmean (Gaps u) | _, _ => l end)) L).
Proof.
  unfold rigidity_plot. destruct (d_L df) as [L|]; [|discriminate]. destruct (d_delta df) as [delta|]; [|discriminate].
  destruct (converged_column df) as [mask|] eqn:E; cbn [bind]; [|discriminate]. apply converged_mask in E. intro H.
  assert (forall x, Ok x = Ok fig -> x = fig) as I by congruence. apply I in H. subst fig. clear I.
  exists L, delta, mask. split; [reflexivity|]. split; [reflexivity|]. split; [assumption|]. intro a.
  rewrite !in_app_iff, !in_when, !requested_in, scatter_spec. cbn [In].
  assert (forall f : R -> R, map f match unfolded with Some u => map (fun l => l / nmean (ndiff u)) L | None => L end
    = map (fun l => f (match unfolded with Some u => l / Rmean (Gaps u) | None => l end)) L) as S.
  { intro f. destruct unfolded as [u|]; [|reflexivity]. rewrite map_map, nmean_R, ndiff_Gaps. reflexivity. }
  rewrite !S. split.
  - intros [H|[[H [<-|[]]]|[[H [<-|[]]]|[[H [<-|[]]]|[H [<-|[]]]]]]]; [left; exact H|right; exists Poisson|right; exists GOE|right; exists GUE|right; exists GSE];
      (split; [assumption|]); cbn [ens_label rigidity_at]; f_equal; apply map_ext; intro; destruct unfolded; reflexivity.
  - intros [H|(e & H & ->)]; [left; exact H|right].
    destruct e; cbn [ens_key ens_label rigidity_at] in *; [left|right; left|right; right; left|right; right; right]; (split; [exact H|left]);
      f_equal; apply map_ext; intro; destruct unfolded; reflexivity.
Qed.
(** With unit mean spacing the curves are those of the ensembles; with any other the Poisson curve alone is at L itself. *)
Theorem C82_scaling eg u df ens fig L : rigidity_plot eg (Some u) df ens = Ok fig -> d_L df = Some L -> Rmean (Gaps u) = 1 ->
  forall e ys, In (Line (ens_label e) L ys) fig <-> In (ens_key e) ens /\ ys = spectral_rigidity eg e 0 0 0 (Some L).
Proof.
  intros H HL Hm e ys. apply C82_figure in H. destruct H as (L' & delta & mask & HL' & _ & _ & H). rewrite HL in HL'. injection HL' as <-.
  rewrite H. clear H. unfold spectral_rigidity. cbn [L_grid].
  assert (forall e', map (fun l => rigidity_at eg e' match e' with Poisson => l | _ => l / Rmean (Gaps u) end) L = map (rigidity_at eg e') L) as S.
  { intro e'. apply map_ext. intro l. rewrite Hm. replace (l / 1) with l by field. destruct e'; reflexivity. }
  split.
  - intros [(b & lab & Q & _)|(e' & He & Q)]; [discriminate|]. injection Q as Q1 Q2.
    assert (e' = e) as -> by (destruct e, e'; try discriminate; reflexivity). split; [assumption|]. rewrite Q2, <- S. apply map_ext. intro; destruct e; reflexivity.
  - intros [He ->]. right. exists e. split; [assumption|]. f_equal. rewrite <- S. apply map_ext. intro; destruct e; reflexivity.
Qed.
Theorem C82_scaling_refuted eg (u : list R) (df : dframe) (L : R) : Rmean (Gaps u) <> 1 -> 0 < Rmean (Gaps u) -> 0 < L ->
  d_L df = Some [L] -> d_delta df <> None -> (d_converged df <> None \/ d_sigma df <> None) ->
  exists fig poisson goe, rigidity_plot eg (Some u) df ["poisson"%string; "goe"%string] = Ok fig /\
    In (Line "Poisson" [L] [poisson]) fig /\ In (Line "Gaussian Orthogonal" [L] [goe]) fig /\
    goe = rigidity_at eg GOE (L / Rmean (Gaps u)) /\ goe <> rigidity_at eg GOE L /\ poisson = rigidity_at eg Poisson L /\ poisson <> rigidity_at eg Poisson (L / Rmean (Gaps u)).
Proof.
  intros Hm Hp HL E1 E2 E3.
  assert (exists mask, converged_column df = Ok mask) as [mask Ec].
  { unfold converged_column. destruct (d_converged df); [eauto|]. destruct (d_sigma df); [eauto|]. destruct E3; congruence. }
  destruct (d_delta df) as [delta|] eqn:Ed; [|congruence].
  assert (exists fig, rigidity_plot eg (Some u) df ["poisson"%string; "goe"%string] = Ok fig) as [fig H].
  { unfold rigidity_plot. rewrite E1, Ed, Ec. cbn [bind]. eauto. }
  exists fig, (rigidity_at eg Poisson L), (rigidity_at eg GOE (L / Rmean (Gaps u))). split; [assumption|].
  apply C82_figure in H. destruct H as (L' & delta' & mask' & HL' & _ & _ & H). rewrite E1 in HL'. injection HL' as <-.
  split; [apply H; right; exists Poisson; split; [now left|reflexivity]|]. split; [apply H; right; exists GOE; split; [right; now left|reflexivity]|].
  split; [reflexivity|]. set (m := Rmean (Gaps u)) in *. clearbody m.
  assert (L / m <> L) as N.
  { intro Q. apply Hm. apply (Rmult_eq_reg_l L); [|lra]. assert (L = L / m * m) as K by (field; lra). rewrite Q in K. lra. }
  split.
  - assert (0 < L / m) as P by (apply Rdiv_lt_0_compat; lra). intro Q.
    destruct (Rtotal_order (L / m) L) as [K|[K|K]]; [|contradiction|].
    + destruct (T_Ensemble.C49_increasing eg GOE (L / m) L P K) as [Z _]. lra.
    + destruct (T_Ensemble.C49_increasing eg GOE L (L / m) HL K) as [Z _]. lra.
  - split; [reflexivity|]. cbn [rigidity_at]. intro Q. apply N. lra.
Qed.
(** Missing columns.  The frame the docstring describes (L and delta only) is refused. *)
Theorem C82_columns eg unfolded df ens :
  ((d_L df = None \/ d_delta df = None) -> rigidity_plot eg unfolded df ens = Raise RuntimeError) /\
  (d_L df <> None -> d_delta df <> None -> d_converged df = None -> d_sigma df = None -> rigidity_plot eg unfolded df ens = Raise AttributeError) /\
  (d_L df <> None -> d_delta df <> None -> d_converged df <> None -> exists fig, rigidity_plot eg unfolded df ens = Ok fig).
Proof.
  unfold rigidity_plot, converged_column. destruct (d_L df), (d_delta df), (d_converged df), (d_sigma df); cbn [bind];
    (split; [intros [?|?]; try discriminate; reflexivity|]); (split; [intros; congruence|]); intros; try congruence; eauto.
Qed.
Print Assumptions C82_figure.
Print Assumptions C82_scaling.
Print Assumptions C82_scaling_refuted.
Print Assumptions C82_columns.
Example C82_ex eg : let df := mkdframe [0; 1]%Z (Some [1; 2]) (Some [3; 4]) None (Some [true; false]) in
  exists fig, rigidity_plot eg (Some [0; 2]) df ["poisson"%string] = Ok fig /\
    In (Points "black" (Some "converged"%string) [1] [3]) fig /\ In (Points "red" (Some "non-converged"%string) [2] [4]) fig /\
    In (Line "Poisson" [1; 2] [1 / 15; 2 / 15]) fig /\ Rmean (Gaps [0; 2]) = 2 /\
  rigidity_plot eg (Some [0; 2]) (mkdframe [0]%Z (Some [1]) (Some [3]) None None) [] = Raise AttributeError.
Proof.
  cbv zeta. eexists. split; [reflexivity|]. split; [left; reflexivity|]. split; [right; left; reflexivity|]. split; [right; right; left; reflexivity|].
  split; [|reflexivity]. unfold Rmean. cbn. lra.
Qed.

(** ** C83: the level number variance figure *)
Section C83.
Context (eg : R) (Si Ci : R -> R) (Si_inf : R) (quad : R -> R).
Local Notation figure := (levelvar_plot eg Si Ci Si_inf quad).
(** The curve of each ensemble at one L: the orthogonal one is exact below 10. *)
Definition VarianceCurve (e : ensemble) (l : R) : R :=
  match e with GOE => if Rlt_dec l 10 then OrthogonalVariance Si Ci eg l else levelvar_at eg GOE l | _ => levelvar_at eg e l end.

Lemma exact_map L : SineIntegral Si (PI / 2) -> Si_inf = PI / 2 -> SincSquareTail quad -> List.Forall (fun l => 0 < l) L ->
  map (fun l => goe_value eg Si Ci Si_inf quad l l) L = map (VarianceCurve GOE) L.
Proof.
  intros H1 H2 H3 HL. apply map_ext_in. intros l Hl. rewrite Forall_forall in HL. unfold goe_value, VarianceCurve.
  destruct (Rlt_dec l 10); [|reflexivity]. apply exact_closed; [rewrite H2; exact H1|assumption|assumption|now apply HL].
Qed.

Theorem C83_figure df ens L sigma mask :
  SineIntegral Si (PI / 2) -> Si_inf = PI / 2 -> SincSquareTail quad ->
  d_L df = Some L -> d_sigma df = Some sigma -> ConvergedMask df mask -> List.Forall (fun l => 0 < l) L -> d_index df = map Z.of_nat (seq 0 (length L)) ->
  exists fig, figure df ens = Ok fig /\
    forall a, In a fig <-> ScatterOf df mask L sigma a \/ exists e, In (ens_key e) ens /\ a = Line (ens_label e) L (map (VarianceCurve e) L).
Proof.
  intros H1 H2 H3 E1 E2 E3 HL Hi. apply converged_mask in E3.
  assert (goe_loop eg Si Ci Si_inf quad (d_index df) L L 0 = Ok (map (VarianceCurve GOE) L)) as G.
  { rewrite Hi. fold (RowNumbers (length L)). rewrite loop_rows, exact_map by assumption. reflexivity. }
  unfold levelvar_plot. rewrite E1, E2, E3. cbn [bind]. rewrite G.
  assert (forall g, In g (when (requested "goe" ens) [Line "Gaussian Orthogonal" L (map (VarianceCurve GOE) L)]) <-> In g
    (match (if requested "goe" ens then let! v := Ok (map (VarianceCurve GOE) L) in Ok [Line "Gaussian Orthogonal" L v] else Ok []) with Ok l => l | Raise _ => [] end)) as W.
  { intro g. destruct (requested "goe" ens); reflexivity. }
  assert (exists l, (if requested "goe" ens then let! v := Ok (map (VarianceCurve GOE) L) in Ok [Line "Gaussian Orthogonal" L v] else Ok []) = Ok l) as [l El]
    by (destruct (requested "goe" ens); cbn [bind]; eauto).
  cbn [bind] in El, W |- *. rewrite El in W |- *. cbn [bind]. eexists. split; [reflexivity|]. intro a.
  rewrite !in_app_iff, <- (W a), !in_when, !requested_in, scatter_spec. cbn [In]. split.
  - intros [H|[[H [<-|[]]]|[[H [<-|[]]]|[[H [<-|[]]]|[H [<-|[]]]]]]]; [left; exact H|right; exists Poisson|right; exists GOE|right; exists GUE|right; exists GSE];
      (split; [assumption|]); try reflexivity. cbn [ens_label VarianceCurve levelvar_at]. f_equal. now rewrite map_id.
  - intros [H|(e & H & ->)]; [left; exact H|right].
    destruct e; cbn [ens_key ens_label] in *; [left|right; left|right; right; left|right; right; right]; (split; [exact H|left]); try reflexivity.
    cbn [VarianceCurve levelvar_at]. f_equal. now rewrite map_id.
Qed.

(** The rows are looked up by their labels: the orthogonal curve cannot be drawn when one of 0, ..., n - 1 is not a label, ... *)
Theorem C83_labels df ens L sigma mask j : d_L df = Some L -> d_sigma df = Some sigma -> ConvergedMask df mask -> length (d_index df) = length L ->
  NoDup (d_index df) -> (0 <= j < Z.of_nat (length L))%Z -> ~ In j (d_index df) ->
  (In "goe"%string ens -> figure df ens = Raise KeyError) /\ (~ In "goe"%string ens -> exists fig, figure df ens = Ok fig).
Proof.
  intros E1 E2 E3 Hl HN Hj Hn. apply converged_mask in E3. unfold levelvar_plot. rewrite E1, E2, E3. cbn [bind]. split; intro H.
  - apply requested_in in H. rewrite H, (loop_key eg Si Ci Si_inf quad _ _ L 0 j HN Hl ltac:(lia) Hn). reflexivity.
  - assert (requested "goe" ens = false) as ->. { destruct (requested "goe" ens) eqn:E; [|reflexivity]. apply requested_in in E. contradiction. }
    cbn [bind]. eauto.
Qed.
(** ... and with the rows in another order the wrong formula is used. *)
Theorem C83_reordered_refuted l1 l2 sigma mask : SineIntegral Si (PI / 2) -> Si_inf = PI / 2 -> SincSquareTail quad -> 0 < l1 < 10 -> 10 <= l2 ->
  exists fig ys, figure (mkdframe [1; 0]%Z (Some [l1; l2]) None (Some sigma) (Some mask)) ["goe"%string] = Ok fig /\ In (Line "Gaussian Orthogonal" [l1; l2] ys) fig /\
    ys = [levelvar_at eg GOE l1; OrthogonalVariance Si Ci eg l2] /\ map (VarianceCurve GOE) [l1; l2] = [OrthogonalVariance Si Ci eg l1; levelvar_at eg GOE l2].
Proof.
  intros H1 H2 H3 Hl1 Hl2. unfold levelvar_plot. cbn [d_L d_sigma d_converged d_index converged_column bind].
  change (requested "goe" ["goe"%string]) with true.
  assert (goe_loop eg Si Ci Si_inf quad [1; 0]%Z [l1; l2] [l1; l2] 0 = Ok [levelvar_at eg GOE l1; OrthogonalVariance Si Ci eg l2]) as ->.
  { cbn [goe_loop]. change (series_get [1; 0]%Z [l1; l2] 0) with (@Ok R l2). change (series_get [1; 0]%Z [l1; l2] (0 + 1)) with (@Ok R l1). cbn [bind].
    change (nofZ 10) with 10. rewrite (lt_dec_b l2 10), (lt_dec_b l1 10).
    destruct (Rlt_dec l2 10); [lra|]. destruct (Rlt_dec l1 10); [|lra]. do 3 f_equal.
    apply exact_closed; [rewrite H2; exact H1|assumption|assumption|lra]. }
  cbn [bind]. eexists _, _. split; [reflexivity|]. split; [right; right; left; reflexivity|]. split; [reflexivity|]. cbn [map VarianceCurve].
  destruct (Rlt_dec l2 10); [lra|]. destruct (Rlt_dec l1 10); [|lra]. reflexivity.
Qed.
(** ... and when the label 0 occurs twice (two such tables concatenated) it cannot be drawn either. *)
Theorem C83_repeated df ens L sigma mask : d_L df = Some L -> d_sigma df = Some sigma -> ConvergedMask df mask -> length (d_index df) = length L ->
  (2 <= count_occ Z.eq_dec (d_index df) 0%Z)%nat ->
  (In "goe"%string ens -> figure df ens = Raise ValueError) /\ (~ In "goe"%string ens -> exists fig, figure df ens = Ok fig).
Proof.
  intros E1 E2 E3 Hl H2. apply converged_mask in E3. unfold levelvar_plot. rewrite E1, E2, E3. cbn [bind]. split; intro H.
  - apply requested_in in H. rewrite H. assert (series_get (d_index df) L 0 = Raise ValueError) as G.
    { unfold series_get. assert (length (filter (fun p : Z * R => Z.eqb (fst p) 0) (combine (d_index df) L)) = count_occ Z.eq_dec (d_index df) 0%Z) as Q.
      { clear - Hl. revert L Hl. induction (d_index df) as [|z l IH]; intros [|x L] Hl; try discriminate; [reflexivity|]. cbn. destruct (Z.eq_dec z 0) as [->|Hz].
        - cbn. rewrite IH by (cbn in Hl; lia). reflexivity.
        - rewrite (proj2 (Z.eqb_neq _ _) Hz). apply IH. cbn in Hl. lia. }
      destruct (filter _ _) as [|a [|b l]]; cbn in Q; [lia|lia|reflexivity]. }
    destruct L as [|x L]; [destruct (d_index df); [cbn in H2; lia|discriminate]|]. cbn [goe_loop]. now rewrite G.
  - assert (requested "goe" ens = false) as ->. { destruct (requested "goe" ens) eqn:E; [|reflexivity]. apply requested_in in E. contradiction. }
    cbn [bind]. eauto.
Qed.
Theorem C83_columns df ens : (d_L df = None \/ d_sigma df = None) -> figure df ens = Raise RuntimeError.
Proof. unfold levelvar_plot. destruct (d_L df), (d_sigma df); intros [?|?]; try discriminate; reflexivity. Qed.
End C83.
Print Assumptions C83_figure.
Print Assumptions C83_labels.
Print Assumptions C83_repeated.
Print Assumptions C83_reordered_refuted.
Print Assumptions C83_columns.
Example C83_repeated_case : exists fig,
  levelvar_plot 0 (fun _ => 0) (fun _ => 0) (PI / 2) (fun _ => 0) (mkdframe [0; 1; 0; 1]%Z (Some [1; 2; 1; 2]) None (Some [3; 4; 5; 6]) None) ["goe"%string] = Raise ValueError /\
  levelvar_plot 0 (fun _ => 0) (fun _ => 0) (PI / 2) (fun _ => 0) (mkdframe [0; 1; 0; 1]%Z (Some [1; 2; 1; 2]) None (Some [3; 4; 5; 6]) None) ["gue"%string] = Ok fig.
Proof. eexists. split; reflexivity. Qed.
Example C83_ex : exists Si quad, SineIntegral Si (PI / 2) /\ SincSquareTail quad /\
  (exists fig, levelvar_plot 0 Si (fun _ => 0) (PI / 2) quad (mkdframe [0; 1]%Z (Some [1; 20]) None (Some [3; 4]) None) ["goe"%string; "poisson"%string] = Ok fig /\
    In (Line "Gaussian Orthogonal" [1; 20] [OrthogonalVariance Si (fun _ => 0) 0 1; levelvar_at 0 GOE 20]) fig /\ In (Points "black" None [1; 20] [3; 4]) fig) /\
  levelvar_plot 0 Si (fun _ => 0) (PI / 2) quad (mkdframe [7; 8]%Z (Some [1; 20]) None (Some [3; 4]) None) ["goe"%string] = Raise KeyError.
Proof.
  destruct (sine_integral_exists (PI / 2)) as [Si HS]. destruct sinc_tail_exists as [quad HQ]. exists Si, quad. split; [assumption|]. split; [assumption|]. split.
  - set (df := mkdframe [0; 1]%Z (Some [1; 20]) None (Some [3; 4]) None).
    assert (ConvergedMask df [true; true]) as M by (right; split; [reflexivity|]; exists [3; 4]; split; reflexivity).
    destruct (C83_figure 0 Si (fun _ => 0) (PI / 2) quad df ["goe"%string; "poisson"%string] [1; 20] [3; 4] [true; true] HS eq_refl HQ eq_refl eq_refl M) as (fig & H & K).
    + repeat constructor; lra.
    + reflexivity.
    + exists fig. split; [exact H|]. split.
      * apply K. right. exists GOE. split; [now left|]. cbn [map VarianceCurve ens_label]. destruct (Rlt_dec 20 10); [lra|]. destruct (Rlt_dec 1 10); [|lra]. reflexivity.
      * apply K. left. exists true, None. split; [reflexivity|]. right. split; [|reflexivity]. intros [N _]. now apply N.
  - apply (C83_labels 0 Si (fun _ => 0) (PI / 2) quad (mkdframe [7; 8]%Z (Some [1; 20]) None (Some [3; 4]) None) ["goe"%string] [1; 20] [3; 4] [true; true] 0%Z); try reflexivity.
    + right. split; [reflexivity|]. exists [3; 4]. split; reflexivity.
    + constructor; [cbn [In]; intros [?|[]]; discriminate|]. constructor; [intros []|constructor].
    + cbn. lia.
    + cbn [In d_index]. intros [?|[?|[]]]; discriminate.
    + now left.
Qed.

(** ** C84: the step function figure *)
Theorem C84_staircase eigs gridsize lo hi : Ascending eigs -> IsMin eigs lo -> IsMax eigs hi -> lo < hi -> (2 <= gridsize)%nat ->
  let g := EvenGrid lo hi gridsize in
  steps_plot eigs gridsize = Ok (Done [Line "Cumulative Value" g (map (fun x => IZR (CountLe eigs x)) g)]) /\
  last_opt (map (fun x => IZR (CountLe eigs x)) g) = Some (INR (length eigs)).
Proof.
  intros Ha Hlo Hhi Hlt Hn g.
  assert (eigs <> []) as Hne by (intros ->; destruct Hlo as [[] _]).
  assert (arr_range eigs = Ok (lo, hi)) as Er.
  { destruct (range_some eigs Hne) as (lo' & hi' & E). rewrite E. apply range_ok in E. destruct E as (_ & [L1 L2] & [U1 U2]).
    destruct Hlo as [l1 l2], Hhi as [u1 u2]. rewrite Forall_forall in *. do 2 f_equal; apply Rle_antisym; auto. }
  assert (exists e0, head_opt eigs = Some e0 /\ e0 = lo) as (e0 & H0 & ->).
  { destruct eigs as [|a t]; [congruence|]. exists a. split; [reflexivity|]. destruct Hlo as [l1 l2]. apply StronglySorted_R in Ha. inversion Ha as [|? ? _ K]; subst.
    rewrite Forall_forall in K, l2. apply Rle_antisym; [|apply l2; now left]. destruct l1 as [->|l1]; [lra|auto]. }
  unfold steps_plot. rewrite Er. cbn [bind fst snd]. rewrite linspace_even by assumption. fold g.
  assert (last_opt g = Some hi) as H1 by (apply even_last; assumption).
  rewrite (step_fast_sorted eigs g lo hi (all_notnan _) (all_notnan _) Ha (even_asc _ _ _ Hn (Rlt_le _ _ Hlt)) H0 H1).
  assert (neq hi lo = false) as ->. { destruct (neq hi lo) eqn:E; [|reflexivity]. apply neq_R_true in E. lra. }
  split; [now rewrite map_map|]. unfold last_opt in *. rewrite map_length. rewrite (map_nth_error _ _ _ H1). f_equal. rewrite INR_IZR_INZ. f_equal.
  destruct Hhi as [_ K]. clear -K. induction eigs as [|a t IH]; [reflexivity|]. inversion K; subst. cbn [CountLe length].
  rewrite IH by assumption. assert (nle a hi = true) as -> by now apply nle_R_true. lia.
Qed.
(** The staircase of a spectrum whose eigenvalues are all equal is drawn as zero. *)
Theorem C84_equal_refuted v n gridsize : (1 <= n)%nat -> (2 <= gridsize)%nat ->
  steps_plot (repeat v n) gridsize = Ok (Done [Line "Cumulative Value" (repeat v gridsize) (repeat 0 gridsize)]) /\
  CountLe (repeat v n) v = Z.of_nat n.
Proof.
  intros Hn Hg. split.
  - assert (forall x, In x (repeat v n) -> x = v) as Hr by (intros x Hx; now apply repeat_spec in Hx).
    assert (arr_range (repeat v n) = Ok (v, v)) as Er.
    { destruct (range_some (repeat v n)) as (lo & hi & E); [destruct n; [lia|discriminate]|]. rewrite E. apply range_ok in E. destruct E as (_ & [L1 _] & [U1 _]).
      apply Hr in L1, U1. now subst. }
    unfold steps_plot. rewrite Er. cbn [bind fst snd]. rewrite linspace_even by assumption.
    assert (EvenGrid v v gridsize = repeat v gridsize) as ->.
    { unfold EvenGrid. replace (v - v) with 0 by ring. generalize (INR gridsize - 1) as d, 0%nat as k. clear. intro d. induction gridsize as [|g IH]; intro k; [reflexivity|].
      cbn [seq map repeat]. rewrite IH. f_equal. unfold Rdiv. ring. }
    assert (forall m, Ascending (repeat v m)) as Ha.
    { intro m. apply StronglySorted_R. induction m as [|m IH]; cbn [repeat]; constructor; [exact IH|]. apply Forall_forall. intros x Hx. apply repeat_spec in Hx. subst. lra. }
    rewrite (step_fast_sorted (repeat v n) (repeat v gridsize) v v (all_notnan _) (all_notnan _) (Ha _) (Ha _)).
    + assert (neq v v = true) as -> by now apply neq_R_true. rewrite repeat_length. do 4 f_equal. clear. induction gridsize as [|g IH]; cbn [repeat map]; [reflexivity|]. now rewrite IH.
    + destruct n; [lia|reflexivity].
    + unfold last_opt. rewrite repeat_length. apply nth_error_repeat. lia.
  - clear. induction n as [|n IH]; [reflexivity|]. cbn [repeat CountLe]. rewrite IH. assert (nle v v = true) as -> by (apply nle_R_true; lra). lia.
Qed.
Theorem C84_degenerate gridsize : steps_plot [] gridsize = Raise ValueError /\ forall eigs, eigs <> [] -> steps_plot eigs 0 = Ok OutOfBounds.
Proof.
  split; [reflexivity|]. intros eigs H. apply range_some in H. destruct H as (lo & hi & E). unfold steps_plot. rewrite E. reflexivity.
Qed.
Print Assumptions C84_staircase.
Print Assumptions C84_equal_refuted.
Print Assumptions C84_degenerate.
Example C84_ex : exists g, steps_plot [0; 1; 3] 4 = Ok (Done [Line "Cumulative Value" g [1; 2; 2; 3]]) /\ length g = 4%nat /\ nth 3 g 0 = 3.
Proof.
  destruct (C84_staircase [0; 1; 3] 4 0 3) as [H _].
  - apply asc3; lra.
  - split; [now left|]. repeat constructor; lra.
  - split; [right; right; now left|]. repeat constructor; lra.
  - lra.
  - lia.
  - cbv zeta in H. rewrite H. exists (EvenGrid 0 3 4). split; [|split; [reflexivity|unfold EvenGrid; cbn; field]]. do 4 f_equal.
    unfold EvenGrid. cbn [seq map CountLe]. 
    replace (INR 4 - 1) with 3 by (cbn; lra). replace (INR 0) with 0 by reflexivity. replace (INR 1) with 1 by reflexivity. replace (INR 2) with 2 by (cbn; lra).
    replace (INR 3) with 3 by (cbn; lra). rewrite !le_dec_b.
    repeat (match goal with |- context [Rle_dec ?a ?b] => destruct (Rle_dec a b); [|lra] || (destruct (Rle_dec a b); [lra|]) end). reflexivity.
Qed.

(** ** C85: the figure and the text about the trimming steps *)
Section C85.
Context (rnd : R -> R).
Local Notation iter := (trimiter R (list (@column R))).
(** What a panel has to show about an iteration. *)
Definition PanelOf (t : iter) (p : panel) : Prop :=
  (p_removed p = None <-> ti_id t = 0%nat) /\
  (forall v, p_removed p = Some v -> v = rnd (100 * (1 - INR (length (ti_eigs t)) / INR (length (ti_origs t))))) /\
  TrimmedMean (map (fun c => Rmean (c_spacings c)) (ti_fits t)) (p_mean p) /\
  TrimmedMean (map (fun c => Rvar1 (c_spacings c)) (ti_fits t)) (p_var p) /\
  length (p_points p) = length (ti_eigs t) /\
  forall j v o, nth_error (ti_eigs t) j = Some v -> nth_error (ti_clusters t) j = Some o -> nth_error (p_points p) j = Some (v, Z.of_nat j + 1, o)%Z.

Lemma percent_eq (t : iter) : ti_origs t <> [] -> percent_removed rnd t = rnd (100 * (1 - INR (length (ti_eigs t)) / INR (length (ti_origs t)))).
Proof.
  intro H. unfold percent_removed. f_equal. change (100 - 100 * nlen (ti_eigs t) / nlen (ti_origs t) = 100 * (1 - INR (length (ti_eigs t)) / INR (length (ti_origs t)))).
  unfold nlen. change (nofZ (Z.of_nat (length (ti_eigs t)))) with (IZR (Z.of_nat (length (ti_eigs t)))). change (nofZ (Z.of_nat (length (ti_origs t)))) with (IZR (Z.of_nat (length (ti_origs t)))).
  rewrite <- !INR_IZR_INZ. field. apply not_0_INR. destruct (ti_origs t); [congruence|discriminate].
Qed.
Lemma indices_ok (t : iter) : ti_eigs t <> [] -> exists ix, trim_indices t = Ok ix.
Proof.
  intro H. unfold trim_indices. rewrite py_get_0, py_get_m1. unfold head_opt, last_opt.
  destruct (ti_eigs t) as [|a l]; [congruence|]. cbn [nth_error].
  destruct (nth_error (a :: l) (length (a :: l) - 1)) as [b|] eqn:E; [eauto|]. apply nth_error_None in E. cbn [length] in E. lia.
Qed.
Lemma panel_ok (t : iter) : ti_eigs t <> [] -> ti_origs t <> [] -> length (ti_clusters t) = length (ti_eigs t) -> exists p, trim_panel rnd t = Ok p /\ PanelOf t p.
Proof.
  intros H1 H2 H3. unfold trim_panel. destruct (indices_ok t H1) as [ix ->]. cbn [bind]. rewrite H3, Nat.eqb_refl. cbn [negb].
  eexists. split; [reflexivity|]. unfold PanelOf. cbn [p_removed p_mean p_var p_points].
  split; [destruct (Nat.eqb_spec (ti_id t) 0); split; intro; try congruence; discriminate|].
  split; [destruct (Nat.eqb_spec (ti_id t) 0); intros v [= <-]; now apply percent_eq|].
  split; [erewrite map_ext; [apply trim_mean_spec|intro c; symmetry; apply nmean_R]|].
  split; [erewrite map_ext; [apply trim_mean_spec|intro c; symmetry; apply nvar1_R]|].
  assert (length (map Z.of_nat (seq 1 (length (ti_eigs t)))) = length (ti_eigs t)) as HL by now rewrite map_length, seq_length.
  split; [rewrite !combine_length, HL; lia|].
  intros j v o Hv Ho.
  assert (nth_error (map Z.of_nat (seq 1 (length (ti_eigs t)))) j = Some (Z.of_nat j + 1)%Z) as Hz.
  { assert (j < length (ti_eigs t))%nat by (apply nth_error_Some; rewrite Hv; discriminate).
    rewrite (map_nth_error _ _ _ (d := (1 + j)%nat)); [f_equal; lia|]. rewrite (nth_error_nth' _ 0%nat) by (rewrite seq_length; lia). now rewrite seq_nth by lia. }
  assert (forall A B (a : list A) (b : list B) j x y, nth_error a j = Some x -> nth_error b j = Some y -> nth_error (combine a b) j = Some (x, y)) as C.
  { clear. intros A B a. induction a as [|x0 a IH]; intros b [|j] x y Ha Hb; try discriminate; destruct b as [|y0 b]; try discriminate; cbn [nth_error combine] in *.
    - congruence.
    - now apply IH. }
  apply C; [apply C; assumption|assumption].
Qed.

(** One panel per iteration, in order, in as few rows as possible; the remaining axes are removed. *)
Theorem C85_panels (its : list iter) (width : Z) : (1 <= width)%Z -> its <> [] -> ~ (width = 1%Z /\ length its = 1%nat) ->
  List.Forall (fun t => ti_eigs t <> [] /\ ti_origs t <> [] /\ length (ti_clusters t) = length (ti_eigs t)) its ->
  exists height cells, trim_iters_plot rnd its width = Ok (height, width, cells) /\
    ((height - 1) * width < Z.of_nat (length its) <= height * width)%Z /\ Z.of_nat (length cells) = (height * width)%Z /\
    (forall i t, nth_error its i = Some t -> exists p, nth_error cells i = Some (Some p) /\ PanelOf t p) /\
    (forall i, (length its <= i < length cells)%nat -> nth_error cells i = Some None).
Proof.
  intros Hw Hne Hn1 Hf. unfold trim_iters_plot. destruct (Z.eqb_spec width 0) as [Q|Q]; [lia|]. cbv zeta.
  set (n := Z.of_nat (length its)). set (h := (- (- n / width))%Z).
  assert (1 <= n)%Z as Hn by (unfold n; destruct its; [congruence|cbn [length]; lia]).
  assert ((h - 1) * width < n <= h * width)%Z as Hh.
  { unfold h. pose proof (Z.div_mod (- n) width ltac:(lia)). pose proof (Z.mod_pos_bound (- n) width ltac:(lia)). nia. }
  assert (1 <= h)%Z as Hh1 by nia. clearbody h.
  destruct (Z.ltb_spec h 1); [lia|]. destruct (Z.ltb_spec width 1); [lia|]. cbn [orb].
  assert ((h =? 1)%Z && (width =? 1)%Z = false) as ->.
  { destruct (Z.eqb_spec h 1), (Z.eqb_spec width 1); try reflexivity. exfalso. apply Hn1. split; [assumption|]. unfold n in *. nia. }
  assert (firstn (Z.to_nat (h * width)) its = its) as -> by (apply firstn_all2; unfold n in *; lia).
  destruct (for_each_total (trim_panel rnd) (fun _ => True) its) as (ps & E & _).
  { intros t Ht. rewrite Forall_forall in Hf. destruct (Hf t Ht) as (F1 & F2 & F3). destruct (panel_ok t F1 F2 F3) as (p & Hp & _). exists p. auto. }
  rewrite E. cbn [bind]. apply for_each_Forall2 in E.
  assert (length ps = length its) as Hlen by (clear -E; induction E; cbn [length]; congruence).
  exists h. eexists. split; [reflexivity|]. split; [exact Hh|]. split; [rewrite app_length, map_length, repeat_length; unfold n in *; lia|]. split.
  - intros i t Ht.
    assert (exists p, nth_error ps i = Some p /\ trim_panel rnd t = Ok p) as (p & Hp & Hp').
    { clear -E Ht. revert i Ht. induction E as [|a b l l' Hab E IH]; intros [|i] Ht; try discriminate; cbn [nth_error] in *; [injection Ht as <-; eauto|eauto]. }
    exists p. split.
    + rewrite nth_error_app1 by (rewrite map_length; apply nth_error_Some; rewrite Hp; discriminate). now rewrite nth_error_map, Hp.
    + rewrite Forall_forall in Hf. destruct (Hf t (nth_error_In _ _ Ht)) as (F1 & F2 & F3). destruct (panel_ok t F1 F2 F3) as (p' & K & Hpp). congruence.
  - intros i Hi. rewrite app_length, map_length, repeat_length in Hi. rewrite nth_error_app2 by (rewrite map_length; lia). apply nth_error_repeat. rewrite map_length. lia.
Qed.
(** A single iteration cannot be drawn in a single column, nor anything in less than one. *)
Theorem C85_one_panel_refuted (t : iter) : trim_iters_plot rnd [t] 1 = Raise AttributeError /\
  (forall its width, its <> [] -> (width < 0)%Z -> trim_iters_plot rnd its width = Raise ValueError) /\
  (forall its, trim_iters_plot rnd its 0 = Raise GenericException).
Proof.
  split; [reflexivity|]. split; [|reflexivity]. intros its width Hne Hw. unfold trim_iters_plot. destruct (Z.eqb_spec width 0); [lia|]. cbv zeta.
  assert (1 <= Z.of_nat (length its))%Z as Hn by (destruct its; [congruence|cbn [length]; lia]).
  assert (- (- Z.of_nat (length its) / width) < 1)%Z as K.
  { pose proof (Z.div_mod (- Z.of_nat (length its)) width ltac:(lia)). pose proof (Z.mod_neg_bound (- Z.of_nat (length its)) width ltac:(lia)). nia. }
  destruct (Z.ltb_spec (- (- Z.of_nat (length its) / width)) 1); [reflexivity|lia].
Qed.
(** The line printed about an iteration. *)
Theorem C85_summary (t : iter) : ti_eigs t <> [] -> ti_origs t <> [] ->
  exists percent ix mean var msqe, iter_summary rnd t = Ok (ti_id t, percent, ix, mean, var, msqe) /\ trim_indices t = Ok ix /\
    percent = rnd (100 * (1 - INR (length (ti_eigs t)) / INR (length (ti_origs t)))) /\
    TrimmedMean (map (fun c => Rmean (c_spacings c)) (ti_fits t)) mean /\ TrimmedMean (map (fun c => Rvar1 (c_spacings c)) (ti_fits t)) var /\
    TrimmedMean (map c_msqe (ti_fits t)) msqe.
Proof.
  intros H1 H2. unfold iter_summary. destruct (indices_ok t H1) as [ix E]. rewrite E. cbn [bind].
  eexists _, _, _, _, _. split; [reflexivity|]. split; [reflexivity|]. split; [now apply percent_eq|].
  split; [erewrite map_ext; [apply trim_mean_spec|intro c; symmetry; apply nmean_R]|].
  split; [erewrite map_ext; [apply trim_mean_spec|intro c; symmetry; apply nvar1_R]|]. apply trim_mean_spec.
Qed.
End C85.
Print Assumptions C85_panels.
Print Assumptions C85_one_panel_refuted.
Print Assumptions C85_summary.
Example C85_ex : let c := mkcol "poly_3" [0; 1; 3] [1; 2] 5 CNone in
  let t := mkiter [0; 1; 3; 9] [0; 1; 3] 1 [false; false; true] [c] in
  exists h cells p, trim_iters_plot (fun x => x) [t; t; t] 2 = Ok (h, 2%Z, cells) /\ h = 2%Z /\ length cells = 4%nat /\
    nth_error cells 3 = Some None /\ nth_error cells 1 = Some (Some p) /\ p_removed p = Some 25 /\ nth_error (p_points p) 2 = Some (3, 3%Z, true) /\
  (exists low mid high, [1; 2; 3; 4; 100] = low ++ mid ++ high /\ low = [1] /\ high = [100] /\ TrimmedMean [1; 2; 3; 4; 100] (Rmean mid)).
Proof.
  cbv zeta. set (c := mkcol "poly_3" [0; 1; 3] [1; 2] 5 CNone). set (t := mkiter [0; 1; 3; 9] [0; 1; 3] 1 [false; false; true] [c]).
  destruct (C85_panels (fun x => x) [t; t; t] 2) as (h & cells & E & Hh & Hc & Hin & Hout).
  - lia.
  - discriminate.
  - intros [? _]. lia.
  - repeat constructor; cbn; try discriminate.
  - cbn [length] in *. assert (h = 2%Z) as -> by lia. assert (length cells = 4%nat) as Hl by lia.
    destruct (Hin 1%nat t eq_refl) as (p & Hp & P1 & P2 & _ & _ & _ & P3). exists 2%Z, cells, p.
    split; [exact E|]. split; [reflexivity|]. split; [exact Hl|]. split; [apply Hout; lia|]. split; [exact Hp|].
    split. { destruct (p_removed p) as [v|]; [|discriminate (proj1 P1 eq_refl)]. rewrite (P2 v eq_refl). f_equal. cbn. lra. }
    split; [apply (P3 2%nat 3 true); reflexivity|].
    exists [1], [2; 3; 4], [100]. split; [reflexivity|]. split; [reflexivity|]. split; [reflexivity|].
    exists [1], [2; 3; 4], [100]. split; [reflexivity|]. split; [intros x y [<-|[]] [<-|[<-|[<-|[]]]]; lra|]. split; [intros x y [<-|[<-|[<-|[]]]] [<-|[]]; lra|].
    split; [reflexivity|]. split; [cbn; lia|reflexivity].
Qed.
