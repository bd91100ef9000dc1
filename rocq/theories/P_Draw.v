(** Proofs about the figures. *)
From Coq Require Import String List ZArith Bool Arith Lia Reals Lra Permutation.
From Coquelicot Require Import Coquelicot.
From Verif Require Import Base S_Order S_EigVals S_Trim S_Quad S_Loops S_Draw M_Step M_EigVals M_Quad M_Trim M_Ensemble M_Brody M_Draw
  P_Order P_EigVals P_Trim P_TrimStat P_Ols P_Loops.
Import ListNotations.
Local Open Scope R_scope.
Local Notation length := List.length.

Lemma filter_ext_b {A} (f g : A -> bool) l : (forall x, f x = g x) -> filter f l = filter g l.
Proof. intro H. induction l as [|a t IH]; cbn; [reflexivity|]. rewrite H, IH. reflexivity. Qed.
Lemma le_dec_b (x t : R) : nle x t = if Rle_dec x t then true else false.
Proof. destruct (Rle_dec x t) as [H|H]; [now apply nle_R_true|]. destruct (nle x t) eqn:E; [apply nle_R_true in E; contradiction|reflexivity]. Qed.
Lemma lt_dec_b (x t : R) : nlt x t = if Rlt_dec x t then true else false.
Proof. destruct (Rlt_dec x t) as [H|H]; [now apply nlt_R|]. apply nlt_R_false. lra. Qed.
Lemma trim_kept t l : trim_spacings t l = Kept t l.
Proof.
  unfold trim_spacings, Kept. rewrite lt_dec_b. change (@n0 R Num_R) with 0. destruct (Rlt_dec 0 t); [|reflexivity].
  apply filter_ext_b. intro x. apply le_dec_b.
Qed.
Lemma positive_eq l : filter (fun v => nlt n0 v) l = Positive l.
Proof. apply filter_ext_b. intro x. apply lt_dec_b. Qed.
Lemma positive_nil l : length (filter (fun v => nle v n0) l) = length l <-> Positive l = [].
Proof.
  unfold Positive. induction l as [|a t IH]; [cbn; tauto|]. cbn [filter]. rewrite le_dec_b. change (@n0 R Num_R) with 0.
  assert (length (filter (fun v => nle v 0%R) t) <= length t)%nat as Hl.
  { clear. induction t as [|b t IH]; cbn [filter length]; [lia|]. destruct (nle b 0); cbn [length]; lia. }
  destruct (Rle_dec a 0), (Rlt_dec 0 a); try lra; cbn [length].
  - rewrite <- IH. change (@n0 R Num_R) with 0. lia.
  - split; [|discriminate]. lia.
Qed.
Lemma range_ok l lo hi : arr_range l = Ok (lo, hi) -> l <> [] /\ IsMin l lo /\ IsMax l hi.
Proof. destruct l as [|h t]; [discriminate|]. intros [= <- <-]. split; [discriminate|]. split; [apply nmin_IsMin|apply nmax_IsMax]. Qed.
Lemma range_some l : l <> [] -> exists lo hi, arr_range l = Ok (lo, hi).
Proof. destruct l as [|h t]; [congruence|]. intros _. cbn. eauto. Qed.
Lemma requested_in n l : requested n l = true <-> In n l.
Proof.
  unfold requested. rewrite existsb_exists. split.
  - intros (x & H & E). apply String.eqb_eq in E. now subst.
  - intro H. exists n. split; [assumption|apply String.eqb_refl].
Qed.
Lemma in_when b a l : In a (when b l) <-> b = true /\ In a l.
Proof. destruct b; cbn; intuition discriminate. Qed.
Lemma grid_even lo hi : linspace lo hi (Z.to_nat 10000) = EvenGrid lo hi (Z.to_nat 10000).
Proof. apply linspace_even. apply Nat2Z.inj_le. rewrite Z2Nat.id by lia. lia. Qed.

(** The key by which an ensemble is requested and the label of its curve. *)
Definition ens_key (e : ensemble) : string := match e with Poisson => "poisson" | GOE => "goe" | GUE => "gue" | GSE => "gse" end.
Definition ens_label (e : ensemble) : string :=
  match e with Poisson => "Poisson" | GOE => "Gaussian Orthogonal" | GUE => "Gaussian Unitary" | GSE => "Gaussian Symplectic" end.

Lemma spacing_curve_gse s : map (fun s => 2 ^ 18 / (3 ^ 6 * PI ^ 3) * s ^ 4 * exp (- (64 / (9 * PI) * (s * s)))) s = map (nnsd_at GSE) s.
Proof. apply map_ext. intro x. cbn [nnsd_at]. replace (2 ^ 18) with 262144 by lra. replace (3 ^ 6) with 729 by lra. reflexivity. Qed.
Lemma in_curves s ens a : In a (spacing_curves s ens) <-> exists e, In (ens_key e) ens /\ a = Line (ens_label e) s (map (nnsd_at e) s).
Proof.
  unfold spacing_curves. cbv zeta. rewrite !in_app_iff, !in_when, !requested_in, spacing_curve_gse. cbn [In]. split.
  - intros [[H [<-|[]]]|[[H [<-|[]]]|[[H [<-|[]]]|[H [<-|[]]]]]]; [exists Poisson|exists GOE|exists GUE|exists GSE]; split; try assumption; reflexivity.
  - intros (e & H & ->). destruct e; cbn [ens_key ens_label] in *; [left|right; left|right; right; left|right; right; right]; (split; [assumption|left; reflexivity]).
Qed.

(** ** Sorting over the reals *)
Lemma all_notnan (l : list R) : List.Forall NotNaN l.
Proof. apply Forall_forall. intros x _. apply isnan_R. Qed.
Lemma sort_eq (l srt : list R) : Permutation l srt -> Ascending srt -> np_sort l = srt.
Proof.
  intros H H'. rewrite (np_sort_perm_R _ _ H). apply np_sort_id. apply Ascending_NpLe; [apply all_notnan|assumption].
Qed.
Lemma sort_asc (l : list R) : Ascending (np_sort l).
Proof. apply np_sort_ascending, all_notnan. Qed.
Lemma sort_perm (l : list R) : Permutation l (np_sort l).
Proof. apply np_sort_perm. Qed.

(** ** The nearest-neighbour figure *)
Section Figures.
Context (gamma : R -> R) (opt : (R -> R) -> R -> R -> bool * R) (BW : Type) (scott : BW)
  (kde_gau : BW -> list R -> option (R -> R)) (kde_default : list R -> R -> R).

(** The estimate drawn for given positive data. *)
Definition density (bw : BW) (v : list R) : R -> R := match kde_gau bw v with Some f => f | None => kde_default v end.

Lemma kde_plot_eq v g bw :
  kde_plot BW kde_gau kde_default v g bw
  = match Positive v with [] => [] | _ => [Line "Kernel Density Estimate" g (map (density bw (Positive v)) g)] end.
Proof.
  unfold kde_plot. cbv zeta. destruct (Nat.eqb_spec (length (filter (fun v => nle v n0) v)) (length v)) as [E|E].
  - apply positive_nil in E. rewrite E. reflexivity.
  - rewrite positive_eq. fold (density bw (Positive v)). destruct (Positive v) eqn:P; [|reflexivity].
    exfalso. apply E, positive_nil, P.
Qed.

(** All lists of curves, in the order they are drawn. *)
Definition ens_lines (f : ensemble -> list R) (xs : list R) (order : list ensemble) (ens : list string) : list artist :=
  flat_map (fun e => when (requested (ens_key e) ens) [Line (ens_label e) xs (f e)]) order.

Lemma spacing_curves_eq s ens : spacing_curves s ens = ens_lines (fun e => map (nnsd_at e) s) s [Poisson; GOE; GUE; GSE] ens.
Proof. unfold spacing_curves, ens_lines. cbv zeta. rewrite spacing_curve_gse. cbn [flat_map ens_key ens_label]. rewrite app_nil_r. reflexivity. Qed.

Lemma brody_curve_ok brody sp s l : brody_curve gamma opt brody sp s = Ok l ->
  (brody = false /\ l = []) \/
  (brody = true /\ exists beta, fit_brody gamma opt sp "spacing" = Ok beta /\ l = [Line "Brody dist." s (map (brody_dist gamma beta) s)]).
Proof.
  unfold brody_curve. destruct brody; [|intros [= <-]; left; auto].
  destruct (fit_brody gamma opt sp "spacing") as [beta|e] eqn:E; cbn [bind]; [|discriminate]. intros [= <-]. right. eauto.
Qed.

Definition artist_label (a : artist) : string := match a with Hist _ _ => "" | Line l _ _ => l | Points c _ _ _ => c end.

Lemma spacings_plot_ok unfolded srt bins kde trim trim_kde bw brody bf ens fig :
  Permutation unfolded srt -> Ascending srt ->
  spacings_plot gamma opt BW kde_gau kde_default unfolded bins kde trim trim_kde bw brody bf ens OneAxes = Ok fig ->
  exists lo hi b, let kept := Kept trim (Gaps srt) in let g := EvenGrid lo hi (Z.to_nat 10000) in
    kept <> [] /\ IsMin kept lo /\ IsMax kept hi /\ brody_curve gamma opt brody kept g = Ok b /\
    fig = [Hist kept bins] ++ spacing_curves g ens
          ++ (if kde then match Positive (if trim_kde then kept else Gaps srt) with [] => [] | v => [Line "Kernel Density Estimate" g (map (density bw v) g)] end else [])
          ++ b.
Proof.
  intros Hp Ha. unfold spacings_plot. cbv zeta. rewrite (sort_eq _ _ Hp Ha), ndiff_Gaps, trim_kept.
  destruct (arr_range (Kept trim (Gaps srt))) as [[lo hi]|e] eqn:E; cbn [bind fst snd]; [|discriminate].
  apply range_ok in E. destruct E as (Hne & Hlo & Hhi).
  cbn [histplot bind]. rewrite grid_even. remember (EvenGrid lo hi (Z.to_nat 10000)) as g eqn:Eg.
  destruct (brody_curve gamma opt brody (Kept trim (Gaps srt)) g) as [b|e] eqn:Eb; cbn [bind]; [|discriminate].
  intro H. exists lo, hi, b. cbv zeta. rewrite <- Eg. split; [assumption|]. split; [assumption|]. split; [assumption|]. split; [assumption|].
  apply (f_equal (fun r => match r with Ok x => x | Raise _ => fig end)) in H. rewrite <- H.
  destruct kde; [|reflexivity]. rewrite kde_plot_eq. destruct trim_kde; destruct (Positive _); reflexivity.
Qed.

Lemma spacings_plot_done unfolded srt bins kde trim trim_kde bw brody bf ens :
  Permutation unfolded srt -> Ascending srt ->
  (Kept trim (Gaps srt) = [] -> forall ax, spacings_plot gamma opt BW kde_gau kde_default unfolded bins kde trim trim_kde bw brody bf ens ax = Raise ValueError) /\
  (Kept trim (Gaps srt) <> [] ->
     (brody = false -> exists fig, spacings_plot gamma opt BW kde_gau kde_default unfolded bins kde trim trim_kde bw brody bf ens OneAxes = Ok fig) /\
     (brody = true -> forall e, fit_brody gamma opt (Kept trim (Gaps srt)) "spacing" = Raise e ->
        spacings_plot gamma opt BW kde_gau kde_default unfolded bins kde trim trim_kde bw brody bf ens OneAxes = Raise e) /\
     (brody = true -> forall beta, fit_brody gamma opt (Kept trim (Gaps srt)) "spacing" = Ok beta ->
        exists fig, spacings_plot gamma opt BW kde_gau kde_default unfolded bins kde trim trim_kde bw brody bf ens OneAxes = Ok fig) /\
     spacings_plot gamma opt BW kde_gau kde_default unfolded bins kde trim trim_kde bw brody bf ens AxesArray = Raise AttributeError).
Proof.
  intros Hp Ha. unfold spacings_plot. cbv zeta. rewrite (sort_eq _ _ Hp Ha), (ndiff_Gaps srt), (trim_kept trim (Gaps srt)). split.
  - intros ->. reflexivity.
  - intro Hne. apply range_some in Hne. destruct Hne as (lo & hi & ->). cbn [bind fst snd histplot].
    set (g := linspace lo hi (Z.to_nat 10000)). clearbody g. unfold brody_curve.
    split; [intros ->; cbn [bind]; eauto|]. split; [intros -> e ->; reflexivity|]. split; [|reflexivity].
    intros -> beta ->. cbn [bind]. eauto.
Qed.

(** ** The next-nearest-neighbour figure *)
Lemma half_second (l : list R) :
  map (fun p => ndiv (nsub (fst p) (snd p)) (nofZ 2)) (combine (skipn 2 l) (firstn (length l - 2) l)) = HalfSecondGaps l.
Proof.
  unfold HalfSecondGaps. destruct l as [|a [|b l]]; [reflexivity|reflexivity|].
  cbn [skipn]. replace (length (a :: b :: l) - 2)%nat with (length l) by (cbn [length]; lia).
  revert a b. induction l as [|c l IH]; intros a b; [reflexivity|].
  cbn [length firstn combine map]. f_equal.
  rewrite IH. cbn [seq map]. rewrite <- seq_shift, map_map. reflexivity.
Qed.

Lemma next_plot_ok unfolded bins kde trim trim_kde brody bf ens fig :
  next_spacings_plot gamma opt BW scott kde_gau kde_default unfolded bins kde trim trim_kde brody bf ens OneAxes = Ok fig ->
  exists srt lo hi b, let kept := Kept trim srt in let g := EvenGrid lo hi (Z.to_nat 10000) in
    Permutation (HalfSecondGaps unfolded) srt /\ Ascending srt /\
    kept <> [] /\ IsMin kept lo /\ IsMax kept hi /\ brody_curve gamma opt brody kept g = Ok b /\
    fig = [Hist kept bins]
          ++ (if kde then match Positive (if trim_kde then kept else srt) with [] => [] | v => [Line "Kernel Density Estimate" g (map (density scott v) g)] end else [])
          ++ b ++ when (requested "goe" ens) [Line "Gaussian Orthogonal" g (map goe_nnnsd_at g)]
          ++ when (requested "poisson" ens) [Line "Poisson" g (map (brody_dist gamma (6 / 10)) g)].
Proof.
  unfold next_spacings_plot. cbv zeta. rewrite half_second, trim_kept.
  set (srt := np_sort (HalfSecondGaps unfolded)).
  destruct (arr_range (Kept trim srt)) as [[lo hi]|e] eqn:E; cbn [bind fst snd]; [|discriminate].
  apply range_ok in E. destruct E as (Hne & Hlo & Hhi).
  cbn [histplot bind]. rewrite grid_even. remember (EvenGrid lo hi (Z.to_nat 10000)) as g eqn:Eg.
  destruct (brody_curve gamma opt brody (Kept trim srt) g) as [b|e] eqn:Eb; cbn [bind]; [|discriminate].
  intro H. exists srt, lo, hi, b. cbv zeta. rewrite <- Eg.
  split; [apply sort_perm|]. split; [apply sort_asc|]. split; [assumption|]. split; [assumption|]. split; [assumption|]. split; [assumption|].
  cbn [nnnsd] in H.
  set (K := if kde then kde_plot BW kde_gau kde_default (if trim_kde then Kept trim srt else srt) g scott else []) in H.
  assert (K = if kde then match Positive (if trim_kde then Kept trim srt else srt) with [] => [] | v => [Line "Kernel Density Estimate" g (map (density scott v) g)] end else []) as HK.
  { unfold K. destruct kde; [|reflexivity]. rewrite kde_plot_eq. destruct (Positive _); reflexivity. }
  rewrite <- HK. clearbody K. clear HK.
  destruct (requested "goe" ens), (requested "poisson" ens); cbn [bind when] in *;
    apply (f_equal (fun r => match r with Ok x => x | Raise _ => fig end)) in H; exact (eq_sym H).
Qed.
End Figures.
