(** Proofs about smoothing and unfolding (model: M_Smooth). *)
From Coq Require Import String List ZArith Bool Arith Lia Lqa Reals Lra QArith Qabs Ascii DecimalString DecimalZ DecimalFacts
  Sorting.Sorted Sorting.Permutation.
From Verif Require Import Base S_Order S_EigVals M_Enum M_Trim M_Smooth S_Smooth P_Order P_Step P_EigVals.
Import ListNotations.
Local Open Scope Z_scope.
Local Notation length := List.length.

(** ** Argument validation *)
Lemma canonical_smooth (s : string) :
  (exists m, s = StringName m /\ canonical SmoothMethod s = Some (MemberName m)) \/
  ((forall m, s <> StringName m) /\ canonical SmoothMethod s = None).
Proof.
  unfold SmoothMethod, canonical.
  destruct (String.eqb_spec "poly" s) as [<-|H1]; [left; exists MPoly; auto|].
  destruct (String.eqb_spec "spline" s) as [<-|H2]; [left; exists MSpline; auto|].
  destruct (String.eqb_spec "exp" s) as [<-|H3]; [left; exists MExp; auto|].
  destruct (String.eqb_spec "gompertz" s) as [<-|H4]; [left; exists MGomp; auto|].
  destruct (String.eqb_spec "goe" s) as [<-|H5]; [left; exists MGoe; auto|].
  destruct (String.eqb_spec "poisson" s) as [<-|H6]; [left; exists MPois; auto|].
  right. split; [|reflexivity]. intros []; cbn; congruence.
Qed.
Lemma canonical_string m : canonical SmoothMethod (StringName m) = Some (MemberName m).
Proof. destruct m; reflexivity. Qed.

Section Fit.
Context {F : Type} {N : Num F}.
Variable emd : list F -> result (list (list F)).
Variable nexp : F -> F.
Variable polyfit : list F -> list F -> Z -> result (list F).
Variable uspline : list F -> list F -> Z -> F -> result (F -> F).
Variable fit_exp : list F -> list F -> F * F -> result (F * F).
Variable fit_gompertz : list F -> list F -> F * F * F -> result (F * F * F).
Notation fit := (fit emd nexp polyfit uspline fit_exp fit_gompertz).

Lemma validate_denotes a m d (ss : spline_arg F) : Denotes a m ->
  validate_args a d ss = validate_args (SMember (MemberName m)) d ss.
Proof. intros [->| ->]; [reflexivity|]. destruct m; reflexivity. Qed.

Lemma validate_member m d (ss : spline_arg F) :
  (GoodDegree m d /\ (m = MSpline -> forall e, ss <> AInconvertible e) /\
     validate_args (SMember (MemberName m)) d ss = Ok tt) \/
  (~ GoodDegree m d /\ validate_args (SMember (MemberName m)) d ss = Raise ValueError) \/
  (m = MSpline /\ GoodDegree m d /\ exists e, ss = AInconvertible e /\
     validate_args (SMember (MemberName m)) d ss = Raise e).
Proof.
  destruct m; cbn [MemberName GoodDegree];
    try (left; split; [exact I|split; [discriminate|reflexivity]]).
  - destruct d as [z| |].
    + unfold validate_args. cbn [smoother_enum_arg validate bind String.eqb Ascii.eqb Bool.eqb].
      destruct (Z.ltb_spec z 3).
      * right; left. split; [intros (z' & [= ->] & H'); lia|reflexivity].
      * left. split; [eauto|split; [discriminate|reflexivity]].
    + right; left. split; [intros (? & [=] & _)|reflexivity].
    + right; left. split; [intros (? & [=] & _)|reflexivity].
  - destruct d as [z| |].
    + unfold validate_args. cbn [smoother_enum_arg validate bind String.eqb Ascii.eqb Bool.eqb].
      destruct (Z.ltb_spec 5 z).
      * right; left. split; [intros (z' & [= ->] & H'); lia|reflexivity].
      * destruct ss; try (left; split; [eauto|split; [congruence|reflexivity]]).
        right; right. split; [reflexivity|]. split; [eauto|]. eexists; split; reflexivity.
    + right; left. split; [intros (? & [=] & _)|reflexivity].
    + right; left. split; [intros (? & [=] & _)|reflexivity].
Qed.

Lemma fit_bad eigs a d ss det rc e : BadArgs a d ss e -> fit eigs a d ss det rc = Raise e.
Proof.
  intros H. unfold M_Smooth.fit. destruct H as [s d ss H|d ss|d ss|a m d ss HD HG|a d e HD HG|d HG|d HG|m d ss HG HS|m d ss Hm].
  - unfold validate_args. cbn [smoother_enum_arg validate].
    destruct (canonical_smooth s) as [[m [E _]]|[_ ->]]; [destruct (H m E)|reflexivity].
  - reflexivity.
  - reflexivity.
  - rewrite (validate_denotes _ m) by exact HD.
    destruct (validate_member m d ss) as [(H & _)|[(_ & ->)|(_ & H & _)]]; [contradiction|reflexivity|contradiction].
  - rewrite (validate_denotes _ MSpline) by exact HD.
    destruct (validate_member MSpline d (AInconvertible (F := F) e)) as [(_ & H & _)|[(H & _)|(_ & _ & e' & [= <-] & ->)]];
      [destruct (H eq_refl e eq_refl)|contradiction|reflexivity].
  - change "Spline"%string with (MemberName MSpline).
    destruct (validate_member MSpline d (ANoneS (F := F))) as [(_ & _ & ->)|[(H & _)|(_ & _ & e' & [=] & _)]]; [|contradiction].
    destruct HG as (z & -> & _). reflexivity.
  - change "Spline"%string with (MemberName MSpline).
    destruct (validate_member MSpline d (AConvertible (F := F))) as [(_ & _ & ->)|[(H & _)|(_ & _ & e' & [=] & _)]]; [|contradiction].
    destruct HG as (z & -> & _). reflexivity.
  - rewrite (validate_denotes _ m) by (right; reflexivity).
    destruct (validate_member m d ss) as [(_ & _ & ->)|[(H & _)|(Hm & _ & e' & E & _)]];
      [reflexivity|contradiction|destruct (HS Hm e' E)].
  - destruct Hm as [-> | ->]; reflexivity.
Qed.

Lemma fit_raise_bad eigs a d ss rc e :
  (forall x y k, exists c, polyfit x y k = Ok c) -> (forall x y k s, exists f, uspline x y k s = Ok f) ->
  (forall x y p, exists r, fit_exp x y p = Ok r) -> (forall x y p, exists r, fit_gompertz x y p = Ok r) ->
  eigs <> [] -> ProperArg a ->
  fit eigs a d ss false rc = Raise e -> BadArgs a d ss e.
Proof.
  intros Hp Hu He Hg Hne Ha. unfold M_Smooth.fit.
  destruct a as [s|s| |].
  - destruct (canonical_smooth s) as [[m [-> Ec]]|[H Ec]].
    + rewrite (validate_denotes _ m) by (right; reflexivity).
      destruct (validate_member m d ss) as [(H1 & H2 & ->)|[(H1 & ->)|(-> & H1 & e' & -> & ->)]].
      * cbn [bind is_member]. intros [= <-]. now apply bad_string.
      * intros [= <-]. apply bad_degree with (m := m); [right; reflexivity|assumption].
      * intros [= <-]. apply bad_smoothing_value; [right; reflexivity|assumption].
    + unfold validate_args. cbn [smoother_enum_arg validate]. rewrite Ec. intros [= <-]. now apply bad_name.
  - destruct (Ha s eq_refl) as [m ->].
    destruct (validate_member m d ss) as [(H1 & H2 & ->)|[(H1 & ->)|(-> & H1 & e' & -> & ->)]].
    + cbn [bind]. destruct m; cbn [MemberName is_member String.eqb Ascii.eqb Bool.eqb].
      * destruct H1 as (z & -> & _). destruct (Hp eigs (fit_steps eigs) z) as [c ->]. discriminate.
      * pose proof H1 as (z & -> & _). destruct ss as [s'| | | |e'].
        -- destruct (Hu eigs (fit_steps eigs) z s') as [f ->]. discriminate.
        -- destruct (Hu eigs (fit_steps eigs) z (nmul (nlen eigs) (nvar1 eigs))) as [f ->]. discriminate.
        -- intros [= <-]. now apply bad_smoothing_none.
        -- intros [= <-]. now apply bad_smoothing_type.
        -- destruct (H2 eq_refl e' eq_refl).
      * destruct (He eigs (fit_steps eigs) (ndiv (nlen eigs) (nofZ 2), ndiv n1 (nofZ 2))) as [[x y] ->]. discriminate.
      * destruct (last_opt (fit_steps eigs)) as [top|] eqn:E.
        -- destruct (Hg eigs (fit_steps eigs) (top, n1, n1)) as [[[x y] z] ->]. discriminate.
        -- exfalso. unfold last_opt in E. apply nth_error_None in E. unfold fit_steps in E.
           rewrite map_length, seq_length in E. destruct eigs; [congruence|cbn in E; lia].
      * intros [= <-]. apply (bad_analytic MGoe); auto.
      * intros [= <-]. apply (bad_analytic MPois); auto.
    + intros [= <-]. apply bad_degree with (m := m); [left; reflexivity|assumption].
    + intros [= <-]. apply bad_smoothing_value; [left; reflexivity|assumption].
  - cbn. intros [= <-]. constructor.
  - cbn. intros [= <-]. constructor.
Qed.

(** ** Lengths *)
Lemma emd_detrend_length u v : emd_detrend emd u = Ok v -> length v = length u.
Proof.
  unfold emd_detrend. destruct (emd (emd_delta u)) as [imfs|]; [|discriminate]. cbn [bind].
  destruct (last_opt imfs); [|discriminate].
  destruct (np_sub _ _); [|discriminate]. cbn [bind]. intros [= <-]. now rewrite map_length, seq_length.
Qed.
Lemma maybe_detrend_length b u v : maybe_detrend emd b u = Ok v -> length v = length u.
Proof. destruct b; cbn; [apply emd_detrend_length|]. now intros [= ->]. Qed.

Lemma fit_length eigs sm d ss det rc u st cl : fit eigs sm d ss det rc = Ok (u, st, cl) -> length u = length eigs.
Proof.
  unfold M_Smooth.fit. destruct (validate_args sm d ss) as [[]|]; [|discriminate]. cbn [bind].
  destruct (is_member sm "Polynomial").
  { destruct d; try discriminate. destruct (polyfit _ _ _); [|discriminate]. cbn [bind].
    destruct (maybe_detrend _ _ _) eqn:E; [|discriminate]. cbn [bind]. intros [= <- _ _].
    rewrite (maybe_detrend_length _ _ _ E). apply map_length. }
  destruct (is_member sm "Spline").
  { destruct d; try discriminate.
    destruct (match ss with AFloat s => _ | _ => _ end); [|discriminate]. cbn [bind].
    destruct (maybe_detrend _ _ _) eqn:E; [|discriminate]. cbn [bind]. intros [= <- _ _].
    rewrite (maybe_detrend_length _ _ _ E). apply map_length. }
  destruct (is_member sm "Exponential").
  { destruct (fit_exp _ _ _) as [[a b]|]; [|discriminate]. cbn [bind].
    destruct (maybe_detrend _ _ _) eqn:E; [|discriminate]. cbn [bind]. intros [= <- _ _].
    rewrite (maybe_detrend_length _ _ _ E). apply map_length. }
  destruct (is_member sm "Gompertz"); [|discriminate].
  destruct (last_opt _); [|discriminate]. destruct (fit_gompertz _ _ _) as [[[a b] c]|]; [|discriminate]. cbn [bind].
  destruct (maybe_detrend _ _ _) eqn:E; [|discriminate]. cbn [bind]. intros [= <- _ _].
  rewrite (maybe_detrend_length _ _ _ E). apply map_length.
Qed.

(** [fit] with [detrend] is [fit] without, followed by one detrending. *)
Lemma fit_detrend eigs sm d ss rc u st cl : fit eigs sm d ss true rc = Ok (u, st, cl) ->
  exists v, fit eigs sm d ss false rc = Ok (v, st, cl) /\ emd_detrend emd v = Ok u.
Proof.
  unfold M_Smooth.fit. destruct (validate_args sm d ss) as [[]|]; [|discriminate]. cbn [bind]. cbn [maybe_detrend].
  destruct (is_member sm "Polynomial").
  { destruct d; try discriminate. destruct (polyfit _ _ _); [|discriminate]. cbn [bind].
    destruct (emd_detrend _ _) eqn:E; [|discriminate]. cbn [bind]. intros [= <- <- <-]. eauto. }
  destruct (is_member sm "Spline").
  { destruct d; try discriminate.
    destruct (match ss with AFloat s => _ | _ => _ end); [|discriminate]. cbn [bind].
    destruct (emd_detrend _ _) eqn:E; [|discriminate]. cbn [bind]. intros [= <- <- <-]. eauto. }
  destruct (is_member sm "Exponential").
  { destruct (fit_exp _ _ _) as [[a b]|]; [|discriminate]. cbn [bind].
    destruct (emd_detrend _ _) eqn:E; [|discriminate]. cbn [bind]. intros [= <- <- <-]. eauto. }
  destruct (is_member sm "Gompertz"); [|discriminate].
  destruct (last_opt _); [|discriminate]. destruct (fit_gompertz _ _ _) as [[[a b] c]|]; [|discriminate]. cbn [bind].
  destruct (emd_detrend _ _) eqn:E; [|discriminate]. cbn [bind]. intros [= <- <- <-]. eauto.
Qed.

(** The closure returned with [return_callable] evaluates the fitted curve. *)
Lemma fit_closure eigs m d ss u st cl : m = MPoly \/ m = MSpline \/ m = MGomp ->
  fit eigs (SMember (MemberName m)) d ss false true = Ok (u, st, cl) ->
  exists f, u = map f eigs /\ forall x, call1 cl x = Ok (Some (map f x)) /\ cl <> CNone.
Proof.
  intros Hm. unfold M_Smooth.fit. destruct (validate_args _ d ss) as [[]|]; [|discriminate]. cbn [bind]. cbn [maybe_detrend].
  destruct Hm as [-> |[-> | ->]]; cbn [MemberName is_member String.eqb Ascii.eqb Bool.eqb].
  - destruct d; try discriminate. destruct (polyfit _ _ _); [|discriminate]. cbn [bind].
    intros [= <- <- <-]. eexists. split; [reflexivity|]. intro x. split; [reflexivity|discriminate].
  - destruct d; try discriminate. destruct (match ss with AFloat s => _ | _ => _ end); [|discriminate]. cbn [bind].
    intros [= <- <- <-]. eexists. split; [reflexivity|]. intro x. split; [reflexivity|discriminate].
  - destruct (last_opt _); [|discriminate]. destruct (fit_gompertz _ _ _) as [[[a b] c]|]; [|discriminate]. cbn [bind].
    intros [= <- <- <-]. exists (fun x => gompertz_f nexp x a b c). split; [reflexivity|]. intro x. split; [reflexivity|discriminate].
Qed.
Lemma fit_closure_exp eigs d ss det rc u st cl :
  fit eigs (SMember "Exponential") d ss det rc = Ok (u, st, cl) -> cl = CFun3.
Proof.
  unfold M_Smooth.fit. destruct (validate_args _ d ss) as [[]|]; [|discriminate]. cbn [bind is_member String.eqb Ascii.eqb Bool.eqb].
  destruct (fit_exp _ _ _) as [[a b]|]; [|discriminate]. cbn [bind].
  destruct (maybe_detrend _ _ _) eqn:E; [|discriminate]. cbn [bind]. intros [= _ _ <-]. reflexivity.
Qed.
(** Without [return_callable]. *)
Lemma fit_no_callable eigs m d ss det u st cl : m = MPoly \/ m = MSpline \/ m = MGomp ->
  fit eigs (SMember (MemberName m)) d ss det false = Ok (u, st, cl) ->
  (m = MSpline /\ cl = CNone) \/ (m <> MSpline /\ cl <> CNone /\ forall x, call1 cl x = Ok None).
Proof.
  intros Hm. unfold M_Smooth.fit. destruct (validate_args _ d ss) as [[]|]; [|discriminate]. cbn [bind].
  destruct Hm as [-> |[-> | ->]]; cbn [MemberName is_member String.eqb Ascii.eqb Bool.eqb].
  - destruct d; try discriminate. destruct (polyfit _ _ _); [|discriminate]. cbn [bind].
    destruct (maybe_detrend _ _ _) eqn:E; [|discriminate]. cbn [bind].
    intros [= <- <- <-]. right. repeat split; discriminate.
  - destruct d; try discriminate. destruct (match ss with AFloat s => _ | _ => _ end); [|discriminate]. cbn [bind].
    destruct (maybe_detrend _ _ _) eqn:E; [|discriminate]. cbn [bind].
    intros [= <- <- <-]. left. split; reflexivity.
  - destruct (last_opt _); [|discriminate]. destruct (fit_gompertz _ _ _) as [[[a b] c]|]; [|discriminate]. cbn [bind].
    destruct (maybe_detrend _ _ _) eqn:E; [|discriminate]. cbn [bind].
    intros [= <- <- <-]. right. repeat split; discriminate.
Qed.

(** ** The unfold methods *)
Variable smooth_g smooth_p : nat -> F -> F.
Notation eig_unfold := (eig_unfold emd nexp polyfit uspline fit_exp fit_gompertz smooth_g smooth_p).

Lemma analytic_length sm eigs u : unfold_analytic sm eigs = Ok u ->
  length (u_values u) = length eigs /\ u_originals u = np_sort eigs /\ (exists l, u_values u = np_sort l).
Proof.
  unfold unfold_analytic. destruct eigs as [|x t] eqn:E; [discriminate|]. rewrite <- E. clear E.
  intros [= <-]. cbn [u_values u_originals unfolded_init]. rewrite np_sort_length, map_length. eauto.
Qed.

(** The fitted branch. *)
Definition unfold_fit eigs m d ss det : result unfolded :=
  let! r := fit (np_sort eigs) (SMember (MemberName m)) d ss det true in
  let '(u, _, cl) := r in
  let! u' := maybe_detrend emd det u in
  Ok (unfolded_init eigs (np_sort u') cl).
Lemma unfold_fit_shape eigs m d ss det u : unfold_fit eigs m d ss det = Ok u ->
  length (u_values u) = length eigs /\ u_originals u = np_sort eigs /\ (exists l, u_values u = np_sort l).
Proof.
  unfold unfold_fit. destruct (fit _ _ _ _ _ _) as [[[v st] cl]|] eqn:E; [|discriminate]. cbn [bind].
  destruct (maybe_detrend _ _ _) eqn:E2; [|discriminate]. cbn [bind]. intros [= <-].
  cbn [u_values u_originals unfolded_init]. rewrite np_sort_length, (maybe_detrend_length _ _ _ E2), (fit_length _ _ _ _ _ _ _ _ _ E), np_sort_length. eauto.
Qed.
Lemma eig_unfold_denotes eigs kind a m d ss det : Denotes a m ->
  eig_unfold eigs kind (Some a) d ss det =
    match m with
    | MGoe => unfold_analytic smooth_g eigs
    | MPois => unfold_analytic smooth_p eigs
    | _ => unfold_fit eigs m d ss det
    end.
Proof. intros [-> | ->]; destruct m; reflexivity. Qed.
Lemma eig_unfold_undenoted eigs kind a d ss det : ProperArg a -> (forall m, ~ Denotes a m) ->
  exists e, eig_unfold eigs kind (Some a) d ss det = Raise e.
Proof.
  intros Ha Hn. unfold M_Smooth.eig_unfold. destruct a as [s|s| |].
  - cbn [smoother_enum_arg validate]. destruct (canonical_smooth s) as [[m [E _]]|[_ ->]]; [|eexists; reflexivity].
    destruct (Hn m). right. now subst.
  - destruct (Ha s eq_refl) as [m ->]. destruct (Hn m). now left.
  - eexists; reflexivity.
  - eexists; reflexivity.
Qed.
Lemma denotes_dec a : ProperArg a -> (exists m, Denotes a m) \/ (forall m, ~ Denotes a m).
Proof.
  intros Ha. destruct a as [s|s| |].
  - destruct (canonical_smooth s) as [[m [-> _]]|[H _]].
    + left. exists m. now right.
    + right. intros m [E|E]; [discriminate|]. injection E as E. exact (H m E).
  - destruct (Ha s eq_refl) as [m ->]. left. exists m. now left.
  - right. intros m [E|E]; discriminate.
  - right. intros m [E|E]; discriminate.
Qed.
(** The default choice. *)
Lemma eig_unfold_default eigs kind d ss det :
  eig_unfold eigs kind None d ss det =
    match kind with
    | Some (PMember m) =>
        if String.eqb m "GOE" then unfold_analytic smooth_g eigs
        else if String.eqb m "GDE" then unfold_analytic smooth_p eigs
        else unfold_fit eigs MPoly d ss det
    | _ => unfold_fit eigs MPoly d ss det
    end.
Proof. destruct kind as [[s|m|]|]; reflexivity. Qed.

Lemma eig_unfold_shape eigs kind sm d ss det u : (forall a, sm = Some a -> ProperArg a) ->
  eig_unfold eigs kind sm d ss det = Ok u ->
  length (u_values u) = length eigs /\ u_originals u = np_sort eigs /\ (exists l, u_values u = np_sort l).
Proof.
  intros Hp. destruct sm as [a|].
  - destruct (denotes_dec a (Hp a eq_refl)) as [[m Hm]|Hn].
    + rewrite (eig_unfold_denotes eigs kind a m) by exact Hm.
      destruct m; first [apply unfold_fit_shape | apply analytic_length].
    + destruct (eig_unfold_undenoted eigs kind a d ss det (Hp a eq_refl) Hn) as [e ->]. discriminate.
  - rewrite eig_unfold_default. destruct kind as [[s|m|]|]; try apply unfold_fit_shape.
    destruct (String.eqb m "GOE"); [apply analytic_length|].
    destruct (String.eqb m "GDE"); [apply analytic_length|apply unfold_fit_shape].
Qed.
End Fit.

(** ** EMD detrending over the reals *)
Lemma firstn_map_sub_sum (c : R) (l : list R) n : (n <= length l)%nat ->
  Rsum (firstn n (map (fun s => (s - c)%R) l)) = (Rsum (firstn n l) - INR n * c)%R.
Proof.
  revert n. induction l as [|x t IH]; intros [|n] H; cbn [firstn map Rsum List.length] in *; try (cbn; lra); [lia|].
  rewrite IH by lia. rewrite S_INR. lra.
Qed.
Lemma firstn_diff_sum (l : list R) : forall n, (n < length l)%nat ->
  Rsum (firstn n (ndiff l)) = (nth n l 0 - nth 0 l 0)%R.
Proof.
  induction l as [|x [|y t] IH]; intros n H; cbn in H; [lia| |].
  - assert (n = 0)%nat by lia. subst. cbn. lra.
  - destruct n as [|n]; [cbn; lra|].
    change (ndiff (x :: y :: t)) with ((y - x)%R :: ndiff (y :: t)).
    cbn [firstn Rsum]. rewrite IH by (cbn; lia). cbn [nth]. lra.
Qed.
Lemma zip_with_nth (f : R -> R -> R) (a b : list R) n d : length a = length b -> (n < length a)%nat ->
  nth n (zip_with f a b) d = f (nth n a d) (nth n b d).
Proof.
  revert b n. induction a as [|x a IH]; intros [|y b] n HL Hn; cbn in *; try lia.
  destruct n; [reflexivity|]. apply IH; lia.
Qed.
Lemma emd_detrend_R (emd : list R -> result (list (list R))) (u : list R) imfs trend :
  emd (emd_delta u) = Ok imfs -> last_opt imfs = Some trend -> length trend = length u -> u <> [] ->
  exists v, emd_detrend emd u = Ok v /\ length v = length u /\
    nth 0 v 0%R = nth 0 u 0%R /\
    forall i, (S i < length u)%nat -> nth (S i) v 0%R = (nth i u 0 - nth i trend 0)%R.
Proof.
  intros E Hl Ht Hu. unfold emd_detrend. rewrite E. cbn [bind]. rewrite Hl.
  assert (length (emd_delta u) = length u) as HD by (unfold emd_delta; now rewrite map_length, seq_length).
  unfold np_sub. rewrite HD, Ht, Nat.eqb_refl. cbn [bind].
  eexists. split; [reflexivity|]. split; [now rewrite map_length, seq_length|].
  assert (0 < length u)%nat as H0 by (destruct u; [congruence|cbn; lia]).
  set (g := fun i : nat => _).
  assert (forall i, (i < length u)%nat -> nth i (map g (seq 0 (length u))) 0%R = g i) as Hg.
  { intros i Hi. rewrite nth_indep with (d' := g 0%nat) by (now rewrite map_length, seq_length).
    rewrite map_nth, seq_nth by exact Hi. reflexivity. }
  split; [rewrite Hg by exact H0; reflexivity|].
  intros i Hi. rewrite Hg by exact Hi. subst g. cbv beta iota.
  rewrite zip_with_nth by (rewrite ?HD; lia || (symmetry; assumption)).
  unfold emd_delta. set (c := nmean (ndiff u)).
  assert (nth i (map (fun n => nsum (firstn n (map (fun s => nsub s c) (ndiff u)))) (seq 0 (length u))) n0 =
          (nth i u 0 - nth 0 u 0 - INR i * c)%R) as ->.
  { rewrite nth_indep with (d' := nsum (firstn 0 (map (fun s => nsub s c) (ndiff u)))) by (rewrite map_length, seq_length; lia).
    rewrite (map_nth (fun n => nsum (firstn n (map (fun s => nsub s c) (ndiff u))))), seq_nth by lia.
    rewrite nsum_R. cbn [nsub Num_R]. rewrite firstn_map_sub_sum by (rewrite ndiff_length; cbn; lia).
    cbn [Nat.add]. rewrite firstn_diff_sum by lia. reflexivity. }
  cbn [nadd nsub nmul nofZ n0 Num_R]. rewrite <- INR_IZR_INZ. lra.
Qed.

(** ** Strings *)
Fixpoint chars (s : string) : list ascii := match s with EmptyString => [] | String c t => c :: chars t end.
Lemma chars_app s t : chars (s ++ t) = chars s ++ chars t.
Proof. induction s; cbn; congruence. Qed.
Lemma chars_inj s t : chars s = chars t -> s = t.
Proof. revert t. induction s; intros [|c t]; cbn; try discriminate; [reflexivity|]. intros [= -> H]. f_equal. auto. Qed.

Lemma split_first {A} (c : A) (a a' b b' : list A) : ~ In c a -> ~ In c a' -> a ++ c :: b = a' ++ c :: b' -> a = a' /\ b = b'.
Proof.
  revert a'. induction a as [|x a IH]; intros [|y a'] H1 H2 E; cbn in *.
  - now injection E.
  - injection E as <- _. exfalso. apply H2. now left.
  - injection E as -> _. exfalso. apply H1. now left.
  - injection E as -> E. destruct (IH a') as [-> ->]; auto.
Qed.
Lemma split_last {A} (c : A) (a a' b b' : list A) : ~ In c b -> ~ In c b' -> a ++ c :: b = a' ++ c :: b' -> a = a' /\ b = b'.
Proof.
  intros H1 H2 E. apply (f_equal (@rev A)) in E. rewrite !rev_app_distr in E. cbn [rev] in E. rewrite <- !app_assoc in E. cbn in E.
  apply split_first in E; [|rewrite <- in_rev; assumption|rewrite <- in_rev; assumption].
  destruct E as [E1 E2]. apply (f_equal (@rev A)) in E1, E2. rewrite !rev_involutive in *. auto.
Qed.

Definition is_digit (c : ascii) : Prop := In c (chars "0123456789").
Lemma uint_digits d : Forall is_digit (chars (NilEmpty.string_of_uint d)).
Proof. induction d; cbn [NilEmpty.string_of_uint chars]; constructor; auto; unfold is_digit; cbn; tauto. Qed.
Lemma zuint_digits d : Forall is_digit (chars (NilZero.string_of_uint d)).
Proof. destruct d; try apply uint_digits. repeat constructor. Qed.
Lemma to_int_not_nil z : Z.to_int z <> Decimal.Pos Decimal.Nil /\ Z.to_int z <> Decimal.Neg Decimal.Nil.
Proof.
  destruct z; cbn; split; try discriminate; intros [= E]; revert E; apply DecimalPos.Unsigned.to_uint_nonnil.
Qed.
Lemma str_of_int_inj x y : str_of_int x = str_of_int y -> x = y.
Proof.
  unfold str_of_int. intros E. apply DecimalZ.to_int_inj.
  pose proof (NilZero.isi (Z.to_int x) (proj1 (to_int_not_nil x)) (proj2 (to_int_not_nil x))) as Hx.
  pose proof (NilZero.isi (Z.to_int y) (proj1 (to_int_not_nil y)) (proj2 (to_int_not_nil y))) as Hy.
  rewrite E, Hy in Hx. now injection Hx.
Qed.
Lemma str_of_nonneg_digits z : 0 <= z -> Forall is_digit (chars (str_of_int z)).
Proof. intro H. unfold str_of_int. destruct z; [repeat constructor|apply zuint_digits|lia]. Qed.
Lemma str_of_int_chars z : Forall (fun c => is_digit c \/ c = "-"%char) (chars (str_of_int z)).
Proof.
  unfold str_of_int.
  assert (forall d, Forall (fun c => is_digit c \/ c = "-"%char) (chars (NilZero.string_of_uint d))) as H.
  { intro d. eapply Forall_impl; [|apply zuint_digits]. auto. }
  destruct z; cbn [Z.to_int]; try apply H. cbn [NilZero.string_of_int chars]. constructor; [now right|apply H].
Qed.

Lemma str_of_digit z : 0 <= z < 10 -> exists c, str_of_int z = String c EmptyString.
Proof.
  intro H. assert (z = 0 \/ z = 1 \/ z = 2 \/ z = 3 \/ z = 4 \/ z = 5 \/ z = 6 \/ z = 7 \/ z = 8 \/ z = 9) as K by lia.
  repeat (destruct K as [-> |K]; [eexists; reflexivity|]). subst. eexists; reflexivity.
Qed.
Lemma pad_digits_inj k : forall x y, 0 <= x < 10 ^ Z.of_nat k -> 0 <= y < 10 ^ Z.of_nat k ->
  pad_digits k x = pad_digits k y -> x = y.
Proof.
  induction k as [|k IH]; intros x y Hx Hy E.
  - cbn in *. lia.
  - cbn [pad_digits] in E.
    replace (10 ^ Z.of_nat (S k)) with (10 * 10 ^ Z.of_nat k) in * by (rewrite Nat2Z.inj_succ, Z.pow_succ_r; lia).
    pose proof (Z.mod_pos_bound x 10 ltac:(lia)). pose proof (Z.mod_pos_bound y 10 ltac:(lia)).
    destruct (str_of_digit (x mod 10)) as [c Ec]; [lia|]. destruct (str_of_digit (y mod 10)) as [c' Ec']; [lia|].
    rewrite Ec, Ec' in E. apply (f_equal chars) in E. rewrite !chars_app in E. cbn [chars] in E.
    apply app_inj_tail in E. destruct E as [E1 <-]. apply chars_inj in E1.
    assert (x mod 10 = y mod 10) by (apply str_of_int_inj; congruence).
    assert (x / 10 = y / 10).
    { apply IH; auto; (split; [apply Z.div_pos; lia|apply Z.div_lt_upper_bound; lia]). }
    rewrite (Z.div_mod x 10), (Z.div_mod y 10) by lia. lia.
Qed.
Lemma pad_digits_digits k : forall x, 0 <= x -> Forall is_digit (chars (pad_digits k x)).
Proof.
  induction k as [|k IH]; intros x H; [constructor|]. cbn [pad_digits]. rewrite chars_app. apply Forall_app. split.
  - apply IH, Z.div_pos; lia.
  - apply str_of_nonneg_digits. apply Z.mod_pos_bound. lia.
Qed.

Lemma not_digit c : ~ is_digit c -> forall l, Forall is_digit l -> ~ In c l.
Proof. intros H l Hl Hi. rewrite Forall_forall in Hl. auto. Qed.
Ltac nodigit := let H := fresh in intro H; cbn in H; intuition discriminate.

(** ** Fixed-point formatting *)
Lemma round_he_near (q : Q) : (2 * Qabs (inject_Z (round_half_even q) - q) <= 1)%Q.
Proof.
  destruct q as [n d]. unfold round_half_even. cbn [Qnum Qden].
  set (D := Zpos d). assert (0 < D) as HD by reflexivity.
  pose proof (Z.div_mod n D ltac:(lia)) as Hdm. pose proof (Z.mod_pos_bound n D HD) as Hb.
  assert (forall r, Z.abs (2 * (r * D - n)) <= D -> (2 * Qabs (inject_Z r - (n # d)) <= 1)%Q) as K.
  { intros r Hr. unfold Qabs, Qminus, Qplus, Qopp, Qmult, Qle, inject_Z. cbn [Qnum Qden]. fold D.
    rewrite ?Pos.mul_1_l, ?Pos.mul_1_r. fold D. lia. }
  apply K. destruct (Z.ltb_spec (2 * (n mod D)) D); [|destruct (Z.ltb_spec D (2 * (n mod D)))].
  - replace (n / D * D - n) with (- (n mod D)) by lia. lia.
  - replace ((n / D + 1) * D - n) with (D - n mod D) by lia. lia.
  - destruct (Z.even (n / D)).
    + replace (n / D * D - n) with (- (n mod D)) by lia. lia.
    + replace ((n / D + 1) * D - n) with (D - n mod D) by lia. lia.
Qed.
Lemma round_he_nonneg (q : Q) : 0 <= Qnum q -> 0 <= round_half_even q.
Proof.
  intro H. unfold round_half_even. pose proof (Z.div_pos (Qnum q) (Zpos (Qden q)) H ltac:(reflexivity)).
  destruct (_ <? _); [lia|]. destruct (_ <? _); [lia|]. destruct (Z.even _); lia.
Qed.
Definition fmt_mant (k : nat) (q : Q) : Z :=
  round_half_even (Qmult (Qmake (Z.abs (Qnum q)) (Qden q)) (inject_Z (10 ^ Z.of_nat k))).
Lemma fmt_mant_nonneg k q : 0 <= fmt_mant k q.
Proof. apply round_he_nonneg. cbn. apply Z.mul_nonneg_nonneg; [apply Z.abs_nonneg|apply Z.pow_nonneg; lia]. Qed.

Lemma format_fixed_inj k q q' : format_fixed k q = format_fixed k q' ->
  (Qnum q <? 0) = (Qnum q' <? 0) /\ fmt_mant k q = fmt_mant k q'.
Proof.
  unfold format_fixed. fold (fmt_mant k q) (fmt_mant k q').
  pose proof (fmt_mant_nonneg k q) as H1. pose proof (fmt_mant_nonneg k q') as H2.
  set (m := fmt_mant k q) in *. set (m' := fmt_mant k q') in *. set (p := 10 ^ Z.of_nat k).
  assert (0 < p) as Hp by (apply Z.pow_pos_nonneg; lia).
  pose proof (str_of_nonneg_digits (m / p) ltac:(apply Z.div_pos; lia)) as D1.
  pose proof (str_of_nonneg_digits (m' / p) ltac:(apply Z.div_pos; lia)) as D2.
  intro E. apply (f_equal chars) in E. rewrite !chars_app in E. cbn [chars] in E.
  assert (forall a b : list ascii, Forall is_digit a -> a ++ "."%char :: b = [] ++ a ++ "."%char :: b) as _ by auto.
  assert (Hm : forall x y, Forall is_digit (chars (str_of_int x)) -> Forall is_digit (chars (str_of_int y)) -> 
     forall r r', 0 <= r < p -> 0 <= r' < p ->
     chars (str_of_int x) ++ "."%char :: chars (pad_digits k r) = chars (str_of_int y) ++ "."%char :: chars (pad_digits k r') ->
     x = y /\ r = r').
  { intros x y Dx Dy r r' Hr Hr' E'. apply split_first in E'.
    - destruct E' as [E1 E2]. split; [now apply str_of_int_inj, chars_inj|]. apply chars_inj in E2. now apply (pad_digits_inj k).
    - apply not_digit; [nodigit|assumption].
    - apply not_digit; [nodigit|assumption]. }
  assert (m / p = m' / p /\ m mod p = m' mod p -> m = m') as Hfin.
  { intros [E1 E2]. rewrite (Z.div_mod m p), (Z.div_mod m' p) by lia. congruence. }
  pose proof (Z.mod_pos_bound m p Hp). pose proof (Z.mod_pos_bound m' p Hp).
  assert (forall x l r, Forall is_digit (chars (str_of_int x)) -> "-"%char :: l <> chars (str_of_int x) ++ "."%char :: r) as Hminus.
  { intros x l r Dx E'. destruct (chars (str_of_int x)) as [|c t]; cbn in E'; [discriminate|]. injection E' as <- _.
    inversion Dx as [|? ? Hc]. subst. revert Hc. nodigit. }
  destruct (Qnum q <? 0), (Qnum q' <? 0); cbn [chars app] in E.
  - injection E as E. split; [reflexivity|]. apply Hfin, Hm; auto.
  - destruct (Hminus _ _ _ D2 E).
  - symmetry in E. destruct (Hminus _ _ _ D1 E).
  - split; [reflexivity|]. apply Hfin, Hm; auto.
Qed.

Lemma format3_near q q' : format_fixed 3 q = format_fixed 3 q' -> ~ FarApart q q'.
Proof.
  intros E Hf. apply format_fixed_inj in E. destruct E as [Es Em]. unfold fmt_mant in Em. cbn [Z.of_nat Pos.of_succ_nat Pos.succ] in Em.
  change (10 ^ 3) with 1000 in Em.
  pose proof (round_he_near ((Z.abs (Qnum q) # Qden q) * inject_Z 1000)) as H1.
  pose proof (round_he_near ((Z.abs (Qnum q') # Qden q') * inject_Z 1000)) as H2. rewrite <- Em in H2.
  set (r := round_half_even _) in *. clearbody r.
  unfold FarApart in Hf.
  assert (forall x : Q, (2 * Qabs (inject_Z r - x) <= 1)%Q -> (- (1#2) <= inject_Z r - x <= 1#2)%Q) as Hab.
  { intros x Hx. apply Qabs_Qle_condition. apply (Qmult_le_l _ _ 2); [reflexivity|]. eapply Qle_trans; [exact Hx|]. apply Qle_bool_iff. reflexivity. }
  apply Hab in H1, H2.
  assert (forall a b : Q, (- (1#2) <= inject_Z r - a * 1000 <= 1#2)%Q -> (- (1#2) <= inject_Z r - b * 1000 <= 1#2)%Q ->
    (Qabs (a - b) <= 1#1000)%Q) as K.
  { intros a b Ha Hb. apply Qabs_Qle_condition. split; Lqa.lra. }
  destruct q as [n d], q' as [n' d']. cbn [Qnum Qden] in *.
  apply (Qlt_irrefl (1#1000)). eapply Qlt_le_trans; [exact Hf|].
  destruct (Z.ltb_spec n 0), (Z.ltb_spec n' 0); try discriminate.
  - assert ((n # d) == - (Z.abs n # d))%Q as -> by (rewrite Z.abs_neq by lia; unfold Qeq; cbn; lia).
    assert ((n' # d') == - (Z.abs n' # d'))%Q as -> by (rewrite Z.abs_neq by lia; unfold Qeq; cbn; lia).
    setoid_replace (- (Z.abs n # d) - - (Z.abs n' # d'))%Q with (- ((Z.abs n # d) - (Z.abs n' # d')))%Q by ring.
    rewrite Qabs_opp. apply K; assumption.
  - rewrite Z.abs_eq in H1, H2 by lia. apply K; assumption.
Qed.
Lemma format_no_underscore k q : ~ In "_"%char (chars (format_fixed k q)).
Proof.
  unfold format_fixed. fold (fmt_mant k q). pose proof (fmt_mant_nonneg k q). set (m := fmt_mant k q) in *.
  assert (0 < 10 ^ Z.of_nat k) as Hp by (apply Z.pow_pos_nonneg; lia).
  rewrite !chars_app. cbn [chars]. rewrite !in_app_iff. intros [H1|[H1|[H1|H1]]].
  - destruct (_ <? _); cbn in H1; intuition discriminate.
  - revert H1. apply not_digit; [nodigit|]. apply str_of_nonneg_digits, Z.div_pos; lia.
  - cbn in H1. destruct H1 as [H1|[]]. discriminate.
  - revert H1. apply not_digit; [nodigit|]. apply pad_digits_digits. apply Z.mod_pos_bound. exact Hp.
Qed.

(** ** Smoother names *)
Lemma spline_name_inj d d' : spline_name d = spline_name d' -> d = d'.
Proof.
  unfold spline_name. repeat match goal with |- context [?a =? ?b] => destruct (Z.eqb_spec a b) end; cbn; intro E; try congruence;
    try discriminate. injection E as E. now apply str_of_int_inj.
Qed.
Lemma spline_name_head d : exists c s, spline_name d = String c s /\ (c = "c"%char \/ c = "q"%char \/ c = "d"%char).
Proof.
  unfold spline_name. repeat match goal with |- context [?a =? ?b] => destruct (Z.eqb_spec a b) end; cbn [String.append]; eauto 6.
Qed.
Lemma spline_full_inj d d' a a' : ~ In "_"%char (chars a) -> ~ In "_"%char (chars a') ->
  (spline_name d ++ "-spline_" ++ a)%string = (spline_name d' ++ "-spline_" ++ a')%string -> d = d' /\ a = a'.
Proof.
  intros H1 H2 E. apply (f_equal chars) in E. rewrite !chars_app in E. cbn [chars] in E.
  assert (forall x y : list ascii, x ++ ["-"; "s"; "p"; "l"; "i"; "n"; "e"; "_"]%char ++ y =
    (x ++ ["-"; "s"; "p"; "l"; "i"; "n"; "e"]%char) ++ "_"%char :: y) as K by (intros; rewrite <- app_assoc; reflexivity).
  rewrite !K in E. apply split_last in E; auto. destruct E as [E1 E2].
  apply app_inv_tail in E1. split; [now apply spline_name_inj, chars_inj|now apply chars_inj].
Qed.

Lemma NoDup_map_inj {A B} (f : A -> B) l : (forall x y, In x l -> In y l -> f x = f y -> x = y) -> NoDup l -> NoDup (map f l).
Proof.
  intros H. induction 1 as [|x l Hx Hl IH]; [constructor|]. cbn [map]. constructor.
  - intro Hi. apply in_map_iff in Hi. destruct Hi as (y & E & Hy). apply Hx. rewrite (H x y); auto; [now left|now right].
  - apply IH. intros; apply H; auto; now right.
Qed.
Lemma NoDup_app_intro {A} (l l' : list A) : NoDup l -> NoDup l' -> (forall x, In x l -> In x l' -> False) -> NoDup (l ++ l').
Proof.
  induction 1 as [|x l Hx Hl IH]; intros Hl' Hd; cbn; [assumption|]. constructor.
  - rewrite in_app_iff. intros [H|H]; [auto|]. apply (Hd x); [now left|assumption].
  - apply IH; auto. intros y Hy. apply (Hd y). now right.
Qed.
Lemma NoDup_list_prod {A B} (l : list A) (l' : list B) : NoDup l -> NoDup l' -> NoDup (list_prod l l').
Proof.
  induction 1 as [|x l Hx Hl IH]; intros Hl'; cbn; [constructor|]. apply NoDup_app_intro.
  - apply NoDup_map_inj; [|assumption]. congruence.
  - auto.
  - intros [a b] H1 H2. apply in_map_iff in H1. destruct H1 as (y & [= <- <-] & _). apply in_prod_iff in H2. tauto.
Qed.
Lemma flat_map_prod {A B C} (f : A -> B -> C) l l' : flat_map (fun a => map (f a) l') l = map (fun p => f (fst p) (snd p)) (list_prod l l').
Proof. induction l; cbn; [reflexivity|]. rewrite map_app, map_map, IHl. reflexivity. Qed.

Lemma FarApart_NoDup (l : list Q) : ForallOrdPairs FarApart l -> NoDup l /\
  forall x y, In x l -> In y l -> format_fixed 3 x = format_fixed 3 y -> x = y.
Proof.
  induction 1 as [|x l Hx Hl [IH1 IH2]]; [split; [constructor|contradiction]|]. rewrite Forall_forall in Hx. split.
  - constructor; [|assumption]. intro Hi. apply (format3_near x x eq_refl). auto.
  - intros a b [<-|Ha] [<-|Hb] E; auto.
    + exfalso. apply (format3_near _ _ E). auto.
    + exfalso. symmetry in E. apply (format3_near _ _ E). auto.
Qed.

Lemma names_nodup polys (smooths : list Q) degs gomp : NoDup polys -> NoDup degs -> ForallOrdPairs FarApart smooths ->
  NoDup (get_smoother_names (format_fixed 3) [] polys (SList smooths) degs gomp).
Proof.
  intros Hp Hd Hs. apply FarApart_NoDup in Hs. destruct Hs as [Hn Hinj].
  unfold get_smoother_names. rewrite flat_map_prod.
  apply NoDup_app_intro; [|apply NoDup_app_intro|].
  - apply NoDup_map_inj; [|assumption]. intros x y _ _ E. injection E as E. now apply str_of_int_inj.
  - apply NoDup_map_inj; [|now apply NoDup_list_prod].
    intros [s d] [s' d'] H1 H2 E. cbn [fst snd] in E. apply in_prod_iff in H1, H2.
    apply spline_full_inj in E; [|apply format_no_underscore..]. destruct E as [-> E]. f_equal. apply Hinj; tauto.
  - destruct gomp; repeat constructor. cbn. tauto.
  - intros n H1 H2. apply in_map_iff in H1. destruct H1 as ([s d] & <- & _). cbn [fst snd] in H2.
    destruct gomp; [|contradiction]. destruct H2 as [H2|[]].
    destruct (spline_name_head d) as (c & t & E' & Hc). rewrite E' in H2. cbn in H2. injection H2 as H2 _. destruct Hc as [-> |[-> | ->]]; discriminate.
  - intros n H1 H2. apply in_map_iff in H1. destruct H1 as (d & <- & _). apply in_app_iff in H2. destruct H2 as [H2|H2].
    + apply in_map_iff in H2. destruct H2 as ([s d'] & E & _). cbn [fst snd] in E.
      destruct (spline_name_head d') as (c & t & E' & Hc). rewrite E' in E. cbn in E. injection E as E _. destruct Hc as [-> |[-> | ->]]; discriminate.
    + destruct gomp; [|contradiction]. destruct H2 as [H2|[]]. cbn in H2. discriminate.
Qed.

Section Cols.
Context {F : Type} {N : Num F}.
Lemma make_column_name nm (r : list F * list F * closure F) c : make_column nm r = Ok c -> c_name c = nm.
Proof. destruct r as [[u st] cl]. unfold make_column. destruct (np_sub u st); [|discriminate]. cbn [bind]. now intros [= <-]. Qed.
Lemma for_each_names {A} (nm : A -> string) (g : A -> result (list F * list F * closure F)) (l : list A) cs :
  for_each (fun a => let! r := g a in make_column (nm a) r) l = Ok cs -> map c_name cs = map nm l.
Proof.
  revert cs. induction l as [|a t IH]; intros cs; cbn [for_each]; [now intros [= <-]|].
  destruct (g a) as [r|]; [|discriminate]. cbn [bind]. destruct (make_column _ _) eqn:E; [|discriminate]. cbn [bind].
  destruct (for_each _ t) eqn:E2; [|discriminate]. cbn [bind]. intros [= <-]. cbn [map]. rewrite (IH _ eq_refl).
  f_equal. eapply make_column_name; eassumption.
Qed.
End Cols.

Lemma summary_nth names j nm k suf : nth_error names j = Some nm ->
  nth_error ["--mean_spacing"; "--var_spacing"; "--msqe"; "--score"]%string k = Some suf ->
  nth_error (summary_columns names) (4 * j + 3 + k) = Some (nm ++ suf)%string.
Proof.
  intros Hj Hk. unfold summary_columns. rewrite nth_error_app2 by (cbn; lia). cbn [List.length].
  replace (4 * j + 3 + k - 3)%nat with (4 * j + k)%nat by lia.
  revert j Hj. induction names as [|n t IH]; intros [|j] Hj; try discriminate.
  - cbn in Hj. injection Hj as ->. cbn [flat_map]. replace (4 * 0 + k)%nat with k by lia.
    destruct k as [|[|[|[|k]]]]; cbn in Hk |- *; try congruence. destruct k; discriminate.
  - cbn [flat_map]. rewrite nth_error_app2 by (cbn; lia). cbn [List.length]. replace (4 * S j + k - 4)%nat with (4 * j + k)%nat by lia.
    apply IH. exact Hj.
Qed.
