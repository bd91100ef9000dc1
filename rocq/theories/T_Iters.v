(** Property C149: the iteration counts drawn with [show_iters]. *)
From Coq Require Import String List ZArith Bool Arith Reals Lra Lia.
From Verif Require Import Base S_Draw M_Step M_EigVals M_Quad M_Loops M_Draw M_Observ M_Iters P_Loops P_Delta T_Loops T_Draw T_Observ.
Import ListNotations.
Local Open Scope R_scope.
Local Notation length := List.length.

Section C149.
Context (eg : R) (Si Ci : R -> R) (Si_inf : R) (quad : R -> R).
(** The points of the second axes: grey stars labelled "iters", one at (L, count) for every row. *)
Definition IterPoints (L : list R) (counts : list Z) : artist := Points "grey" (Some "iters"%string) L (map IZR counts).

(** C149. The main axes do not depend on [show_iters]; without it there are no second axes; with it they show the counts of all rows,
    converged or not; a frame without counts is then refused, after the checks of the other columns. *)
Theorem C149_rigidity unfolded df iters ens show : rigidity_plot_iters eg unfolded (mkiframe df iters) ens show
  = match rigidity_plot eg unfolded df ens with
    | Raise e => Raise e
    | Ok fig => if show then match iters, d_L df with Some k, Some L => Ok (fig, Some (IterPoints L k)) | _, _ => Raise ValueError end else Ok (fig, None)
    end.
Proof.
  unfold rigidity_plot_iters, rigidity_plot, iters_axes. cbn [i_frame i_iters]. destruct (d_L df) as [L|]; [|reflexivity]. destruct (d_delta df) as [dl|]; [|reflexivity].
  destruct (converged_column df) as [c|]; [|reflexivity]. cbn [bind]. destruct show; [|reflexivity]. destruct iters; reflexivity.
Qed.
Theorem C149_levelvar df iters ens show fig : levelvar_plot eg Si Ci Si_inf quad df ens = Ok fig ->
  levelvar_plot_iters eg Si Ci Si_inf quad (mkiframe df iters) ens show
  = if show then match iters, d_L df with Some k, Some L => Ok (fig, Some (IterPoints L k)) | _, _ => Raise ValueError end else Ok (fig, None).
Proof.
  intro E. pose proof E as E'. unfold levelvar_plot_iters, iters_axes. cbn [i_frame i_iters]. unfold levelvar_plot in E'. destruct (d_L df) as [L|] eqn:EL; [|discriminate].
  destruct (d_sigma df) as [dl|]; [|discriminate]. destruct (converged_column df) as [c|]; [|discriminate]. cbn [bind]. rewrite E.
  destruct show; [|reflexivity]. destruct iters; reflexivity.
Qed.
Theorem C149_levelvar_error df iters ens show e : levelvar_plot eg Si Ci Si_inf quad df ens = Raise e ->
  levelvar_plot_iters eg Si Ci Si_inf quad (mkiframe df iters) ens show
  = Raise (if show then match iters, d_L df, d_sigma df, converged_column df with None, Some _, Some _, Ok _ => ValueError | _, _, _, _ => e end else e).
Proof.
  intro E. pose proof E as E'. unfold levelvar_plot_iters, iters_axes. cbn [i_frame i_iters]. unfold levelvar_plot in E'. destruct (d_L df) as [L|] eqn:EL.
  2:{ injection E' as <-. destruct show, iters; reflexivity. }
  destruct (d_sigma df) as [dl|]; [|injection E' as <-; destruct show, iters; reflexivity].
  destruct (converged_column df) as [c|ex]; cbn [bind] in *; [|injection E' as <-; destruct show, iters; reflexivity]. rewrite E. destruct show, iters; reflexivity.
Qed.

(** C149. The rigidity method draws, over each L, the number of iterations its value took; its other results are those of C88. *)
Theorem C149_rigidity_method u L grid mx tol simpson d0 d ens show : u <> [] -> (1 <= grid)%nat -> (0 < mx)%Z ->
  exists delta fig counts, plot_spectral_rigidity_iters eg u L None mx grid tol simpson ens show d0 d = Ok (L, delta, (fig, if show then Some (IterPoints L counts) else None)) /\
    length counts = length L /\
    plot_spectral_rigidity eg u (fun L => let! rs := M_Loops.spectral_rigidity u L mx grid tol simpson d0 d in
      Ok (L, map (fun r => fst (fst r)) rs, map (fun r => snd (fst r)) rs)) None L ens = Ok (L, delta, fig) /\
    (forall i l, nth_error L i = Some l -> exists x c k, delta_L u l grid mx 100 tol simpson (d i) = Done (x, c, k) /\ nth_error counts i = Some k).
Proof.
  intros Hu Hg Hmx. destruct (C45_rigidity_limit u L tol mx grid simpson d0 d Hu Hg Hmx) as (rs & _ & E1 & Hl1 & _).
  destruct (rigidity_panel eg u L rs ens Hl1) as (fig & Ef & K). exists (map (fun r => fst (fst r)) rs), fig, (map snd rs). split.
  { unfold plot_spectral_rigidity_iters. rewrite E1. cbn [bind]. rewrite C149_rigidity, Ef. cbn [bind i_frame d_L d_delta rigidity_frame]. destruct show; reflexivity. }
  split; [now rewrite map_length|]. split.
  { unfold plot_spectral_rigidity. rewrite E1. cbn [bind]. unfold rigidity_frame, row_labels in Ef. rewrite Ef. reflexivity. }
  unfold M_Loops.spectral_rigidity, auto_limit in E1. rewrite (proj2 (Z.leb_gt mx 0)) in E1 by lia. apply each_spec in E1. destruct E1 as [_ E1].
  intros i l Hi. destruct (E1 _ _ Hi) as (r & Hr & E). cbn [Nat.add] in E. change MIN_ITERS with 100%Z in E.
  destruct (delta_L u l grid mx 100 tol simpson (d i)) as [[[x c] k]| |]; cbn in E; try discriminate. injection E as <-.
  exists x, c, k. split; [reflexivity|]. rewrite nth_error_map, Hr. reflexivity.
Qed.
(** C149. So does the level variance method when it computes the values itself. *)
Theorem C149_variance_method u L tol mx ens d0 d show sigma fig : u <> [] -> (0 < mx)%Z ->
  plot_level_variance eg Si Ci Si_inf quad u L None tol mx ens d0 d = Ok (L, sigma, fig) ->
  exists counts, plot_level_variance_iters eg Si Ci Si_inf quad u L None tol mx ens show d0 d = Ok (L, sigma, (fig, if show then Some (IterPoints L counts) else None)) /\
    length counts = length L /\
    (forall i l, nth_error L i = Some l -> exists x c k, sigma_L u l mx tol 100 (d i) = Ok (Done (x, c, k)) /\ nth_error counts i = Some k).
Proof.
  intros Hu Hmx H. destruct (C45_levelvariance_limit u L tol mx d0 d Hu Hmx) as (vs & _ & E2 & Hl2 & _). unfold plot_level_variance in H. rewrite E2 in H. cbn [bind] in H.
  destruct (levelvar_plot eg Si Ci Si_inf quad (variance_frame L vs) ens) as [f|] eqn:Ef; [|discriminate]. cbn [bind] in H. injection H as <- <-.
  exists (map snd vs). split.
  { unfold plot_level_variance_iters. rewrite E2. cbn [bind]. rewrite (C149_levelvar _ _ _ _ _ Ef). cbn [variance_frame d_L]. destruct show; reflexivity. }
  split; [now rewrite map_length|].
  unfold level_number_variance, auto_limit in E2. rewrite (proj2 (Z.leb_gt mx 0)) in E2 by lia. apply each_spec in E2. destruct E2 as [_ E2].
  intros i l Hi. destruct (E2 _ _ Hi) as (r & Hr & E). cbn [Nat.add] in E. change MIN_ITERS with 100%Z in E.
  destruct (sigma_L u l mx tol 100 (d i)) as [[[[s c] k]| |]|]; cbn in E; try discriminate. injection E as <-.
  exists s, c, k. split; [reflexivity|]. rewrite nth_error_map, Hr. reflexivity.
Qed.
(** FALSE when the values are given: the frame made for them has no counts, and every such call fails. *)
Theorem C149_given_refuted u L s tol mx ens d0 d : plot_level_variance_iters eg Si Ci Si_inf quad u L (Some s) tol mx ens true d0 d = Raise ValueError.
Proof. unfold plot_level_variance_iters. destruct (Nat.eqb (length L) (length s)); [|reflexivity]. reflexivity. Qed.
(** Without [show_iters] it draws what C88 describes. *)
Theorem C149_given u L s tol mx ens d0 d : plot_level_variance_iters eg Si Ci Si_inf quad u L (Some s) tol mx ens false d0 d
  = match plot_level_variance eg Si Ci Si_inf quad u L (Some s) tol mx ens d0 d with Ok (l, v, fig) => Ok (l, v, (fig, None)) | Raise e => Raise e end.
Proof.
  unfold plot_level_variance_iters, plot_level_variance. destruct (Nat.eqb (length L) (length s)); [|reflexivity].
  unfold levelvar_plot_iters. cbn [i_frame d_L d_sigma converged_column d_converged bind iters_axes].
  destruct (levelvar_plot eg Si Ci Si_inf quad _ ens); reflexivity.
Qed.
(** A frame given to the rigidity method is shown with its own counts. *)
Theorem C149_data u L df k Ld mx grid tol simpson ens d0 d delta fig : d_L df = Some Ld -> d_delta df = Some delta -> rigidity_plot eg (Some u) df ens = Ok fig ->
  plot_spectral_rigidity_iters eg u L (Some (mkiframe df (Some k))) mx grid tol simpson ens true d0 d = Ok (L, delta, (fig, Some (IterPoints Ld k))) /\
  plot_spectral_rigidity_iters eg u L (Some (mkiframe df None)) mx grid tol simpson ens true d0 d = Raise ValueError.
Proof. intros E1 E2 E3. unfold plot_spectral_rigidity_iters. cbn [bind]. rewrite !C149_rigidity, E3, E1. cbn [bind i_frame]. rewrite E2. split; reflexivity. Qed.
End C149.
Print Assumptions C149_rigidity.
Print Assumptions C149_levelvar.
Print Assumptions C149_levelvar_error.
Print Assumptions C149_rigidity_method.
Print Assumptions C149_variance_method.
Print Assumptions C149_given_refuted.
Print Assumptions C149_given.
Print Assumptions C149_data.
Example C149_ex (eg : R) (Si Ci quad : R -> R) :
  (exists fig, rigidity_plot_iters eg (Some [0; 1]) (mkiframe (mkdframe [0; 1]%Z (Some [1; 2]) (Some [3; 4]) None (Some [true; false])) (Some [500; 900]%Z)) [] true
     = Ok (fig, Some (Points "grey" (Some "iters"%string) [1; 2] [500; 900]))) /\
  rigidity_plot_iters eg (Some [0; 1]) (mkiframe (mkdframe [0]%Z (Some [1]) None None None) None) [] true = Raise RuntimeError /\
  (exists fig, plot_level_variance_iters eg Si Ci 0 quad [0; 1] [12; 20] (Some [3; 4]) 0 5 ["poisson"%string] false (fun _ => 0) (fun _ _ => 0) = Ok ([12; 20], [3; 4], (fig, None))) /\
  (exists sigma fig counts, plot_level_variance_iters eg Si Ci 0 quad [0; 1] [12; 20] None 0 5 ["poisson"%string] true (fun _ => 0) (fun _ _ => 0)
     = Ok ([12; 20], sigma, (fig, Some (IterPoints [12; 20] counts))) /\ length counts = 2%nat).
Proof.
  split; [eexists; reflexivity|]. split; [reflexivity|]. split; [eexists; reflexivity|].
  destruct (C45_levelvariance_limit [0; 1] [12; 20] 0 5 (fun _ => 0) (fun _ _ => 0) ltac:(discriminate) ltac:(lia)) as (vs & _ & E2 & Hl2 & _).
  destruct (C149_variance_method eg Si Ci 0 quad [0; 1] [12; 20] 0 5 ["poisson"%string] (fun _ => 0) (fun _ _ => 0) true (map (fun r => fst (fst r)) vs)
    (scatter_rows true (map (fun r => snd (fst r)) vs) [12; 20] (map (fun r => fst (fst r)) vs) ++ [Line "Poisson" [12; 20] [12; 20]])) as (counts & E & Hl & _); [discriminate|lia| |].
  - unfold plot_level_variance. rewrite E2. reflexivity.
  - do 3 eexists. split; [exact E|exact Hl].
Qed.
