(** Property C117: the number variance curves of the figure against those of ensemble.py. *)
From Coq Require Import String List ZArith Bool Arith Lia Reals Lra.
From Coquelicot Require Import Coquelicot.
From Verif Require Import Base S_Draw M_Ensemble M_Draw P_Draw P_DrawLong P_SiCi T_Draw.
Import ListNotations.
Local Open Scope R_scope.
Local Notation length := List.length.

(** C117. Every theoretical curve in the level-variance figure has, at each row, the value of [level_variance] of its ensemble at that
    L; only the orthogonal one below L = 10 differs, by less than 1 / (16 L^2).  [Si], [Ci], [quad]: the functions scipy computes. *)
Theorem C117_agree : forall (eg : R) (Si Ci quad : R -> R) (df : dframe) (ens : list string) L sigma mask e c,
  SineIntegral Si (PI / 2) -> CosineIntegral Ci -> SincSquareTail quad ->
  d_L df = Some L -> d_sigma df = Some sigma -> ConvergedMask df mask -> List.Forall (fun l => 0 < l) L -> d_index df = map Z.of_nat (seq 0 (length L)) ->
  (exists fig, levelvar_plot eg Si Ci (PI / 2) quad df ens = Ok fig /\ In (Line (ens_label e) L c) fig) ->
  let expected := level_variance eg e 0 0 0 (Some L) in
  length c = length expected /\
  (forall i l, nth_error L i = Some l -> exists v w, nth_error c i = Some v /\ nth_error expected i = Some w /\
     Rabs (v - w) < 1 / (16 * l ^ 2) /\ (e <> GOE \/ 10 <= l -> v = w)).
Proof.
  intros eg Si Ci quad df ens L sigma mask e c HS HC HQ E1 E2 E3 HL Hi (fig & Hf & Hin) expected.
  destruct (C83_figure eg Si Ci (PI / 2) quad df ens L sigma mask HS eq_refl HQ E1 E2 E3 HL Hi) as (fig' & Hf' & K). rewrite Hf in Hf'. injection Hf' as <-.
  apply K in Hin. destruct Hin as [(b & lab & Q & _)|(e' & He & Q)]; [discriminate|]. injection Q as Q1 ->.
  assert (e' = e) as -> by (destruct e, e'; try discriminate; reflexivity).
  assert (expected = map (levelvar_at eg e) L) as -> by reflexivity. split; [now rewrite !map_length|].
  intros i l Hl. exists (VarianceCurve eg Si Ci e l), (levelvar_at eg e l). split; [apply map_nth_error, Hl|]. split; [apply map_nth_error, Hl|].
  assert (0 < l) as Pl by (rewrite Forall_forall in HL; apply HL, (nth_error_In _ _ Hl)).
  assert (0 < 1 / (16 * l ^ 2)) as Pb by (apply Rdiv_lt_0_compat; [lra|assert (0 < l ^ 2) by (apply pow_lt, Pl); lra]).
  assert (forall x, Rabs (x - x) < 1 / (16 * l ^ 2)) as Z by (intro x; rewrite Rminus_diag_eq, Rabs_R0 by reflexivity; exact Pb).
  destruct e; cbn [VarianceCurve]; try (split; [apply Z|reflexivity]).
  destruct (Rlt_dec l 10) as [H|H]; [|split; [apply Z|reflexivity]]. split.
  - eapply Rle_lt_trans; [apply orthogonal_asymptotic; assumption|apply PI4_bound, Pl].
  - intros [N|N]; [congruence|lra].
Qed.
Print Assumptions C117_agree.

(** The formula changes at L = 10: the exact one, continued to 10, is within 1/1600 of the value drawn there. *)
Theorem C117_jump : forall (eg : R) (Si Ci quad : R -> R) (eps : posreal), SineIntegral Si (PI / 2) -> CosineIntegral Ci -> SincSquareTail quad ->
  exists delta : posreal, forall l l' i i' c c',
    10 - delta < l < 10 -> 10 <= l' < 10 + delta ->
    (exists fig, levelvar_plot eg Si Ci (PI / 2) quad (mkdframe (map Z.of_nat (seq 0 2)) (Some [l; l']) None (Some [i; i']) None) ["goe"%string] = Ok fig /\
       In (Line "Gaussian Orthogonal" [l; l'] [c; c']) fig) -> Rabs (c - c') < 1 / 1600 + eps.
Proof.
  intros eg Si Ci quad eps HS HC HQ.
  assert (continuous (levelvar_at eg GOE) 10) as Hc.
  { apply (ex_derive_continuous (K := R_AbsRing) (V := R_NormedModule)). exists (2 / PI ^ 2 * (/ 10)).
    apply (is_derive_ext (fun x => 2 / PI ^ 2 * (ln (2 * PI * x) + (eg + 1 - PI ^ 2 / 8)))); [intro t; cbn [levelvar_at]; match goal with |- ?a = ?b => change (@eq R a b) end; ring|].
    auto_derive; [pose proof PI_RGT_0; lra|]. pose proof PI_RGT_0. field. lra. }
  assert (continuous (fun l => 1 / (16 * l ^ 2)) 10) as Hb by (apply (ex_derive_continuous (K := R_AbsRing) (V := R_NormedModule)); auto_derive; lra).
  assert (0 < eps / 3) as He by (pose proof (cond_pos eps); lra).
  assert (locally 10 (fun x => Rabs (levelvar_at eg GOE x - levelvar_at eg GOE 10) < eps / 3)) as [d1 H1] by exact (Hc _ (locally_ball (levelvar_at eg GOE 10 : R_UniformSpace) (mkposreal _ He))).
  assert (locally 10 (fun x => Rabs (1 / (16 * x ^ 2) - 1 / (16 * 10 ^ 2)) < eps / 3)) as [d2 H2] by exact (Hb _ (locally_ball (1 / (16 * 10 ^ 2) : R_UniformSpace) (mkposreal _ He))).
  assert (0 < Rmin d1 d2) as Hd by (apply Rmin_glb_lt; [exact (cond_pos d1)|exact (cond_pos d2)]). pose proof (Rmin_l d1 d2). pose proof (Rmin_r d1 d2).
  assert (0 < Rmin (Rmin d1 d2) 1) as Hd' by (apply Rmin_glb_lt; lra). exists (mkposreal _ Hd'). cbn [pos]. pose proof (Rmin_l (Rmin d1 d2) 1). pose proof (Rmin_r (Rmin d1 d2) 1).
  intros l l' i i' c c' Hl Hl' Hfig.
  assert (List.Forall (fun x => 0 < x) [l; l']) as HF by (repeat constructor; lra).
  destruct (C117_agree eg Si Ci quad (mkdframe (map Z.of_nat (seq 0 2)) (Some [l; l']) None (Some [i; i']) None) ["goe"%string] [l; l'] [i; i'] [true; true] GOE [c; c'] HS HC HQ
    eq_refl eq_refl ltac:(right; split; [reflexivity|]; exists [i; i']; split; reflexivity) HF eq_refl Hfig) as [_ K].
  destruct (K 0%nat l eq_refl) as (v & w & Ev & Ew & B & _). destruct (K 1%nat l' eq_refl) as (v' & w' & Ev' & Ew' & _ & B').
  change (Some (levelvar_at eg GOE l) = Some w) in Ew. change (Some (levelvar_at eg GOE l') = Some w') in Ew'. cbn [nth_error] in Ev, Ev'. injection Ev as <-. injection Ev' as <-. rewrite (B' (or_intror (proj1 Hl'))).
  assert (w = levelvar_at eg GOE l) as -> by congruence. assert (w' = levelvar_at eg GOE l') as -> by congruence.
  assert (ball 10 d1 l) as Q1 by (apply (norm_compat1 (V := R_NormedModule)); apply Rabs_def1; unfold minus, plus, opp; cbn; lra).
  assert (ball 10 d2 l) as Q2 by (apply (norm_compat1 (V := R_NormedModule)); apply Rabs_def1; unfold minus, plus, opp; cbn; lra).
  assert (ball 10 d1 l') as Q3 by (apply (norm_compat1 (V := R_NormedModule)); apply Rabs_def1; unfold minus, plus, opp; cbn; lra).
  pose proof (H1 _ Q1) as R1. pose proof (H1 _ Q3) as R3. pose proof (H2 _ Q2) as R2.
  apply Rabs_def2 in R1. apply Rabs_def2 in R2. apply Rabs_def2 in R3. apply Rabs_def2 in B.
  replace (1 / (16 * 10 ^ 2)) with (1 / 1600) in R2 by (cbn; lra). apply Rabs_def1; lra.
Qed.
Print Assumptions C117_jump.

Example C117_case : exists Si Ci quad, SineIntegral Si (PI / 2) /\ CosineIntegral Ci /\ SincSquareTail quad /\
  exists fig v, levelvar_plot 0 Si Ci (PI / 2) quad (mkdframe [0; 1]%Z (Some [5; 20]) None (Some [3; 4]) None) ["goe"%string] = Ok fig /\
    In (Line "Gaussian Orthogonal" [5; 20] [v; levelvar_at 0 GOE 20]) fig /\ Rabs (v - levelvar_at 0 GOE 5) < 1 / 400.
Proof.
  destruct (sine_integral_exists (PI / 2)) as [Si HS]. destruct cosine_integral_exists as [Ci HC]. destruct sinc_tail_exists as [quad HQ].
  exists Si, Ci, quad. split; [exact HS|]. split; [exact HC|]. split; [exact HQ|].
  set (df := mkdframe [0; 1]%Z (Some [5; 20]) None (Some [3; 4]) None).
  assert (ConvergedMask df [true; true]) as M by (right; split; [reflexivity|]; exists [3; 4]; split; reflexivity).
  assert (List.Forall (fun x => 0 < x) [5; 20]) as HF by (repeat constructor; lra).
  destruct (C83_figure 0 Si Ci (PI / 2) quad df ["goe"%string] [5; 20] [3; 4] [true; true] HS eq_refl HQ eq_refl eq_refl M HF eq_refl) as (fig & H & K).
  exists fig, (VarianceCurve 0 Si Ci GOE 5). split; [exact H|].
  assert (In (Line "Gaussian Orthogonal" [5; 20] [VarianceCurve 0 Si Ci GOE 5; levelvar_at 0 GOE 20]) fig) as I1.
  { apply K. right. exists GOE. split; [now left|]. cbn [map VarianceCurve ens_label]. destruct (Rlt_dec 20 10); [lra|]. reflexivity. }
  split; [exact I1|].
  destruct (C117_agree 0 Si Ci quad df ["goe"%string] [5; 20] [3; 4] [true; true] GOE _ HS HC HQ eq_refl eq_refl M HF eq_refl (ex_intro _ fig (conj H I1))) as [_ Q].
  destruct (Q 0%nat 5 eq_refl) as (v & w & Ev & Ew & B & _). cbn [nth_error] in Ev. injection Ev as <-. change (Some (levelvar_at 0 GOE 5) = Some w) in Ew. assert (w = levelvar_at 0 GOE 5) as -> by congruence.
  replace (1 / (16 * 5 ^ 2)) with (1 / 400) in B by (cbn; lra). exact B.
Qed.
