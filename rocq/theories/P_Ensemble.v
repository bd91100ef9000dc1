(** Integrals of the spacing laws. *)
From Coq Require Import List ZArith Reals Lra Lia Arith.
From Coquelicot Require Import Coquelicot.
From Verif Require Import Base M_Quad S_Quad P_Ols P_Gauss M_Ensemble S_Ensemble.
Import ListNotations.
Local Open Scope R_scope.

Lemma halfline_prim (f F : R -> R) (l : R) : (forall s, is_derive F s (f s)) -> (forall s, continuous f s) -> is_lim F p_infty l ->
  HalfLine f (l - F 0).
Proof.
  intros D C L. assert (I : forall M, is_RInt f 0 M (F M - F 0)). { intros M. apply (is_RInt_derive (V := R_CompleteNormedModule) F f); intros; [apply D|apply C]. }
  split; [intros M _; eexists; apply I|]. apply (is_lim_ext (fun M => F M - F 0)).
  - intros M. symmetry. apply (is_RInt_unique (V := R_CompleteNormedModule)), I.
  - apply is_lim_minus'; [exact L|apply is_lim_const].
Qed.
Lemma halfline_lin (f g h : R -> R) a b u v : HalfLine f u -> HalfLine g v -> (forall s, 0 <= s -> h s = a * f s + b * g s) -> HalfLine h (a * u + b * v).
Proof.
  intros (F1 & F2) (G1 & G2) E. assert (I : forall M, 0 <= M -> is_RInt h 0 M (a * RInt f 0 M + b * RInt g 0 M)).
  { intros M HM. apply (is_RInt_ext (fun s => plus (scal a (f s)) (scal b (g s)))).
    - intros s Hs. rewrite Rmin_left in Hs by exact HM. symmetry. apply E. lra.
    - apply (is_RInt_plus (V := R_NormedModule)); apply (is_RInt_scal (V := R_NormedModule)); apply (RInt_correct (V := R_CompleteNormedModule)); auto. }
  split; [intros M HM; eexists; now apply I|]. apply (is_lim_ext_loc (fun M => a * RInt f 0 M + b * RInt g 0 M)).
  - exists 0. intros M HM. symmetry. apply (is_RInt_unique (V := R_CompleteNormedModule)), I. lra.
  - apply is_lim_plus'; [replace (Finite (a * u)) with (Rbar_mult a u) by reflexivity|replace (Finite (b * v)) with (Rbar_mult b v) by reflexivity]; now apply is_lim_scal_l.
Qed.
Lemma halfline_scal (f h : R -> R) a u v : HalfLine f u -> (forall s, 0 <= s -> h s = a * f s) -> v = a * u -> HalfLine h v.
Proof. intros H E ->. replace (a * u) with (a * u + 0 * u) by ring. apply (halfline_lin f f); auto. intros s Hs. rewrite (E s Hs). ring. Qed.
(** Rescaling the variable. *)
Lemma halfline_scale (f h : R -> R) k u v : 0 < k -> HalfLine f u -> (forall s, 0 <= s -> h s = f (k * s)) -> v = u / k -> HalfLine h v.
Proof.
  intros Hk (H1 & H2) E ->. assert (I : forall M, 0 <= M -> is_RInt h 0 M (/ k * RInt f 0 (k * M))).
  { intros M HM. apply (is_RInt_ext (fun s => scal (/ k) (scal k (f (k * s + 0))))).
    - intros s Hs. rewrite Rmin_left in Hs by exact HM. rewrite E by lra. rewrite Rplus_0_r. change (/ k * (k * f (k * s)) = f (k * s)). field. lra.
    - apply (is_RInt_scal (V := R_NormedModule)). apply (is_RInt_comp_lin (V := R_NormedModule)). rewrite Rmult_0_r, !Rplus_0_r. apply (RInt_correct (V := R_CompleteNormedModule)), H1. apply Rmult_le_pos; lra. }
  split; [intros M HM; eexists; now apply I|]. apply (is_lim_ext_loc (fun M => / k * RInt f 0 (k * M))).
  - exists 0. intros M HM. symmetry. apply (is_RInt_unique (V := R_CompleteNormedModule)), I. lra.
  - replace (Finite (u / k)) with (Rbar_mult (/ k) u) by (cbn; f_equal; unfold Rdiv; ring). apply is_lim_scal_l.
    apply (is_lim_comp (fun X => RInt f 0 X) (fun M => k * M) p_infty u p_infty); [exact H2| |exists 0; discriminate].
    evar_last; [apply is_lim_scal_l, is_lim_id|]. cbn. destruct (Rle_dec 0 k) as [G|G]; [|lra]. destruct (Rle_lt_or_eq_dec 0 k G); [reflexivity|lra].
Qed.
Lemma gauss_half : HalfLine gg (sqrt PI / 2).
Proof. split; [intros; apply gg_int|apply gauss_lim]. Qed.
Definition ee (c s : R) : R := exp (- (c * (s * s))).
Lemma ee_half c : 0 < c -> HalfLine (ee c) (sqrt PI / 2 / sqrt c).
Proof.
  intros Hc. apply (halfline_scale gg _ (sqrt c) (sqrt PI / 2)); [now apply sqrt_lt_R0|apply gauss_half| |reflexivity].
  intros s _. unfold ee, gg. f_equal. rewrite <- (sqrt_sqrt c) at 1 by lra. ring.
Qed.
Lemma ee_derive c s : is_derive (ee c) s (- 2 * c * s * ee c s).
Proof. unfold ee. auto_derive; [exact I|]. ring. Qed.
Lemma poly_ee_cont k c s : continuous (fun s => s ^ k * ee c s) s.
Proof. apply (ex_derive_continuous (V := R_NormedModule)). unfold ee. auto_derive. exact I. Qed.
Lemma ee_lim k c : 0 < c -> is_lim (fun s => s ^ k * ee c s) p_infty 0.
Proof. apply decay. Qed.
(** The derivative of -s^k ee/(2c) is s^(k+1) ee - k s^(k-1) ee /(2c). *)
Lemma mom_step k c v : 0 < c -> HalfLine (fun s => s ^ k * ee c s) v -> HalfLine (fun s => s ^ (S (S k)) * ee c s) (INR (S k) / (2 * c) * v).
Proof.
  intros Hc H.
  assert (P : HalfLine (fun s => s ^ (S (S k)) * ee c s - INR (S k) / (2 * c) * (s ^ k * ee c s)) (0 - (fun s => - / (2 * c) * (s ^ S k * ee c s)) 0)).
  { apply (halfline_prim _ (fun s => - / (2 * c) * (s ^ S k * ee c s)) 0).
    - intros s. unfold ee. auto_derive; [exact I|]. change (match k with 0%nat => 1 | S _ => INR k + 1 end) with (INR (S k)). cbn [pow]. field. lra.
    - intros s. apply (ex_derive_continuous (V := R_NormedModule)). unfold ee. auto_derive. exact I.
    - replace (Finite 0) with (Rbar_mult (- / (2 * c)) 0) by (cbn; f_equal; ring). apply is_lim_scal_l, ee_lim, Hc. }
  cbv beta in P. rewrite pow_i in P by lia. replace (0 - - / (2 * c) * (0 * ee c 0)) with 0 in P by ring.
  replace (INR (S k) / (2 * c) * v) with (1 * 0 + INR (S k) / (2 * c) * v) by ring. apply (halfline_lin _ _ _ _ _ _ _ P H). intros s _. ring.
Qed.
Lemma mom0 c : 0 < c -> HalfLine (fun s => s ^ 0 * ee c s) (sqrt PI / 2 / sqrt c).
Proof. intros Hc. apply (halfline_scal (ee c) _ 1 (sqrt PI / 2 / sqrt c)); [now apply ee_half|intros; reflexivity|ring]. Qed.
Lemma mom1 c : 0 < c -> HalfLine (fun s => s ^ 1 * ee c s) (/ (2 * c)).
Proof.
  intros Hc. replace (/ (2 * c)) with (0 - (fun s => - / (2 * c) * (s ^ 0 * ee c s)) 0).
  - apply (halfline_prim _ (fun s => - / (2 * c) * (s ^ 0 * ee c s)) 0).
    + intros s. unfold ee. auto_derive; [exact I|]. cbn [pow]. field. lra.
    + intros s. apply poly_ee_cont.
    + replace (Finite 0) with (Rbar_mult (- / (2 * c)) 0) by (cbn; f_equal; ring). apply is_lim_scal_l, ee_lim, Hc.
  - cbv beta. unfold ee. rewrite Rmult_0_r, Rmult_0_r, Ropp_0, exp_0. cbn [pow]. ring.
Qed.
Lemma mom2 c : 0 < c -> HalfLine (fun s => s ^ 2 * ee c s) (1 / (2 * c) * (sqrt PI / 2 / sqrt c)).
Proof. intros Hc. exact (mom_step 0 c _ Hc (mom0 c Hc)). Qed.
Lemma mom3 c : 0 < c -> HalfLine (fun s => s ^ 3 * ee c s) (2 / (2 * c) * / (2 * c)).
Proof. intros Hc. exact (mom_step 1 c _ Hc (mom1 c Hc)). Qed.
Lemma mom4 c : 0 < c -> HalfLine (fun s => s ^ 4 * ee c s) (3 / (2 * c) * (1 / (2 * c) * (sqrt PI / 2 / sqrt c))).
Proof. intros Hc. replace 3 with (INR 3) by (cbn; ring). exact (mom_step 2 c _ Hc (mom2 c Hc)). Qed.
Lemma mom5 c : 0 < c -> HalfLine (fun s => s ^ 5 * ee c s) (4 / (2 * c) * (2 / (2 * c) * / (2 * c))).
Proof. intros Hc. replace 4 with (INR 4) by (cbn; ring). exact (mom_step 3 c _ Hc (mom3 c Hc)). Qed.
