(** Property C123: the expected rigidity curves are the Pandey transforms of the expected number variance curves. *)
From Coq Require Import List ZArith Reals Lra Lia.
From Coquelicot Require Import Coquelicot.
From Verif Require Import Base M_Quad M_Ensemble S_Pandey.
Import ListNotations.
Local Open Scope R_scope.

Lemma x_ln_x_small (e : R) : 0 < e <= 1 -> Rabs (e * ln e) <= 2 * sqrt e.
Proof.
  intros (H0 & H1). assert (S : 0 < sqrt e) by now apply sqrt_lt_R0.
  assert (Hs : ln (/ sqrt e) <= / sqrt e - 1).
  { pose proof (exp_ineq1_le (ln (/ sqrt e))) as H. rewrite exp_ln in H by now apply Rinv_0_lt_compat. lra. }
  rewrite ln_Rinv in Hs by exact S.
  assert (E : ln e = 2 * ln (sqrt e)). { rewrite <- (sqrt_def e) at 1 by lra. rewrite ln_mult by exact S. ring. }
  assert (ln e <= 0). { rewrite <- ln_1. destruct (Rle_lt_or_eq_dec e 1 H1) as [L| ->]; [left; now apply ln_increasing|lra]. }
  rewrite Rabs_left1 by nra.
  assert (Q : sqrt e * sqrt e = e) by (apply sqrt_def; lra).
  assert (B : - ln e <= 2 * / sqrt e) by lra.
  replace (- (e * ln e)) with (e * (- ln e)) by ring.
  apply Rle_trans with (e * (2 * / sqrt e)); [apply Rmult_le_compat_l; lra|].
  rewrite <- Q at 1. right. field. lra.
Qed.

(** The integral for a number variance of the form a * ln r + b. *)
Section Log.
Variables a b L : R.
Hypothesis HL : 0 < L.
Definition prim (r : R) : R :=
  2 / L ^ 4 * (a * (L ^ 3 * (r * ln r - r) - 2 * L ^ 2 * (r ^ 2 / 2 * ln r - r ^ 2 / 4) + (r ^ 4 / 4 * ln r - r ^ 4 / 16))
               + b * (L ^ 3 * r - L ^ 2 * r ^ 2 + r ^ 4 / 4)).
Definition integrand (r : R) : R := 2 / L ^ 4 * (L ^ 3 - 2 * L ^ 2 * r + r ^ 3) * (a * ln r + b).
Lemma prim_at_L : prim L = a * ln L / 2 - 9 * a / 8 + b / 2.
Proof. unfold prim. field. lra. Qed.
Lemma prim_derive r : 0 < r -> is_derive prim r (integrand r).
Proof. intros Hr. unfold prim, integrand. auto_derive; [tauto|]. field. split; lra. Qed.
Lemma integrand_is e : 0 < e <= L -> is_RInt integrand e L (prim L - prim e).
Proof.
  intros (H0 & H1). apply (is_RInt_derive (V := R_CompleteNormedModule)).
  - intros x Hx. rewrite Rmin_left, Rmax_right in Hx by exact H1. apply prim_derive. lra.
  - intros x Hx. rewrite Rmin_left, Rmax_right in Hx by exact H1. apply (ex_derive_continuous (V := R_NormedModule)). unfold integrand. auto_derive. lra.
Qed.
(** Near zero the primitive is small. *)
Lemma prim_small : exists K, 0 < K /\ forall e, 0 < e <= 1 -> Rabs (prim e) <= K * sqrt e.
Proof.
  pose (A := Rabs a * (2 * L ^ 3 + L ^ 3 + 2 * L ^ 2 + L ^ 2 + 2) + Rabs b * (L ^ 3 + L ^ 2 + 1) + 1).
  assert (P4 : 0 < L ^ 4) by now apply pow_lt. assert (P3 : 0 < L ^ 3) by now apply pow_lt. assert (P2 : 0 < L ^ 2) by now apply pow_lt.
  assert (K0 : 0 < 2 / L ^ 4) by (apply Rdiv_lt_0_compat; lra).
  pose proof (Rabs_pos a) as Ha. pose proof (Rabs_pos b) as Hb.
  assert (HA : 0 < A). { unfold A. assert (0 <= Rabs a * (2 * L ^ 3 + L ^ 3 + 2 * L ^ 2 + L ^ 2 + 2)) by (apply Rmult_le_pos; lra).
    assert (0 <= Rabs b * (L ^ 3 + L ^ 2 + 1)) by (apply Rmult_le_pos; lra). lra. }
  exists (2 / L ^ 4 * A). split; [now apply Rmult_lt_0_compat|]. intros e He.
  pose proof (x_ln_x_small e He) as Hx. set (y := e * ln e) in *. assert (S : 0 < sqrt e) by (apply sqrt_lt_R0; lra).
  set (s := sqrt e) in *. assert (Q : s * s = e) by (apply sqrt_def; lra). assert (S1 : s <= 1). { unfold s. rewrite <- sqrt_1. apply sqrt_le_1; lra. }
  assert (Es : e <= s) by nra.
  assert (E2 : 0 <= e ^ 2 <= s) by (cbn [pow]; nra). assert (E3 : 0 <= e ^ 3 <= 1). { split; [apply pow_le; lra|]. rewrite <- (pow1 3). apply pow_incr. lra. }
  assert (E4 : 0 <= e ^ 4 <= s). { split; [apply pow_le; lra|]. replace (e ^ 4) with (e * e ^ 3) by ring. nra. }
  unfold prim.
  replace (e ^ 2 / 2 * ln e) with (e / 2 * y) by (unfold y; cbn [pow]; field). replace (e ^ 4 / 4 * ln e) with (e ^ 3 / 4 * y) by (unfold y; cbn [pow]; field).
  fold y. rewrite Rabs_mult, (Rabs_right (2 / L ^ 4)) by lra. rewrite (Rmult_assoc _ A s). apply Rmult_le_compat_l; [lra|].
  assert (Hy : - (2 * s) <= y <= 2 * s) by (apply (proj1 (Rabs_le_between y (2 * s))); exact Hx).
  assert (Y1 : - (2 * s) <= e * y <= 2 * s) by (split; nra).
  assert (Y3 : - (2 * s) <= e ^ 3 * y <= 2 * s) by (split; nra).
  eapply Rle_trans; [apply Rabs_triang|]. rewrite !Rabs_mult.
  assert (G1 : Rabs (L ^ 3 * (y - e) - 2 * L ^ 2 * (e / 2 * y - e ^ 2 / 4) + (e ^ 3 / 4 * y - e ^ 4 / 16)) <= (2 * L ^ 3 + L ^ 3 + 2 * L ^ 2 + L ^ 2 + 2) * s).
  { apply Rabs_le. assert (- (L ^ 3 * (3 * s)) <= L ^ 3 * (y - e) <= L ^ 3 * (3 * s)) by (split; nra).
    assert (- (L ^ 2 * (3 * s)) <= - 2 * L ^ 2 * (e / 2 * y - e ^ 2 / 4) <= L ^ 2 * (3 * s)) by (split; nra). lra. }
  assert (G2 : Rabs (L ^ 3 * e - L ^ 2 * e ^ 2 + e ^ 4 / 4) <= (L ^ 3 + L ^ 2 + 1) * s).
  { apply Rabs_le. assert (0 <= L ^ 3 * e <= L ^ 3 * s) by (split; nra). assert (0 <= L ^ 2 * e ^ 2 <= L ^ 2 * s) by (split; nra). lra. }
  apply Rle_trans with (Rabs a * ((2 * L ^ 3 + L ^ 3 + 2 * L ^ 2 + L ^ 2 + 2) * s) + Rabs b * ((L ^ 3 + L ^ 2 + 1) * s)).
  - apply Rplus_le_compat; apply Rmult_le_compat_l; assumption.
  - unfold A. nra.
Qed.
Lemma log_transform : FromZero integrand L (a * ln L / 2 - 9 * a / 8 + b / 2).
Proof.
  split.
  - intros e He. eexists. now apply integrand_is.
  - intros eps Heps. destruct prim_small as (K & HK & B). set (q := eps / (2 * K)). assert (Hq : 0 < q) by (apply Rdiv_lt_0_compat; lra).
    exists (Rmin 1 (q * q)). split; [apply Rmin_pos; nra|]. intros e (H0 & H1) H2.
    assert (e < 1 /\ e < q * q) as (H3 & H4). { split; eapply Rlt_le_trans; try exact H1; [apply Rmin_l|apply Rmin_r]. }
    rewrite (is_RInt_unique _ _ _ _ (integrand_is e (conj H0 H2))), prim_at_L.
    replace (a * ln L / 2 - 9 * a / 8 + b / 2 - prim e - (a * ln L / 2 - 9 * a / 8 + b / 2)) with (- prim e) by ring. rewrite Rabs_Ropp.
    eapply Rle_lt_trans; [apply B; lra|]. assert (sqrt e <= q). { rewrite <- (sqrt_square q) by lra. apply sqrt_le_1; nra. }
    apply Rle_lt_trans with (K * q); [apply Rmult_le_compat_l; lra|]. unfold q. replace (K * (eps / (2 * K))) with (eps / 2) by (field; lra). lra.
Qed.
End Log.

Lemma FromZero_ext f g L v : (forall r, 0 < r <= L -> f r = g r) -> FromZero f L v -> FromZero g L v.
Proof.
  intros E (H1 & H2). assert (X : forall e, 0 < e <= L -> forall x, Rmin e L < x < Rmax e L -> f x = g x).
  { intros e (A & B) x Hx. rewrite Rmin_left, Rmax_right in Hx by exact B. apply E. lra. }
  split.
  - intros e He. apply (ex_RInt_ext f); [now apply X|]. now apply H1.
  - intros eps He. destruct (H2 eps He) as (d & Hd & H). exists d. split; [exact Hd|]. intros e H3 H4.
    rewrite <- (RInt_ext f g e L); [now apply H|]. apply X. lra.
Qed.

(** The Poisson case: number variance r. *)
Lemma poisson_transform L : 0 < L -> FromZero (fun r => 2 / L ^ 4 * (L ^ 3 - 2 * L ^ 2 * r + r ^ 3) * r) L (L / 15).
Proof.
  intros HL. set (f := fun r => 2 / L ^ 4 * (L ^ 3 - 2 * L ^ 2 * r + r ^ 3) * r).
  set (F := fun r => 2 / L ^ 4 * (L ^ 3 * r ^ 2 / 2 - 2 * L ^ 2 * r ^ 3 / 3 + r ^ 5 / 5)).
  assert (D : forall e, is_RInt f e L (F L - F e)).
  { intros e. apply (is_RInt_derive (V := R_CompleteNormedModule)).
    - intros x _. unfold F, f. auto_derive; [exact I|]. field. lra.
    - intros x _. apply (ex_derive_continuous (V := R_NormedModule)). unfold f. auto_derive. exact I. }
  assert (P4 : 0 < L ^ 4) by now apply pow_lt. assert (P3 : 0 < L ^ 3) by now apply pow_lt. assert (P2 : 0 < L ^ 2) by now apply pow_lt.
  split; [intros e _; eexists; apply D|]. intros eps Heps.
  set (K := 2 / L ^ 4 * (L ^ 3 + L ^ 2 + 1)). assert (HK : 0 < K). { unfold K. apply Rmult_lt_0_compat; [apply Rdiv_lt_0_compat; lra|lra]. }
  exists (Rmin 1 (eps / K)). assert (Hq : 0 < eps / K) by now apply Rdiv_lt_0_compat. split; [apply Rmin_pos; lra|]. intros e (H0 & H1) _.
  assert (e < 1 /\ e < eps / K) as (H3 & H4). { split; eapply Rlt_le_trans; try exact H1; [apply Rmin_l|apply Rmin_r]. }
  rewrite (is_RInt_unique _ _ _ _ (D e)). replace (F L - F e - L / 15) with (- F e) by (unfold F; field; lra). rewrite Rabs_Ropp.
  assert (E2 : 0 <= e ^ 2 <= e) by (cbn [pow]; nra). assert (E3 : 0 <= e ^ 3 <= e) by (cbn [pow]; split; nra).
  assert (E5 : 0 <= e ^ 5 <= e). { replace (e ^ 5) with (e ^ 2 * e ^ 3) by ring. split; nra. }
  apply Rle_lt_trans with (K * e).
  - unfold F, K. rewrite Rabs_mult, (Rabs_right (2 / L ^ 4)) by (apply Rle_ge; left; apply Rdiv_lt_0_compat; lra).
    rewrite (Rmult_assoc _ (L ^ 3 + L ^ 2 + 1) e). apply Rmult_le_compat_l; [left; apply Rdiv_lt_0_compat; lra|]. apply Rabs_le.
    assert (0 <= L ^ 3 * e ^ 2 <= L ^ 3 * e) by (split; nra). assert (0 <= L ^ 2 * e ^ 3 <= L ^ 2 * e) by (split; nra). lra.
  - apply (Rmult_lt_compat_l K) in H4; [|exact HK]. replace (K * (eps / K)) with eps in H4 by (field; lra). exact H4.
Qed.

(** C123. For each of the four ensembles the expected rigidity is the Pandey transform of the expected number variance, whatever value is used for Euler's constant. *)
Theorem C123_pandey : forall (euler_gamma : R) (e : ensemble), PandeyRelation (levelvar_at euler_gamma e) (rigidity_at euler_gamma e).
Proof.
  intros g e L HL. pose proof PI_RGT_0 as HP. pose proof (PI_neq0) as HP0.
  assert (G : forall (k c d m w : R), 0 < c -> (forall s, 0 < s -> levelvar_at g e s = k * (ln (c * s) + d)) -> w = k / 2 * (ln (c * L) + d) - 9 * k / 8 ->
    FromZero (fun r => 2 / L ^ 4 * (L ^ 3 - 2 * L ^ 2 * r + r ^ 3) * levelvar_at g e r) L w).
  { intros k c d _ w Hc Hv ->. apply (FromZero_ext (integrand k (k * (ln c + d)) L)).
    - intros r (Hr & _). unfold integrand. rewrite Hv, ln_mult by assumption. ring.
    - replace (k / 2 * (ln (c * L) + d) - 9 * k / 8) with (k * ln L / 2 - 9 * k / 8 + k * (ln c + d) / 2) by (rewrite ln_mult by assumption; field).
      now apply log_transform. }
  destruct e.
  - exact (poisson_transform L HL).
  - apply (G (2 / PI ^ 2) (2 * PI) (g + 1 - PI ^ 2 / 8) 0); [lra| |]; unfold levelvar_at, rigidity_at; intros; field; exact HP0.
  - apply (G (1 / PI ^ 2) (2 * PI) (g + 1) 0); [lra| |]; unfold levelvar_at, rigidity_at; intros; field; exact HP0.
  - apply (G (1 / (2 * PI ^ 2)) (4 * PI) (g + 1 + PI ^ 2 / 8) 0); [lra| |]; unfold levelvar_at, rigidity_at; intros; field; exact HP0.
Qed.
Print Assumptions C123_pandey.

(** The value is determined: two curves related to the same number variance agree. *)
Theorem C123_determined : forall (sigma2 d1 d2 : R -> R) L, 0 < L -> PandeyRelation sigma2 d1 -> PandeyRelation sigma2 d2 -> d1 L = d2 L.
Proof.
  intros s d1 d2 L HL H1 H2. destruct (H1 L HL) as (_ & A). destruct (H2 L HL) as (_ & B).
  destruct (Req_dec (d1 L) (d2 L)) as [E|N]; [exact E|exfalso]. set (eps := Rabs (d1 L - d2 L) / 2).
  assert (He : 0 < eps). { unfold eps. assert (0 < Rabs (d1 L - d2 L)) by (apply Rabs_pos_lt; lra). lra. }
  destruct (A eps He) as (da & Ha & Aa). destruct (B eps He) as (db & Hb & Bb). set (e := Rmin L (Rmin da db) / 2).
  assert (0 < Rmin L (Rmin da db)) by (repeat apply Rmin_pos; assumption).
  assert (Rmin L (Rmin da db) <= L /\ Rmin L (Rmin da db) <= da /\ Rmin L (Rmin da db) <= db) as (M1 & M2 & M3).
  { repeat split; [apply Rmin_l| |]; (eapply Rle_trans; [apply Rmin_r|]); [apply Rmin_l|apply Rmin_r]. }
  specialize (Aa e ltac:(unfold e; lra) ltac:(unfold e; lra)). specialize (Bb e ltac:(unfold e; lra) ltac:(unfold e; lra)).
  match goal with H : Rabs (?x - d1 L) < eps |- _ => set (v := x) in * end.
  assert (Rabs (d1 L - d2 L) < 2 * eps); [|unfold eps in *; lra].
  replace (d1 L - d2 L) with ((v - d2 L) - (v - d1 L)) by ring. eapply Rle_lt_trans; [apply Rabs_triang|]. rewrite Rabs_Ropp. lra.
Qed.
Print Assumptions C123_determined.

(** At L = 15 the Poisson transform is 1; and a rigidity wrong by a factor and an offset is not the transform of the GUE number variance. *)
Example C123_case : forall g, FromZero (fun r => 2 / 15 ^ 4 * (15 ^ 3 - 2 * 15 ^ 2 * r + r ^ 3) * r) 15 1 /\
  ~ PandeyRelation (levelvar_at g GUE) (fun L => 2 * rigidity_at g GUE L + 9 / (4 * PI ^ 2)).
Proof.
  intros g. split.
  - replace 1 with (15 / 15) by field. apply poisson_transform. lra.
  - intros H. pose proof PI_RGT_0 as HP. pose (c := exp (- (g + 1)) / (2 * PI)). assert (Hc : 0 < c).
    { unfold c. apply Rdiv_lt_0_compat; [apply exp_pos|lra]. }
    pose proof (C123_determined _ _ _ c Hc H (C123_pandey g GUE)) as E. cbv beta in E. unfold rigidity_at in E.
    replace (2 * PI * c) with (exp (- (g + 1))) in E by (unfold c; field; lra). rewrite ln_exp in E.
    assert (P2 : 0 < / (PI ^ 2)) by (apply Rinv_0_lt_compat, pow_lt; exact HP).
    replace (1 / (2 * PI ^ 2)) with (/ 2 * / (PI ^ 2)) in E by (field; apply PI_neq0). replace (9 / (4 * PI ^ 2)) with (9 / 4 * / (PI ^ 2)) in E by (field; apply PI_neq0). nra.
Qed.
