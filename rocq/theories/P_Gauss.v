(** The Gaussian integral and the integrals of s^k exp(-c s^2) over the half line. *)
From Coq Require Import Reals Lra Lia.
From Coquelicot Require Import Coquelicot.
Local Open Scope R_scope.

Definition gg (t : R) : R := exp (- (t * t)).
Definition gint (x : R) : R := RInt gg 0 x.
Definition hh (x t : R) : R := exp (- (x * x * (1 + t * t))) / (1 + t * t).
Definition hint (x : R) : R := RInt (hh x) 0 1.

Lemma one_sq_pos t : 0 < 1 + t * t.
Proof. pose proof (Rle_0_sqr t) as H. unfold Rsqr in H. lra. Qed.
Lemma gg_cont t : continuous gg t.
Proof. apply (ex_derive_continuous (V := R_NormedModule)). unfold gg. auto_derive. exact I. Qed.
Lemma gg_int a b : ex_RInt gg a b.
Proof. apply (ex_RInt_continuous (V := R_CompleteNormedModule)). intros t _. apply gg_cont. Qed.
Lemma gint_derive x : is_derive gint x (gg x).
Proof. apply (is_derive_RInt gg gint 0 x); [|apply gg_cont]. exists (mkposreal 1 Rlt_0_1). intros y _. apply (RInt_correct (V := R_CompleteNormedModule)), gg_int. Qed.
Lemma hh_derive x t : is_derive (fun u => hh u t) x (- 2 * x * exp (- (x * x * (1 + t * t)))).
Proof. unfold hh. pose proof (one_sq_pos t). auto_derive; [lra|]. field. lra. Qed.
Lemma hh_cont x t : continuous (hh x) t.
Proof. apply (ex_derive_continuous (V := R_NormedModule)). unfold hh. pose proof (one_sq_pos t). auto_derive. lra. Qed.
Lemma hh_int x a b : ex_RInt (hh x) a b.
Proof. apply (ex_RInt_continuous (V := R_CompleteNormedModule)). intros t _. apply hh_cont. Qed.
Lemma hint_derive_raw x : is_derive hint x (RInt (fun t => - 2 * x * exp (- (x * x * (1 + t * t)))) 0 1).
Proof.
  assert (E : RInt (fun t => Derive (fun u => hh u t) x) 0 1 = RInt (fun t => - 2 * x * exp (- (x * x * (1 + t * t)))) 0 1).
  { apply RInt_ext. intros t _. apply is_derive_unique, hh_derive. }
  rewrite <- E. apply (is_derive_RInt_param hh 0 1 x).
  - exists (mkposreal 1 Rlt_0_1). intros y _ t _. eexists. apply hh_derive.
  - intros t _. apply (continuity_2d_pt_ext (fun u v => - 2 * u * exp (- (u * u * (1 + v * v))))).
    + intros u v. symmetry. apply is_derive_unique, hh_derive.
    + apply continuity_2d_pt_mult.
      * apply continuity_2d_pt_mult; [apply continuity_2d_pt_const|apply continuity_2d_pt_id1].
      * apply (continuity_1d_2d_pt_comp exp (fun u v => - (u * u * (1 + v * v)))); [apply derivable_continuous_pt, derivable_pt_exp|].
        apply continuity_2d_pt_opp. apply continuity_2d_pt_mult; [apply continuity_2d_pt_mult; apply continuity_2d_pt_id1|].
        apply continuity_2d_pt_plus; [apply continuity_2d_pt_const|]. apply continuity_2d_pt_mult; apply continuity_2d_pt_id2.
  - exists (mkposreal 1 Rlt_0_1). intros y _. apply hh_int.
Qed.
Lemma hint_derive x : is_derive hint x (- 2 * gg x * gint x).
Proof.
  evar_last; [apply hint_derive_raw|]. 
  transitivity (RInt (fun t => scal (- 2 * gg x) (scal x (gg (x * t + 0)))) 0 1).
  - apply RInt_ext. intros t _. unfold scal; cbn. unfold mult; cbn. unfold gg.
    replace (exp (- (x * x * (1 + t * t)))) with (exp (- (x * x)) * exp (- ((x * t + 0) * (x * t + 0)))); [ring|]. rewrite <- exp_plus. f_equal. ring.
  - rewrite (RInt_scal (V := R_CompleteNormedModule)).
    + rewrite (RInt_comp_lin (V := R_CompleteNormedModule)) by apply gg_int. unfold gint. rewrite Rmult_0_r, Rmult_1_r, !Rplus_0_r. reflexivity.
    + apply (ex_RInt_comp_lin (V := R_CompleteNormedModule)). apply gg_int.
Qed.
Lemma gauss_const x : gint x * gint x + hint x = PI / 4.
Proof.
  assert (D : forall y, is_derive (fun z => gint z * gint z + hint z) y 0).
  { intros y. pose proof (gint_derive y) as D1. pose proof (hint_derive y) as D2.
    pose proof (is_derive_plus (V := R_NormedModule) _ _ y _ _ (is_derive_mult gint gint y _ _ D1 D1 Rmult_comm) D2) as D3.
    replace 0 with (plus (gg y * gint y + gint y * gg y) (- 2 * gg y * gint y)) at 1; [exact D3|].
    change (gg y * gint y + gint y * gg y + - 2 * gg y * gint y = 0). ring. }
  assert (C : forall y, gint y * gint y + hint y = gint 0 * gint 0 + hint 0).
  { intros y. destruct (MVT_gen (fun z => gint z * gint z + hint z) 0 y (fun _ => 0)) as (c & _ & E).
    - intros z _. apply D.
    - intros z _. apply derivable_continuous_pt. exists 0. apply is_derive_Reals. apply D.
    - cbv beta in E. lra. }
  rewrite C. unfold gint. rewrite RInt_point. unfold hint.
  assert (E : is_RInt (hh 0) 0 1 (PI / 4)).
  { replace (PI / 4) with (minus (atan 1) (atan 0)) by (rewrite atan_1, atan_0; unfold minus, plus, opp; cbn; ring).
    apply (is_RInt_derive (V := R_CompleteNormedModule) atan (hh 0)).
    - intros t _. unfold hh. replace (exp (- (0 * 0 * (1 + t * t))) / (1 + t * t)) with (/ (1 + t ^ 2)).
      + apply is_derive_Reals. apply derivable_pt_lim_atan.
      + rewrite !Rmult_0_l, Ropp_0, exp_0. pose proof (one_sq_pos t). replace (t ^ 2) with (t * t) by ring. field. lra.
    - intros t _. apply hh_cont. }
  rewrite (is_RInt_unique _ _ _ _ E). unfold zero; cbn. ring.
Qed.
Lemma hint_bounds x : 0 <= hint x <= exp (- (x * x)).
Proof.
  split.
  - apply RInt_ge_0; [lra|apply hh_int|]. intros t _. unfold hh. apply Rlt_le, Rdiv_lt_0_compat; [apply exp_pos|apply one_sq_pos].
  - assert (E : RInt (fun _ => exp (- (x * x))) 0 1 = exp (- (x * x))). { rewrite RInt_const. unfold scal; cbn. unfold mult; cbn. ring. }
    rewrite <- E. apply RInt_le; [lra|apply hh_int|apply ex_RInt_const|]. intros t _. unfold hh. pose proof (one_sq_pos t) as P. pose proof (Rle_0_sqr t) as Qt. pose proof (Rle_0_sqr x) as Qx. unfold Rsqr in *.
    apply Rle_trans with (exp (- (x * x * (1 + t * t)))).
    + apply (Rmult_le_reg_r (1 + t * t)); [exact P|]. unfold Rdiv. rewrite Rmult_assoc, Rinv_l by lra. pose proof (exp_pos (- (x * x * (1 + t * t)))) as Q.
      assert (0 <= exp (- (x * x * (1 + t * t))) * (t * t)) by (apply Rmult_le_pos; lra). lra.
    + destruct (Req_dec (x * x * (t * t)) 0) as [Z|Z].
      * right. f_equal. lra.
      * left. apply exp_increasing. assert (0 <= x * x * (t * t)) by (apply Rmult_le_pos; assumption). lra.
Qed.
(** exp(-c s^2) decays faster than any power. *)
Lemma exp_pow n x : exp x ^ n = exp (INR n * x).
Proof. induction n as [|n IH]; [cbn; rewrite Rmult_0_l, exp_0; reflexivity|]. cbn [pow]. rewrite IH, <- exp_plus, S_INR. f_equal. ring. Qed.
Lemma exp_below n c s : 0 < c -> 0 < s -> exp (- (c * (s * s))) <= (INR (S n) / (c * (s * s))) ^ S n.
Proof.
  intros Hc Hs. assert (P : 0 < c * (s * s)) by (apply Rmult_lt_0_compat; [exact Hc|now apply Rmult_lt_0_compat]). set (u := c * (s * s)) in *.
  assert (Hn : 0 < INR (S n)) by apply lt_0_INR, Nat.lt_0_succ. assert (Q : 0 < u / INR (S n)) by now apply Rdiv_lt_0_compat.
  assert (E : exp u = exp (u / INR (S n)) ^ S n). { rewrite exp_pow. f_equal. field. lra. }
  replace (INR (S n) / u) with (/ (u / INR (S n))) by (field; lra). rewrite exp_Ropp, E, pow_inv. apply Rinv_le_contravar; [now apply pow_lt|].
  apply pow_incr. split; [lra|]. pose proof (exp_ineq1_le (u / INR (S n))). lra.
Qed.
Lemma decay k c : 0 < c -> is_lim (fun s => s ^ k * exp (- (c * (s * s)))) p_infty 0.
Proof.
  intros Hc. set (K := (INR (S k) / c) ^ S k).
  apply (is_lim_le_le_loc (fun _ => 0) (fun s => K * / s)).
  - exists 1. intros s Hs. split; [apply Rmult_le_pos; [apply pow_le; lra|apply Rlt_le, exp_pos]|].
    assert (P : 0 < s) by lra. pose proof (exp_below k c s Hc P) as E. apply (Rmult_le_compat_l (s ^ k)) in E; [|apply pow_le; lra]. eapply Rle_trans; [exact E|].
    assert (Pk : 0 < s ^ k) by now apply pow_lt.
    replace (INR (S k) / (c * (s * s))) with (INR (S k) / c * (/ s * / s)) by (field; lra). rewrite !Rpow_mult_distr. fold K. cbn [pow]. rewrite pow_inv.
    assert (HK : 0 <= K). { apply pow_le. apply Rlt_le, Rdiv_lt_0_compat; [apply lt_0_INR; lia|exact Hc]. }
    replace (s ^ k * (K * (/ s * / s ^ k * (/ s * / s ^ k)))) with (K * / s * (/ s * / s ^ k)) by (field; lra).
    rewrite <- (Rmult_1_r (K * / s)) at 2. apply Rmult_le_compat_l; [apply Rmult_le_pos; [exact HK|apply Rlt_le, Rinv_0_lt_compat; exact P]|].
    rewrite <- Rinv_mult. rewrite <- Rinv_1. apply Rinv_le_contravar; [lra|]. assert (1 <= s ^ k) by (apply pow_R1_Rle; lra). rewrite <- (Rmult_1_r 1). apply Rmult_le_compat; lra.
  - apply is_lim_const.
  - replace (Finite 0) with (Rbar_mult K 0) by (cbn; f_equal; ring). apply is_lim_scal_l. replace (Finite 0) with (Rbar_inv p_infty) by reflexivity. apply is_lim_inv; [apply is_lim_id|discriminate].
Qed.
Lemma gauss_lim : is_lim gint p_infty (sqrt PI / 2).
Proof.
  assert (L : is_lim (fun x => gint x * gint x) p_infty (PI / 4)).
  { apply (is_lim_ext (fun x => PI / 4 - hint x)); [intros x; rewrite <- (gauss_const x); ring|].
    replace (Finite (PI / 4)) with (Finite (PI / 4 - 0)) by (f_equal; ring). apply is_lim_minus'; [apply is_lim_const|].
    apply (is_lim_le_le_loc (fun _ => 0) (fun x => exp (- (x * x)))); [exists 0; intros x _; apply hint_bounds|apply is_lim_const|].
    apply (is_lim_ext (fun s => s ^ 0 * exp (- (1 * (s * s))))); [intros s; cbn [pow]; rewrite !Rmult_1_l; reflexivity|]. apply decay. lra. }
  apply (is_lim_ext_loc (fun x => sqrt (gint x * gint x))).
  - exists 0. intros x Hx. apply sqrt_square. apply RInt_ge_0; [lra|apply gg_int|]. intros t _. apply Rlt_le, exp_pos.
  - replace (sqrt PI / 2) with (sqrt (PI / 4)).
    + apply (is_lim_comp_continuous (fun x => gint x * gint x) sqrt); [exact L|]. apply continuity_pt_filterlim. apply continuity_pt_sqrt. pose proof PI_RGT_0. lra.
    + replace (PI / 4) with (PI * ((/ 2) * (/ 2))) by field. pose proof PI_RGT_0. rewrite sqrt_mult by lra. rewrite sqrt_square by lra. reflexivity.
Qed.
