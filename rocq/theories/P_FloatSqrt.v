(** Binary64 square root, strict comparison, maximum and sorting as operations on the values, and the rounding error of the
    Marchenko-Pastur end points. *)
From Coq Require Import List ZArith Bool Reals Lra Lia Arith Permutation Sorted.
From Coq Require Import Floats.SpecFloat.
From Flocq Require Import Core BinarySingleNaN Relative.
From Verif Require Import Base S_Order M_Quad M_EigVals M_Series P_Order P_EigVals P_TrimStat P_Float P_FloatGrid T_FloatGap P_FloatMean.
Import ListNotations.
Local Open Scope R_scope.
#[local] Existing Instance Hprec.
#[local] Existing Instance Hmax.
Local Notation addf := (SFadd b64_prec b64_emax).
Local Notation subf := (SFsub b64_prec b64_emax).
Local Notation mulf := (SFmul b64_prec b64_emax).
Local Notation divf := (SFdiv b64_prec b64_emax).
Local Notation OK x := (Valid x /\ Fin x).
(** np.sqrt on binary64. *)
Definition b64_sqrt : b64 -> b64 := SFsqrt b64_prec b64_emax.

Lemma sqrt_equiv (x : binary_float b64_prec b64_emax) : b64_sqrt (B2SF x) = B2SF (Bsqrt mode_NE x).
Proof.
  case x as [sx|sx| |sx mx ex Bx]; [now (trivial || case sx)..|]. case sx; [reflexivity|]. unfold b64_sqrt. simpl. rewrite B2SF_SF2B.
  set (melz := SFsqrt_core_binary _ _ _ _). case melz as [[mz ez] lz]. apply bra_equiv.
Qed.
Lemma sqrt_spec x : Valid x -> Fin x -> 0 < val x -> OK (b64_sqrt x) /\ val (b64_sqrt x) = rnd (sqrt (val x)).
Proof.
  intros Vx Fx Hx. pose proof (sqrt_equiv (SF2B x Vx)) as E. rewrite !B2SF_SF2B in E. rewrite E. rewrite is_finite_SF_B2SF, SF2R_B2SF.
  pose proof (Bsqrt_correct b64_prec b64_emax _ _ mode_NE (SF2B x Vx)) as (C1 & C2 & _).
  rewrite B2R_SF2B in C1. change (round radix2 (SpecFloat.fexp b64_prec b64_emax) (round_mode mode_NE)) with rnd in C1.
  split; [split; [apply valid_binary_B2SF|]|exact C1]. rewrite C2. destruct x as [s|s| |s m e]; try discriminate; cbn; [cbn in Hx; lra|].
  destruct s; [|reflexivity]. exfalso. cbn in Hx. pose proof (F2R_lt_0 radix2 (Float radix2 (Zneg m) e) ltac:(easy)). lra.
Qed.
Lemma ltb_spec x y : Valid x -> Valid y -> Fin x -> Fin y -> SFltb x y = true <-> val x < val y.
Proof.
  intros Vx Vy Fx Fy. pose proof (Bltb_correct b64_prec b64_emax (SF2B x Vx) (SF2B y Vy)) as C. rewrite !is_finite_SF2B in C.
  specialize (C Fx Fy). unfold Bltb in C. rewrite !B2SF_SF2B, !B2R_SF2B in C. rewrite C. case Rlt_bool_spec; intros H; split; intros; auto; [discriminate|lra].
Qed.
Lemma nlt_val (x y : b64) : OK x -> OK y -> nlt x y = nlt (val x) (val y).
Proof.
  intros (Vx & Fx) (Vy & Fy). pose proof (ltb_spec x y Vx Vy Fx Fy) as H. change (nlt x y) with (SFltb x y). pose proof (nlt_R (val x) (val y)) as H'.
  destruct (SFltb x y), (nlt (val x) (val y)); try reflexivity; exfalso; [destruct H as (H & _); specialize (H eq_refl); apply H' in H; discriminate|].
  destruct H' as (H' & _). specialize (H' eq_refl). apply H in H'. discriminate.
Qed.

Lemma nmax_val (l : list b64) (h : b64) : OK h -> Forall (fun v => OK v) l -> OK (nmax h l) /\ val (nmax h l) = nmax (val h) (map (SF2R radix2) l).
Proof.
  revert h. induction l as [|x l IH]; intros h Hh Hl; [split; [exact Hh|reflexivity]|]. inversion Hl as [|? ? Hx Hl']; subst.
  unfold nmax. cbn [fold_left map]. fold (nmax (nmax2 h x) l). fold (nmax (nmax2 (val h) (val x)) (map (SF2R radix2) l)).
  assert (OK (nmax2 h x) /\ val (nmax2 h x) = nmax2 (val h) (val x)) as (O & <-).
  { unfold nmax2. rewrite (nlt_val h x Hh Hx). destruct (nlt (val h) (val x)); auto. }
  now apply IH.
Qed.
Lemma arr_max_val (l : list b64) : l <> [] -> Forall (fun v => OK v) l -> exists m, arr_max l = Ok m /\ OK m /\ In m l /\ arr_max (map (SF2R radix2) l) = Ok (val m).
Proof.
  intros Hn Hl. destruct l as [|h l]; [congruence|]. inversion Hl as [|? ? Hh Hl']; subst. destruct (nmax_val l h Hh Hl') as (O & E).
  exists (nmax h l). split; [reflexivity|]. split; [exact O|]. split; [|cbn [map arr_max]; now rewrite E].
  clear. revert h. induction l as [|x l IH]; intros h; [now left|]. unfold nmax. cbn [fold_left]. fold (nmax (nmax2 h x) l).
  destruct (IH (nmax2 h x)) as [E|H]; [|right; now right]. rewrite <- E. unfold nmax2. destruct (nlt h x); [right; now left|now left].
Qed.
Lemma sort_val (l : list b64) : Forall (fun v => OK v) l -> map (SF2R radix2) (np_sort l) = np_sort (map (SF2R radix2) l).
Proof.
  intros H. rewrite (np_sort_perm_R (map (SF2R radix2) l) (map (SF2R radix2) (np_sort l))) by apply Permutation_map, np_sort_perm.
  symmetry. apply np_sort_id, Ascending_NpLe; [apply notnan_R|]. apply StronglySorted_R.
  assert (Forall (fun v => OK v) (np_sort l)) as H' by now apply Forall_np_sort.
  assert (Ascending (np_sort l)) as A. { apply np_sort_ascending. eapply Forall_impl; [|exact H]. intros a (_ & Fa). now apply fin_notnan. }
  induction A as [|x t A IH Q]; [constructor|]. inversion H' as [|? ? Hx Ht]; subst. cbn [map]. constructor; [now apply IH|].
  apply Forall_forall. intros y Hy. apply in_map_iff in Hy. destruct Hy as (v & <- & Hv). rewrite Forall_forall in Q, Ht. specialize (Q v Hv). specialize (Ht v Hv).
  now apply (leb_spec x v); try apply Hx; try apply Ht.
Qed.
Lemma filter_val (f : b64 -> bool) (g : R -> bool) l : (forall v, In v l -> f v = g (val v)) -> map (SF2R radix2) (filter f l) = filter g (map (SF2R radix2) l).
Proof.
  induction l as [|x l IH]; intros H; [reflexivity|]. cbn [map filter]. rewrite <- (H x (or_introl eq_refl)). destruct (f x); cbn [map]; rewrite IH; auto; intros; apply H; now right.
Qed.

(** ** The arithmetic, over reals *)
Ltac iv H := let a := fresh in let b := fresh in pose proof (Rabs_le_inv _ _ H) as (a & b).
Lemma sq_err u A a b s : 0 <= u <= / 1024 -> 1 <= A -> Rabs a <= A -> Rabs (b - a) <= 302 / 100 * u * A -> Rabs (s - b * b) <= u * Rabs (b * b) + u / 4 ->
  Rabs (s - a * a) <= 8 * u * (A * A).
Proof.
  intros Hu HA Ha Hb Hs.
  assert (Hba : Rabs b <= 1003 / 1000 * A) by (iv Ha; iv Hb; apply Rabs_le; nra).
  assert (E1 : Rabs (b * b - a * a) <= 605 / 100 * u * (A * A)).
  { replace (b * b - a * a) with ((b - a) * (b + a)) by ring. rewrite Rabs_mult.
    assert (Rabs (b + a) <= 2003 / 1000 * A) by (iv Ha; iv Hba; apply Rabs_le; lra).
    apply Rle_trans with ((302 / 100 * u * A) * (2003 / 1000 * A)); [apply Rmult_le_compat; auto using Rabs_pos|].
    assert (0 <= u * (A * A)) by (apply Rmult_le_pos; nra). nra. }
  assert (E2 : Rabs (b * b) <= 101 / 100 * (A * A)).
  { rewrite Rabs_mult. apply Rle_trans with ((1003 / 1000 * A) * (1003 / 1000 * A)); [apply Rmult_le_compat; auto using Rabs_pos|nra]. }
  assert (E3 : u * Rabs (b * b) <= 101 / 100 * u * (A * A)) by (pose proof (Rmult_le_compat_l u _ _ (proj1 Hu) E2); lra).
  assert (E4 : u / 4 <= 1 / 4 * u * (A * A)) by (assert (1 <= A * A) by nra; nra).
  assert (E5 : 0 <= u * (A * A)) by (apply Rmult_le_pos; nra).
  replace (s - a * a) with ((s - b * b) + (b * b - a * a)) by ring. eapply Rle_trans; [apply Rabs_triang|]. lra.
Qed.
Lemma root_err u q0 q r : 0 < u <= / 1024 -> 0 < q0 -> Rabs (q - q0) <= u * q0 -> Rabs (r - sqrt q) <= u * sqrt q -> Rabs (r - sqrt q0) <= 2 * u * sqrt q0 /\ 0 < q.
Proof.
  intros Hu Hq H1 H2. iv H1. assert (0 < q) by nra. split; [|assumption].
  pose proof (sqrt_lt_R0 q0 Hq) as S0. pose proof (sqrt_lt_R0 q H3) as S1. pose proof (sqrt_sqrt q0 ltac:(lra)) as SS0. pose proof (sqrt_sqrt q ltac:(lra)) as SS1.
  assert (D : Rabs (sqrt q - sqrt q0) <= 6 / 10 * u * sqrt q0).
  { assert (Rabs (sqrt q - sqrt q0) * (sqrt q + sqrt q0) <= u * q0).
    { rewrite <- (Rabs_pos_eq (sqrt q + sqrt q0)) by lra. rewrite <- Rabs_mult. replace ((sqrt q - sqrt q0) * (sqrt q + sqrt q0)) with (sqrt q * sqrt q - sqrt q0 * sqrt q0) by ring. rewrite SS0, SS1. exact H1. }
    assert (99 / 100 * sqrt q0 <= sqrt q).
    { apply Rnot_lt_le. intros C. assert (sqrt q * sqrt q < (99 / 100 * sqrt q0) * (99 / 100 * sqrt q0)) by (apply Rmult_le_0_lt_compat; lra). assert (u * q0 <= / 1024 * q0) by (apply Rmult_le_compat_r; lra). lra. }
    apply Rmult_le_reg_r with (sqrt q + sqrt q0); [lra|]. eapply Rle_trans; [eassumption|]. assert (0 <= u * sqrt q0) by (apply Rmult_le_pos; lra). replace (u * q0) with ((u * sqrt q0) * sqrt q0) by (rewrite <- SS0 at 3; ring). replace (6 / 10 * u * sqrt q0 * (sqrt q + sqrt q0)) with ((u * sqrt q0) * (6 / 10 * (sqrt q + sqrt q0))) by ring. apply Rmult_le_compat_l; lra. }
  assert (sqrt q <= 101 / 100 * sqrt q0) by (iv D; nra).
  assert (u * sqrt q <= 101 / 100 * u * sqrt q0) by nra.
  assert (0 <= u * sqrt q0) by (apply Rmult_le_pos; lra).
  iv D; iv H2. apply Rabs_le. lra.
Qed.
Lemma plus_err u r0 r p : 0 < u <= / 1024 -> 0 <= r0 -> Rabs (r - r0) <= 2 * u * r0 -> Rabs (p - (1 + r)) <= u * Rabs (1 + r) -> Rabs (p - (1 + r0)) <= 302 / 100 * u * (1 + r0).
Proof.
  intros Hu H0 H1 H2. iv H1. assert (Rabs (1 + r) <= 101 / 100 * (1 + r0)) by (apply Rabs_le; nra).
  assert (u * Rabs (1 + r) <= 101 / 100 * u * (1 + r0)) by (pose proof (Rmult_le_compat_l u _ _ ltac:(lra) H4); lra). iv H2. assert (0 <= u * r0) by (apply Rmult_le_pos; lra). apply Rabs_le. nra.
Qed.
Lemma minus_err u r0 r p : 0 < u <= / 1024 -> 0 <= r0 -> Rabs (r - r0) <= 2 * u * r0 -> Rabs (p - (1 - r)) <= u * Rabs (1 - r) -> Rabs (p - (1 - r0)) <= 302 / 100 * u * (1 + r0).
Proof.
  intros Hu H0 H1 H2. iv H1. assert (Rabs (1 - r) <= 101 / 100 * (1 + r0)) by (apply Rabs_le; nra).
  assert (u * Rabs (1 - r) <= 101 / 100 * u * (1 + r0)) by (pose proof (Rmult_le_compat_l u _ _ ltac:(lra) H4); lra). iv H2. assert (0 <= u * r0) by (apply Rmult_le_pos; lra). apply Rabs_le. nra.
Qed.
Lemma shift_err u a g s : 0 < u <= / 1024 -> Rabs (g - a) <= u * Rabs a + u / 8 -> Rabs (s - (1 - g)) <= u * Rabs (1 - g) -> Rabs (s - (1 - a)) <= 23 / 10 * u * (1 + Rabs a).
Proof.
  intros Hu H1 H2. pose proof (Rabs_pos a) as Pa. assert (Rabs (1 - g) <= 101 / 100 * (1 + Rabs a)).
  { replace (1 - g) with ((1 - a) - (g - a)) by ring. eapply Rle_trans; [apply Rabs_triang|]. rewrite Rabs_Ropp.
    assert (Rabs (1 - a) <= 1 + Rabs a). { eapply Rle_trans; [apply Rabs_triang|]. rewrite Rabs_Ropp, (Rabs_pos_eq 1) by lra. lra. } nra. }
  replace (s - (1 - a)) with ((s - (1 - g)) - (g - a)) by ring. eapply Rle_trans; [apply Rabs_triang|]. rewrite Rabs_Ropp.
  assert (u * Rabs (1 - g) <= 101 / 100 * u * (1 + Rabs a)) by (pose proof (Rmult_le_compat_l u _ _ ltac:(lra) H); lra).
  assert (0 <= u * Rabs a) by (apply Rmult_le_pos; lra). lra.
Qed.
Lemma prod_err u S H s0 x0 s x y : 0 < u <= / 1024 -> 1 <= S -> 1 <= H -> Rabs s0 <= S -> Rabs x0 <= H -> Rabs (s - s0) <= 23 / 10 * u * S -> Rabs (x - x0) <= 8 * u * H ->
  Rabs (y - s * x) <= u * Rabs (s * x) + u / 4 -> Rabs (y - s0 * x0) <= 16 * u * S * H.
Proof.
  intros Hu HS HH B1 B2 H1 H2 H3. assert (X : Rabs x <= 101 / 100 * H) by (iv B2; iv H2; apply Rabs_le; nra).
  assert (Ss : Rabs s <= 101 / 100 * S) by (iv B1; iv H1; apply Rabs_le; nra).
  assert (P : 1 <= S * H) by nra. assert (U : 0 <= u * (S * H)) by (apply Rmult_le_pos; lra).
  assert (E1 : Rabs (s * x) <= 103 / 100 * (S * H)).
  { rewrite Rabs_mult. apply Rle_trans with ((101 / 100 * S) * (101 / 100 * H)); [apply Rmult_le_compat; auto using Rabs_pos|nra]. }
  assert (E2 : Rabs ((s - s0) * x) <= 24 / 10 * u * (S * H)).
  { rewrite Rabs_mult. apply Rle_trans with ((23 / 10 * u * S) * (101 / 100 * H)); [apply Rmult_le_compat; auto using Rabs_pos|nra]. }
  assert (E3 : Rabs (s0 * (x - x0)) <= 8 * u * (S * H)).
  { rewrite Rabs_mult. apply Rle_trans with (S * (8 * u * H)); [apply Rmult_le_compat; auto using Rabs_pos|nra]. }
  assert (E4 : u * Rabs (s * x) <= 103 / 100 * u * (S * H)) by (pose proof (Rmult_le_compat_l u _ _ ltac:(lra) E1); lra).
  assert (E5 : u / 4 <= 1 / 4 * u * (S * H)) by nra.
  replace (y - s0 * x0) with ((y - s * x) + ((s - s0) * x + s0 * (x - x0))) by ring.
  eapply Rle_trans; [apply Rabs_triang|]. pose proof (Rabs_triang ((s - s0) * x) (s0 * (x - x0))). lra.
Qed.

(** ** The end points *)
Section Edges.
Variables n t : Z.
Hypothesis Hn : (1 <= n <= 2 ^ 50)%Z.
Hypothesis Ht : (1 <= t <= 2 ^ 50)%Z.
Local Notation u := (bpow radix2 (-53)).
Local Notation r0 := (sqrt (IZR n / IZR t)).
Local Notation H0 := ((1 + r0) * (1 + r0)).
Lemma u_rng : 0 < u <= / 1024.
Proof. split; [apply bpow_gt_0|]. change (/ 1024) with (bpow radix2 (-10)). apply bp_mono. lia. Qed.
Lemma eta_small : bpow radix2 (-1075) <= u / 8.
Proof. replace (u / 8) with (bpow radix2 (-56)); [apply bp_mono; lia|]. replace (-56)%Z with (-53 + -3)%Z by lia. rewrite bpow_plus. change (bpow radix2 (-3)) with (/ 8). field. Qed.
Lemma Z_rng z : (1 <= z <= 2 ^ 50)%Z -> 1 <= IZR z <= bpow radix2 50.
Proof. intros Hz. split; [now apply IZR_le|]. replace (bpow radix2 50) with (IZR (2 ^ 50)) by reflexivity. now apply IZR_le. Qed.
Lemma q_rng : bpow radix2 (-50) <= IZR n / IZR t <= bpow radix2 50.
Proof.
  destruct (Z_rng n Hn) as (N1 & N2). destruct (Z_rng t Ht) as (T1 & T2). assert (P : bpow radix2 50 * bpow radix2 (-50) = 1) by (rewrite <- bpow_plus; reflexivity).
  pose proof (bpow_gt_0 radix2 (-50)) as P'. pose proof (bpow_gt_0 radix2 50) as P''.
  assert (T : IZR t * / IZR t = 1) by (apply Rinv_r; lra). assert (0 < / IZR t) by (apply Rinv_0_lt_compat; lra). unfold Rdiv. split.
  - apply Rle_trans with (/ IZR t); [|nra]. apply Rmult_le_reg_l with (IZR t); [lra|]. rewrite T, <- P. now apply Rmult_le_compat_r; lra.
  - assert (/ IZR t <= 1) by nra. nra.
Qed.
Lemma r0_rng : 0 <= r0 <= bpow radix2 25.
Proof.
  split; [apply sqrt_pos|]. rewrite <- (sqrt_square (bpow radix2 25)) by apply bpow_ge_0. apply sqrt_le_1_alt. rewrite <- bpow_plus. apply q_rng.
Qed.
Lemma one_ok : OK (b64_ofZ 1) /\ val (b64_ofZ 1) = 1.
Proof. destruct (ofZ_spec 1 ltac:(lia)) as (V & F & E). auto. Qed.
Local Notation r := (b64_sqrt (divf (b64_ofZ n) (b64_ofZ t))).
Lemma r_ok : OK r /\ Rabs (val r - r0) <= 2 * u * r0.
Proof.
  destruct (ofZ_spec n ltac:(lia)) as (Vn & Fn & En). destruct (ofZ_spec t ltac:(lia)) as (Vt & Ft & Et). pose proof q_rng as (Q1 & Q2). destruct (Z_rng t Ht) as (T1 & T2).
  pose proof (bpow_gt_0 radix2 (-50)) as P'. pose proof u_rng as Hu.
  assert (R1 : bpow radix2 (-1022) <= IZR n / IZR t) by (eapply Rle_trans; [|exact Q1]; apply bp_mono; lia).
  destruct (div_spec (b64_ofZ n) (b64_ofZ t) Vn Vt Fn) as (V & F & E); rewrite ?En, ?Et in *; [lra|apply (lt_big _ 50); [lia|]; rewrite Rabs_pos_eq by lra; exact Q2|].
  pose proof (rnd_rel _ R1) as (A1 & A2).
  assert (K : Rabs (val (divf (b64_ofZ n) (b64_ofZ t)) - IZR n / IZR t) <= u * (IZR n / IZR t)) by (rewrite E; apply Rabs_le; lra).
  assert (K0 : bpow radix2 (-52) <= val (divf (b64_ofZ n) (b64_ofZ t))).
  { rewrite E. eapply Rle_trans; [|exact A1]. apply Rle_trans with (bpow radix2 (-50) * / 4); [change (/ 4) with (bpow radix2 (-2)); rewrite <- bpow_plus; apply bp_mono; lia|].
    apply Rmult_le_compat; lra. }
  pose proof (bpow_gt_0 radix2 (-52)) as K1. destruct (sqrt_spec _ V F ltac:(lra)) as (O & E'). split; [exact O|].
  refine (proj1 (root_err u _ _ (val r) Hu _ K _)); [lra|]. rewrite E'. set (q := val (divf (b64_ofZ n) (b64_ofZ t))) in *.
  assert (S1 : bpow radix2 (-1022) <= sqrt q).
  { rewrite <- (sqrt_square (bpow radix2 (-1022))) by apply bpow_ge_0. apply sqrt_le_1_alt. rewrite <- bpow_plus. eapply Rle_trans; [|exact K0]. apply bp_mono. lia. }
  pose proof (rnd_rel _ S1) as (B1 & B2). apply Rabs_le. lra.
Qed.
Lemma H0_rng : 1 <= H0 <= bpow radix2 52.
Proof.
  pose proof r0_rng as (R1 & R2). split; [nra|]. replace (bpow radix2 52) with (bpow radix2 26 * bpow radix2 26) by (rewrite <- bpow_plus; reflexivity).
  assert (bpow radix2 26 = 2 * bpow radix2 25) by (replace 26%Z with (1 + 25)%Z by lia; rewrite bpow_plus; reflexivity).
  assert (1 <= bpow radix2 25) by (change 1 with (bpow radix2 0); apply bp_mono; lia). apply Rmult_le_compat; lra.
Qed.
Lemma mul_err x y : OK x -> OK y -> Rabs (val x * val y) <= bpow radix2 1010 ->
  OK (mulf x y) /\ Rabs (val (mulf x y) - val x * val y) <= u * Rabs (val x * val y) + u / 4.
Proof.
  intros (Vx & Fx) (Vy & Fy) H. destruct (mul_spec x y Vx Vy Fx Fy (lt_big _ 1010 ltac:(lia) H)) as (V & F & E). split; [auto|]. rewrite E.
  eapply Rle_trans; [apply rnd_any|]. pose proof eta_small. pose proof u_rng. lra.
Qed.
Lemma sq_ok p a : OK p -> Rabs a <= 1 + r0 -> Rabs (val p - a) <= 302 / 100 * u * (1 + r0) -> OK (mulf p p) /\ Rabs (val (mulf p p) - a * a) <= 8 * u * H0.
Proof.
  intros Op Ha Hp. pose proof u_rng as Hu. pose proof r0_rng as (R1 & R2). pose proof H0_rng as (_ & HH).
  assert (Hv : Rabs (val p) <= 2 * (1 + r0)) by (iv Ha; iv Hp; apply Rabs_le; nra).
  destruct (mul_err p p Op Op) as (O & E).
  { rewrite Rabs_mult. apply Rle_trans with ((2 * (1 + r0)) * (2 * (1 + r0))); [apply Rmult_le_compat; auto using Rabs_pos|].
    apply Rle_trans with (bpow radix2 54); [replace 54%Z with (2 + 52)%Z by lia; rewrite bpow_plus; change (bpow radix2 2) with 4; lra|apply bp_mono; lia]. }
  split; [exact O|]. apply (sq_err u (1 + r0) a (val p)); auto; lra.
Qed.
Local Notation lo1 := (mulf (subf (b64_ofZ 1) r) (subf (b64_ofZ 1) r)).
Local Notation hi1 := (mulf (addf (b64_ofZ 1) r) (addf (b64_ofZ 1) r)).
Lemma r_small : Rabs (val r) <= bpow radix2 30.
Proof.
  destruct r_ok as (_ & E). pose proof r0_rng as (R1 & R2). pose proof u_rng. iv E. apply Rle_trans with (2 * bpow radix2 25); [apply Rabs_le; nra|].
  change 2 with (bpow radix2 1). rewrite <- bpow_plus. apply bp_mono. lia.
Qed.
Lemma big_1 x : Rabs x <= bpow radix2 30 -> Rabs (1 + x) <= bpow radix2 1010.
Proof.
  intros H. eapply Rle_trans; [apply Rabs_triang|]. rewrite (Rabs_pos_eq 1) by lra. apply Rle_trans with (bpow radix2 31); [|apply bp_mono; lia].
  replace 31%Z with (1 + 30)%Z by lia. rewrite bpow_plus. change (bpow radix2 1) with 2. assert (1 <= bpow radix2 30) by (change 1 with (bpow radix2 0); apply bp_mono; lia). lra.
Qed.
Lemma unshifted_ok : OK lo1 /\ OK hi1 /\ Rabs (val lo1 - (1 - r0) * (1 - r0)) <= 8 * u * H0 /\ Rabs (val hi1 - H0) <= 8 * u * H0.
Proof.
  destruct r_ok as (Or & Er). destruct one_ok as (O1 & E1). pose proof r0_rng as (R1 & R2). pose proof u_rng as Hu. pose proof r_small as Rs.
  destruct (sub_err (b64_ofZ 1) r O1 Or) as (Os & Es). { rewrite E1. unfold Rminus. apply big_1. now rewrite Rabs_Ropp. }
  destruct (add_err (b64_ofZ 1) r O1 Or) as (Oa & Ea). { rewrite E1. now apply big_1. }
  rewrite E1 in Es, Ea.
  pose proof (minus_err u r0 _ _ Hu R1 Er Es) as M. pose proof (plus_err u r0 _ _ Hu R1 Er Ea) as P.
  destruct (sq_ok _ (1 - r0) Os) as (Ol & El); [apply Rabs_le; lra|exact M|].
  destruct (sq_ok _ (1 + r0) Oa) as (Oh & Eh); [apply Rabs_le; lra|exact P|]. tauto.
Qed.
Variable e : b64.
Hypothesis Oe : OK e.
Hypothesis He : Rabs (val e) <= bpow radix2 900.
Local Notation a := (val e / IZR n).
Local Notation sh := (subf (b64_ofZ 1) (divf e (b64_ofZ n))).
Lemma a_rng : Rabs a <= bpow radix2 900.
Proof.
  destruct (Z_rng n Hn) as (N1 & N2). assert (0 < / IZR n <= 1). { split; [apply Rinv_0_lt_compat; lra|]. rewrite <- Rinv_1. apply Rinv_le_contravar; lra. }
  unfold Rdiv. rewrite Rabs_mult, (Rabs_pos_eq (/ IZR n)) by lra. pose proof (Rabs_pos (val e)). nra.
Qed.
Lemma shift_ok : OK sh /\ Rabs (val sh - (1 - a)) <= 23 / 10 * u * (1 + Rabs a).
Proof.
  pose proof a_rng as A. destruct one_ok as (O1 & E1). pose proof u_rng as Hu. assert (B9 : 1 <= bpow radix2 900) by (change 1 with (bpow radix2 0); apply bp_mono; lia).
  destruct (div_err e n Oe ltac:(lia)) as (Od & Ed). { eapply Rle_trans; [exact A|]. apply bp_mono. lia. }
  assert (Ed' : Rabs (val (divf e (b64_ofZ n)) - a) <= u * Rabs a + u / 8) by (pose proof eta_small; lra).
  destruct (sub_err (b64_ofZ 1) _ O1 Od) as (Os & Es).
  { rewrite E1. replace (1 - val (divf e (b64_ofZ n))) with (1 - a - (val (divf e (b64_ofZ n)) - a)) by ring.
    eapply Rle_trans; [apply Rabs_triang|]. rewrite Rabs_Ropp. assert (Rabs (1 - a) <= 1 + Rabs a). { eapply Rle_trans; [apply Rabs_triang|]. rewrite Rabs_Ropp, (Rabs_pos_eq 1) by lra. lra. }
    apply Rle_trans with (4 * bpow radix2 900); [pose proof (Rabs_pos a); nra|]. change 4 with (bpow radix2 2). rewrite <- bpow_plus. apply bp_mono. lia. }
  rewrite E1 in Es. split; [exact Os|]. now apply (shift_err u a (val (divf e (b64_ofZ n)))).
Qed.
Lemma scaled_ok x x0 : OK x -> Rabs x0 <= H0 -> Rabs (val x - x0) <= 8 * u * H0 -> OK (mulf sh x) /\ Rabs (val (mulf sh x) - (1 - a) * x0) <= 16 * u * (1 + Rabs a) * H0.
Proof.
  intros Ox H1 H2. destruct shift_ok as (Os & Es). pose proof u_rng as Hu. pose proof H0_rng as (Q1 & Q2). pose proof a_rng as A. pose proof (Rabs_pos a) as PA.
  assert (B9 : 1 <= bpow radix2 900) by (change 1 with (bpow radix2 0); apply bp_mono; lia).
  assert (X : Rabs (1 - a) <= 1 + Rabs a). { eapply Rle_trans; [apply Rabs_triang|]. rewrite Rabs_Ropp, (Rabs_pos_eq 1) by lra. lra. }
  destruct (mul_err sh x Os Ox) as (O & E).
  { rewrite Rabs_mult. apply Rle_trans with ((4 * bpow radix2 900) * (2 * bpow radix2 52)).
    - apply Rmult_le_compat; auto using Rabs_pos; [iv X; iv Es; apply Rabs_le; nra|iv H1; iv H2; apply Rabs_le; nra].
    - replace (4 * bpow radix2 900 * (2 * bpow radix2 52)) with ((bpow radix2 2 * bpow radix2 900) * (bpow radix2 1 * bpow radix2 52)) by reflexivity. rewrite <- !bpow_plus. apply bp_mono. lia. }
  split; [exact O|]. apply (prod_err u (1 + Rabs a) H0 (1 - a) x0 (val sh) (val x)); auto; lra.
Qed.
End Edges.
