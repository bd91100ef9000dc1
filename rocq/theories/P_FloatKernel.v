(** Magnitudes of binary64 results: bounds by powers of two are kept by rounding.  Used to show that the kernels of the rigidity
    neither overflow nor divide by zero on a grid that is fine for its magnitude. *)
From Coq Require Import List ZArith Bool Reals Lra Lia Arith.
From Coq Require Import Floats.SpecFloat.
From Flocq Require Import Core BinarySingleNaN Relative.
From Verif Require Import Base M_Step M_Quad P_Float P_FloatGrid T_FloatGap P_FloatMean.
Import ListNotations.
Local Open Scope R_scope.
Local Notation length := List.length.
#[local] Existing Instance Hprec.
#[local] Existing Instance Hmax.
Local Notation addf := (SFadd b64_prec b64_emax).
Local Notation subf := (SFsub b64_prec b64_emax).
Local Notation mulf := (SFmul b64_prec b64_emax).
Local Notation divf := (SFdiv b64_prec b64_emax).
Local Notation OK x := (Valid x /\ Fin x).
Local Notation b2 e := (bpow radix2 e).
Local Notation big := (bpow radix2 1024).

Lemma rnd_nonneg z : 0 <= z -> 0 <= rnd z.
Proof. intros H. rewrite <- (rnd_fmt 0) by apply generic_format_0. now apply rnd_le. Qed.

(** ** Upper bounds *)
Definition Bd (x : b64) (e : Z) : Prop := OK x /\ Rabs (val x) <= b2 e.
Lemma Bd_mono x a e : Bd x a -> (a <= e)%Z -> Bd x e.
Proof. intros (O & H) He. split; [exact O|]. eapply Rle_trans; [exact H|]. now apply bp_mono. Qed.
Lemma b2_S e : b2 (e + 1) = 2 * b2 e.
Proof. rewrite bpow_plus. change (b2 1) with 2. ring. Qed.
Lemma sum_b2 a b e x y : Rabs x <= b2 a -> Rabs y <= b2 b -> (a + 1 <= e)%Z -> (b + 1 <= e)%Z -> Rabs (x + y) <= b2 e.
Proof.
  intros Hx Hy Ha Hb. eapply Rle_trans; [apply Rabs_triang|]. replace e with (e - 1 + 1)%Z by lia. rewrite b2_S.
  pose proof (bp_mono a (e - 1) ltac:(lia)). pose proof (bp_mono b (e - 1) ltac:(lia)). lra.
Qed.
Lemma in_range x e : (-1074 <= e <= 1000)%Z -> Rabs x <= b2 e -> Rabs (rnd x) <= b2 e /\ Rabs (rnd x) < big.
Proof. intros He H. split; [apply rnd_abs_le; [apply fmt_bpow; lia|exact H]|apply (lt_big _ e); [lia|exact H]]. Qed.
Lemma Bd_add x y a b e : Bd x a -> Bd y b -> (a + 1 <= e)%Z -> (b + 1 <= e)%Z -> (-1074 <= e <= 1000)%Z -> Bd (addf x y) e /\ val (addf x y) = rnd (val x + val y).
Proof.
  intros ((Vx & Fx) & Hx) ((Vy & Fy) & Hy) Ha Hb He. destruct (in_range _ e He (sum_b2 _ _ _ _ _ Hx Hy Ha Hb)) as (R1 & R2).
  destruct (add_spec x y Vx Vy Fx Fy) as (V & S & _). destruct (S R2) as (F & E). split; [|exact E]. split; [auto|]. now rewrite E.
Qed.
Lemma Bd_sub x y a b e : Bd x a -> Bd y b -> (a + 1 <= e)%Z -> (b + 1 <= e)%Z -> (-1074 <= e <= 1000)%Z -> Bd (subf x y) e /\ val (subf x y) = rnd (val x - val y).
Proof.
  intros ((Vx & Fx) & Hx) ((Vy & Fy) & Hy) Ha Hb He. rewrite <- Rabs_Ropp in Hy. destruct (in_range _ e He (sum_b2 _ _ _ _ _ Hx Hy Ha Hb)) as (R1 & R2).
  destruct (sub_spec x y Vx Vy Fx Fy) as (V & S & _). destruct (S R2) as (F & E). split; [|exact E]. split; [auto|]. now rewrite E.
Qed.
Lemma Bd_mul x y a b e : Bd x a -> Bd y b -> (a + b <= e)%Z -> (-1074 <= e <= 1000)%Z -> Bd (mulf x y) e /\ val (mulf x y) = rnd (val x * val y).
Proof.
  intros ((Vx & Fx) & Hx) ((Vy & Fy) & Hy) Ha He. assert (H : Rabs (val x * val y) <= b2 e).
  { rewrite Rabs_mult. apply Rle_trans with (b2 a * b2 b); [apply Rmult_le_compat; auto using Rabs_pos|]. rewrite <- bpow_plus. now apply bp_mono. }
  destruct (in_range _ e He H) as (R1 & R2). destruct (mul_spec x y Vx Vy Fx Fy R2) as (V & F & E). split; [|exact E]. split; [auto|]. now rewrite E.
Qed.
Lemma Bd_div x y a b e : Bd x a -> OK y -> b2 b <= val y -> (a - b <= e)%Z -> (-1074 <= e <= 1000)%Z -> Bd (divf x y) e /\ val (divf x y) = rnd (val x / val y).
Proof.
  intros ((Vx & Fx) & Hx) (Vy & Fy) Hy Ha He. pose proof (bpow_gt_0 radix2 b) as P. assert (H : Rabs (val x / val y) <= b2 e).
  { unfold Rdiv. rewrite Rabs_mult. rewrite (Rabs_pos_eq (/ val y)) by (left; apply Rinv_0_lt_compat; lra). apply Rle_trans with (b2 a * b2 (- b)).
    - apply Rmult_le_compat; auto using Rabs_pos; [left; apply Rinv_0_lt_compat; lra|]. rewrite bpow_opp. apply Rinv_le_contravar; lra.
    - rewrite <- bpow_plus. apply bp_mono. lia. }
  destruct (in_range _ e He H) as (R1 & R2). destruct (div_spec x y Vx Vy Fx ltac:(lra) R2) as (V & F & E). split; [|exact E]. split; [auto|]. now rewrite E.
Qed.
Lemma Bd_Z z e : (0 <= z <= 2 ^ e)%Z -> (0 <= e <= 52)%Z -> Bd (b64_ofZ z) e /\ val (b64_ofZ z) = IZR z.
Proof.
  intros Hz He. assert (2 ^ e <= 2 ^ 52)%Z by (apply Z.pow_le_mono_r; lia). destruct (ofZ_spec z ltac:(lia)) as (V & F & E). split; [|exact E]. split; [auto|]. rewrite E.
  rewrite Rabs_pos_eq by (apply IZR_le; lia). replace (b2 e) with (IZR (2 ^ e)); [apply IZR_le; lia|]. rewrite (IZR_Zpower radix2) by lia. reflexivity.
Qed.

(** ** Sums *)
Lemma fmt_mult j a : (-1074 <= a)%Z -> (Z.of_nat j <= 2 ^ 52)%Z -> fmt (INR j * b2 a).
Proof.
  intros Ha Hj. apply generic_format_FLT. apply (FLT_spec radix2 (-1074) b64_prec _ (Float radix2 (Z.of_nat j) a)); cbn [Fnum Fexp]; [unfold F2R; cbn [Fnum Fexp]; now rewrite INR_IZR_INZ| |lia].
  rewrite Z.abs_eq by lia. unfold b64_prec. apply Z.le_lt_trans with (2 ^ 52)%Z; [exact Hj|reflexivity].
Qed.
(** [Cnt acc j a]: a sum of j terms of magnitude at most 2^a. *)
Definition Cnt (acc : b64) (j : nat) (a : Z) : Prop := OK acc /\ Rabs (val acc) <= INR j * b2 a.
Lemma Cnt_Bd acc j a k e : Cnt acc j a -> (Z.of_nat j <= 2 ^ k)%Z -> (0 <= k)%Z -> (k + a <= e)%Z -> Bd acc e.
Proof.
  intros (O & H) Hj Hk He. split; [exact O|]. eapply Rle_trans; [exact H|]. apply Rle_trans with (b2 k * b2 a); [|rewrite <- bpow_plus; now apply bp_mono].
  apply Rmult_le_compat_r; [apply bpow_ge_0|]. rewrite INR_IZR_INZ. replace (b2 k) with (IZR (2 ^ k)); [now apply IZR_le|]. rewrite (IZR_Zpower radix2) by lia. reflexivity.
Qed.
Lemma Cnt_add acc x j a : Cnt acc j a -> Bd x a -> (Z.of_nat (S j) <= 2 ^ 52)%Z -> (-1074 <= a <= 950)%Z -> Cnt (addf acc x) (S j) a /\ val (addf acc x) = rnd (val acc + val x).
Proof.
  intros ((Va & Fa) & Ha) ((Vx & Fx) & Hx) Hj He. assert (H : Rabs (val acc + val x) <= INR (S j) * b2 a).
  { eapply Rle_trans; [apply Rabs_triang|]. rewrite S_INR. lra. }
  assert (R : Rabs (rnd (val acc + val x)) <= INR (S j) * b2 a) by (apply rnd_abs_le; [apply fmt_mult; lia|exact H]).
  assert (R2 : Rabs (rnd (val acc + val x)) < big).
  { eapply Rle_lt_trans; [exact R|]. apply Rle_lt_trans with (b2 52 * b2 a); [|rewrite <- bpow_plus; apply bpow_lt; lia].
    apply Rmult_le_compat_r; [apply bpow_ge_0|]. rewrite INR_IZR_INZ. change (b2 52) with (IZR (2 ^ 52)). now apply IZR_le. }
  destruct (add_spec acc x Va Vx Fa Fx) as (V & S' & _). destruct (S' R2) as (F & E). split; [|exact E]. split; [auto|]. now rewrite E.
Qed.
Lemma Cnt_0 a : Cnt (b64_ofZ 0) 0 a.
Proof. destruct (ofZ_spec 0 ltac:(lia)) as (V & F & E). split; [auto|]. rewrite E, Rabs_R0. cbn. lra. Qed.
Lemma fold_Cnt l : forall acc j a, Forall (fun x => Bd x a) l -> Cnt acc j a -> (Z.of_nat (j + length l) <= 2 ^ 52)%Z -> (-1074 <= a <= 950)%Z ->
  Cnt (fold_left addf l acc) (j + length l) a.
Proof.
  induction l as [|x l IH]; intros acc j a Hl Ha Hj He; cbn [fold_left length]; [now rewrite Nat.add_0_r|]. inversion Hl as [|? ? Hx Hl']; subst.
  cbn [length] in Hj. replace (j + S (length l))%nat with (S j + length l)%nat by lia. apply IH; auto; [|cbn [length Nat.add] in *; lia]. apply Cnt_add; auto. lia.
Qed.
Lemma sum_Bd (l : list b64) a k e : Forall (fun x => Bd x a) l -> (Z.of_nat (length l) <= 2 ^ k)%Z -> (0 <= k <= 52)%Z -> (k + a <= e)%Z -> (-1074 <= a <= 950)%Z -> Bd (nsum l) e.
Proof.
  intros Hl Hk Hk' He Ha. apply (Cnt_Bd _ (length l) a k); [|exact Hk|lia|exact He]. change (nsum l) with (fold_left addf l (b64_ofZ 0)).
  assert (2 ^ k <= 2 ^ 52)%Z by (apply Z.pow_le_mono_r; lia). apply (fold_Cnt l (b64_ofZ 0) 0 a); auto using Cnt_0. cbn [Nat.add]. lia.
Qed.
Lemma nlen_pos (l : list b64) : l <> [] -> (Z.of_nat (length l) <= 2 ^ 52)%Z -> OK (nlen (F:=b64) l) /\ b2 0 <= val (nlen (F:=b64) l) /\ val (nlen (F:=b64) l) = INR (length l).
Proof.
  intros Hl Hk. destruct (ofZ_spec (Z.of_nat (length l)) ltac:(lia)) as (V & F & E). split; [auto|]. change (nlen l) with (b64_ofZ (Z.of_nat (length l))). rewrite E.
  split; [|now rewrite INR_IZR_INZ]. change (b2 0) with 1. apply IZR_le. destruct l; [congruence|cbn [length]; lia].
Qed.
Lemma mean_Bd (l : list b64) a k e : l <> [] -> Forall (fun x => Bd x a) l -> (Z.of_nat (length l) <= 2 ^ k)%Z -> (0 <= k <= 52)%Z -> (k + a <= e)%Z -> (-1074 <= a <= 950)%Z -> (e <= 1000)%Z -> Bd (nmean l) e.
Proof.
  intros Hn Hl Hk Hk' He Ha He'. assert (2 ^ k <= 2 ^ 52)%Z by (apply Z.pow_le_mono_r; lia). destruct (nlen_pos l Hn ltac:(lia)) as (O & L & _).
  refine (proj1 (Bd_div (nsum l) (nlen l) e 0 e (sum_Bd l a k e Hl Hk Hk' He Ha) O L _ _)); lia.
Qed.

(** ** Sums of non-negative terms *)
Lemma fold_nonneg l : forall acc j a, Forall (fun x => Bd x a /\ 0 <= val x) l -> Cnt acc j a -> (Z.of_nat (j + length l) <= 2 ^ 52)%Z -> (-1074 <= a <= 950)%Z ->
  val acc <= val (fold_left addf l acc) /\ (0 <= val acc -> forall x, In x l -> val x <= val (fold_left addf l acc)).
Proof.
  induction l as [|x l IH]; intros acc j a Hl Ha Hj He; cbn [fold_left]; [split; [lra|intros _ x []]|]. inversion Hl as [|? ? (Hx & Px) Hl']; subst. cbn [length] in Hj.
  destruct (Cnt_add acc x j a Ha Hx ltac:(lia) He) as (C & E). destruct (IH _ _ _ Hl' C ltac:(lia) He) as (I1 & I2).
  assert (A1 : val acc <= val (addf acc x)).
  { rewrite E, <- (rnd_fmt (val acc)) at 1 by (apply valid_fmt, Ha). apply rnd_le. lra. }
  split; [lra|]. intros P y [<-|Hy].
  - apply Rle_trans with (val (addf acc x)); [|exact I1]. rewrite E, <- (rnd_fmt (val x)) at 1 by (apply valid_fmt, Hx). apply rnd_le. lra.
  - apply I2; [lra|exact Hy].
Qed.

Lemma fold_map {A} (g : A -> b64) l : forall acc, fold_left addf (map g l) acc = fold_left (fun a x => addf a (g x)) l acc.
Proof. induction l as [|x l IH]; intros acc; cbn; auto. Qed.
Lemma fold_flat {A} (g : A -> list b64) l : forall acc, fold_left addf (flat_map g l) acc = fold_left (fun a x => fold_left addf (g x) a) l acc.
Proof. induction l as [|x l IH]; intros acc; cbn [flat_map fold_left]; [reflexivity|]. now rewrite fold_left_app. Qed.
Lemma flat_length {A} (g : A -> list b64) c l : (forall x, length (g x) = c) -> length (flat_map g l) = (c * length l)%nat.
Proof. intros H. induction l as [|x l IH]; cbn [flat_map length]; [lia|]. rewrite app_length, H, IH. lia. Qed.

(** ** Intervals around a scale *)
Definition Near (x : b64) (a b s : R) : Prop := OK x /\ a * s <= val x <= b * s.
Definition Sc (s : R) : Prop := b2 (-400) <= s <= b2 400.
Lemma Sc_pos s : Sc s -> 0 < s.
Proof. intros (H & _). pose proof (bpow_gt_0 radix2 (-400)). lra. Qed.
Lemma Near_wide x a b a' b' s : Near x a b s -> 0 < s -> a' <= a -> b <= b' -> Near x a' b' s.
Proof. intros (O & H) Hs Ha Hb. split; [exact O|]. split; [apply Rle_trans with (a * s)|apply Rle_trans with (b * s)]; try apply H; apply Rmult_le_compat_r; lra. Qed.
Lemma near_rnd a b s z : / 1000000 <= a -> b <= 1000000 -> b2 (-810) <= s <= b2 810 -> a * s <= z <= b * s ->
  a * (999 / 1000) * s <= rnd z <= b * (1001 / 1000) * s /\ Rabs (rnd z) < big.
Proof.
  intros Ha Hb (S1 & S2) (Z1 & Z2). pose proof (bpow_gt_0 radix2 (-810)) as P. 
  assert (L : b2 (-831) <= z).
  { eapply Rle_trans; [|exact Z1]. change (-831)%Z with (-21 + -810)%Z. rewrite bpow_plus. apply Rmult_le_compat; try apply bpow_ge_0; [|exact S1].
    eapply Rle_trans; [|exact Ha]. change (b2 (-21)) with (/ 2097152). lra. }
  assert (U : z <= b2 831).
  { eapply Rle_trans; [exact Z2|]. change (831)%Z with (21 + 810)%Z. rewrite bpow_plus. assert (0 < b) by (apply (Rmult_lt_reg_r s); [lra|]; pose proof (bpow_gt_0 radix2 (-831)); lra).
    apply Rmult_le_compat; try lra. change (b2 21) with 2097152. lra. }
  pose proof (bpow_gt_0 radix2 (-831)) as P'. assert (u1 : b2 (-53) <= / 1000) by (apply Rle_trans with (b2 (-10)); [apply bp_mono; lia|cbn; lra]). pose proof (bpow_gt_0 radix2 (-53)) as P53.
  destruct (rnd_rel z) as (R1 & R2); [eapply Rle_trans; [apply bp_mono|exact L]; lia|]. split.
  - split; [apply Rle_trans with (z * (999 / 1000)); nra|apply Rle_trans with (z * (1001 / 1000)); nra].
  - apply (lt_big _ 831); [lia|]. rewrite Rabs_pos_eq by lra. exact U.
Qed.
Lemma Sc_mul s t : Sc s -> Sc t -> b2 (-810) <= s * t <= b2 810.
Proof.
  intros (S1 & S2) (T1 & T2). pose proof (bpow_gt_0 radix2 (-400)). split.
  - apply Rle_trans with (b2 (-400) * b2 (-400)); [rewrite <- bpow_plus; apply bp_mono; lia|apply Rmult_le_compat; lra].
  - apply Rle_trans with (b2 400 * b2 400); [apply Rmult_le_compat; lra|rewrite <- bpow_plus; apply bp_mono; lia].
Qed.
Lemma Sc_1 s : Sc s -> b2 (-810) <= s <= b2 810.
Proof. intros (S1 & S2). split; [eapply Rle_trans; [apply bp_mono|exact S1]; lia|eapply Rle_trans; [exact S2|apply bp_mono; lia]]. Qed.
Lemma near_mul x y a b c d s t : Near x a b s -> Near y c d t -> Sc s -> Sc t -> / 1000 <= a -> / 1000 <= c -> b <= 1000 -> d <= 1000 ->
  Near (mulf x y) (a * c * (999 / 1000)) (b * d * (1001 / 1000)) (s * t).
Proof.
  intros ((Vx & Fx) & X) ((Vy & Fy) & Y) Hs Ht Ha Hc Hb Hd. pose proof (Sc_pos _ Hs). pose proof (Sc_pos _ Ht). pose proof (Sc_mul _ _ Hs Ht) as S.
  assert (0 < a * s) by nra. assert (0 < c * t) by nra. assert (0 <= b) by nra. assert (0 <= d) by nra.
  assert (Z : a * c * (s * t) <= val x * val y <= b * d * (s * t)).
  { split; [replace (a * c * (s * t)) with ((a * s) * (c * t)) by ring|replace (b * d * (s * t)) with ((b * s) * (d * t)) by ring]; apply Rmult_le_compat; lra. }
  destruct (near_rnd (a * c) (b * d) (s * t) (val x * val y)) as (R & B); [nra|nra|exact S|exact Z|].
  destruct (mul_spec x y Vx Vy Fx Fy B) as (V & F & E). split; [auto|]. now rewrite E.
Qed.
Lemma near_add x y a b c d s : Near x a b s -> Near y c d s -> Sc s -> / 1000 <= a -> / 1000 <= c -> b <= 1000 -> d <= 1000 ->
  Near (addf x y) ((a + c) * (999 / 1000)) ((b + d) * (1001 / 1000)) s.
Proof.
  intros ((Vx & Fx) & X) ((Vy & Fy) & Y) Hs Ha Hc Hb Hd. pose proof (Sc_pos _ Hs). pose proof (Sc_1 _ Hs) as S.
  destruct (near_rnd (a + c) (b + d) s (val x + val y)) as (R & B); [lra|lra|exact S|lra|].
  destruct (add_spec x y Vx Vy Fx Fy) as (V & Q & _). destruct (Q B) as (F & E). split; [auto|]. now rewrite E.
Qed.
Lemma near_sub x y a b c d s : Near x a b s -> Near y c d s -> Sc s -> / 1000 <= a - d -> b - c <= 1000 ->
  Near (subf x y) ((a - d) * (999 / 1000)) ((b - c) * (1001 / 1000)) s.
Proof.
  intros ((Vx & Fx) & X) ((Vy & Fy) & Y) Hs Ha Hb. pose proof (Sc_pos _ Hs). pose proof (Sc_1 _ Hs) as S.
  destruct (near_rnd (a - d) (b - c) s (val x - val y)) as (R & B); [lra|lra|exact S|lra|].
  destruct (sub_spec x y Vx Vy Fx Fy) as (V & Q & _). destruct (Q B) as (F & E). split; [auto|]. now rewrite E.
Qed.
Lemma near_Z z : (1 <= z <= 10)%Z -> Near (b64_ofZ z) (IZR z) (IZR z) 1.
Proof. intros Hz. destruct (ofZ_spec z ltac:(lia)) as (V & F & E). split; [auto|]. rewrite E. lra. Qed.
Lemma Sc_one : Sc 1.
Proof. split; [change 1 with (b2 0)|change 1 with (b2 0)]; apply bp_mono; lia. Qed.
Lemma near_Bd x a b s k e f : Near x a b s -> 0 <= a * s -> s <= b2 e -> 0 <= b <= b2 k -> (k + e <= f)%Z -> Bd x f.
Proof.
  intros (O & H) Ha Hs Hb Hf. split; [exact O|]. rewrite Rabs_pos_eq by lra. apply Rle_trans with (b2 k * b2 e); [|rewrite <- bpow_plus; now apply bp_mono].
  eapply Rle_trans; [apply H|]. destruct (Rle_dec 0 s); [apply Rmult_le_compat; lra|]. apply Rle_trans with 0; [nra|]. rewrite <- bpow_plus. apply bpow_ge_0.
Qed.
