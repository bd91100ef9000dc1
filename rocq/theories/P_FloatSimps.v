(** The Simpson and trapezoidal rules of the rigidity in binary64, on a nearly uniform grid: finite and not negative for values that are. *)
From Coq Require Import List ZArith Bool Reals Lra Lia Arith.
From Coq Require Import Floats.SpecFloat.
From Flocq Require Import Core BinarySingleNaN Relative.
From Verif Require Import Base M_Step M_Quad P_Float P_FloatGrid T_FloatGap P_FloatMean P_FloatKernel.
Import ListNotations.
Local Open Scope R_scope.
Local Notation length := List.length.
#[local] Existing Instance Hprec.
#[local] Existing Instance Hmax.
Local Notation addf := (SFadd b64_prec b64_emax).
Local Notation subf := (SFsub b64_prec b64_emax).
Local Notation mulf := (SFmul b64_prec b64_emax).
Local Notation divf := (SFdiv b64_prec b64_emax).
Local Notation OK x := (Valid x /\ Fin x).
Local Notation b2 e := (bpow radix2 e).
Local Notation z := b64_ofZ.

Lemma at_all (P : b64 -> Prop) (l : list b64) i : Forall P l -> (0 <= i < Z.of_nat (length l))%Z -> P (@at_ b64 Num_b64 l i).
Proof.
  intros H Hi. unfold at_, py_get. rewrite (proj2 (Z.ltb_ge i 0)) by lia. rewrite (proj2 (Z.ltb_ge i 0)), (proj2 (Z.leb_gt (Z.of_nat (length l)) i)) by lia. cbn [orb].
  destruct (nth_error l (Z.to_nat i)) eqn:E; [|apply nth_error_None in E; lia]. apply nth_error_In in E. rewrite Forall_forall in H. exact (H _ E).
Qed.
Lemma at_any (P : b64 -> Prop) (l : list b64) i : Forall P l -> P (z 0) -> P (@at_ b64 Num_b64 l i).
Proof.
  intros H H0. unfold at_, py_get. destruct (_ || _); [exact H0|]. destruct (nth_error l _) eqn:E; [|exact H0]. apply nth_error_In in E. rewrite Forall_forall in H. exact (H _ E).
Qed.

Lemma sum_T l : Forall (fun x => Bd x 880 /\ 0 <= val x) l -> (Z.of_nat (length l) <= 2 ^ 17)%Z -> Bd (fold_left addf l (z 0)) 897 /\ 0 <= val (fold_left addf l (z 0)) /\ forall x, In x l -> val x <= val (fold_left addf l (z 0)).
Proof.
  intros Hl Hn. assert (Hl' : Forall (fun x => Bd x 880) l) by (eapply Forall_impl; [|exact Hl]; cbv beta; tauto).
  pose proof (fold_Cnt l (z 0) 0 880 Hl' (Cnt_0 880) ltac:(cbn in *; lia) ltac:(lia)) as C. cbn [Nat.add] in C.
  destruct (fold_nonneg l (z 0) 0 880 Hl (Cnt_0 880) ltac:(cbn in *; lia) ltac:(lia)) as (I1 & I2). change (val (z 0)) with 0 in *.
  split; [apply (Cnt_Bd _ _ _ 17 897 C); lia|]. split; [exact I1|]. apply I2. lra.
Qed.
Lemma fold_ext {A} (f g : b64 -> A -> b64) l : (forall a x, f a x = g a x) -> forall acc, fold_left f l acc = fold_left g l acc.
Proof. intros H. induction l as [|x l IH]; intros acc; cbn [fold_left]; [reflexivity|]. now rewrite H. Qed.

Section Rule.
Variable eta : R.
Hypothesis Heta : b2 (-40) <= eta <= b2 40.
Local Notation e1 := eta.
Local Notation e2 := (eta * eta).
Local Notation e3 := (eta * eta * eta).
Lemma eta_pos : 0 < eta.
Proof. pose proof (bpow_gt_0 radix2 (-40)). lra. Qed.
Lemma e2_range : b2 (-80) <= e2 <= b2 80.
Proof.
  pose proof eta_pos. pose proof (bpow_gt_0 radix2 (-40)). change (-80)%Z with (-40 + -40)%Z. change 80%Z with (40 + 40)%Z. rewrite !bpow_plus. split; apply Rmult_le_compat; lra.
Qed.
Lemma e3_range : b2 (-120) <= e3 <= b2 120.
Proof.
  pose proof eta_pos. pose proof e2_range. pose proof (bpow_gt_0 radix2 (-40)). pose proof (bpow_gt_0 radix2 (-80)). change (-120)%Z with (-80 + -40)%Z. change 120%Z with (80 + 40)%Z.
  rewrite !(bpow_plus radix2 _ (-40)), !(bpow_plus radix2 _ 40). split; apply Rmult_le_compat; lra.
Qed.
Lemma Sc_of s e : (0 <= e <= 400)%Z -> b2 (- e) <= s <= b2 e -> Sc s.
Proof. intros He (A & B). split; [eapply Rle_trans; [apply bp_mono|exact A]; lia|eapply Rle_trans; [exact B|apply bp_mono; lia]]. Qed.
Lemma Sc1 : Sc e1. Proof. apply (Sc_of _ 40); [lia|exact Heta]. Qed.
Lemma Sc2 : Sc e2. Proof. apply (Sc_of _ 80); [lia|exact e2_range]. Qed.
Lemma Sc3 : Sc e3. Proof. apply (Sc_of _ 120); [lia|exact e3_range]. Qed.
Local Notation H1 h := (Near h (97 / 100) (103 / 100) e1).

Ltac wide := eapply Near_wide; [|apply Sc_pos; (apply Sc1 || apply Sc2 || apply Sc3)|..].
Lemma sq_near h : H1 h -> Near (sq h) (935 / 1000) (1065 / 1000) e2.
Proof. intros H. wide; [apply (near_mul h h _ _ _ _ _ _ H H Sc1 Sc1); lra|lra|lra]. Qed.
Lemma cube_near h : H1 h -> Near (cube h) (90 / 100) (110 / 100) e3.
Proof. intros H. wide; [apply (near_mul (mulf h h) h _ _ _ _ _ _ (sq_near h H) H Sc2 Sc1); lra|lra|lra]. Qed.
Lemma scale_near k h a b s : (1 <= k <= 10)%Z -> Near h a b s -> Sc s -> / 1000 <= a -> b <= 1000 -> Near (mulf (z k) h) (IZR k * a * (999 / 1000)) (IZR k * b * (1001 / 1000)) s.
Proof.
  intros Hk H Hs Ha Hb. assert (1 <= IZR k <= 10) by (split; apply IZR_le; lia). rewrite <- (Rmult_1_l s) at 1. apply (near_mul (z k) h _ _ _ _ _ _ (near_Z k Hk) H Sc_one Hs); lra.
Qed.
Lemma hph_near h h' : H1 h -> H1 h' -> Near (addf h h') (193 / 100) (207 / 100) e1.
Proof. intros H H'. wide; [apply (near_add h h' _ _ _ _ _ H H' Sc1); lra|lra|lra]. Qed.
Lemma scaled3 h : H1 h -> Near (mulf (z 3) h) (29 / 10) (31 / 10) e1.
Proof. intros H. wide; [apply (scale_near 3 h _ _ _ ltac:(lia) H Sc1); lra|lra|lra]. Qed.
Lemma scaled6 h : H1 h -> Near (mulf (z 6) h) (58 / 10) (62 / 10) e1.
Proof. intros H. wide; [apply (scale_near 6 h _ _ _ ltac:(lia) H Sc1); lra|lra|lra]. Qed.

(** The numerators and denominators of the weights. *)
Definition numA (hi hm : b64) := addf (addf (cube hi) (cube hm)) (mulf (mulf (mulf (z 3) hi) hm) (addf hi hm)).
Definition denA (hi hm : b64) := mulf (mulf (z 6) hi) hm.
Definition numB (hi hm : b64) := addf (subf (mulf (z 2) (cube hm)) (cube hi)) (mulf (mulf (z 3) hi) (sq hm)).
Definition denB (hm s : b64) := mulf (mulf (z 6) hm) s.
Lemma numA_near hi hm : H1 hi -> H1 hm -> Near (numA hi hm) 7 9 e3.
Proof.
  intros A B. wide; [refine (near_add _ _ _ _ _ _ _ (near_add _ _ _ _ _ _ _ (cube_near hi A) (cube_near hm B) Sc3 _ _ _ _) (near_mul _ _ _ _ _ _ _ _ (near_mul _ _ _ _ _ _ _ _ (scaled3 hi A) B Sc1 Sc1 _ _ _ _) (hph_near hi hm A B) Sc2 Sc1 _ _ _ _) Sc3 _ _ _ _); lra|lra|lra].
Qed.
Lemma denA_near hi hm : H1 hi -> H1 hm -> Near (denA hi hm) (56 / 10) (64 / 10) e2.
Proof. intros A B. wide; [refine (near_mul _ _ _ _ _ _ _ _ (scaled6 hi A) B Sc1 Sc1 _ _ _ _); lra|lra|lra]. Qed.
Lemma third_near hi hm : H1 hi -> H1 hm -> Near (mulf (mulf (z 3) hi) (sq hm)) (26 / 10) (35 / 10) e3.
Proof.
  intros A B. wide; [rewrite Rmult_assoc; refine (near_mul _ _ _ _ _ _ _ _ (scaled3 hi A) (sq_near hm B) Sc1 Sc2 _ _ _ _); lra|lra|lra].
Qed.
Lemma diff_near hi hm : H1 hi -> H1 hm -> Near (subf (mulf (z 2) (cube hm)) (cube hi)) (65 / 100) (135 / 100) e3.
Proof.
  intros A B. wide; [refine (near_sub _ _ _ _ _ _ _ (scale_near 2 _ _ _ _ _ (cube_near hm B) Sc3 _ _) (cube_near hi A) Sc3 _ _)|..]; try lia; lra.
Qed.
Lemma numB_near hi hm : H1 hi -> H1 hm -> Near (numB hi hm) 3 5 e3.
Proof. intros A B. wide; [refine (near_add _ _ _ _ _ _ _ (diff_near hi hm A B) (third_near hi hm A B) Sc3 _ _ _ _)|..]; lra. Qed.
Lemma denB_near hm s : H1 hm -> Near s (193 / 100) (207 / 100) e1 -> Near (denB hm s) 11 13 e2.
Proof. intros A B. wide; [refine (near_mul _ _ _ _ _ _ _ _ (scaled6 hm A) B Sc1 Sc1 _ _ _ _); lra|lra|lra]. Qed.

(** One term [v * A / B]. *)
Local Notation V v := (Bd v 650 /\ 0 <= val v).
Lemma term_ok v A B a b c d sA sB : V v -> Near A a b sA -> Near B c d sB -> 0 < sA <= b2 120 -> b2 (-80) <= sB -> 0 <= a -> 0 <= b <= 1000 -> / 1000 <= c ->
  Bd (divf (mulf v A) B) 880 /\ 0 <= val (divf (mulf v A) B) /\ val (divf (mulf v A) B) = rnd (rnd (val v * val A) / val B) /\ 0 < val B.
Proof.
  intros (Hv & Pv) HA HB HsA HsB Ha Hb Hc. pose proof (bpow_gt_0 radix2 (-80)) as P.
  assert (BA : Bd A 130). { apply (near_Bd A a b sA 10 120 130 HA); [apply Rmult_le_pos; lra|lra| |lia]. change (b2 10) with 1024. lra. }
  assert (PA : 0 <= val A) by (destruct HA as (_ & HA); assert (0 <= a * sA) by (apply Rmult_le_pos; lra); lra).
  assert (LB : b2 (-90) <= val B).
  { destruct HB as (_ & HB & _). eapply Rle_trans; [|exact HB]. change (-90)%Z with (-10 + -80)%Z. rewrite bpow_plus. apply Rmult_le_compat; try lra; [apply bpow_ge_0|]. change (b2 (-10)) with (/ 1024). lra. }
  pose proof (bpow_gt_0 radix2 (-90)) as P9.
  destruct (Bd_mul v A 650 130 780 Hv BA ltac:(lia) ltac:(lia)) as (BM & EM). destruct (Bd_div (mulf v A) B 780 (-90) 880 BM (proj1 HB) LB ltac:(lia) ltac:(lia)) as (BD & ED).
  split; [exact BD|]. rewrite ED, EM. split; [|split; [reflexivity|lra]]. apply rnd_nonneg. apply Rmult_le_pos; [apply rnd_nonneg, Rmult_le_pos; lra|left; apply Rinv_0_lt_compat; lra].
Qed.
Definition simps_terms (h vals : list b64) (i : Z) : list b64 :=
  let hi := at_ h i in let hm := at_ h (i - 1) in
  [divf (mulf (at_ vals i) (numA hi hm)) (denA hi hm); divf (mulf (at_ vals (i - 1)) (numB hi hm)) (denB hm (addf hi hm));
   divf (mulf (at_ vals (i + 1)) (numB hm hi)) (denB hi (addf hi hm))].
Lemma pass_terms h vals acc i : simps_pass h vals acc i = fold_left addf (simps_terms h vals i) acc.
Proof. unfold simps_pass, simps_terms, numA, denA, numB, denB. cbv zeta. cbn [fold_left nadd nsub nmul ndiv nofZ Num_b64]. reflexivity. Qed.
Local Notation T x := (Bd x 880 /\ 0 <= val x).
Variables (h vals : list b64).
Hypothesis Hh : Forall (fun x => H1 x) h.
Hypothesis Hv : Forall (fun v => V v) vals.
Lemma V0 : V (z 0).
Proof. destruct (Cnt_0 0) as (O & _). split; [split; [exact O|]|]; change (val (z 0)) with 0; [rewrite Rabs_R0; apply bpow_ge_0|lra]. Qed.
Lemma vals_at i : V (at_ vals i).
Proof. apply (at_any (fun v => V v)); [exact Hv|exact V0]. Qed.
Lemma terms_ok i : (1 <= i < Z.of_nat (length h))%Z -> Forall (fun x => T x) (simps_terms h vals i).
Proof.
  intros Hi. pose proof (at_all _ h i Hh ltac:(lia)) as A. pose proof (at_all _ h (i - 1) Hh ltac:(lia)) as B. cbv beta in A, B.
  pose proof e2_range as (E2 & _). pose proof e3_range as (_ & E3). pose proof (Sc_pos _ Sc3) as P3. unfold simps_terms. cbv zeta.
  repeat (apply Forall_cons || apply Forall_nil).
  - destruct (term_ok _ _ _ _ _ _ _ _ _ (vals_at i) (numA_near _ _ A B) (denA_near _ _ A B)) as (Q1 & Q2 & _); try lra; auto.
  - destruct (term_ok _ _ _ _ _ _ _ _ _ (vals_at (i - 1)) (numB_near _ _ A B) (denB_near _ _ B (hph_near _ _ A B))) as (Q1 & Q2 & _); try lra; auto.
  - destruct (term_ok _ _ _ _ _ _ _ _ _ (vals_at (i + 1)) (numB_near _ _ B A) (denB_near _ _ A (hph_near _ _ A B))) as (Q1 & Q2 & _); try lra; auto.
Qed.

(** The extra terms for an even number of points. *)
Lemma numC_near h1 h2 : H1 h1 -> H1 h2 -> Near (addf (mulf (z 2) (sq h1)) (mulf (mulf (z 3) h2) h1)) 4 6 e2.
Proof.
  intros A B. wide; [refine (near_add _ _ _ _ _ _ _ (scale_near 2 _ _ _ _ _ (sq_near h1 A) Sc2 _ _) (near_mul _ _ _ _ _ _ _ _ (scaled3 h2 B) A Sc1 Sc1 _ _ _ _) Sc2 _ _ _ _)|..]; try lia; lra.
Qed.
Lemma denC_near h1 h2 : H1 h1 -> H1 h2 -> Near (mulf (z 6) (addf h2 h1)) 11 13 e1.
Proof. intros A B. wide; [refine (scale_near 6 _ _ _ _ _ (hph_near h2 h1 B A) Sc1 _ _)|..]; try lia; lra. Qed.
Lemma numD_near h1 h2 : H1 h1 -> H1 h2 -> Near (addf (sq h1) (mulf (mulf (z 3) h1) h2)) 3 5 e2.
Proof.
  intros A B. wide; [refine (near_add _ _ _ _ _ _ _ (sq_near h1 A) (near_mul _ _ _ _ _ _ _ _ (scaled3 h1 A) B Sc1 Sc1 _ _ _ _) Sc2 _ _ _ _)|..]; lra.
Qed.
Definition tailC (n : Z) := let h1 := at_ h (n - 1) in let h2 := at_ h (n - 2) in divf (mulf (at_ vals n) (addf (mulf (z 2) (sq h1)) (mulf (mulf (z 3) h2) h1))) (mulf (z 6) (addf h2 h1)).
Definition tailD (n : Z) := let h1 := at_ h (n - 1) in let h2 := at_ h (n - 2) in divf (mulf (at_ vals (n - 1)) (addf (sq h1) (mulf (mulf (z 3) h1) h2))) (mulf (z 6) h2).
Definition tailE (n : Z) := let h1 := at_ h (n - 1) in let h2 := at_ h (n - 2) in divf (mulf (at_ vals (n - 2)) (cube h1)) (mulf (mulf (z 6) h2) (addf h2 h1)).
Lemma tail_ok n : n = Z.of_nat (length h) -> (3 <= n)%Z -> T (tailC n) /\ T (tailD n) /\ T (tailE n) /\
  forall t, hd_error (simps_terms h vals (n - 2)) = Some t -> val (tailE n) <= val t.
Proof.
  intros En Hn. pose proof (at_all _ h (n - 1) Hh ltac:(lia)) as A. pose proof (at_all _ h (n - 2) Hh ltac:(lia)) as B. pose proof (at_all _ h (n - 2 - 1) Hh ltac:(lia)) as C. cbv beta in A, B, C.
  pose proof e2_range as (E2 & E2'). pose proof e3_range as (_ & E3). pose proof (Sc_pos _ Sc3) as P3. pose proof (Sc_pos _ Sc2) as P2. pose proof (Sc_pos _ Sc1) as P1.
  pose proof (bp_mono 80 120 ltac:(lia)). pose proof (bp_mono (-80) (-40) ltac:(lia)). pose proof Heta as (E1 & _).
  destruct (term_ok _ _ _ _ _ _ _ _ _ (vals_at n) (numC_near _ _ A B) (denC_near _ _ A B)) as (Q1 & Q2 & _); try lra.
  destruct (term_ok _ _ _ _ _ _ _ _ _ (vals_at (n - 1)) (numD_near _ _ A B) (scaled6 _ B)) as (Q3 & Q4 & _); try lra.
  destruct (term_ok _ _ _ _ _ _ _ _ _ (vals_at (n - 2)) (cube_near _ A) (denB_near _ _ B (hph_near _ _ B A))) as (Q5 & Q6 & Q7 & Q8); try lra.
  split; [split; [exact Q1|exact Q2]|]. split; [split; [exact Q3|exact Q4]|]. split; [split; [exact Q5|exact Q6]|].
  intros t Ht. injection Ht as <-. destruct (term_ok _ _ _ _ _ _ _ _ _ (vals_at (n - 2)) (numA_near _ _ B C) (denA_near _ _ B C)) as (_ & _ & R7 & R8); try lra.
  unfold tailE. cbv zeta. change (mulf (mulf (z 6) (at_ h (n - 2))) (addf (at_ h (n - 2)) (at_ h (n - 1)))) with (denB (at_ h (n - 2)) (addf (at_ h (n - 2)) (at_ h (n - 1)))).
  rewrite Q7, R7. destruct (vals_at (n - 2)) as (_ & Pv). destruct (cube_near _ A) as (_ & C1 & C2). destruct (numA_near _ _ B C) as (_ & N1 & _).
  destruct (denB_near _ _ B (hph_near _ _ B A)) as (_ & D1 & _). destruct (denA_near _ _ B C) as (_ & _ & D2).
  apply rnd_le. apply Rmult_le_compat.
  - apply rnd_nonneg, Rmult_le_pos; [exact Pv|]. lra.
  - left. now apply Rinv_0_lt_compat.
  - apply rnd_le, Rmult_le_compat_l; [exact Pv|]. lra.
  - apply Rinv_le_contravar; [exact R8|]. lra.
Qed.
End Rule.

(** Both rules on a whole grid. *)
Section Whole.
Variable eta : R.
Hypothesis Heta : b2 (-40) <= eta <= b2 40.
Variables (grid vals : list b64).
Hypothesis Hlen : (3 <= Z.of_nat (length grid) <= 2 ^ 14)%Z.
Hypothesis Hg : forall i, (S i < length grid)%nat -> Near (subf (nth (S i) grid (z 0)) (nth i grid (z 0))) (97 / 100) (103 / 100) eta.
Hypothesis Hv : Forall (fun v => Bd v 650 /\ 0 <= val v) vals.
Lemma ndiff_all (P : b64 -> Prop) : forall l : list b64, (forall i, (S i < length l)%nat -> P (subf (nth (S i) l (z 0)) (nth i l (z 0)))) -> Forall P (ndiff l).
Proof.
  induction l as [|x [|y l] IH]; intros H; try constructor; [exact (H 0%nat ltac:(cbn [length]; lia))|]. apply IH. intros i Hi. apply (H (S i)). cbn [length] in *. lia.
Qed.
Lemma ndiff_len : forall l : list b64, length (ndiff l) = (length l - 1)%nat.
Proof. induction l as [|x [|y l] IH]; auto. cbn [ndiff length] in *. rewrite IH. lia. Qed.
Lemma at_nth (l : list b64) i : at_ l (Z.of_nat i) = nth i l (z 0).
Proof.
  unfold at_, py_get. rewrite (proj2 (Z.ltb_ge (Z.of_nat i) 0)) by lia. rewrite (proj2 (Z.ltb_ge (Z.of_nat i) 0)) by lia. rewrite Nat2Z.id. cbn [orb].
  destruct (Z.leb_spec (Z.of_nat (length l)) (Z.of_nat i)); [now rewrite nth_overflow by lia|]. rewrite (nth_error_nth' l (z 0)) by lia. reflexivity.
Qed.
Lemma simps_ok : Bd (int_simps_nonunif grid vals) 900 /\ 0 <= val (int_simps_nonunif grid vals).
Proof.
  set (h := ndiff grid). assert (Hh : Forall (fun x => Near x (97 / 100) (103 / 100) eta) h) by (apply ndiff_all; exact Hg).
  assert (Lh : length h = (length grid - 1)%nat) by apply ndiff_len. set (n := (Z.of_nat (length grid) - 1)%Z).
  set (ts := flat_map (fun j => simps_terms h vals (2 * Z.of_nat j + 1)%Z) (seq 0 (Z.to_nat (n / 2)))).
  assert (Et : fold_left (fun acc j => simps_pass h vals acc (2 * Z.of_nat j + 1)%Z) (seq 0 (Z.to_nat (n / 2))) (z 0) = fold_left addf ts (z 0)).
  { unfold ts. rewrite fold_flat. apply fold_ext. intros. apply pass_terms. }
  assert (Lt : length ts = (3 * Z.to_nat (n / 2))%nat) by (unfold ts; rewrite (flat_length _ 3), seq_length; [lia|reflexivity]).
  assert (n2 : (2 * (n / 2) <= n < 2 * (n / 2) + 2)%Z) by (pose proof (Z.div_mod n 2 ltac:(lia)); pose proof (Z.mod_pos_bound n 2 ltac:(lia)); lia).
  assert (Ht : Forall (fun x => Bd x 880 /\ 0 <= val x) ts).
  { apply Forall_flat_map, Forall_forall. intros j Hj. apply in_seq in Hj. apply (terms_ok eta Heta h vals Hh Hv). rewrite Lh. unfold n in *. lia. }
  unfold int_simps_nonunif. cbv zeta. fold n h. change (@n0 b64 Num_b64) with (z 0). rewrite Et. clear Et.
  destruct (Z.eqb_spec ((n + 1) mod 2) 0) as [Ee|Ee].
  - assert (n3 : (3 <= n)%Z) by (unfold n in *; destruct (Z.eq_dec (Z.of_nat (length grid)) 3) as [K|K]; [rewrite K in Ee; discriminate|lia]).
    destruct (tail_ok eta Heta h vals Hh Hv n ltac:(unfold n; lia) n3) as (TC & TD & TE & TL).
    change (Bd (subf (addf (addf (fold_left addf ts (z 0)) (tailC h vals n)) (tailD h vals n)) (tailE h vals n)) 900 /\ 0 <= val (subf (addf (addf (fold_left addf ts (z 0)) (tailC h vals n)) (tailD h vals n)) (tailE h vals n))).
    replace (addf (addf (fold_left addf ts (z 0)) (tailC h vals n)) (tailD h vals n)) with (fold_left addf (ts ++ [tailC h vals n; tailD h vals n]) (z 0)) by (rewrite fold_left_app; reflexivity).
    destruct (sum_T (ts ++ [tailC h vals n; tailD h vals n])) as (S1 & S2 & S3).
    { apply Forall_app. split; [exact Ht|]. repeat (apply Forall_cons || apply Forall_nil); assumption. }
    { rewrite app_length, Lt. cbn [length]. unfold n in *. lia. }
    set (S := fold_left addf _ (z 0)) in *. destruct (Bd_sub S (tailE h vals n) 897 880 900 S1 (proj1 TE) ltac:(lia) ltac:(lia) ltac:(lia)) as (B & E). split; [exact B|].
    rewrite E. apply rnd_nonneg. destruct (simps_terms h vals (n - 2)) as [|t l] eqn:Es; [discriminate|]. specialize (TL t eq_refl). specialize (S3 t).
    assert (In t (ts ++ [tailC h vals n; tailD h vals n])).
    { apply in_or_app. left. unfold ts. apply in_flat_map. exists (Z.to_nat (n / 2) - 1)%nat. split; [apply in_seq; lia|].
      assert (Ei : (2 * Z.of_nat (Z.to_nat (n / 2) - 1) + 1)%Z = (n - 2)%Z).
      { pose proof (Z.div_mod n 2 ltac:(lia)) as D. rewrite Zplus_mod in Ee. assert (n mod 2 = 1)%Z by (pose proof (Z.mod_pos_bound n 2 ltac:(lia)); destruct (Z.eq_dec (n mod 2) 0) as [K|K]; [rewrite K in Ee; discriminate|lia]). lia. }
      rewrite Ei, Es. now left. }
    specialize (S3 H). lra.
  - destruct (sum_T ts Ht) as (S1 & S2 & _); [rewrite Lt; unfold n in *; lia|]. split; [eapply Bd_mono; [exact S1|lia]|exact S2].
Qed.
Lemma trapz_ok : Bd (integrate_fast grid vals) 900 /\ 0 <= val (integrate_fast grid vals).
Proof.
  set (term := fun i => divf (mulf (subf (at_ grid (Z.of_nat i + 1)) (at_ grid (Z.of_nat i))) (addf (at_ vals (Z.of_nat i)) (at_ vals (Z.of_nat i + 1)))) (z 2)).
  assert (E : integrate_fast grid vals = fold_left addf (map term (seq 0 (length grid - 1))) (z 0)) by (rewrite fold_map; reflexivity). rewrite E.
  destruct (sum_T (map term (seq 0 (length grid - 1)))) as (S1 & S2 & _); [|rewrite map_length, seq_length; lia|split; [eapply Bd_mono; [exact S1|lia]|exact S2]].
  apply Forall_map, Forall_forall. intros i Hi. apply in_seq in Hi. unfold term. replace (Z.of_nat i + 1)%Z with (Z.of_nat (S i)) by lia. rewrite !(at_nth grid).
  pose proof (Hg i ltac:(lia)) as G. set (w := subf _ _) in *. pose proof (vals_at vals Hv (Z.of_nat i)) as (B1 & P1). pose proof (vals_at vals Hv (Z.of_nat (S i))) as (B2 & P2).
  destruct (Bd_add _ _ 650 650 651 B1 B2 ltac:(lia) ltac:(lia) ltac:(lia)) as (BA & EA). set (s := addf _ _) in *. pose proof (eta_pos eta Heta) as P.
  assert (Bw : Bd w 42) by (apply (near_Bd w _ _ eta 2 40 42 G); [lra|apply Heta|change (b2 2) with 4; lra|lia]). assert (Pw : 0 <= val w) by (destruct G as (_ & G); lra).
  destruct (Bd_mul w s 42 651 693 Bw BA ltac:(lia) ltac:(lia)) as (BM & EM). destruct (near_Z 2 ltac:(lia)) as (O2 & L2 & U2). 
  destruct (Bd_div (mulf w s) (z 2) 693 0 880 BM O2) as (BD & ED); [change (b2 0) with 1; lra|lia|lia|]. split; [exact BD|]. rewrite ED, EM, EA.
  apply rnd_nonneg. apply Rmult_le_pos; [apply rnd_nonneg, Rmult_le_pos; [exact Pw|apply rnd_nonneg; lra]|left; apply Rinv_0_lt_compat; lra].
Qed.
End Whole.
