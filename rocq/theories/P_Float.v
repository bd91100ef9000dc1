(** Binary64 operations of the standard library's SpecFloat as correctly rounded real operations (through Flocq), and
    error-free transformation of kahan_add. *)
From Coq Require Import ZArith Bool Reals Lra Lia.
From Coq Require Import Floats.SpecFloat.
From Flocq Require Import Core BinarySingleNaN Pff2Flocq.
From Verif Require Import Base M_Quad.
Local Open Scope R_scope.

#[local] Instance Hprec : FLX.Prec_gt_0 b64_prec := eq_refl _.
#[local] Instance Hmax : Prec_lt_emax b64_prec b64_emax := eq_refl _.

Notation val := (SF2R radix2).
Notation rnd := (round radix2 (FLT_exp (-1074) b64_prec) (Znearest (fun x => negb (Z.even x)))).
Notation fmt := (generic_format radix2 (FLT_exp (-1074) b64_prec)).
Notation Valid x := (valid_binary b64_prec b64_emax x = true).
Notation Fin x := (is_finite_SF x = true).

Lemma rne_equiv s m l : round_nearest_even m l = choice_mode mode_NE s m l.
Proof. case l; [reflexivity|intro c]. case c; [|reflexivity..]. now simpl; unfold Round.cond_incr; case Z.even. Qed.
Lemma bra_equiv sx mx ex lx :
  SpecFloat.binary_round_aux b64_prec b64_emax sx mx ex lx = binary_round_aux b64_prec b64_emax mode_NE sx mx ex lx.
Proof.
  unfold SpecFloat.binary_round_aux, binary_round_aux. set (mrse' := shr_fexp _ _ _). case mrse'; intros mrs' e'; simpl.
  now rewrite (rne_equiv sx).
Qed.
Lemma br_equiv s m e : SpecFloat.binary_round b64_prec b64_emax s m e = binary_round b64_prec b64_emax mode_NE s m e.
Proof. unfold SpecFloat.binary_round, binary_round, shl_align_fexp. set (mez := shl_align _ _ _); case mez as [mz ez]. apply bra_equiv. Qed.
Lemma bn_equiv m e z : SpecFloat.binary_normalize b64_prec b64_emax m e z
  = B2SF (binary_normalize b64_prec b64_emax Hprec Hmax mode_NE m e z).
Proof. case m as [|p|p]; [now simpl| |]; simpl; rewrite B2SF_SF2B; apply br_equiv. Qed.
Lemma add_equiv (x y : binary_float b64_prec b64_emax) : SFadd b64_prec b64_emax (B2SF x) (B2SF y) = B2SF (Bplus mode_NE x y).
Proof.
  case x as [sx|sx| |sx mx ex Bx]; case y as [sy|sy| |sy my ey By]; [now (trivial || simpl; case Bool.eqb)..|]. apply bn_equiv.
Qed.
Lemma sub_equiv (x y : binary_float b64_prec b64_emax) : SFsub b64_prec b64_emax (B2SF x) (B2SF y) = B2SF (Bminus mode_NE x y).
Proof.
  case x as [sx|sx| |sx mx ex Bx]; case y as [sy|sy| |sy my ey By]; [now (trivial || simpl; case Bool.eqb)..|].
  simpl. unfold Zminus. rewrite <- cond_Zopp_negb. apply bn_equiv.
Qed.

Lemma valid_fmt x : Valid x -> fmt (val x).
Proof. intros H. rewrite <- (B2R_SF2B b64_prec b64_emax x H). apply (generic_format_B2R b64_prec b64_emax). Qed.
Lemma val_lt x : Valid x -> Rabs (val x) < bpow radix2 1024.
Proof. intros H. rewrite <- (B2R_SF2B b64_prec b64_emax x H). apply (abs_B2R_lt_emax b64_prec b64_emax). Qed.

(** Addition and subtraction: the result is finite exactly when the rounded real result is in range, and is then that value. *)
Lemma add_spec x y : Valid x -> Valid y -> Fin x -> Fin y ->
  Valid (SFadd b64_prec b64_emax x y) /\
  (Rabs (rnd (val x + val y)) < bpow radix2 1024 ->
     Fin (SFadd b64_prec b64_emax x y) /\ val (SFadd b64_prec b64_emax x y) = rnd (val x + val y)) /\
  (Fin (SFadd b64_prec b64_emax x y) -> Rabs (rnd (val x + val y)) < bpow radix2 1024).
Proof.
  intros Vx Vy Fx Fy. pose proof (add_equiv (SF2B x Vx) (SF2B y Vy)) as E. rewrite !B2SF_SF2B in E. rewrite E.
  rewrite is_finite_SF_B2SF, SF2R_B2SF.
  pose proof (Bplus_correct b64_prec b64_emax _ _ mode_NE (SF2B x Vx) (SF2B y Vy)) as C.
  rewrite !is_finite_SF2B in C. specialize (C Fx Fy). rewrite !B2R_SF2B in C.
  split; [apply valid_binary_B2SF|]. change (round radix2 (SpecFloat.fexp b64_prec b64_emax) (round_mode mode_NE)) with rnd in C.
  destruct (Rlt_bool_spec (Rabs (rnd (val x + val y))) (bpow radix2 1024)) as [H|H].
  - rewrite Rlt_bool_true in C by exact H. destruct C as (C1 & C2 & _). tauto.
  - rewrite Rlt_bool_false in C by exact H. destruct C as (C1 & _). split; [lra|]. intros Hf.
    rewrite <- is_finite_SF_B2SF, C1 in Hf. discriminate Hf.
Qed.
Lemma sub_spec x y : Valid x -> Valid y -> Fin x -> Fin y ->
  Valid (SFsub b64_prec b64_emax x y) /\
  (Rabs (rnd (val x - val y)) < bpow radix2 1024 ->
     Fin (SFsub b64_prec b64_emax x y) /\ val (SFsub b64_prec b64_emax x y) = rnd (val x - val y)) /\
  (Fin (SFsub b64_prec b64_emax x y) -> Rabs (rnd (val x - val y)) < bpow radix2 1024).
Proof.
  intros Vx Vy Fx Fy. pose proof (sub_equiv (SF2B x Vx) (SF2B y Vy)) as E. rewrite !B2SF_SF2B in E. rewrite E.
  rewrite is_finite_SF_B2SF, SF2R_B2SF.
  pose proof (Bminus_correct b64_prec b64_emax _ _ mode_NE (SF2B x Vx) (SF2B y Vy)) as C.
  rewrite !is_finite_SF2B in C. specialize (C Fx Fy). rewrite !B2R_SF2B in C.
  split; [apply valid_binary_B2SF|]. change (round radix2 (SpecFloat.fexp b64_prec b64_emax) (round_mode mode_NE)) with rnd in C.
  destruct (Rlt_bool_spec (Rabs (rnd (val x - val y))) (bpow radix2 1024)) as [H|H].
  - rewrite Rlt_bool_true in C by exact H. destruct C as (C1 & C2 & _). tauto.
  - rewrite Rlt_bool_false in C by exact H. destruct C as (C1 & _). split; [lra|]. intros Hf.
    rewrite <- is_finite_SF_B2SF, C1 in Hf. discriminate Hf.
Qed.

Lemma choice_sym x : (fun x => negb (Z.even x)) x = negb ((fun x => negb (Z.even x)) (- (x + 1))%Z).
Proof. cbn beta. rewrite negb_involutive, Z.even_opp, Z.even_add. now destruct (Z.even x). Qed.
Lemma rnd_opp z : rnd (- z) = - rnd z.
Proof. apply (round_N_opp_sym (-1074) b64_prec). intros x. apply choice_sym. Qed.
Lemma rnd_fmt z : fmt z -> rnd z = z.
Proof. intros H. apply round_generic; [apply valid_rnd_N|exact H]. Qed.
Lemma rnd_le x y : x <= y -> rnd x <= rnd y.
Proof. apply round_le; [apply FLT_exp_valid; reflexivity|apply valid_rnd_N]. Qed.
Lemma rnd_abs_le z w : fmt w -> Rabs z <= w -> Rabs (rnd z) <= w.
Proof.
  intros Hw Hz. apply Rabs_le. apply Rabs_le_inv in Hz as (H1 & H2). split.
  - rewrite <- (rnd_fmt (- w)); [now apply rnd_le|now apply generic_format_opp].
  - rewrite <- (rnd_fmt w Hw). now apply rnd_le.
Qed.
(** |a - x| is at most |a| or |x| when a rounds x + y and |y| <= |x|. *)
Lemma fast_diff x y : fmt x -> Rabs y <= Rabs x -> Rabs (rnd (x + y) - x) <= Rmax (Rabs (rnd (x + y))) (Rabs x).
Proof.
  intros Hx Hy. pose proof (generic_format_0 radix2 (FLT_exp (-1074) b64_prec)) as F0.
  pose proof (Rmax_l (Rabs (rnd (x + y))) (Rabs x)). pose proof (Rmax_r (Rabs (rnd (x + y))) (Rabs x)).
  destruct (Rle_dec 0 x) as [Px|Px].
  - assert (0 <= rnd (x + y)). { rewrite <- (rnd_fmt 0 F0). apply rnd_le. rewrite (Rabs_pos_eq x Px) in Hy. apply Rabs_le_inv in Hy. lra. }
    rewrite (Rabs_pos_eq x) in * by lra. rewrite (Rabs_pos_eq (rnd (x + y))) in * by lra. apply Rabs_le. lra.
  - assert (rnd (x + y) <= 0). { rewrite <- (rnd_fmt 0 F0). apply rnd_le. rewrite (Rabs_left x) in Hy by lra. apply Rabs_le_inv in Hy. lra. }
    rewrite (Rabs_left1 x) in * by lra. rewrite (Rabs_left1 (rnd (x + y))) in * by lra. apply Rabs_le. lra.
Qed.

Lemma kahan_exact s u c : Valid s -> Valid u -> Valid c -> Fin s -> Fin u -> Fin c ->
  let r := SFsub b64_prec b64_emax u c in
  let sum := fst (@kahan_add b64 Num_b64 s u c) in let carry := snd (@kahan_add b64 Num_b64 s u c) in
  Fin r -> Fin sum -> Rabs (val r) <= Rabs (val s) ->
  Valid sum /\ Valid carry /\ Fin carry /\ val sum - val carry = val s + val r /\ val r = rnd (val u - val c) /\ val sum = rnd (val s + val r).
Proof.
  intros Vs Vu Vc Fs Fu Fc r sum carry Fr Fsum Hle.
  destruct (sub_spec u c Vu Vc Fu Fc) as (Vr & Er & Hr). fold r in Vr, Er, Hr. specialize (Er (Hr Fr)) as (_ & Er).
  assert (Esum : sum = SFadd b64_prec b64_emax s r) by reflexivity.
  assert (Ecarry : carry = SFsub b64_prec b64_emax (SFsub b64_prec b64_emax sum s) r) by reflexivity. clearbody r sum carry.
  destruct (add_spec s r Vs Vr Fs Fr) as (Va & Ea & Ha). rewrite <- Esum in Va, Ea, Ha. specialize (Ea (Ha Fsum)) as (_ & Ea).
  pose proof (valid_fmt s Vs) as Gs. pose proof (valid_fmt r Vr) as Gr. pose proof (valid_fmt sum Va) as Ga.
  pose proof (val_lt s Vs) as Ls. pose proof (val_lt r Vr) as Lr. pose proof (val_lt sum Va) as La.
  (* the difference *)
  destruct (sub_spec sum s Va Vs Fsum Fs) as (Vt & Et & _). set (t := SFsub b64_prec b64_emax sum s) in *.
  assert (Ft : Fin t /\ val t = rnd (val sum - val s)).
  { apply Et. pose proof (fast_diff (val s) (val r) Gs Hle) as D. rewrite <- Ea in D.
    eapply Rle_lt_trans; [apply rnd_abs_le; [|exact D]|].
    - unfold Rmax. destruct (Rle_dec _ _); now apply generic_format_abs.
    - unfold Rmax. now destruct (Rle_dec _ _). }
  destruct Ft as (Ft & Evt). clearbody t.
  (* Fast2Sum *)
  pose proof (Fast2Sum_correct (-1074) b64_prec (fun x => negb (Z.even x)) ltac:(reflexivity) ltac:(lia) (fun x => choice_sym x)
    (val s) (val r) Gs Gr Hle) as FS.
  cbv zeta in FS. rewrite <- Ea in FS.
  assert (Eb : rnd (val r + rnd (val s - val sum)) = - rnd (val t - val r)).
  { rewrite <- rnd_opp. f_equal. rewrite Evt. replace (val s - val sum) with (- (val sum - val s)) by ring. rewrite rnd_opp. ring. }
  rewrite Eb in FS.
  destruct (sub_spec t r Vt Vr Ft Fr) as (Vcy & Ecy & _). rewrite <- Ecarry in Vcy, Ecy.
  assert (Fcy : Fin carry /\ val carry = rnd (val t - val r)).
  { apply Ecy. replace (rnd (val t - val r)) with (val sum - (val s + val r)) by lra.
    (* nearest: no further from s + r than s is *)
    pose proof (round_N_pt radix2 (FLT_exp (-1074) b64_prec) (fun x => negb (Z.even x)) (val s + val r)) as (_ & NN).
    specialize (NN (val s) Gs). rewrite <- Ea in NN. replace (val s - (val s + val r)) with (- val r) in NN by ring. rewrite Rabs_Ropp in NN. lra. }
  destruct Fcy as (Fcy & Ecv). repeat split; auto. rewrite Ecv. lra.
Qed.
