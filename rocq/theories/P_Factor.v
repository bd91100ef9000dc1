(** Quadratic forms of A A^T in terms of the eigenvalues of A A^T or A^T A. *)
From Coq Require Import List ZArith Bool Arith Lia Reals Lra.
From Coquelicot Require Import Coquelicot.
From Verif Require Import Base S_Generate S_Normal S_Rotate S_Cov S_Factor P_TrimStat P_Cov P_Generate P_Rotate T_Rotate P_Wick P_Wishart P_MPLoop T_MPWide P_Spectral4 P_Close.
Import ListNotations.
Local Open Scope R_scope.
Local Notation length := List.length.
Local Notation total := S_Rotate.total.

Section Gram.
Variables (m r : nat) (D : nat -> nat -> R) (lam : list R).
Hypothesis SP : Spectrum m (fun i j => SumTo r (fun k => D i k * D j k)) lam.
(** A^T w. *)
Definition mix (w : nat -> R) (k : nat) : R := SumTo m (fun i => D i k * w i).
Lemma mix_form w : SumTo r (fun k => mix w k * mix w k) = SumTo m (fun i => SumTo m (fun j => w i * w j * SumTo r (fun k => D i k * D j k))).
Proof.
  unfold mix. rewrite (SumTo_ext r _ (fun k => SumTo m (fun i => SumTo m (fun j => D i k * w i * (D j k * w j))))) by (intros; apply SumTo_product).
  rewrite SumTo_swap. apply SumTo_ext. intros i _. rewrite SumTo_swap. apply SumTo_ext. intros j _. rewrite <- SumTo_scale. apply SumTo_ext. intros; ring.
Qed.
Lemma gram_length : length lam = m.
Proof. apply SP. Qed.
Lemma gram_pairs : exists q, Orthogonal m q /\ (forall l, (l < m)%nat -> SumTo r (fun k => mix (fun i => q i l) k * mix (fun i => q i l) k) = nth l lam 0) /\
  (forall i l, (i < m)%nat -> (l < m)%nat -> SumTo m (fun j => SumTo r (fun k => D i k * D j k) * q j l) = nth l lam 0 * q i l) /\
  forall w, SumTo r (fun k => mix w k * mix w k) = SumTo m (fun l => nth l lam 0 * (SumTo m (fun i => w i * q i l) * SumTo m (fun i => w i * q i l))).
Proof.
  pose proof SP as (_ & q & Hq & E).
  assert (forall w, SumTo r (fun k => mix w k * mix w k) = SumTo m (fun l => nth l lam 0 * (SumTo m (fun i => w i * q i l) * SumTo m (fun i => w i * q i l)))) as F.
  { intro w. rewrite mix_form. rewrite (SumTo_ext m _ (fun i => SumTo m (fun l => SumTo m (fun j => nth l lam 0 * (w i * q i l * (w j * q j l)))))).
    - rewrite SumTo_swap. apply SumTo_ext. intros l _. rewrite (SumTo_ext m _ (fun i => nth l lam 0 * SumTo m (fun j => w i * q i l * (w j * q j l)))) by (intros; apply SumTo_scale). rewrite SumTo_scale, <- SumTo_product. ring.
    - intros i Hi. rewrite SumTo_swap. apply SumTo_ext. intros j Hj. rewrite (E i j Hi Hj), turn_diagonal, <- SumTo_scale. apply SumTo_ext. intros; ring. }
  exists q. split; [exact Hq|]. split; [|split; [|exact F]].
  - intros l Hl. rewrite F. rewrite (SumTo_ext m _ (fun k => if Nat.eqb k l then nth k lam 0 else 0)); [exact (SumTo_delta m l (fun k => nth k lam 0) Hl)|].
    intros k Hk. rewrite (Hq l k Hl Hk), (Nat.eqb_sym k l). destruct (Nat.eqb l k); ring.
  - intros i l Hi Hl. rewrite (SumTo_ext m _ (fun j => SumTo m (fun k => nth k lam 0 * q i k * (q j k * q j l)))).
    + rewrite SumTo_swap. rewrite (SumTo_ext m _ (fun k => if Nat.eqb k l then nth k lam 0 * q i k else 0)); [exact (SumTo_delta m l (fun k => nth k lam 0 * q i k) Hl)|].
      intros k Hk. rewrite SumTo_scale, (Hq k l Hk Hl). destruct (Nat.eqb k l); ring.
    + intros j Hj. rewrite (E i j Hi Hj), turn_diagonal, Rmult_comm, <- SumTo_scale. apply SumTo_ext. intros; ring.
Qed.
Lemma gram_nonneg v : In v lam -> 0 <= v.
Proof.
  intro Hv. destruct (In_nth lam v 0 Hv) as (l & Hl & <-). rewrite gram_length in Hl. destruct gram_pairs as (q & _ & H & _). rewrite <- (H l Hl). apply SumTo_pos. intros; apply square_pos.
Qed.
Lemma rayleigh b w : (forall v, In v lam -> v <= b) -> SumTo r (fun k => mix w k * mix w k) <= b * SumTo m (fun i => w i * w i).
Proof.
  intro Hb. destruct gram_pairs as (q & Hq & _ & _ & F). rewrite F. rewrite <- (parseval m q w Hq), <- SumTo_scale. apply SumTo_le. intros l Hl. apply Rmult_le_compat_r; [apply square_pos|]. apply Hb, nth_In. now rewrite gram_length.
Qed.
Lemma gram_total : total lam = SumTo m (fun i => SumTo r (fun k => D i k * D i k)).
Proof.
  pose proof SP as (L & q & Hq & E). rewrite (SumTo_ext m _ (fun i => SumTo m (fun l => nth l lam 0 * (q i l * q i l)))) by (intros i Hi; rewrite (E i i Hi Hi), turn_diagonal; apply SumTo_ext; intros; ring).
  rewrite SumTo_swap. rewrite <- (map_id lam) at 1. rewrite total_map_nth, L. apply SumTo_ext. intros l Hl. rewrite SumTo_scale, (Hq l l Hl Hl), Nat.eqb_refl. ring.
Qed.
(** Every eigenvalue is the form of some weights. *)
Lemma gram_attained v : In v lam -> exists w, SumTo m (fun i => w i * w i) = 1 /\ SumTo r (fun k => mix w k * mix w k) = v.
Proof.
  intro Hv. destruct (In_nth lam v 0 Hv) as (l & Hl & <-). rewrite gram_length in Hl. destruct gram_pairs as (q & Hq & H & _). exists (fun i => q i l). split; [|exact (H l Hl)]. rewrite (Hq l l Hl Hl). now rewrite Nat.eqb_refl.
Qed.
(** The same for the form of A^T A, whose positive eigenvalues are those of A A^T. *)
Definition back (u : nat -> R) (i : nat) : R := SumTo r (fun k => D i k * u k).
Lemma back_mix u w : SumTo m (fun i => w i * back u i) = SumTo r (fun k => mix w k * u k).
Proof.
  unfold back, mix. rewrite (SumTo_ext m _ (fun i => SumTo r (fun k => w i * (D i k * u k)))) by (intros; symmetry; apply SumTo_scale). rewrite SumTo_swap. apply SumTo_ext. intros k _. rewrite (SumTo_ext m _ (fun i => u k * (D i k * w i))) by (intros; ring). rewrite SumTo_scale. ring.
Qed.
Lemma rayleigh_back b u : 0 <= b -> (forall v, In v lam -> v <= b) -> SumTo m (fun i => back u i * back u i) <= b * SumTo r (fun k => u k * u k).
Proof.
  intros Hb0 Hb. set (S := SumTo m (fun i => back u i * back u i)). set (W := SumTo r (fun k => u k * u k)).
  assert (0 <= S) as P1 by (apply SumTo_pos; intros; apply square_pos). assert (0 <= W) as P2 by (apply SumTo_pos; intros; apply square_pos).
  pose proof (rayleigh b (back u) Hb) as Ra. fold S in Ra. set (X := SumTo r (fun k => mix (back u) k * mix (back u) k)) in *. assert (0 <= X) as P3 by (apply SumTo_pos; intros; apply square_pos).
  assert (S * S <= X * W) as C. { pose proof (Cauchy (mix (back u)) u r) as C. rewrite !Sum_SumTo in C. fold X W in C. rewrite <- (back_mix u (back u)) in C. fold S in C. cbn [pow] in C. lra. }
  destruct (Rle_dec S (b * W)) as [|N]; [assumption|exfalso]. assert (0 <= b * W) by (apply Rmult_le_pos; lra). assert (b * W < S) as L by lra. clear N.
  assert (X * W <= b * S * W) as C1 by (apply Rmult_le_compat_r; lra). assert (0 < S) as S0 by lra. assert (S * (b * W) < S * S) by (apply Rmult_lt_compat_l; lra). lra.
Qed.
Lemma back_attained v : In v lam -> 0 < v -> exists u, SumTo r (fun k => u k * u k) = v /\ SumTo m (fun i => back u i * back u i) = v * SumTo r (fun k => u k * u k).
Proof.
  intros Hv Hp. destruct (In_nth lam v 0 Hv) as (l & Hl & E). rewrite gram_length in Hl. destruct gram_pairs as (q & Hq & H & P & _). exists (mix (fun i => q i l)). rewrite (H l Hl), E. split; [reflexivity|].
  rewrite (SumTo_ext m _ (fun i => v * v * (q i l * q i l))).
  - rewrite SumTo_scale, (Hq l l Hl Hl), Nat.eqb_refl. ring.
  - intros i Hi. assert (back (mix (fun i => q i l)) i = v * q i l) as ->; [|ring]. rewrite <- E, <- (P i l Hi Hl). unfold back, mix.
    rewrite (SumTo_ext r _ (fun k => SumTo m (fun j => D i k * (D j k * q j l)))) by (intros; symmetry; apply SumTo_scale). rewrite SumTo_swap. apply SumTo_ext. intros j _. rewrite (SumTo_ext r _ (fun k => q j l * (D i k * D j k))) by (intros; ring). rewrite SumTo_scale. ring.
Qed.
End Gram.

(** A square A whose rows add up to zero leaves an eigenvalue zero. *)
Lemma gram_null m D lam : (0 < m)%nat -> Spectrum m (fun i j => SumTo m (fun k => D i k * D j k)) lam -> (forall i, (i < m)%nat -> SumTo m (D i) = 0) -> In 0 lam.
Proof.
  intros Hm SP Hz. destruct (in_dec Req_EM_T 0 lam) as [I|I]; [exact I|exfalso]. pose proof (gram_length m m D lam SP) as L. destruct (spectrum_pairs _ _ _ SP) as (q & Hq & He). pose proof (turned_dot m m D q lam Hq He) as TD.
  assert (forall l, (l < m)%nat -> 0 < nth l lam 0) as P. { intros l Hl. assert (In (nth l lam 0) lam) as Hi by (apply nth_In; lia). destruct (gram_nonneg m m D lam SP _ Hi) as [|E]; [assumption|]. rewrite <- E in Hi. contradiction. }
  assert (Orthogonal m (fun k l => turned m D q l k / sqrt (nth l lam 0))) as Ho.
  { intros k l Hk Hl. pose proof (sqrt_lt_R0 _ (P k Hk)) as R1. pose proof (sqrt_lt_R0 _ (P l Hl)) as R2. rewrite (SumTo_ext m _ (fun i => / sqrt (nth k lam 0) * / sqrt (nth l lam 0) * (turned m D q k i * turned m D q l i))) by (intros; field; lra).
    rewrite SumTo_scale, (TD k l Hk Hl). destruct (Nat.eqb_spec k l) as [->|]; [|ring]. rewrite <- (sqrt_sqrt (nth l lam 0)) at 3 by (apply Rlt_le, P, Hl). field. lra. }
  pose proof (parseval m _ (fun _ => 1) Ho) as PV. cbv beta in PV. rewrite (SumTo_0 m (fun k => _ * _)) in PV.
  - rewrite SumTo_const in PV. assert (0 < INR m) by now apply lt_0_INR. lra.
  - intros l Hl. assert (SumTo m (fun i => 1 * (turned m D q l i / sqrt (nth l lam 0))) = 0) as ->; [|ring].
    rewrite (SumTo_ext m _ (fun i => / sqrt (nth l lam 0) * turned m D q l i)) by (intros; unfold Rdiv; ring). rewrite SumTo_scale. unfold turned. rewrite SumTo_swap. rewrite (SumTo_0 m); [ring|]. intros i Hi.
    rewrite (SumTo_ext m _ (fun k => q i l * D i k)) by (intros; ring). rewrite SumTo_scale. change (SumTo m (fun k => D i k)) with (SumTo m (D i)). rewrite (Hz i Hi). ring.
Qed.

(** Counting large values of a list of non-negative numbers. *)
Lemma count_large b (l : list R) : 0 <= b -> (forall v, In v l -> 0 <= v) -> let k := INR (length (filter (fun v => nlt b v) l)) in b * k <= total l /\ (0 < k -> b * k < total l).
Proof.
  intros Hb. induction l as [|x l IH]; intro H; [cbn; split; lra|]. specialize (IH ltac:(intros; apply H; now right)). cbv zeta in IH. pose proof (H x (or_introl eq_refl)) as Hx. change (total (x :: l)) with (x + total l). cbn [filter].
  destruct (nlt b x) eqn:E; [apply nlt_R in E|apply nlt_R_false in E].
  - cbn [length]. rewrite S_INR. cbv zeta. lra.
  - cbv zeta. destruct IH as [I1 I2]. split; [lra|]. intro K. specialize (I2 K). lra.
Qed.
