(** Householder's reduction of a random symmetric matrix to a tridiagonal one, and what it says about averages. *)
From Coq Require Import List ZArith Bool Arith Lia Reals Lra.
From Coquelicot Require Import Coquelicot.
From Verif Require Import Base S_Generate S_Normal S_Rotate P_Generate P_Surmise P_Rotate T_Rotate P_Moments P_Wishart P_Fourth P_Stein P_Wick.
Import ListNotations.
Local Open Scope R_scope.
Local Notation length := List.length.

Fixpoint tsize (n : nat) : nat := match n with O => O | S m => (S m + tsize m)%nat end.
Lemma tsize_eq n : tsize n = (n + n * (n - 1) / 2)%nat.
Proof.
  assert (forall m, m * (m - 1) / 2 + m = S m * m / 2)%nat as H.
  { intro m. replace (S m * m)%nat with (m * (m - 1) + m * 2)%nat by (destruct m as [|m]; [reflexivity|]; replace (S m - 1)%nat with m by lia; nia). rewrite Nat.div_add by lia. reflexivity. }
  induction n as [|m IH]; [reflexivity|]. cbn [tsize]. rewrite IH. replace (S m - 1)%nat with m by lia. rewrite <- H. lia.
Qed.
(** A matrix with one more row and column. *)
Definition bord (a : R) (v : nat -> R) (B : nat -> nat -> R) (i j : nat) : R :=
  match i, j with O, O => a | O, S j' => v j' | S i', O => v i' | S i', S j' => B i' j' end.
(** The full symmetric matrix and the tridiagonal matrix of the same numbers: the diagonal entry, the rest of the first row, the smaller matrix. *)
Fixpoint Full (n : nat) (z : list R) : nat -> nat -> R :=
  match n with O => fun _ _ => 0 | S m => bord (nth 0 z 0) (fun k => nth (S k) z 0 / sqrt 2) (Full m (skipn (S m) z)) end.
Definition first (r : R) (k : nat) : R := r * kron k 0.
Fixpoint Tri (n : nat) (z : list R) : nat -> nat -> R :=
  match n with O => fun _ _ => 0 | S m => bord (nth 0 z 0) (first (sqrt (squares (firstn m (tl z))) / sqrt 2)) (Tri m (skipn (S m) z)) end.
Lemma bord_symmetric m a v B : Symmetric m B -> Symmetric (S m) (bord a v B).
Proof. intros H [|i] [|j] Hi Hj; cbn; try reflexivity. apply H; lia. Qed.
Lemma Full_symmetric n : forall z, Symmetric n (Full n z).
Proof. induction n as [|n IH]; intro z; [intros i j Hi; lia|]. cbn [Full]. now apply bord_symmetric. Qed.

(** ** The covariances of the full matrix *)
Definition half_cov (i j a b : nat) : R := (kron i a * kron j b + kron i b * kron j a) / 2.
Fixpoint fu (n : nat) (i j p : nat) : R :=
  match n with
  | O => 0
  | S m => match i, j with
           | O, O => kron 0 p
           | O, S j' => kron (S j') p / sqrt 2
           | S i', O => kron (S i') p / sqrt 2
           | S i', S j' => if (p <? S m)%nat then 0 else fu m i' j' (p - S m)
           end
  end.
Lemma nth_skip (a p : nat) (l : list R) : nth p (skipn a l) 0 = nth (a + p) l 0.
Proof. revert a. induction l as [|x l IH]; intros [|a]; cbn; try reflexivity; [destruct p; reflexivity|]. apply IH. Qed.
Lemma kron_scaled k q c (f : nat -> R) : (q < k)%nat -> SumTo k (fun p => kron q p / c * f p) = f q / c.
Proof. intro H. rewrite (SumTo_ext k _ (fun p => / c * (kron q p * f p))) by (intros; unfold Rdiv; ring). rewrite SumTo_scale, kron_pick by exact H. unfold Rdiv. ring. Qed.
Lemma late_sum m (g : nat -> R) (f : nat -> R) : SumTo (S m + tsize m) (fun p => (if (p <? S m)%nat then 0 else g (p - S m)%nat) * f p) = SumTo (tsize m) (fun p => g p * f (S m + p)%nat).
Proof.
  rewrite SumTo_split. rewrite SumTo_0; [rewrite Rplus_0_l|].
  - apply SumTo_ext. intros p _. destruct (Nat.ltb_spec (S m + p) (S m)); [lia|]. do 2 f_equal. lia.
  - intros p Hp. destruct (Nat.ltb_spec p (S m)); [ring|lia].
Qed.
Lemma full_lin n : forall z i j, (i < n)%nat -> (j < n)%nat -> Full n z i j = lin (tsize n) (fu n i j) z.
Proof.
  induction n as [|m IH]; intros z i j Hi Hj; [lia|]. unfold lin. cbn [Full tsize]. destruct i as [|i], j as [|j]; cbn [bord fu].
  - symmetry. apply (kron_pick _ 0 (fun p => nth p z 0)). lia.
  - symmetry. apply (kron_scaled _ (S j) (sqrt 2) (fun p => nth p z 0)). lia.
  - symmetry. apply (kron_scaled _ (S i) (sqrt 2) (fun p => nth p z 0)). lia.
  - rewrite IH by lia. rewrite (late_sum m (fu m i j) (fun p => nth p z 0)). unfold lin. apply SumTo_ext. intros p _. now rewrite nth_skip.
Qed.
Lemma fu_late m i j p : (p < S m)%nat -> fu (S m) (S i) (S j) p = 0.
Proof. intro H. cbn [fu]. destruct (Nat.ltb_spec p (S m)); [reflexivity|lia]. Qed.
Lemma kron_0S p : kron 0 (S p) = 0. Proof. reflexivity. Qed.
Lemma kron_S0 p : kron (S p) 0 = 0. Proof. reflexivity. Qed.
Lemma kron_SS p q : kron (S p) (S q) = kron p q. Proof. reflexivity. Qed.
Lemma rdot_sym k u w : rdot k u w = rdot k w u.
Proof. apply SumTo_ext. intros; ring. Qed.
Lemma full_cov n : forall i j a b, (i < n)%nat -> (j < n)%nat -> (a < n)%nat -> (b < n)%nat -> rdot (tsize n) (fu n i j) (fu n a b) = half_cov i j a b.
Proof.
  induction n as [|m IH]; intros i j a b Hi Hj Ha Hb; [lia|].
  assert (forall q w, (q < S m)%nat -> rdot (tsize (S m)) (kron q) w = w q) as K1 by (intros q w Hq; apply kron_pick; cbn [tsize]; lia).
  assert (forall q w, (q < S m)%nat -> rdot (tsize (S m)) (fun p => kron q p / sqrt 2) w = w q / sqrt 2) as K2 by (intros q w Hq; apply kron_scaled; cbn [tsize]; lia).
  pose proof sqrt2_nz as N2. pose proof sqrt2_sq as S2.
  assert (forall x, x / sqrt 2 / sqrt 2 = x / 2) as D by (intro x; rewrite <- S2 at 3; field; exact N2).
  assert (forall q a b w, (q < S m)%nat -> rdot (tsize (S m)) w (fu (S m) (S a) (S b)) = rdot (tsize (S m)) (fu (S m) (S a) (S b)) w) as SY by (intros; apply rdot_sym).
  destruct i as [|i], j as [|j].
  - change (fu (S m) 0 0) with (kron 0). rewrite K1 by lia. destruct a as [|a], b as [|b]; [cbn|cbn|cbn|rewrite fu_late by lia; cbn]; unfold half_cov; rewrite ?kron_refl, ?kron_0S; try (unfold kron; cbn; lra).
  - change (fu (S m) 0 (S j)) with (fun p => kron (S j) p / sqrt 2). rewrite K2 by lia. destruct a as [|a], b as [|b]; [cbn [fu]|cbn [fu]|cbn [fu]|rewrite fu_late by lia]; unfold half_cov;
      rewrite ?(kron_sym 0 (S _)), ?kron_S0, ?kron_SS, ?kron_refl, ?(kron_sym (S j) (S _)), ?kron_SS; rewrite ?D; try (unfold kron; cbn; field; assumption); try lra.
    all: rewrite ?(kron_sym a j), ?(kron_sym b j); try lra.
  - change (fu (S m) (S i) 0) with (fun p => kron (S i) p / sqrt 2). rewrite K2 by lia. destruct a as [|a], b as [|b]; [cbn [fu]|cbn [fu]|cbn [fu]|rewrite fu_late by lia]; unfold half_cov;
      rewrite ?(kron_sym 0 (S _)), ?kron_S0, ?kron_SS, ?kron_refl, ?(kron_sym (S i) (S _)), ?kron_SS; rewrite ?D; try (unfold kron; cbn; field; assumption); try lra.
    all: rewrite ?(kron_sym a i), ?(kron_sym b i); try lra.
  - destruct a as [|a], b as [|b].
    + rewrite rdot_sym. change (fu (S m) 0 0) with (kron 0). rewrite K1, fu_late by lia. unfold half_cov. rewrite !kron_S0. lra.
    + rewrite rdot_sym. change (fu (S m) 0 (S b)) with (fun p => kron (S b) p / sqrt 2). rewrite K2, fu_late by lia. unfold half_cov. rewrite !kron_S0. lra.
    + rewrite rdot_sym. change (fu (S m) (S a) 0) with (fun p => kron (S a) p / sqrt 2). rewrite K2, fu_late by lia. unfold half_cov. rewrite !kron_S0. lra.
    + unfold rdot. cbn [tsize fu]. rewrite (late_sum m (fu m i j)). rewrite (SumTo_ext _ _ (fun p => fu m i j p * fu m a b p)).
      * fold (rdot (tsize m) (fu m i j) (fu m a b)). rewrite IH by lia. reflexivity.
      * intros p _. destruct (Nat.ltb_spec (S m + p) (S m)); [lia|]. do 2 f_equal. lia.
Qed.
Lemma full_jointly n : Jointly n (tsize n) (Full n) half_cov.
Proof. exists (fu n). split; [intros l i j _; apply full_lin|apply full_cov]. Qed.

(** ** Turning *)
Definition Reflection (n : nat) (q : nat -> nat -> R) : Prop := Orthogonal n q /\ forall i j, (i < n)%nat -> (j < n)%nat -> q i j = q j i.
Lemma reflection_rows n q i j : Reflection n q -> (i < n)%nat -> (j < n)%nat -> SumTo n (fun k => q i k * q j k) = kron i j.
Proof.
  intros [O S] Hi Hj. unfold kron. rewrite <- (O i j Hi Hj). apply SumTo_ext. intros k Hk. now rewrite (S i k), (S j k) by assumption.
Qed.
Lemma turn_dot k n q (u : nat -> nat -> nat -> R) w i j : SumTo k (fun p => turn n q (fun a b => u a b p) i j * w p) = turn n q (fun a b => SumTo k (fun p => u a b p * w p)) i j.
Proof.
  unfold turn. rewrite (SumTo_ext k _ (fun p => SumTo n (fun a => q i a * SumTo n (fun b => u a b p * w p * q j b)))).
  2:{ intros p _. rewrite Rmult_comm, <- SumTo_scale. apply SumTo_ext. intros a _.
      transitivity (q i a * (w p * SumTo n (fun l => u a l p * q j l))); [ring|]. f_equal. rewrite <- SumTo_scale. apply SumTo_ext. intros b _. ring. }
  rewrite SumTo_swap. apply SumTo_ext. intros a _. rewrite SumTo_scale. f_equal. rewrite SumTo_swap. apply SumTo_ext. intros b _.
  rewrite (SumTo_ext k _ (fun p => q j b * (u a b p * w p))) by (intros; ring). rewrite SumTo_scale. ring.
Qed.
Lemma turn_jointly n k M q : Reflection n q -> Jointly n k M half_cov -> Jointly n k (fun l => turn n q (M l)) half_cov.
Proof.
  intros HR (u & U1 & U2). exists (fun i j p => turn n q (fun a b => u a b p) i j). split.
  - intros l i j Hl Hi Hj. unfold lin. rewrite (turn_dot k n q u (fun p => nth p l 0)). apply turn_ext. intros a b Ha Hb. now rewrite U1.
  - intros i j a b Hi Hj Ha Hb. unfold rdot. rewrite (turn_dot k n q u (fun p => turn n q (fun a b => u a b p) a b) i j).
    transitivity (turn n q (fun c d => (q a c * q b d + q a d * q b c) / 2) i j).
    + apply turn_ext. intros c d Hc Hd. rewrite (SumTo_ext k _ (fun p => turn n q (fun a b => u a b p) a b * u c d p)) by (intros; ring).
      rewrite (turn_dot k n q u (u c d) a b). rewrite (turn_ext n q _ (fun e f => half_cov e f c d)) by (intros; now apply U2). unfold turn, half_cov.
      rewrite (SumTo_ext n _ (fun e => kron e c * (q a e * q b d / 2) + kron e d * (q a e * q b c / 2))).
      * rewrite SumTo_add. rewrite (SumTo_ext n (fun i0 => kron i0 c * _) (fun e => kron c e * (q a e * q b d / 2))) by (intros; now rewrite kron_sym).
        rewrite (SumTo_ext n (fun i0 => kron i0 d * _) (fun e => kron d e * (q a e * q b c / 2))) by (intros; now rewrite kron_sym). rewrite !kron_pick by assumption. lra.
      * intros e He. rewrite (SumTo_ext n _ (fun f => kron d f * (kron e c * q b f / 2) + kron c f * (kron e d * q b f / 2))) by (intros; rewrite (kron_sym d), (kron_sym c); field).
        rewrite SumTo_add, !kron_pick by assumption. field.
    + unfold turn. rewrite (SumTo_ext n _ (fun c => / 2 * (q i c * q a c) * kron j b + / 2 * (q i c * q b c) * kron j a)).
      * rewrite SumTo_add. rewrite (SumTo_ext n (fun i0 => / 2 * (q i i0 * q a i0) * kron j b) (fun c => kron j b / 2 * (q i c * q a c))) by (intros; field).
        rewrite (SumTo_ext n (fun i0 => / 2 * (q i i0 * q b i0) * kron j a) (fun c => kron j a / 2 * (q i c * q b c))) by (intros; field).
        rewrite !SumTo_scale, !(reflection_rows n q) by assumption. unfold half_cov. field.
      * intros c Hc. rewrite <- (reflection_rows n q j b HR Hj Hb), <- (reflection_rows n q j a HR Hj Ha), <- !SumTo_scale, <- SumTo_add. apply SumTo_ext. intros d Hd. field.
Qed.

(** ** Householder's reflection *)
Lemma sum_squares_pos m (w : nat -> R) : 0 <= SumTo m (fun k => w k * w k).
Proof. induction m as [|m IH]; cbn [SumTo]; [lra|]. pose proof (Rle_0_sqr (w m)) as P. unfold Rsqr in P. lra. Qed.
Lemma sum_squares_zero m (w : nat -> R) : SumTo m (fun k => w k * w k) = 0 -> forall k, (k < m)%nat -> w k = 0.
Proof.
  induction m as [|n IH]; intros T0 k Hk; [lia|]. cbn [SumTo] in T0. pose proof (sum_squares_pos n w). pose proof (Rle_0_sqr (w n)) as Q. unfold Rsqr in Q.
  destruct (Nat.eq_dec k n) as [->|N]; [apply Rsqr_0_uniq; unfold Rsqr; lra|]. apply IH; [lra|lia].
Qed.
Lemma reflect_exists m (v : nat -> R) : (0 < m)%nat -> exists q, Reflection m q /\ forall i, (i < m)%nat -> SumTo m (fun k => q i k * v k) = first (sqrt (SumTo m (fun k => v k * v k))) i.
Proof.
  intro Hm. set (r := sqrt (SumTo m (fun k => v k * v k))). set (w := fun k => v k - first r k). set (t := SumTo m (fun k => w k * w k)).
  assert (r * r = SumTo m (fun k => v k * v k)) as Hr.
  { apply sqrt_sqrt, sum_squares_pos. }
  assert (forall f : nat -> R, SumTo m (fun k => first r k * f k) = r * f O) as HF.
  { intro f. unfold first. rewrite (SumTo_ext m _ (fun k => kron 0 k * (r * f k))) by (intros; rewrite (kron_sym 0); ring). rewrite kron_pick by exact Hm. reflexivity. }
  assert (t = 2 * SumTo m (fun k => w k * v k)) as Ht.
  { unfold t. assert (SumTo m (fun k => w k * v k) = r * r - r * v O) as E1.
    { unfold w. rewrite (SumTo_ext m _ (fun k => v k * v k + -1 * (first r k * v k))) by (intros; ring). rewrite SumTo_add, SumTo_scale, HF, Hr. ring. }
    rewrite E1. unfold w. rewrite (SumTo_ext m _ (fun k => v k * v k + (-2 * (first r k * v k) + first r k * first r k))) by (intros; ring). rewrite !SumTo_add, SumTo_scale, !HF, <- Hr. unfold first. rewrite kron_refl. ring. }
  assert (0 <= t) as H0.
  { apply sum_squares_pos. }
  destruct (Req_dec t 0) as [T0|T0].
  - exists kron. split; [split|].
    + intros k l Hk Hl. rewrite (SumTo_ext m _ (fun i => kron k i * kron l i)) by (intros; now rewrite (kron_sym k), (kron_sym l)). rewrite kron_pick by exact Hk. rewrite kron_sym. reflexivity.
    + intros; apply kron_sym.
    + intros i Hi. rewrite kron_pick by exact Hi.
      assert (forall k, (k < m)%nat -> w k = 0) as W.
      { apply sum_squares_zero. exact T0. }
      specialize (W i Hi). unfold w in W. fold r. lra.
  - exists (fun i j => kron i j - 2 * (w i * w j) / t). split; [split|].
    + intros k l Hk Hl. fold (kron k l).
      rewrite (SumTo_ext m _ (fun i => kron k i * kron i l + (- 2 / t * w l * (kron k i * w i) + (- 2 / t * w k * (kron l i * w i) + 4 * w k * w l / (t * t) * (w i * w i))))).
      2:{ intros i _. rewrite (kron_sym i k), (kron_sym i l). field. exact T0. }
      rewrite !SumTo_add, !SumTo_scale, !kron_pick by assumption. fold t. field. exact T0.
    + intros i j _ _. rewrite (kron_sym i j). field. exact T0.
    + intros i Hi. rewrite (SumTo_ext m _ (fun k => kron i k * v k + - 2 * w i / t * (w k * v k))) by (intros; field; exact T0).
      rewrite SumTo_add, SumTo_scale, kron_pick by exact Hi. fold r. assert (SumTo m (fun k => w k * v k) = t / 2) as -> by lra. unfold w at 1. field. exact T0.
Qed.

Definition lift (q : nat -> nat -> R) : nat -> nat -> R := bord 1 (fun _ => 0) q.
Lemma lift_reflection m q : Reflection m q -> Reflection (S m) (lift q).
Proof.
  intros [O S]. split.
  - intros k l Hk Hl. rewrite SumTo_shift. destruct k as [|k], l as [|l]; cbn [lift bord Nat.eqb].
    + rewrite SumTo_0 by (intros; ring). ring.
    + rewrite SumTo_0 by (intros; ring). ring.
    + rewrite SumTo_0 by (intros; ring). ring.
    + rewrite O by lia. ring.
  - intros [|i] [|j] Hi Hj; cbn; try reflexivity. apply S; lia.
Qed.
Lemma turn_bord m q a v B i j : (i < S m)%nat -> (j < S m)%nat -> turn (S m) (lift q) (bord a v B) i j = bord a (fun k => SumTo m (fun l => q k l * v l)) (turn m q B) i j.
Proof.
  intros Hi Hj. unfold turn. rewrite SumTo_shift. destruct i as [|i], j as [|j]; cbn [bord lift].
  - rewrite (SumTo_0 m) by (intros; ring). rewrite SumTo_shift. cbn [bord lift]. rewrite SumTo_0 by (intros; ring). ring.
  - rewrite (SumTo_0 m) by (intros; ring). rewrite SumTo_shift. cbn [bord lift]. rewrite (SumTo_ext m (fun i => v i * q j i) (fun l => q j l * v l)) by (intros; ring). ring.
  - rewrite (SumTo_ext m _ (fun k => q i k * v k)); [ring|]. intros k _. f_equal. rewrite SumTo_shift. cbn [bord lift]. rewrite SumTo_0 by (intros; ring). ring.
  - rewrite (SumTo_ext m _ (fun k => q i k * SumTo m (fun l => B k l * q j l))); [ring|]. intros k _. f_equal. rewrite SumTo_shift. cbn [bord lift]. ring.
Qed.

(** ** The reduction *)
Definition Fixes (n : nat) (q : nat -> nat -> R) : Prop := forall i, (i < n)%nat -> q i O = kron i 0.
Definition Inv (n : nat) (G : (nat -> nat -> R) -> R) : Prop := forall q M, Reflection n q -> Fixes n q -> Symmetric n M -> G (turn n q M) = G M.
Lemma navg_map k f f' : forall j, (forall l v, length l = j -> NormalAverage k (fun m => f (l ++ m)) v -> NormalAverage k (fun m => f' (l ++ m)) v) ->
  forall v, NormalAverage (j + k) f v -> NormalAverage (j + k) f' v.
Proof.
  intro j. revert f f'. induction j as [|j IH]; intros f f' H v; [exact (H [] v eq_refl)|]. cbn [Nat.add NormalAverage]. intros (g & Hg & W). exists g. split; [|exact W]. intro x.
  apply (IH (fun l => f (x :: l))); [|apply Hg]. intros l w Hl. exact (H (x :: l) w (f_equal S Hl)).
Qed.
Lemma full_split m a t r : length t = m -> Full (S m) ((a :: t) ++ r) = bord a (fun k => nth k (t ++ r) 0 / sqrt 2) (Full m r).
Proof. intro H. cbn [Full app nth]. f_equal. cbn [skipn]. rewrite skipn_app, skipn_all2, H, Nat.sub_diag by lia. reflexivity. Qed.
Lemma tri_split m a t r : length t = m -> Tri (S m) ((a :: t) ++ r) = bord a (first (sqrt (squares t) / sqrt 2)) (Tri m r).
Proof.
  intro H. cbn [Tri app nth tl]. rewrite firstn_app, H, Nat.sub_diag, firstn_O, app_nil_r, firstn_all2 by lia. f_equal. cbn [skipn]. rewrite skipn_app, skipn_all2, H, Nat.sub_diag by lia. reflexivity.
Qed.
Lemma bord_ext m a v w B i j : (forall k, (k < m)%nat -> v k = w k) -> (i < S m)%nat -> (j < S m)%nat -> bord a v B i j = bord a w B i j.
Proof. intros H Hi Hj. destruct i as [|i], j as [|j]; cbn; try reflexivity; apply H; lia. Qed.
Lemma bord_matpoly m G a v : MatPoly (S m) G -> MatPoly m (fun B => G (bord a v B)).
Proof.
  intro H. apply (matpoly_subst (S m) m G (bord a v) H). intros [|i] [|j] Hi Hj; cbn; try apply matpoly_const. apply matpoly_entry; lia.
Qed.
Theorem house n : forall G v, MatPoly n G -> Inv n G -> NormalAverage (tsize n) (fun z => G (Full n z)) v -> NormalAverage (tsize n) (fun z => G (Tri n z)) v.
Proof.
  induction n as [|m IH]; intros G v HP HI; [cbn; intros <-; reflexivity|]. cbn [tsize]. apply (navg_map (tsize m) (fun z => G (Full (S m) z)) (fun z => G (Tri (S m) z)) (S m)).
  intros [|a t] w Hl V; [discriminate|]. injection Hl as Hl.
  apply (navg_ext (tsize m) (fun r => G (bord a (first (sqrt (squares t) / sqrt 2)) (Tri m r)))); [intros r _; now rewrite tri_split|].
  pose (v0 := fun k => nth k t 0 / sqrt 2).
  assert (NormalAverage (tsize m) (fun r => G (bord a v0 (Full m r))) w) as V1.
  { refine (navg_ext _ _ _ _ _ V). intros r _. cbv beta. rewrite full_split by exact Hl. apply (matpoly_ext (S m)); [exact HP|]. intros i j Hi Hj. apply (bord_ext m); auto. intros k Hk. unfold v0. now rewrite app_nth1 by lia. }
  clear V. destruct m as [|m'].
  { cbn [tsize] in *. refine (navg_ext _ _ _ _ _ V1). intros r _. apply (matpoly_ext 1); [exact HP|]. intros i j Hi Hj. destruct i as [|i], j as [|j]; try lia. reflexivity. }
  set (m := S m') in *. destruct (reflect_exists m v0 ltac:(unfold m; lia)) as (q & HR & Hq).
  assert (sqrt (SumTo m (fun k => v0 k * v0 k)) = sqrt (squares t) / sqrt 2) as Er.
  { rewrite <- sqrt_div_alt by lra. f_equal. rewrite squares_SumTo, Hl. unfold Rdiv. rewrite Rmult_comm, <- SumTo_scale. apply SumTo_ext. intros k _. unfold v0.
    pose proof sqrt2_sq as S2. pose proof sqrt2_nz as N2. transitivity (nth k t 0 * nth k t 0 / (sqrt 2 * sqrt 2)); [field; exact N2|]. rewrite S2. field. }
  rewrite Er in Hq. set (rho := sqrt (squares t) / sqrt 2) in *.
  pose (G' := fun B => G (bord a (first rho) B)). assert (MatPoly m G') as HP' by (apply bord_matpoly; exact HP).
  assert (Inv m G') as HI'.
  { intros p B Hp Hf Hs. unfold G'. rewrite <- (HI (lift p) (bord a (first rho) B)).
    - apply (matpoly_ext (S m)); [exact HP|]. intros i j Hi Hj. rewrite turn_bord by assumption. apply (bord_ext m); auto. intros k Hk. unfold first.
      rewrite (SumTo_ext m _ (fun l => rho * (p k l * kron 0 l))) by (intros; rewrite (kron_sym 0); ring). rewrite SumTo_scale, SumTo_kron by (unfold m; lia). rewrite (Hf k Hk). reflexivity.
    - now apply lift_reflection.
    - intros [|i] Hi; reflexivity.
    - now apply bord_symmetric. }
  apply (IH G' w HP' HI').
  apply (same_average m (tsize m) (tsize m) (fun r => turn m q (Full m r)) (Full m) half_cov G'); [apply turn_jointly; [exact HR|apply full_jointly]|apply full_jointly|exact HP'|].
  refine (navg_ext _ _ _ _ _ V1). intros r _. unfold G'. cbv beta. rewrite <- (HI (lift q) (bord a v0 (Full m r))).
  - apply (matpoly_ext (S m)); [exact HP|]. intros i j Hi Hj. rewrite turn_bord by assumption. apply (bord_ext m); auto.
  - now apply lift_reflection.
  - intros [|i] Hi; reflexivity.
  - apply bord_symmetric, Full_symmetric.
Qed.
