(** Counting the eigenvalues of A A^T and B B^T for two close matrices A and B. *)
From Coq Require Import List ZArith Bool Arith Lia Reals Lra.
From Coquelicot Require Import Coquelicot.
From Verif Require Import Base S_Generate S_Normal S_Rotate S_Law P_Generate P_Rotate T_Rotate P_Wick P_Wishart P_MPLoop T_MPWide.
Import ListNotations.
Local Open Scope R_scope.
Local Notation length := List.length.
Local Notation total := S_Rotate.total.

Lemma SumTo_le n (f g : nat -> R) : (forall i, (i < n)%nat -> f i <= g i) -> SumTo n f <= SumTo n g.
Proof. induction n as [|n IH]; intro H; cbn [SumTo]; [lra|]. specialize (IH ltac:(intros; apply H; lia)). specialize (H n ltac:(lia)). lra. Qed.
Lemma SumTo_pos n (f : nat -> R) : (forall i, (i < n)%nat -> 0 <= f i) -> 0 <= SumTo n f.
Proof. intro H. replace 0 with (SumTo n (fun _ => 0)) by (rewrite SumTo_const; ring). now apply SumTo_le. Qed.
Lemma total_map_nth {f : R -> R} lam : total (map f lam) = SumTo (length lam) (fun l => f (nth l lam 0)).
Proof.
  induction lam as [|x lam IH]; [reflexivity|]. change (total (map f (x :: lam))) with (f x + total (map f lam)). cbn [length]. rewrite SumTo_shift. cbn [nth]. now rewrite IH.
Qed.
Lemma spectrum_pairs n m lam : Spectrum n m lam -> exists q, Orthogonal n q /\ forall i l, (i < n)%nat -> (l < n)%nat -> SumTo n (fun j => m i j * q j l) = nth l lam 0 * q i l.
Proof.
  intros (_ & q & Hq & Hm). exists q. split; [exact Hq|]. intros i l Hi Hl.
  assert (forall j, (j < n)%nat -> m i j = SumTo n (fun k => q i k * (nth k lam 0 * q j k))) as E.
  { intros j Hj. rewrite (Hm i j Hi Hj). unfold turn. apply SumTo_ext. intros k Hk. f_equal. unfold diagonal. rewrite (SumTo_ext n _ (fun l => if Nat.eqb l k then nth k lam 0 * q j l else 0)); [now rewrite (SumTo_delta n k (fun l => nth k lam 0 * q j l) Hk)|].
    intros c _. rewrite (Nat.eqb_sym c k). destruct (Nat.eqb k c); ring. }
  rewrite (SumTo_ext n _ (fun j => SumTo n (fun k => q i k * nth k lam 0 * (q j k * q j l)))).
  - rewrite SumTo_swap. rewrite (SumTo_ext n _ (fun k => if Nat.eqb k l then q i k * nth k lam 0 else 0)); [rewrite (SumTo_delta n l (fun k => q i k * nth k lam 0) Hl); ring|].
    intros k Hk. rewrite SumTo_scale, (Hq k l Hk Hl). destruct (Nat.eqb k l); ring.
  - intros j Hj. rewrite (E j Hj), Rmult_comm, <- SumTo_scale. apply SumTo_ext. intros; ring.
Qed.
(** ** Orthogonal vectors *)
Lemma square_pos x : 0 <= x * x.
Proof. apply Rle_0_sqr. Qed.
Lemma bessel m r (v : nat -> nat -> R) (mu c : nat -> R) (e : nat -> R) :
  (forall k l, (k < m)%nat -> (l < m)%nat -> SumTo r (fun i => v k i * v l i) = if Nat.eqb k l then mu k else 0) ->
  2 * SumTo m (fun k => c k * SumTo r (fun i => e i * v k i)) - SumTo m (fun k => c k * c k * mu k) <= SumTo r (fun i => e i * e i).
Proof.
  intro H. assert (0 <= SumTo r (fun i => (e i - SumTo m (fun k => c k * v k i)) * (e i - SumTo m (fun k => c k * v k i)))) as P by (apply SumTo_pos; intros; apply square_pos).
  rewrite (SumTo_ext r _ (fun i => e i * e i + (-2 * SumTo m (fun k => c k * (e i * v k i)) + SumTo m (fun k => SumTo m (fun l => c k * c l * (v k i * v l i)))))) in P.
  - rewrite !SumTo_add, SumTo_scale in P.
    rewrite (SumTo_swap r m (fun i k => c k * (e i * v k i))) in P. rewrite (SumTo_ext m _ (fun k => c k * SumTo r (fun i => e i * v k i))) in P by (intros; apply SumTo_scale).
    rewrite (SumTo_swap r m (fun i k => SumTo m (fun l => c k * c l * (v k i * v l i)))) in P.
    rewrite (SumTo_ext m (fun j => SumTo r _) (fun k => c k * c k * mu k)) in P; [lra|]. intros k Hk. rewrite (SumTo_swap r m (fun i l => c k * c l * (v k i * v l i))).
    rewrite (SumTo_ext m _ (fun l => if Nat.eqb l k then c k * c l * mu k else 0)); [exact (SumTo_delta m k (fun l => c k * c l * mu k) Hk)|].
    intros l Hl. rewrite SumTo_scale, (H k l Hk Hl), (Nat.eqb_sym l k). destruct (Nat.eqb k l); ring.
  - intros i _. assert (SumTo m (fun k => c k * (e i * v k i)) = e i * SumTo m (fun k => c k * v k i)) as -> by (rewrite <- SumTo_scale; apply SumTo_ext; intros; ring).
    rewrite (SumTo_ext m (fun k => SumTo m _) (fun k => SumTo m (fun l => c k * v k i * (c l * v l i)))) by (intros; apply SumTo_ext; intros; ring). rewrite <- SumTo_product. ring.
Qed.
Lemma null_vector r (v : nat -> R) (e : nat -> R) : SumTo r (fun i => v i * v i) = 0 -> SumTo r (fun i => e i * v i) = 0.
Proof.
  intro H. apply SumTo_0. intros i Hi. pose proof (nonneg_zero r (fun i => v i * v i) (fun i _ => square_pos (v i)) H i Hi) as Z. cbv beta in Z. assert (v i = 0) as -> by nra. ring.
Qed.
Lemma bessel_weights m r (v : nat -> nat -> R) (mu w : nat -> R) (M : R) (e : nat -> R) :
  (forall k l, (k < m)%nat -> (l < m)%nat -> SumTo r (fun i => v k i * v l i) = if Nat.eqb k l then mu k else 0) ->
  (forall k, (k < m)%nat -> w k * mu k <= M) -> 0 <= M ->
  SumTo m (fun k => w k * (SumTo r (fun i => e i * v k i) * SumTo r (fun i => e i * v k i))) <= M * SumTo r (fun i => e i * e i).
Proof.
  intros H Hw HM. pose (c := fun k => if Rlt_dec 0 (mu k) then SumTo r (fun i => e i * v k i) / mu k else 0).
  assert (forall k, (k < m)%nat -> 0 <= mu k) as Hmu by (intros k Hk; pose proof (H k k Hk Hk) as E; rewrite Nat.eqb_refl in E; rewrite <- E; apply SumTo_pos; intros; apply square_pos).
  apply (Rle_trans _ (M * SumTo m (fun k => c k * SumTo r (fun i => e i * v k i)))).
  - rewrite <- SumTo_scale. apply SumTo_le. intros k Hk. specialize (Hw k Hk). specialize (Hmu k Hk). unfold c. set (p := SumTo r (fun i => e i * v k i)) in *. destruct (Rlt_dec 0 (mu k)) as [P|P].
    + replace (M * (p / mu k * p)) with (M / mu k * (p * p)) by (field; lra). apply Rmult_le_compat_r; [apply square_pos|]. apply (Rmult_le_reg_r (mu k)); [exact P|]. replace (M / mu k * mu k) with M by (field; lra). exact Hw.
    + assert (p = 0) as ->; [|lra]. apply null_vector. pose proof (H k k Hk Hk) as E. rewrite Nat.eqb_refl in E. rewrite E. lra.
  - apply Rmult_le_compat_l; [exact HM|]. pose proof (bessel m r v mu c e H) as B.
    assert (SumTo m (fun k => c k * c k * mu k) = SumTo m (fun k => c k * SumTo r (fun i => e i * v k i))) as E; [|lra].
    apply SumTo_ext. intros k Hk. unfold c. destruct (Rlt_dec 0 (mu k)) as [P|P]; [field; lra|ring].
Qed.
(** The sum of the squares of the components in an orthonormal basis. *)
Lemma parseval n q (u : nat -> R) : Orthogonal n q -> SumTo n (fun k => SumTo n (fun i => u i * q i k) * SumTo n (fun i => u i * q i k)) = SumTo n (fun i => u i * u i).
Proof.
  intro Hq. rewrite (SumTo_ext n _ (fun k => SumTo n (fun i => SumTo n (fun j => u i * u j * (q i k * q j k))))) by (intros; rewrite SumTo_product; apply SumTo_ext; intros; apply SumTo_ext; intros; ring).
  rewrite SumTo_swap. apply SumTo_ext. intros i Hi. rewrite SumTo_swap. rewrite (SumTo_ext n _ (fun j => kron i j * (u i * u j))); [exact (pick n i (fun j => u i * u j) Hi)|].
  intros j Hj. rewrite SumTo_scale, (orthogonal_rows n q Hq i j Hi Hj). ring.
Qed.

Section Close.
Variables (m r : nat) (A B : nat -> nat -> R) (la lb : list R).
Hypothesis SA : Spectrum m (fun i j => SumTo r (fun k => A i k * A j k)) la.
Hypothesis SB : Spectrum m (fun i j => SumTo r (fun k => B i k * B j k)) lb.
Definition turned (D q : nat -> nat -> R) (l k : nat) : R := SumTo m (fun i => D i k * q i l).
Lemma turned_dot (D q : nat -> nat -> R) lam : Orthogonal m q -> (forall i l, (i < m)%nat -> (l < m)%nat -> SumTo m (fun j => SumTo r (fun k => D i k * D j k) * q j l) = nth l lam 0 * q i l) ->
  forall k l, (k < m)%nat -> (l < m)%nat -> SumTo r (fun i => turned D q k i * turned D q l i) = if Nat.eqb k l then nth k lam 0 else 0.
Proof.
  intros Hq He k l Hk Hl. unfold turned. rewrite (SumTo_ext r _ (fun s => SumTo m (fun i => SumTo m (fun j => D i s * q i k * (D j s * q j l))))) by (intros; apply SumTo_product).
  rewrite (SumTo_swap r m). rewrite (SumTo_ext m _ (fun i => nth l lam 0 * (q i k * q i l))).
  - rewrite SumTo_scale, (Hq k l Hk Hl). destruct (Nat.eqb_spec k l) as [->|]; ring.
  - intros i Hi. rewrite (SumTo_swap r m). rewrite (SumTo_ext m _ (fun j => q i k * (SumTo r (fun s => D i s * D j s) * q j l))).
    + rewrite SumTo_scale, (He i l Hi Hl). ring.
    + intros j _. rewrite (SumTo_ext r _ (fun s => q i k * q j l * (D i s * D j s))) by (intros; ring). rewrite SumTo_scale. ring.
Qed.
Lemma turned_total (D q : nat -> nat -> R) : Orthogonal m q -> SumTo m (fun l => SumTo r (fun k => turned D q l k * turned D q l k)) = SumTo m (fun i => SumTo r (fun k => D i k * D i k)).
Proof.
  intro Hq. rewrite (SumTo_swap m r), (SumTo_swap m r (fun i k => D i k * D i k)). apply SumTo_ext. intros k _. exact (parseval m q (fun i => D i k) Hq).
Qed.
Definition distance : R := SumTo m (fun i => SumTo r (fun k => (A i k - B i k) * (A i k - B i k))).
Lemma close a b : 0 <= a < b -> count_le a lb <= count_le b la + 4 * b / ((b - a) * (b - a)) * distance.
Proof.
  intros Hab. destruct (spectrum_pairs _ _ _ SA) as (qa & Oa & Ea). destruct (spectrum_pairs _ _ _ SB) as (qb & Ob & Eb).
  pose (E := fun i k => A i k - B i k). pose (P := fun k l => SumTo m (fun i => qa i k * qb i l)).
  pose proof (turned_dot A qa la Oa Ea) as DA. pose proof (turned_dot B qb lb Ob Eb) as DB.
  assert (forall l, (l < m)%nat -> 0 <= nth l la 0) as NA by (intros l Hl; pose proof (DA l l Hl Hl) as H; rewrite Nat.eqb_refl in H; rewrite <- H; apply SumTo_pos; intros; apply square_pos).
  assert (forall l, (l < m)%nat -> 0 <= nth l lb 0) as NB by (intros l Hl; pose proof (DB l l Hl Hl) as H; rewrite Nat.eqb_refl in H; rewrite <- H; apply SumTo_pos; intros; apply square_pos).
  (* the overlap of an eigenvector of each matrix *)
  assert (forall k l, (k < m)%nat -> (l < m)%nat -> (nth k la 0 - nth l lb 0) * P k l = SumTo r (fun s => turned E qb l s * turned A qa k s) + SumTo r (fun s => turned E qa k s * turned B qb l s)) as ID.
  { intros k l Hk Hl.
    assert (nth k la 0 * P k l = SumTo r (fun s => turned A qb l s * turned A qa k s)) as F1.
    { unfold P, turned. rewrite <- SumTo_scale. rewrite (SumTo_ext r _ (fun s => SumTo m (fun i => SumTo m (fun j => A i s * qb i l * (A j s * qa j k))))) by (intros; apply SumTo_product). rewrite (SumTo_swap r m). apply SumTo_ext. intros i Hi.
      rewrite (SumTo_swap r m). transitivity (qb i l * (nth k la 0 * qa i k)); [ring|]. rewrite <- (Ea i k Hi Hk), <- SumTo_scale. apply SumTo_ext. intros j _.
      rewrite (SumTo_ext r (fun s => A i s * qb i l * (A j s * qa j k)) (fun s => (qb i l * qa j k) * (A i s * A j s))) by (intros; ring). rewrite SumTo_scale. ring. }
    assert (nth l lb 0 * P k l = SumTo r (fun s => turned B qa k s * turned B qb l s)) as F2.
    { unfold P, turned. rewrite <- SumTo_scale. rewrite (SumTo_ext r _ (fun s => SumTo m (fun i => SumTo m (fun j => B i s * qa i k * (B j s * qb j l))))) by (intros; apply SumTo_product). rewrite (SumTo_swap r m). apply SumTo_ext. intros i Hi.
      rewrite (SumTo_swap r m). transitivity (qa i k * (nth l lb 0 * qb i l)); [ring|]. rewrite <- (Eb i l Hi Hl), <- SumTo_scale. apply SumTo_ext. intros j _.
      rewrite (SumTo_ext r (fun s => B i s * qa i k * (B j s * qb j l)) (fun s => (qa i k * qb j l) * (B i s * B j s))) by (intros; ring). rewrite SumTo_scale. ring. }
    rewrite Rmult_minus_distr_r, F1, F2. assert (forall q l s, turned E q l s = turned A q l s - turned B q l s) as TE.
    { intros q c s. unfold turned, E. rewrite (SumTo_ext m _ (fun i => A i s * q i c + -1 * (B i s * q i c))) by (intros; ring). rewrite SumTo_add, SumTo_scale. ring. }
    rewrite (SumTo_ext r (fun s => turned E qb l s * turned A qa k s) (fun s => turned A qb l s * turned A qa k s + -1 * (turned B qb l s * turned A qa k s))) by (intros; rewrite TE; ring).
    rewrite (SumTo_ext r (fun s => turned E qa k s * turned B qb l s) (fun s => turned B qb l s * turned A qa k s + -1 * (turned B qa k s * turned B qb l s))) by (intros; rewrite TE; ring).
    rewrite !SumTo_add, !SumTo_scale. ring. }
  pose (w := fun k l => if Rle_dec (nth l lb 0) a then if Rle_dec (nth k la 0) b then 0 else / ((nth k la 0 - nth l lb 0) * (nth k la 0 - nth l lb 0)) else 0).
  set (M := b / ((b - a) * (b - a))). assert (0 < (b - a) * (b - a)) as Hd by (apply Rmult_lt_0_compat; lra). assert (0 <= M) as HM by (apply Rmult_le_pos; [lra|apply Rlt_le, Rinv_0_lt_compat, Hd]).
  assert (forall k l, (k < m)%nat -> (l < m)%nat -> w k l * nth k la 0 <= M /\ w k l * nth l lb 0 <= M) as WM.
  { intros k l Hk Hl. unfold w. specialize (NB l Hl). destruct (Rle_dec (nth l lb 0) a) as [H1|H1]; [|lra]. destruct (Rle_dec (nth k la 0) b) as [H2|H2]; [lra|]. set (x := nth k la 0) in *. set (y := nth l lb 0) in *.
    assert (0 < (x - y) * (x - y)) as Hxy by (apply Rmult_lt_0_compat; lra). assert (forall z, z * ((b - a) * (b - a)) <= b * ((x - y) * (x - y)) -> / ((x - y) * (x - y)) * z <= M) as G.
    { intros z Hz. unfold M. apply (Rmult_le_reg_r ((x - y) * (x - y))); [exact Hxy|]. replace (/ ((x - y) * (x - y)) * z * ((x - y) * (x - y))) with z by (field; lra). apply (Rmult_le_reg_r ((b - a) * (b - a))); [exact Hd|].
      replace (b / ((b - a) * (b - a)) * ((x - y) * (x - y)) * ((b - a) * (b - a))) with (b * ((x - y) * (x - y))) by (field; lra). exact Hz. }
    assert (x * ((b - a) * (b - a)) <= b * ((x - y) * (x - y))) as Gx.
    { apply (Rle_trans _ (b * ((x - a) * (x - a)))); [|apply Rmult_le_compat_l; [lra|apply Rmult_le_compat; lra]].  assert (0 <= (x - b) * (b * x - a * a)) by (apply Rmult_le_pos; nra). replace (b * ((x - a) * (x - a))) with (x * ((b - a) * (b - a)) + (x - b) * (b * x - a * a)) by ring. lra. }
    split; apply G; [exact Gx|]. apply (Rle_trans _ (x * ((b - a) * (b - a)))); [apply Rmult_le_compat_r; lra|exact Gx]. }
  assert (forall k l, 0 <= w k l) as W0.
  { intros k l. unfold w. destruct (Rle_dec _ a); [|lra]. destruct (Rle_dec _ b); [lra|]. apply Rlt_le, Rinv_0_lt_compat, Rmult_lt_0_compat; lra. }
  (* overlaps of distant eigenvalues *)
  set (far := SumTo m (fun l => SumTo m (fun k => if Rle_dec (nth l lb 0) a then if Rle_dec (nth k la 0) b then 0 else P k l * P k l else 0))).
  assert (far <= 4 * M * distance) as FAR.
  { set (X := fun k l => SumTo r (fun s => turned E qb l s * turned A qa k s)). set (Y := fun k l => SumTo r (fun s => turned E qa k s * turned B qb l s)).
    apply (Rle_trans _ (2 * SumTo m (fun l => SumTo m (fun k => w k l * (X k l * X k l))) + 2 * SumTo m (fun k => SumTo m (fun l => w k l * (Y k l * Y k l))))).
    - rewrite (SumTo_swap m m (fun k l => w k l * (Y k l * Y k l))), <- !SumTo_scale, <- SumTo_add. apply SumTo_le. intros l Hl. rewrite <- !SumTo_scale, <- SumTo_add. apply SumTo_le. intros k Hk.
      specialize (ID k l Hk Hl). change (SumTo r (fun s => turned E qb l s * turned A qa k s)) with (X k l) in ID. change (SumTo r (fun s => turned E qa k s * turned B qb l s)) with (Y k l) in ID. unfold w. destruct (Rle_dec (nth l lb 0) a) as [H1|H1]; [|lra]. destruct (Rle_dec (nth k la 0) b) as [H2|H2]; [lra|].
      set (x := nth k la 0) in *. set (y := nth l lb 0) in *. assert (P k l = (X k l + Y k l) / (x - y)) as -> by (rewrite <- ID; field; lra).
      replace ((X k l + Y k l) / (x - y) * ((X k l + Y k l) / (x - y))) with (/ ((x - y) * (x - y)) * ((X k l + Y k l) * (X k l + Y k l))) by (field; lra).
      assert (0 < / ((x - y) * (x - y))) as Hi by (apply Rinv_0_lt_compat, Rmult_lt_0_compat; lra). pose proof (square_pos (X k l - Y k l)) as Hs. set (i := / ((x - y) * (x - y))) in *. clearbody i. nra.
    - assert (SumTo m (fun l => SumTo m (fun k => w k l * (X k l * X k l))) <= M * distance) as B1.
      { unfold distance. change (SumTo m (fun i => SumTo r (fun k => (A i k - B i k) * (A i k - B i k)))) with (SumTo m (fun i => SumTo r (fun k => E i k * E i k))). rewrite <- (turned_total E qb Ob), <- SumTo_scale. apply SumTo_le. intros l Hl.
        apply (bessel_weights m r (fun k => turned A qa k) (fun k => nth k la 0) (fun k => w k l) M (fun s => turned E qb l s) DA); [|exact HM]. intros k Hk. now apply WM. }
      assert (SumTo m (fun k => SumTo m (fun l => w k l * (Y k l * Y k l))) <= M * distance) as B2.
      { unfold distance. change (SumTo m (fun i => SumTo r (fun k => (A i k - B i k) * (A i k - B i k)))) with (SumTo m (fun i => SumTo r (fun k => E i k * E i k))). rewrite <- (turned_total E qa Oa), <- SumTo_scale. apply SumTo_le. intros k Hk.
        apply (bessel_weights m r (fun l => turned B qb l) (fun l => nth l lb 0) (fun l => w k l) M (fun s => turned E qa k s) DB); [|exact HM]. intros l Hl. now apply WM. }
      lra. }
  replace (4 * b / ((b - a) * (b - a))) with (4 * M) by (unfold M; field; lra).
  assert (count_le a lb <= count_le b la + far) as CNT; [|lra].
  unfold count_le. rewrite !total_map_nth. rewrite (proj1 SA), (proj1 SB).
  assert (forall l, (l < m)%nat -> SumTo m (fun k => P k l * P k l) = 1) as P1.
  { intros l Hl. pose proof (parseval m qa (fun i => qb i l) Oa) as H. cbv beta in H. rewrite (Ob l l Hl Hl), Nat.eqb_refl in H. rewrite <- H. apply SumTo_ext. intros k _. unfold P. f_equal; apply SumTo_ext; intros; ring. }
  assert (forall k, (k < m)%nat -> SumTo m (fun l => P k l * P k l) = 1) as P2.
  { intros k Hk. pose proof (parseval m qb (fun i => qa i k) Ob) as H. cbv beta in H. rewrite (Oa k k Hk Hk), Nat.eqb_refl in H. exact H. }
  rewrite (SumTo_ext m (fun l => if Rle_dec (nth l la 0) b then 1 else 0) (fun k => SumTo m (fun l => (if Rle_dec (nth k la 0) b then 1 else 0) * (P k l * P k l)))) by (intros k Hk; rewrite SumTo_scale, (P2 k Hk); ring).
  rewrite SumTo_swap. unfold far. rewrite <- SumTo_add. apply SumTo_le. intros l Hl. rewrite <- SumTo_add. apply (Rle_trans _ (SumTo m (fun k => (if Rle_dec (nth l lb 0) a then 1 else 0) * (P k l * P k l)))); [rewrite SumTo_scale, (P1 l Hl); lra|]. apply SumTo_le. intros k Hk. pose proof (square_pos (P k l)).
  destruct (Rle_dec (nth l lb 0) a); destruct (Rle_dec (nth k la 0) b); lra.
Qed.
End Close.
