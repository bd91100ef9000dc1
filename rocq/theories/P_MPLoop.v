(** Averages of products of traces of powers of the covariances of pure noise: the loop equations. *)
From Coq Require Import List ZArith Bool Arith Lia Reals Lra.
From Coquelicot Require Import Coquelicot.
From Verif Require Import Base S_Generate S_Normal S_Rotate S_CCharPoly S_Moments S_MP P_Generate P_Surmise P_Rotate T_Rotate P_Moments P_Wishart P_Fourth P_CDet P_CCharPoly P_Stein P_Loop P_Wick P_House P_Tridiag.
Import ListNotations.
Local Open Scope R_scope.
Local Notation length := List.length.
Local Notation lin := P_Wick.lin.

(** ** Powers *)
Lemma rpow_sym n m k i j : (forall i j, (i < n)%nat -> (j < n)%nat -> m i j = m j i) -> (i < n)%nat -> (j < n)%nat -> rpow n k m i j = rpow n k m j i.
Proof. intros H Hi Hj. apply RtoC_inj. rewrite !rpow_complex. apply mpow_sym; try assumption. intros a b Ha Hb. f_equal. auto. Qed.
Lemma rpow_add n m r s i j : (i < n)%nat -> SumTo n (fun h => rpow n r m i h * rpow n s m h j) = rpow n (r + s) m i j.
Proof.
  intro Hi. apply RtoC_inj. rewrite rpow_complex, <- mpow_add by exact Hi. rewrite RtoC_SumTo. apply CSumTo_ext. intros h _. now rewrite RtoC_mult, !rpow_complex.
Qed.
Lemma rpow_1r n m k i j : (i < n)%nat -> (j < n)%nat -> SumTo n (fun h => rpow n k m i h * m h j) = rpow n (S k) m i j.
Proof. intros Hi Hj. apply RtoC_inj. rewrite rpow_complex, <- mpow_1r by assumption. rewrite RtoC_SumTo. apply CSumTo_ext. intros h _. now rewrite RtoC_mult, rpow_complex. Qed.

(** ** Derivatives of sums *)
Lemma slope_add k u f f' g g' : Slope k u f f' -> Slope k u g g' -> Slope k u (fun l => f l + g l) (fun l => f' l + g' l).
Proof.
  intros (d & H & H') (e & G & G'). exists (fun p l => d p l + e p l). split; [intros p Hp; apply (partial_add k p f (d p) g (e p)); auto|].
  intros l Hl. rewrite H', G' by exact Hl. rewrite <- SumTo_add. apply SumTo_ext. intros; ring.
Qed.
Lemma slope_SumTo k u n (f f' : nat -> list R -> R) : (forall i, (i < n)%nat -> Slope k u (f i) (f' i)) -> Slope k u (fun l => SumTo n (fun i => f i l)) (fun l => SumTo n (fun i => f' i l)).
Proof.
  induction n as [|n IH]; intro H; cbn [SumTo]; [apply slope_const|]. apply (slope_add k u (fun l => SumTo n (fun i => f i l)) _ (f n)); [apply IH; auto|apply H; lia].
Qed.
Lemma pick n a (f : nat -> R) : (a < n)%nat -> SumTo n (fun j => kron a j * f j) = f a.
Proof. intro H. rewrite <- (SumTo_delta n a f H). apply SumTo_ext. intros j _. unfold kron. rewrite (Nat.eqb_sym a j). destruct (Nat.eqb j a); ring. Qed.

Section Loop.
Variables (K n t : nat) (u : nat -> nat -> nat -> R) (P : nat -> nat -> R) (d : R).
Hypothesis cov : forall i j k l, (i < n)%nat -> (j < n)%nat -> (k < t)%nat -> (l < t)%nat -> rdot K (u i k) (u j l) = kron i j * P k l.
Hypothesis proj : forall l i k, length l = K -> (i < n)%nat -> (k < t)%nat -> SumTo t (fun q => P k q * lin K (u i q) l) = lin K (u i k) l.
Hypothesis tr : SumTo t (fun k => P k k) = d.
Definition prods (l : list R) (a b : nat) : R := SumTo t (fun q => lin K (u a q) l * lin K (u b q) l).
Definition carry (l : list R) (k q c : nat) : R := SumTo n (fun b => lin K (u b q) l * rpow n k (prods l) b c).
Lemma A_sym l i j : prods l i j = prods l j i.
Proof. unfold prods. apply SumTo_ext. intros; ring. Qed.
Lemma Apow_sym l k i j : (i < n)%nat -> (j < n)%nat -> rpow n k (prods l) i j = rpow n k (prods l) j i.
Proof. apply rpow_sym. intros; apply A_sym. Qed.
Lemma slope_A i q a b : (i < n)%nat -> (q < t)%nat -> (a < n)%nat -> (b < n)%nat ->
  Slope K (u i q) (fun l => prods l a b) (fun l => kron i a * lin K (u b q) l + kron i b * lin K (u a q) l).
Proof.
  intros Hi Hq Ha Hb. refine (slope_ext _ _ _ _ _ _ _ _ (slope_SumTo K (u i q) t (fun s l => lin K (u a s) l * lin K (u b s) l) _ (fun s Hs => slope_mul K (u i q) _ _ _ _ (slope_lin K (u i q) (u a s)) (slope_lin K (u i q) (u b s))))).
  - intros; reflexivity.
  - intros l Hl. cbv beta. rewrite <- (proj l b q Hl Hb Hq), <- (proj l a q Hl Ha Hq). rewrite <- !SumTo_scale, <- SumTo_add. apply SumTo_ext. intros s Hs. rewrite !cov by assumption. ring.
Qed.
Lemma slope_pow k : forall i q a c, (i < n)%nat -> (q < t)%nat -> (a < n)%nat -> (c < n)%nat ->
  Slope K (u i q) (fun l => rpow n k (prods l) a c) (fun l => SumTo k (fun r => rpow n r (prods l) a i * carry l (k - 1 - r) q c + carry l r q a * rpow n (k - 1 - r) (prods l) i c)).
Proof.
  induction k as [|k IH]; intros i q a c Hi Hq Ha Hc; [exact (slope_const K (u i q) (kron a c))|]. cbn [rpow].
  refine (slope_ext _ _ _ _ _ _ _ _ (slope_SumTo K (u i q) n (fun h l => prods l a h * rpow n k (prods l) h c) _ (fun h Hh => slope_mul K (u i q) _ _ _ _ (slope_A i q a h Hi Hq Ha Hh) (IH i q h c Hi Hq Hh Hc)))).
  - intros; reflexivity.
  - intros l Hl. cbv beta. rewrite SumTo_add, SumTo_shift. f_equal.
    + replace (S k - 1 - 0)%nat with k by lia. cbn [rpow]. unfold carry at 2. cbn [rpow].
      rewrite (SumTo_ext n _ (fun h => kron i a * (lin K (u h q) l * rpow n k (prods l) h c) + kron i h * (lin K (u a q) l * rpow n k (prods l) h c))) by (intros; ring).
      rewrite SumTo_add, SumTo_scale, (pick n i (fun h => lin K (u a q) l * rpow n k (prods l) h c)) by exact Hi. fold (carry l k q c).
      rewrite (SumTo_ext n (fun b => lin K (u b q) l * kron b a) (fun b => kron a b * lin K (u b q) l)) by (intros; rewrite (kron_sym a); ring). rewrite (pick n a (fun b => lin K (u b q) l)) by exact Ha.
      rewrite (kron_sym a i). reflexivity.
    + rewrite (SumTo_ext n _ (fun h => SumTo k (fun r => prods l a h * (rpow n r (prods l) h i * carry l (k - 1 - r) q c + carry l r q h * rpow n (k - 1 - r) (prods l) i c)))) by (intros; now rewrite SumTo_scale).
      rewrite SumTo_swap. apply SumTo_ext. intros r Hr. replace (S k - 1 - S r)%nat with (k - 1 - r)%nat by lia. cbn [rpow].
      rewrite (SumTo_ext n _ (fun h => carry l (k - 1 - r) q c * (prods l a h * rpow n r (prods l) h i) + rpow n (k - 1 - r) (prods l) i c * (prods l a h * carry l r q h))) by (intros; ring).
      rewrite SumTo_add, !SumTo_scale. rewrite (Rmult_comm (carry l (k - 1 - r) q c)). f_equal. rewrite (Rmult_comm (rpow n (k - 1 - r) (prods l) i c)). f_equal.
      unfold carry. rewrite (SumTo_ext n _ (fun h => SumTo n (fun b => lin K (u b q) l * (prods l h a * rpow n r (prods l) b h)))).
      * rewrite SumTo_swap. apply SumTo_ext. intros b Hb. rewrite SumTo_scale. f_equal. rewrite <- (rpow_1r n (prods l) r b a) by assumption. apply SumTo_ext. intros; ring.
      * intros h _. rewrite <- SumTo_scale, (A_sym l a h). apply SumTo_ext. intros; ring.
Qed.
Lemma EE l r s i : (i < n)%nat -> SumTo t (fun q => carry l r q i * carry l s q i) = rpow n (S (r + s)) (prods l) i i.
Proof.
  intro Hi. transitivity (SumTo t (fun q => SumTo n (fun a => SumTo n (fun b => rpow n r (prods l) i a * (rpow n s (prods l) b i * (lin K (u a q) l * lin K (u b q) l)))))).
  { apply SumTo_ext. intros q _. unfold carry. rewrite SumTo_product. apply SumTo_ext. intros a Ha. apply SumTo_ext. intros b Hb. rewrite (Apow_sym l r i a) by assumption. ring. }
  rewrite SumTo_swap. replace (S (r + s)) with (r + S s)%nat by lia. rewrite <- (rpow_add n (prods l) r (S s) i i) by exact Hi. apply SumTo_ext. intros a Ha. rewrite SumTo_swap. cbn [rpow]. rewrite <- SumTo_scale. apply SumTo_ext. intros b Hb.
  unfold prods at 4. rewrite !SumTo_scale. ring.
Qed.
Definition trp (l : list R) (k : nat) : R := SumTo n (fun a => rpow n k (prods l) a a).
Definition trs (l : list R) (ks : list nat) : R := fold_right Rmult 1 (map (trp l) ks).
Lemma slope_trace k i q : (i < n)%nat -> (q < t)%nat -> Slope K (u i q) (fun l => trp l k) (fun l => 2 * INR k * carry l (k - 1) q i).
Proof.
  intros Hi Hq. unfold trp.
  refine (slope_ext _ _ _ _ _ _ _ _ (slope_SumTo K (u i q) n (fun a l => rpow n k (prods l) a a) _ (fun a Ha => slope_pow k i q a a Hi Hq Ha Ha))); [intros; reflexivity|].
  intros l Hl. cbv beta. rewrite SumTo_swap. replace (2 * INR k * carry l (k - 1) q i) with (INR k * (2 * carry l (k - 1) q i)) by ring. rewrite <- SumTo_const. apply SumTo_ext. intros r Hr.
  assert (forall x y, (x + y = k - 1)%nat -> SumTo n (fun a => rpow n x (prods l) a i * carry l y q a) = carry l (k - 1) q i) as H.
  { intros x y Hxy. unfold carry. rewrite (SumTo_ext n _ (fun a => SumTo n (fun b => lin K (u b q) l * (rpow n y (prods l) b a * rpow n x (prods l) a i)))) by (intros a _; rewrite <- SumTo_scale; apply SumTo_ext; intros; ring).
    rewrite SumTo_swap. apply SumTo_ext. intros b Hb. rewrite SumTo_scale, rpow_add by exact Hb. do 2 f_equal. lia. }
  rewrite SumTo_add, (H r (k - 1 - r)%nat) by lia.
  rewrite (SumTo_ext n (fun a => carry l r q a * rpow n (k - 1 - r) (prods l) i a) (fun a => rpow n (k - 1 - r) (prods l) a i * carry l r q a)) by (intros a Ha; rewrite (Apow_sym l _ i a) by assumption; ring).
  rewrite (H (k - 1 - r)%nat r) by lia. ring.
Qed.
Lemma slope_traces ks i q : (i < n)%nat -> (q < t)%nat ->
  Slope K (u i q) (fun l => trs l ks) (fun l => rsum (fun p => 2 * INR (fst p) * carry l (fst p - 1) q i * trs l (snd p)) (picks ks)).
Proof.
  intros Hi Hq. induction ks as [|k ks IH]; [exact (slope_const K (u i q) 1)|].
  refine (slope_ext _ _ _ _ _ _ _ _ (slope_mul K (u i q) _ _ _ _ (slope_trace k i q Hi Hq) IH)).
  - intros; reflexivity.
  - intros l _. cbn [picks]. unfold rsum at 2. cbn [fold_right fst snd]. f_equal. fold (rsum (fun p => 2 * INR (fst p) * carry l (fst p - 1) q i * trs l (snd p)) (map (fun p => (fst p, k :: snd p)) (picks ks))).
    rewrite rsum_map. cbn [fst snd]. rewrite <- rsum_scale. apply rsum_ext. intros p _. unfold trs. cbn [map fold_right]. ring.
Qed.
Lemma SumTo_rsum {I} N (f : nat -> I -> R) l : SumTo N (fun i => rsum (f i) l) = rsum (fun a => SumTo N (fun i => f i a)) l.
Proof. induction l as [|a l IH]; cbn [rsum fold_right]; [rewrite SumTo_const; ring|]. rewrite SumTo_add. f_equal. exact IH. Qed.
Lemma stein_all (f f' : nat -> nat -> list R -> R) v : (forall i q, (i < n)%nat -> (q < t)%nat -> Slope K (u i q) (f i q) (f' i q)) ->
  NormalAverage K (fun l => SumTo n (fun i => SumTo t (fun q => f' i q l))) v -> NormalAverage K (fun l => SumTo n (fun i => SumTo t (fun q => lin K (u i q) l * f i q l))) v.
Proof.
  intros H V.
  assert (forall N (g g' : nat -> list R -> R), (forall i, (i < N)%nat -> exists w, NormalAverage K (g i) w /\ NormalAverage K (g' i) w) ->
    exists w, NormalAverage K (fun l => SumTo N (fun i => g i l)) w /\ NormalAverage K (fun l => SumTo N (fun i => g' i l)) w) as Q.
  { intros N g g'. induction N as [|N IH]; intro G; [exists 0; split; apply (navg_const K 0)|]. destruct IH as (x & X1 & X2); [auto|]. destruct (G N ltac:(lia)) as (y & Y1 & Y2).
    exists (1 * x + 1 * y). split; cbn [SumTo].
    - refine (navg_ext _ _ _ _ _ (navg_lin _ _ _ _ _ 1 1 X1 Y1)). intros; ring.
    - refine (navg_ext _ _ _ _ _ (navg_lin _ _ _ _ _ 1 1 X2 Y2)). intros; ring. }
  destruct (Q n (fun i l => SumTo t (fun q => lin K (u i q) l * f i q l)) (fun i l => SumTo t (fun q => f' i q l))) as (w & W1 & W2).
  { intros i Hi. apply (Q t (fun q l => lin K (u i q) l * f i q l) (fun q l => f' i q l)). intros q Hq. apply slope_stein. now apply H. }
  assert (v = w) as ->; [|exact W1]. exact (navg_unique _ _ _ _ V W2).
Qed.
Lemma slope_E k i q : (i < n)%nat -> (q < t)%nat ->
  Slope K (u i q) (fun l => carry l k q i) (fun l => P q q * rpow n k (prods l) i i + SumTo k (fun r => carry l r q i * carry l (k - 1 - r) q i + SumTo n (fun j => lin K (u j q) l * carry l r q j) * rpow n (k - 1 - r) (prods l) i i)).
Proof.
  intros Hi Hq. unfold carry at 1.
  refine (slope_ext _ _ _ _ _ _ _ _ (slope_SumTo K (u i q) n (fun b l => lin K (u b q) l * rpow n k (prods l) b i) _ (fun b Hb => slope_mul K (u i q) _ _ _ _ (slope_lin K (u i q) (u b q)) (slope_pow k i q b i Hi Hq Hb Hi)))); [intros; reflexivity|].
  intros l Hl. cbv beta. rewrite SumTo_add. f_equal.
  - rewrite (SumTo_ext n _ (fun b => kron i b * (P q q * rpow n k (prods l) b i))) by (intros b Hb; rewrite cov by assumption; ring). now rewrite (pick n i (fun b => P q q * rpow n k (prods l) b i)).
  - rewrite (SumTo_ext n _ (fun b => SumTo k (fun r => lin K (u b q) l * (rpow n r (prods l) b i * carry l (k - 1 - r) q i + carry l r q b * rpow n (k - 1 - r) (prods l) i i)))) by (intros; now rewrite SumTo_scale).
    rewrite SumTo_swap. apply SumTo_ext. intros r Hr.
    rewrite (SumTo_ext n _ (fun b => carry l (k - 1 - r) q i * (lin K (u b q) l * rpow n r (prods l) b i) + rpow n (k - 1 - r) (prods l) i i * (lin K (u b q) l * carry l r q b))) by (intros; ring).
    rewrite SumTo_add, !SumTo_scale. change (SumTo n (fun b => lin K (u b q) l * rpow n r (prods l) b i)) with (carry l r q i). ring.
Qed.
Lemma DE l r : SumTo t (fun q => SumTo n (fun j => lin K (u j q) l * carry l r q j)) = trp l (S r).
Proof.
  rewrite SumTo_swap. unfold trp. apply SumTo_ext. intros j Hj. transitivity (SumTo t (fun q => SumTo n (fun b => rpow n r (prods l) b j * (lin K (u j q) l * lin K (u b q) l)))).
  { apply SumTo_ext. intros q _. unfold carry. rewrite <- SumTo_scale. apply SumTo_ext. intros; ring. }
  rewrite SumTo_swap. cbn [rpow]. apply SumTo_ext. intros b Hb. rewrite SumTo_scale. unfold prods at 2. ring.
Qed.
Lemma noise_equation k ks v :
  NormalAverage K (fun l => (d + INR k) * trs l (k :: ks) + SumTo k (fun r => trs l (S r :: (k - 1 - r)%nat :: ks)) + 2 * rsum (fun p => INR (fst p) * trs l ((k + fst p)%nat :: snd p)) (picks ks)) v ->
  NormalAverage K (fun l => trs l (S k :: ks)) v.
Proof.
  intro V. pose (f := fun i q l => carry l k q i * trs l ks).
  apply (navg_ext K (fun l => SumTo n (fun i => SumTo t (fun q => lin K (u i q) l * f i q l)))).
  { intros l _. unfold trs at 1. cbn [map fold_right]. fold (trs l ks). rewrite <- (DE l k), SumTo_swap. unfold f. rewrite (Rmult_comm _ (trs l ks)), <- SumTo_scale. apply SumTo_ext. intros i _.
    rewrite <- SumTo_scale. apply SumTo_ext. intros; ring. }
  apply (stein_all f (fun i q l => (P q q * rpow n k (prods l) i i + SumTo k (fun r => carry l r q i * carry l (k - 1 - r) q i + SumTo n (fun j => lin K (u j q) l * carry l r q j) * rpow n (k - 1 - r) (prods l) i i)) * trs l ks
     + carry l k q i * rsum (fun p => 2 * INR (fst p) * carry l (fst p - 1) q i * trs l (snd p)) (picks ks))).
  { intros i q Hi Hq. unfold f. apply (slope_mul K (u i q) (fun l => carry l k q i)); [now apply slope_E|now apply slope_traces]. }
  refine (navg_ext _ _ _ _ _ V). intros l Hl. symmetry.
  rewrite (SumTo_ext n _ (fun i => trs l ks * (d * rpow n k (prods l) i i) + (SumTo k (fun r => trs l ks * rpow n k (prods l) i i + trs l ks * trp l (S r) * rpow n (k - 1 - r) (prods l) i i) + rsum (fun p => 2 * INR (fst p) * trs l (snd p) * rpow n (k + fst p) (prods l) i i) (picks ks)))).
  - rewrite !SumTo_add. rewrite Rplus_assoc. rewrite !SumTo_scale, (SumTo_swap n k). rewrite SumTo_rsum.
    rewrite (SumTo_ext k _ (fun r => trs l ks * trp l k + trs l (S r :: (k - 1 - r)%nat :: ks))).
    2:{ intros r _. rewrite SumTo_add, !SumTo_scale. unfold trs. cbn [map fold_right]. unfold trp. ring. }
    rewrite SumTo_add, SumTo_const. change (trs l (k :: ks)) with (trp l k * trs l ks). change (SumTo n (fun a => rpow n k (prods l) a a)) with (trp l k).
    rewrite <- rsum_scale. rewrite (rsum_ext (fun p => SumTo n _) (fun p => 2 * (INR (fst p) * trs l ((k + fst p)%nat :: snd p)))); [ring|].
    intros p _. rewrite SumTo_scale. change (trs l ((k + fst p)%nat :: snd p)) with (trp l (k + fst p) * trs l (snd p)). unfold trp. ring.
  - intros i Hi. rewrite SumTo_add. rewrite (SumTo_ext t _ (fun q => trs l ks * rpow n k (prods l) i i * P q q + trs l ks * SumTo k (fun r => carry l r q i * carry l (k - 1 - r) q i + SumTo n (fun j => lin K (u j q) l * carry l r q j) * rpow n (k - 1 - r) (prods l) i i))) by (intros; ring).
    rewrite SumTo_add, !SumTo_scale, tr, Rplus_assoc. f_equal; [ring|]. f_equal.
    + rewrite SumTo_swap, <- SumTo_scale. apply SumTo_ext. intros r Hr. rewrite SumTo_add, EE by exact Hi. replace (S (r + (k - 1 - r))) with k by lia.
      rewrite (SumTo_ext t (fun q => SumTo n _ * _) (fun q => rpow n (k - 1 - r) (prods l) i i * SumTo n (fun j => lin K (u j q) l * carry l r q j))) by (intros; ring). rewrite SumTo_scale, DE. ring.
    + rewrite (SumTo_ext t _ (fun q => rsum (fun p => carry l k q i * (2 * INR (fst p) * carry l (fst p - 1) q i * trs l (snd p))) (picks ks))) by (intros; now rewrite rsum_scale).
      rewrite SumTo_rsum. apply rsum_ext. intros [m s] _. cbn [fst snd]. destruct m as [|m].
      * cbn [INR]. rewrite (SumTo_ext t _ (fun _ => 0)) by (intros; ring). rewrite SumTo_const. ring.
      * replace (S m - 1)%nat with m by lia. rewrite (SumTo_ext t _ (fun q => 2 * INR (S m) * trs l s * (carry l k q i * carry l m q i))) by (intros; ring). rewrite SumTo_scale, EE by exact Hi. do 2 f_equal. lia.
Qed.
Lemma picks_burden ks : forall p, In p (picks ks) -> (2 * fst p + burden (snd p) + 1 = burden ks)%nat.
Proof.
  unfold burden. induction ks as [|k ks IH]; [intros p []|]. intros p [<-|Hp]; [cbn [fst snd fold_right length]; lia|]. apply in_map_iff in Hp. destruct Hp as (q & <- & Hq). specialize (IH q Hq). cbn [fst snd fold_right length] in *. lia.
Qed.
Lemma noise_traces f : forall ks, (burden ks < f)%nat -> NormalAverage K (fun l => trs l ks) (noise_average f (INR n) d ks).
Proof.
  induction f as [|f IH]; intros ks Hw; [lia|]. cbn [noise_average]. destruct ks as [|[|k] ks].
  - apply (navg_const K 1).
  - refine (navg_ext _ _ _ _ _ (navg_scale K _ _ (INR n) (IH ks _))).
    + intros l _. unfold trs. cbn [map fold_right]. f_equal. unfold trp. cbn [rpow].
      rewrite (SumTo_ext n _ (fun _ => 1)) by (intros; apply kron_refl). rewrite SumTo_const. ring.
    + unfold burden in *. cbn [fold_right length] in Hw. lia.
  - apply noise_equation.
    assert (NormalAverage K (fun l => SumTo k (fun r => trs l (S r :: (k - 1 - r)%nat :: ks))) (SumTo k (fun r => noise_average f (INR n) d (S r :: (k - 1 - r)%nat :: ks)))) as H2.
    { apply (navg_SumTo K k (fun r l => trs l (S r :: (k - 1 - r)%nat :: ks))). intros r Hr. apply IH. unfold burden in *. cbn [fold_right length] in *. lia. }
    assert (NormalAverage K (fun l => trs l (k :: ks)) (noise_average f (INR n) d (k :: ks))) as H1 by (apply IH; unfold burden in *; cbn [fold_right length] in *; lia).
    assert (NormalAverage K (fun l => rsum (fun p => INR (fst p) * trs l ((k + fst p)%nat :: snd p)) (picks ks)) (total (map (fun p => INR (fst p) * noise_average f (INR n) d ((k + fst p)%nat :: snd p)) (picks ks)))) as H3.
    { assert (forall (g : nat * list nat -> R) l, total (map g l) = rsum g l) as -> by (intros g l; unfold total, rsum; induction l as [|a l IHl]; [reflexivity|]; cbn; now rewrite IHl).
      apply (rsum_avg K (fun p l => INR (fst p) * trs l ((k + fst p)%nat :: snd p)) (fun p => INR (fst p) * noise_average f (INR n) d ((k + fst p)%nat :: snd p))). intros p Hp. apply navg_scale, IH.
      pose proof (picks_burden ks p Hp) as W. unfold burden in *. cbn [fold_right length] in *. lia. }
    pose proof (navg_lin _ _ _ _ _ 1 2 (navg_lin _ _ _ _ _ (d + INR k) 1 H1 H2) H3) as G. refine (navg_ext _ _ _ _ _ (navg_value _ _ _ _ _ G)); [intros; ring|ring].
Qed.
End Loop.
