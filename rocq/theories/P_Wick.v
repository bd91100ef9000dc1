(** Averages of polynomials of linear forms in independent normal numbers depend on the covariances only. *)
From Coq Require Import List ZArith Bool Arith Lia Reals Lra.
From Coquelicot Require Import Coquelicot.
From Verif Require Import Base S_Generate S_Normal S_Rotate P_Generate P_Surmise P_Rotate T_Rotate P_Moments P_Wishart P_Fourth P_Stein.
Import ListNotations.
Local Open Scope R_scope.
Local Notation length := List.length.

Definition lin (k : nat) (u : nat -> R) (l : list R) : R := SumTo k (fun p => u p * nth p l 0).
Definition rdot (k : nat) (u w : nat -> R) : R := SumTo k (fun p => u p * w p).
Definition Slope (k : nat) (u : nat -> R) (f f' : list R -> R) : Prop :=
  exists g : nat -> list R -> R, (forall p, (p < k)%nat -> Partial k p f (g p)) /\ forall l, length l = k -> f' l = SumTo k (fun p => u p * g p l).
Lemma slope_ext k u f f' g g' : (forall l, length l = k -> f l = g l) -> (forall l, length l = k -> f' l = g' l) -> Slope k u f f' -> Slope k u g g'.
Proof.
  intros E E' (d & H & H'). exists d. split; [|intros l Hl; rewrite <- E' by exact Hl; auto]. intros p Hp. refine (partial_ext _ _ _ _ _ _ _ _ (H p Hp)); auto.
Qed.
Lemma slope_const k u c : Slope k u (fun _ => c) (fun _ => 0).
Proof. exists (fun _ _ => 0). split; [intros p _; apply partial_const|]. intros l _. rewrite (SumTo_ext k _ (fun _ => 0)) by (intros; ring). rewrite SumTo_const. ring. Qed.
Lemma slope_mul k u f f' g g' : Slope k u f f' -> Slope k u g g' -> Slope k u (fun l => f l * g l) (fun l => f' l * g l + f l * g' l).
Proof.
  intros (d & H & H') (e & G & G'). exists (fun p l => d p l * g l + f l * e p l). split; [intros p Hp; apply partial_mul; auto|].
  intros l Hl. rewrite H', G' by exact Hl. rewrite (Rmult_comm _ (g l)), <- !SumTo_scale, <- SumTo_add. apply SumTo_ext. intros; ring.
Qed.
Lemma partial_SumTo k p n (f f' : nat -> list R -> R) : (forall i, (i < n)%nat -> Partial k p (f i) (f' i)) -> Partial k p (fun l => SumTo n (fun i => f i l)) (fun l => SumTo n (fun i => f' i l)).
Proof.
  induction n as [|n IH]; intro H; cbn [SumTo]; [apply partial_const|]. apply (partial_add k p (fun l => SumTo n (fun i => f i l)) _ (f n)); [apply IH; auto|apply H; lia].
Qed.
Lemma SumTo_kron k q (f : nat -> R) : (q < k)%nat -> SumTo k (fun p => f p * kron q p) = f q.
Proof.
  induction k as [|k IH]; intro H; [lia|]. cbn [SumTo]. unfold kron at 2. destruct (Nat.eqb_spec q k) as [->|N].
  - rewrite (SumTo_ext k _ (fun _ => 0)); [rewrite SumTo_const; ring|]. intros i Hi. unfold kron. destruct (Nat.eqb_spec k i); [lia|]. ring.
  - rewrite IH by lia. ring.
Qed.
Lemma slope_lin k u w : Slope k u (lin k w) (fun _ => rdot k u w).
Proof.
  exists (fun p _ => w p). split; [|intros; reflexivity]. intros p Hp.
  refine (partial_ext _ _ _ _ _ _ _ _ (partial_SumTo k p k (fun q l => w q * nth q l 0) (fun q _ => w q * kron p q) _)).
  - intros; reflexivity.
  - intros l _. now apply SumTo_kron.
  - intros q Hq. apply partial_scale. now apply partial_coord.
Qed.
Lemma slope_stein k u f f' : Slope k u f f' -> exists v, NormalAverage k (fun l => lin k u l * f l) v /\ NormalAverage k f' v.
Proof.
  intros (d & H & H').
  assert (forall m, (m <= k)%nat -> exists w, NormalAverage k (fun l => SumTo m (fun p => u p * nth p l 0) * f l) w /\ NormalAverage k (fun l => SumTo m (fun p => u p * d p l)) w) as A.
  { induction m as [|m IH]; intro Hm.
    - exists 0. split; [|exact (navg_const k 0)]. refine (navg_ext _ _ _ _ _ (navg_const k 0)). intros l _. cbn [SumTo]. ring.
    - destruct (IH ltac:(lia)) as (w & W1 & W2). destruct (partial_stein k m _ _ ltac:(lia) (H m ltac:(lia))) as (x & X1 & X2).
      exists (1 * w + u m * x). split.
      + refine (navg_ext _ _ _ _ _ (navg_lin _ _ _ _ _ 1 (u m) W1 X1)). intros l _. cbn [SumTo]. ring.
      + refine (navg_ext _ _ _ _ _ (navg_lin _ _ _ _ _ 1 (u m) W2 X2)). intros l _. cbn [SumTo]. ring. }
  destruct (A k (Nat.le_refl k)) as (w & W1 & W2). exists w. split; [exact W1|]. refine (navg_ext _ _ _ _ _ W2). intros l Hl. symmetry. auto.
Qed.

(** ** Products of forms *)
Section Forms.
Context {I : Type}.
Fixpoint picked (ps : list I) : list (I * list I) :=
  match ps with [] => [] | q :: t => (q, t) :: map (fun r => (fst r, q :: snd r)) (picked t) end.
Lemma picked_length ps : forall r, In r (picked ps) -> length ps = S (length (snd r)).
Proof.
  induction ps as [|q t IH]; intros r; [intros []|]. intros [<-|Hr]; [reflexivity|]. apply in_map_iff in Hr as (s & <- & Hs). cbn. f_equal. now apply IH.
Qed.
Lemma picked_in ps : forall r, In r (picked ps) -> In (fst r) ps /\ incl (snd r) ps.
Proof.
  induction ps as [|q t IH]; intros r; [intros []|]. intros [<-|Hr]; [cbn; split; [now left|intros x Hx; now right]|]. apply in_map_iff in Hr as (s & <- & Hs). cbn.
  destruct (IH s Hs) as [H1 H2]. split; [now right|]. intros x [<-|Hx]; [now left|right; auto].
Qed.
Definition product (x : I -> R) (ps : list I) : R := fold_right (fun p s => x p * s) 1 ps.
Definition rsum {A} (f : A -> R) (l : list A) : R := fold_right (fun a s => f a + s) 0 l.
Lemma rsum_map {A B} (f : B -> R) (g : A -> B) l : rsum f (map g l) = rsum (fun a => f (g a)) l.
Proof. unfold rsum. induction l as [|a l IH]; cbn [map fold_right]; [reflexivity|]. now rewrite IH. Qed.
Lemma rsum_scale {A} c (f : A -> R) l : rsum (fun a => c * f a) l = c * rsum f l.
Proof. unfold rsum. induction l as [|a l IH]; cbn [fold_right]; [ring|]. rewrite IH. ring. Qed.
Lemma rsum_ext {A} (f g : A -> R) l : (forall a, In a l -> f a = g a) -> rsum f l = rsum g l.
Proof. unfold rsum. induction l as [|a l IH]; intro H; cbn [fold_right]; [reflexivity|]. rewrite H by now left. f_equal. apply IH. intros; apply H; now right. Qed.
Lemma rsum_avg {A} k (f : A -> list R -> R) (v : A -> R) l : (forall a, In a l -> NormalAverage k (f a) (v a)) -> NormalAverage k (fun z => rsum (fun a => f a z) l) (rsum v l).
Proof.
  unfold rsum. induction l as [|a l IH]; intro H; cbn [fold_right]; [apply navg_const|]. pose proof (navg_lin k _ _ _ _ 1 1 (H a (or_introl eq_refl)) (IH (fun b Hb => H b (or_intror Hb)))) as N.
  rewrite !Rmult_1_l in N. refine (navg_ext _ _ _ _ _ N). intros; ring.
Qed.
Fixpoint wick (n : nat) (cov : I -> I -> R) (ps : list I) : R :=
  match n, ps with
  | _, [] => 1
  | O, _ => 0
  | S m, p :: t => rsum (fun r => cov p (fst r) * wick m cov (snd r)) (picked t)
  end.
Lemma wick_ext n cov cov' : forall ps, (forall p q, In p ps -> In q ps -> cov p q = cov' p q) -> wick n cov ps = wick n cov' ps.
Proof.
  induction n as [|n IH]; intros [|p t] H; cbn [wick]; try reflexivity. apply rsum_ext. intros r Hr. destruct (picked_in t r Hr) as [H1 H2]. f_equal.
  - apply H; [now left|now right].
  - apply IH. intros a b Ha Hb. apply H; right; auto.
Qed.
Variables (k : nat) (u : I -> nat -> R).
Definition form_at (l : list R) (p : I) : R := lin k (u p) l.
Lemma product_slope d ps : Slope k d (fun l => product (form_at l) ps) (fun l => rsum (fun r => rdot k d (u (fst r)) * product (form_at l) (snd r)) (picked ps)).
Proof.
  induction ps as [|q t IH]; [exact (slope_const k d 1)|]. refine (slope_ext _ _ _ _ _ _ _ _ (slope_mul k d _ _ _ _ (slope_lin k d (u q)) IH)).
  - intros; reflexivity.
  - intros l _. cbn [picked rsum fold_right fst snd]. f_equal. fold (rsum (fun r => rdot k d (u (fst r)) * product (form_at l) (snd r)) (map (fun r => (fst r, q :: snd r)) (picked t))).
    rewrite rsum_map. cbn [fst snd product fold_right]. fold (form_at l q). rewrite <- rsum_scale. apply rsum_ext. intros r _. fold (product (form_at l) (snd r)). ring.
Qed.
Lemma wick_avg n : forall ps, (length ps <= n)%nat -> NormalAverage k (fun l => product (form_at l) ps) (wick n (fun p q => rdot k (u p) (u q)) ps).
Proof.
  induction n as [|n IH]; intros [|p t] Hl; try (cbn [wick product fold_right]; apply navg_const); [cbn in Hl; lia|]. cbn [wick].
  destruct (slope_stein k (u p) _ _ (product_slope (u p) t)) as (v & V1 & V2).
  assert (NormalAverage k (fun l => rsum (fun r => rdot k (u p) (u (fst r)) * product (form_at l) (snd r)) (picked t)) (rsum (fun r => rdot k (u p) (u (fst r)) * wick n (fun p q => rdot k (u p) (u q)) (snd r)) (picked t))) as N.
  { apply (rsum_avg k (fun r l => rdot k (u p) (u (fst r)) * product (form_at l) (snd r))). intros r Hr. apply navg_scale. apply IH. apply picked_length in Hr. cbn in Hl. lia. }
  rewrite (navg_unique _ _ _ _ N V2). exact V1.
Qed.
End Forms.

(** ** Polynomials of the entries of a matrix *)
Definition evalp (p : list (R * list (nat * nat))) (M : nat -> nat -> R) : R := rsum (fun ce => fst ce * product (fun ij => M (fst ij) (snd ij)) (snd ce)) p.
Definition Inside (n : nat) (p : list (R * list (nat * nat))) : Prop := forall ce, In ce p -> forall ij, In ij (snd ce) -> (fst ij < n)%nat /\ (snd ij < n)%nat.
Definition MatPoly (n : nat) (G : (nat -> nat -> R) -> R) : Prop := exists p, Inside n p /\ forall M, G M = evalp p M.
Lemma rsum_app {A} (f : A -> R) l m : rsum f (l ++ m) = rsum f l + rsum f m.
Proof. unfold rsum. induction l as [|a l IH]; cbn [fold_right app]; [ring|]. rewrite IH. ring. Qed.
Lemma rsum_flat {A B} (f : B -> R) (g : A -> list B) l : rsum f (flat_map g l) = rsum (fun a => rsum f (g a)) l.
Proof. induction l as [|a l IH]; [reflexivity|]. cbn [flat_map]. rewrite rsum_app, IH. reflexivity. Qed.
Lemma product_app {I} (x : I -> R) l m : product x (l ++ m) = product x l * product x m.
Proof. unfold product. induction l as [|a l IH]; cbn [fold_right app]; [ring|]. rewrite IH. ring. Qed.
Lemma matpoly_eq n G H : (forall M, G M = H M) -> MatPoly n G -> MatPoly n H.
Proof. intros E (p & I & P). exists p. split; [exact I|]. intro M. now rewrite <- E. Qed.
Lemma matpoly_const n c : MatPoly n (fun _ => c).
Proof. exists [(c, [])]. split; [intros ce [<-|[]] ij []|]. intro M. cbn. ring. Qed.
Lemma matpoly_entry n i j : (i < n)%nat -> (j < n)%nat -> MatPoly n (fun M => M i j).
Proof. intros Hi Hj. exists [(1, [(i, j)])]. split; [intros ce [<-|[]] ij [<-|[]]; auto|]. intro M. cbn. ring. Qed.
Lemma matpoly_add n G H : MatPoly n G -> MatPoly n H -> MatPoly n (fun M => G M + H M).
Proof.
  intros (p & I & P) (q & J & Q). exists (p ++ q). split; [intros ce Hc; apply in_app_or in Hc as [Hc|Hc]; [exact (I ce Hc)|exact (J ce Hc)]|]. intro M. rewrite P, Q. symmetry. exact (rsum_app _ p q).
Qed.
Lemma matpoly_mul n G H : MatPoly n G -> MatPoly n H -> MatPoly n (fun M => G M * H M).
Proof.
  intros (p & I & P) (q & J & Q). exists (flat_map (fun ce => map (fun de => (fst ce * fst de, snd ce ++ snd de)) q) p). split.
  - intros ce Hc. apply in_flat_map in Hc as (a & Ha & Hc). apply in_map_iff in Hc as (b & <- & Hb). cbn [snd]. intros ij Hij. apply in_app_or in Hij as [Hij|Hij]; [exact (I a Ha ij Hij)|exact (J b Hb ij Hij)].
  - intro M. rewrite P, Q. unfold evalp. rewrite rsum_flat, Rmult_comm, <- rsum_scale. apply rsum_ext. intros a _. rewrite rsum_map. cbn [fst snd].
    rewrite (Rmult_comm (rsum _ q)), <- rsum_scale. apply rsum_ext. intros b _. rewrite product_app. ring.
Qed.
Lemma matpoly_SumTo n m (f : nat -> (nat -> nat -> R) -> R) : (forall i, (i < m)%nat -> MatPoly n (f i)) -> MatPoly n (fun M => SumTo m (fun i => f i M)).
Proof. induction m as [|m IH]; intro H; cbn [SumTo]; [apply matpoly_const|]. apply (matpoly_add n (fun M => SumTo m (fun i => f i M))); [apply IH; auto|apply H; lia]. Qed.
Lemma product_ext {I} (x y : I -> R) ps : (forall p, In p ps -> x p = y p) -> product x ps = product y ps.
Proof. unfold product. induction ps as [|p ps IH]; intro H; cbn [fold_right]; [reflexivity|]. rewrite H by now left. f_equal. apply IH. intros; apply H; now right. Qed.
Lemma matpoly_ext n G M N : MatPoly n G -> (forall i j, (i < n)%nat -> (j < n)%nat -> M i j = N i j) -> G M = G N.
Proof.
  intros (p & I & P) E. rewrite !P. apply rsum_ext. intros ce Hc. f_equal. apply product_ext. intros ij Hij. destruct (I ce Hc ij Hij). auto.
Qed.
(** The entries replaced by constants and entries of a smaller matrix. *)
Lemma matpoly_subst n m G (s : (nat -> nat -> R) -> nat -> nat -> R) : MatPoly n G -> (forall i j, (i < n)%nat -> (j < n)%nat -> MatPoly m (fun B => s B i j)) -> MatPoly m (fun B => G (s B)).
Proof.
  intros (p & I & P) H. apply (matpoly_eq m (fun B => evalp p (s B))); [intro; now rewrite P|]. clear P. unfold evalp. induction p as [|[c ps] p IH]; cbn [rsum fold_right]; [apply matpoly_const|].
  apply (matpoly_add m (fun B => fst (c, ps) * product (fun ij => s B (fst ij) (snd ij)) (snd (c, ps)))); [|apply IH; intros ce Hc; apply I; now right].
  apply (matpoly_mul m (fun _ => c)); [apply matpoly_const|]. cbn [snd]. specialize (I (c, ps) (or_introl eq_refl)). cbn [snd] in I. clear IH. induction ps as [|ij ps IH]; cbn [product fold_right]; [apply matpoly_const|].
  apply (matpoly_mul m (fun B => s B (fst ij) (snd ij))); [destruct (I ij (or_introl eq_refl)); auto|]. apply IH. intros q Hq. apply I. now right.
Qed.

(** Entries that are linear forms, with the covariances of a symmetric matrix with independent entries. *)
Definition Jointly (n k : nat) (M : list R -> nat -> nat -> R) (cov : nat -> nat -> nat -> nat -> R) : Prop :=
  exists u : nat -> nat -> nat -> R, (forall l i j, length l = k -> (i < n)%nat -> (j < n)%nat -> M l i j = lin k (u i j) l) /\
    forall i j a b, (i < n)%nat -> (j < n)%nat -> (a < n)%nat -> (b < n)%nat -> rdot k (u i j) (u a b) = cov i j a b.
Lemma same_average n k k' M M' cov G v : Jointly n k M cov -> Jointly n k' M' cov -> MatPoly n G -> NormalAverage k (fun l => G (M l)) v -> NormalAverage k' (fun l => G (M' l)) v.
Proof.
  intros HM HM' (p & I & P) V.
  assert (forall K X, Jointly n K X cov -> NormalAverage K (fun l => G (X l)) (rsum (fun ce => fst ce * wick (length (snd ce)) (fun a b : nat * nat => cov (fst a) (snd a) (fst b) (snd b)) (snd ce)) p)) as A.
  { intros K X (u & U1 & U2). apply (navg_ext K (fun l => rsum (fun ce => fst ce * product (form_at K (fun ij : nat * nat => u (fst ij) (snd ij)) l) (snd ce)) p)).
    - intros l Hl. rewrite P. unfold evalp. apply rsum_ext. intros ce Hc. f_equal. apply product_ext. intros ij Hij. destruct (I ce Hc ij Hij). unfold form_at. symmetry. now apply U1.
    - apply (rsum_avg K (fun ce l => fst ce * product (form_at K (fun ij : nat * nat => u (fst ij) (snd ij)) l) (snd ce))). intros ce Hc. apply navg_scale.
      rewrite (wick_ext _ _ (fun a b : nat * nat => rdot K (u (fst a) (snd a)) (u (fst b) (snd b)))).
      + apply (wick_avg K (fun ij : nat * nat => u (fst ij) (snd ij))). lia.
      + intros a b Ha Hb. destruct (I ce Hc a Ha), (I ce Hc b Hb). symmetry. now apply U2. }
  rewrite (navg_unique _ _ _ _ V (A k M HM)). exact (A k' M' HM').
Qed.
Lemma matpoly_average n k M cov G : Jointly n k M cov -> MatPoly n G -> exists v, NormalAverage k (fun l => G (M l)) v.
Proof.
  intros (u & U1 & _) HG. destruct HG as (p & I & P).
  exists (rsum (fun ce => fst ce * wick (length (snd ce)) (fun a b : nat * nat => rdot k (u (fst a) (snd a)) (u (fst b) (snd b))) (snd ce)) p).
  apply (navg_ext k (fun l => rsum (fun ce => fst ce * product (form_at k (fun ij : nat * nat => u (fst ij) (snd ij)) l) (snd ce)) p)).
  - intros l Hl. rewrite P. unfold evalp. apply rsum_ext. intros ce Hc. f_equal. apply product_ext. intros ij Hij. destruct (I ce Hc ij Hij). unfold form_at. symmetry. now apply U1.
  - apply (rsum_avg k (fun ce l => fst ce * product (form_at k (fun ij : nat * nat => u (fst ij) (snd ij)) l) (snd ce))). intros ce Hc. apply navg_scale. apply (wick_avg k (fun ij : nat * nat => u (fst ij) (snd ij))). lia.
Qed.
