(** The characteristic polynomial of a Hermitian matrix from its eigenvalues, and its average for the generated GUE matrices. *)
From Coq Require Import List Arith ZArith Lia Reals Lra.
From Coquelicot Require Import Coquelicot.
From Verif Require Import Base S_Generate S_Normal S_Rotate S_CharPoly S_CCharPoly M_Generate P_Generate P_Surmise P_Rotate T_Rotate P_Moments P_Det P_CDet P_CharPoly.
Import ListNotations.
Local Open Scope R_scope.
Local Open Scope C_scope.

Lemma CDet_diagonal n : forall d : nat -> C, CDet n (fun i j => if Nat.eqb i j then d i else RtoC 0) = fold_right Cmult (RtoC 1) (map d (seq 0 n)).
Proof.
  induction n as [|n IH]; intro d; [reflexivity|]. change (CDet (S n) ?m) with (CSumTo (S n) (fun j => csign j * m O j * CDet n (cminor j m))). rewrite CSumTo_shift, CSumTo_0.
  - cbn [seq map fold_right Nat.eqb csign]. rewrite <- seq_shift, map_map, <- (IH (fun i => d (S i))). rewrite (CDet_ext n _ (fun i j => if Nat.eqb i j then d (S i) else RtoC 0)) by reflexivity. ring.
  - intros i _. cbn [Nat.eqb]. ring.
Qed.
Lemma roots_RtoC lam x : fold_right Cmult (RtoC 1) (map (fun l => RtoC (x - l)) lam) = RtoC (FromRoots lam x).
Proof. unfold FromRoots. induction lam as [|y lam IH]; [reflexivity|]. cbn [map fold_right]. rewrite IH. now rewrite RtoC_mult. Qed.
Lemma ccharpoly_spectrum n re im lam x : CSpectrum n re im lam -> CCharPoly n (fun i j => (re i j, im i j)) x = RtoC (FromRoots lam x).
Proof.
  intros (Hl & u & Hu & E). set (uh := fun i j => Cconj (u j i)). set (a := fun i j => RtoC (if Nat.eqb i j then x else 0%R) - (re i j, im i j)).
  assert (forall i j, (i < n)%nat -> (j < n)%nat -> CSumTo n (fun k => Cconj (u k i) * u k j) = if Nat.eqb i j then RtoC 1 else RtoC 0) as Hq.
  { intros i j Hi Hj. rewrite (CSumTo_ext n _ (fun k => u k j * Cconj (u k i))) by (intros; ring). rewrite (Hu j i Hj Hi), (Nat.eqb_sym j i). now destruct (Nat.eqb i j). }
  assert (CDet n uh * CDet n u = RtoC 1) as H1.
  { rewrite <- CDet_product. rewrite (CDet_ext n _ (fun i j => if Nat.eqb i j then RtoC 1 else RtoC 0)).
    - rewrite (CDet_diagonal n (fun _ => RtoC 1)). generalize (seq 0 n). intro l. induction l as [|y l IH]; [reflexivity|]. cbn [map fold_right]. rewrite IH. ring.
    - intros i j Hi Hj. unfold cproduct, uh. now apply Hq. }
  assert (CDet n (cproduct n uh (cproduct n a u)) = RtoC (FromRoots lam x)) as H2.
  { rewrite (CDet_ext n _ (fun i j => if Nat.eqb i j then RtoC (x - nth i lam 0%R) else RtoC 0)).
    - rewrite (CDet_diagonal n (fun i => RtoC (x - nth i lam 0%R))), <- roots_RtoC. f_equal. subst n. clear. induction lam as [|y lam IH]; [reflexivity|]. cbn [length seq map nth]. f_equal. rewrite <- seq_shift, map_map. exact IH.
    - intros i j Hi Hj. unfold cproduct, uh.
      assert (forall k, (k < n)%nat -> CSumTo n (fun l => a k l * u l j) = RtoC (x - nth j lam 0%R) * u k j) as Hk.
      { intros k Hk. transitivity (CSumTo n (fun l => (if Nat.eqb l k then RtoC x * u l j else RtoC 0) + (- RtoC 1) * ((re k l, im k l) * u l j))).
        - apply CSumTo_ext. intros l _. unfold a. rewrite (Nat.eqb_sym k l). destruct (Nat.eqb l k); ring.
        - rewrite CSumTo_add, CSumTo_scale, (CSumTo_delta n k (fun l => RtoC x * u l j)) by exact Hk.
          assert (CSumTo n (fun l => (re k l, im k l) * u l j) = RtoC (nth j lam 0%R) * u k j) as ->; [|rewrite RtoC_minus; ring].
          transitivity (CSumTo n (fun l => CSumTo n (fun t => u k t * RtoC (nth t lam 0%R) * (Cconj (u l t) * u l j)))).
          + apply CSumTo_ext. intros l Hl'. rewrite E by assumption. unfold cturn. rewrite Cmult_comm, <- CSumTo_scale. apply CSumTo_ext. intros t Ht.
            assert (CSumTo n (fun l0 => RtoC (diagonal lam t l0) * Cconj (u l l0)) = RtoC (nth t lam 0%R) * Cconj (u l t)) as ->; [|ring].
            rewrite <- (CSumTo_delta n t (fun l0 => RtoC (nth t lam 0%R) * Cconj (u l l0)) Ht). apply CSumTo_ext. intros v _. unfold diagonal. rewrite (Nat.eqb_sym t v). destruct (Nat.eqb v t); ring.
          + rewrite CSumTo_swap. rewrite <- (CSumTo_delta n j (fun t => RtoC (nth t lam 0%R) * u k t) Hj). apply CSumTo_ext. intros t Ht. rewrite CSumTo_scale, Hq by assumption. destruct (Nat.eqb t j); ring. }
      rewrite (CSumTo_ext n _ (fun k => RtoC (x - nth j lam 0%R) * (Cconj (u k i) * u k j))) by (intros k Hk'; rewrite Hk by exact Hk'; ring). rewrite CSumTo_scale, Hq by assumption.
      destruct (Nat.eqb_spec i j) as [->|]; ring. }
  rewrite !CDet_product in H2. unfold CCharPoly. fold a. rewrite <- H2. transitivity (CDet n a * (CDet n uh * CDet n u)); [rewrite H1|]; ring.
Qed.

(** Expansion along the first row and the first column. *)
Lemma CDet_border n m : CDet (S (S n)) m = m O O * CDet (S n) (fun i j => m (S i) (S j)) -
  CSumTo (S n) (fun j => CSumTo (S n) (fun k => csign (j + k) * ((m O (S j) * m (S k) O) * CDet n (fun r c => m (S (up k r)) (S (up j c)))))).
Proof.
  transitivity (CSumTo (S (S n)) (fun j => csign j * m O j * CDet (S n) (cminor j m))); [reflexivity|]. rewrite (CSumTo_shift (S n)). unfold Cminus. f_equal.
  - cbn [csign]. rewrite (CDet_ext (S n) (cminor 0 m) (fun i j => m (S i) (S j))) by reflexivity. ring.
  - transitivity (- RtoC 1 * CSumTo (S n) (fun j => CSumTo (S n) (fun k => csign (j + k) * ((m O (S j) * m (S k) O) * CDet n (fun r c => m (S (up k r)) (S (up j c))))))); [|ring].
    rewrite <- CSumTo_scale. apply CSumTo_ext. intros j _. rewrite (CDet_first_column n), <- !CSumTo_scale. apply CSumTo_ext. intros k _. rewrite csign_add. unfold cminor at 1. cbn [Nat.ltb Nat.leb csign].
    rewrite (CDet_ext n _ (fun r c => m (S (up k r)) (S (up j c)))); [ring|]. intros r c _ _. unfold cminor, up. change (Nat.ltb (S c) (S j)) with (Nat.ltb c j). now destruct (Nat.ltb c j).
Qed.

(** Averages of complex functions. *)
Lemma cavg_ext k f g v : (forall l, length l = k -> f l = g l) -> CNormalAverage k f v -> CNormalAverage k g v.
Proof. intros E [H1 H2]. split; [revert H1|revert H2]; apply navg_ext; intros l Hl; now rewrite E. Qed.
Lemma cavg_value k f u v : u = v -> CNormalAverage k f u -> CNormalAverage k f v.
Proof. now intros ->. Qed.
Lemma cavg_const k c : CNormalAverage k (fun _ => c) c.
Proof. split; apply navg_const. Qed.
Lemma cavg_add k f g u v : CNormalAverage k f u -> CNormalAverage k g v -> CNormalAverage k (fun l => f l + g l) (u + v).
Proof.
  intros [F1 F2] [G1 G2]. split.
  - refine (navg_ext _ _ _ _ _ (navg_value _ _ _ _ _ (navg_lin _ _ _ _ _ 1 1 F1 G1))); [intros l _|]; cbn; ring.
  - refine (navg_ext _ _ _ _ _ (navg_value _ _ _ _ _ (navg_lin _ _ _ _ _ 1 1 F2 G2))); [intros l _|]; cbn; ring.
Qed.
Lemma cavg_scale k f c v : CNormalAverage k f v -> CNormalAverage k (fun l => c * f l) (c * v).
Proof.
  intros [F1 F2]. split.
  - refine (navg_ext _ _ _ _ _ (navg_value _ _ _ _ _ (navg_lin _ _ _ _ _ (fst c) (- snd c) F1 F2))); [intros l _|]; cbn; ring.
  - refine (navg_ext _ _ _ _ _ (navg_value _ _ _ _ _ (navg_lin _ _ _ _ _ (fst c) (snd c) F2 F1))); [intros l _|]; cbn; ring.
Qed.
Lemma cavg_SumTo k n (f : nat -> list R -> C) (v : nat -> C) : (forall i, (i < n)%nat -> CNormalAverage k (f i) (v i)) -> CNormalAverage k (fun l => CSumTo n (fun i => f i l)) (CSumTo n v).
Proof.
  induction n as [|n IH]; intro H; [exact (cavg_const k 0)|]. cbn [CSumTo]. apply (cavg_add k (fun l => CSumTo n (fun i => f i l)) (f n)); auto.
Qed.
Definition CUses (k : nat) (A : nat -> bool) (f : list R -> C) : Prop :=
  forall l l', length l = k -> length l' = k -> (forall i, (i < k)%nat -> A i = true -> nth i l 0%R = nth i l' 0%R) -> f l = f l'.
Lemma cavg_indep k A f g u v : CUses k A f -> CUses k (fun i => negb (A i)) g -> CNormalAverage k f u -> CNormalAverage k g v -> CNormalAverage k (fun l => f l * g l) (u * v).
Proof.
  intros Uf Ug [F1 F2] [G1 G2].
  assert (Uses k A (fun l => fst (f l)) /\ Uses k A (fun l => snd (f l))) as [U1 U2] by (split; intros l l' Hl Hl' E; cbv beta; now rewrite (Uf l l' Hl Hl' E)).
  assert (Uses k (fun i => negb (A i)) (fun l => fst (g l)) /\ Uses k (fun i => negb (A i)) (fun l => snd (g l))) as [V1 V2] by (split; intros l l' Hl Hl' E; cbv beta; now rewrite (Ug l l' Hl Hl' E)).
  pose proof (navg_indep k A _ _ _ _ U1 V1 F1 G1) as H11. pose proof (navg_indep k A _ _ _ _ U1 V2 F1 G2) as H12.
  pose proof (navg_indep k A _ _ _ _ U2 V1 F2 G1) as H21. pose proof (navg_indep k A _ _ _ _ U2 V2 F2 G2) as H22. split.
  - refine (navg_ext _ _ _ _ _ (navg_value _ _ _ _ _ (navg_lin _ _ _ _ _ 1 (-1) H11 H22))); [intros l _|]; cbn; ring.
  - refine (navg_ext _ _ _ _ _ (navg_value _ _ _ _ _ (navg_lin _ _ _ _ _ 1 1 H12 H21))); [intros l _|]; cbn; ring.
Qed.
Definition CPolynomial (k : nat) (f : list R -> C) : Prop := Polynomial k (fun l => fst (f l)) /\ Polynomial k (fun l => snd (f l)).
Lemma cpoly_avg k f : CPolynomial k f -> exists v, CNormalAverage k f v.
Proof. intros [H1 H2]. destruct (poly_avg _ _ H1) as [u Hu]. destruct (poly_avg _ _ H2) as [v Hv]. exists (u, v). now split. Qed.
Lemma cpoly_const k c : CPolynomial k (fun _ => c).
Proof. split; apply poly_const. Qed.
Lemma cpoly_add k f g : CPolynomial k f -> CPolynomial k g -> CPolynomial k (fun l => f l + g l).
Proof. intros [F1 F2] [G1 G2]. split; [exact (poly_add k _ _ F1 G1)|exact (poly_add k _ _ F2 G2)]. Qed.
Lemma cpoly_mul k f g : CPolynomial k f -> CPolynomial k g -> CPolynomial k (fun l => f l * g l).
Proof.
  intros [F1 F2] [G1 G2]. split.
  - apply (poly_ext k (fun l => fst (f l) * fst (g l) + -1 * (snd (f l) * snd (g l)))%R); [intros; cbn; ring|]. apply poly_add; [now apply poly_mul|]. apply poly_scale. now apply poly_mul.
  - exact (poly_add k _ _ (poly_mul k _ _ F1 G2) (poly_mul k _ _ F2 G1)).
Qed.
Lemma cpoly_SumTo k n (f : nat -> list R -> C) : (forall i, (i < n)%nat -> CPolynomial k (f i)) -> CPolynomial k (fun l => CSumTo n (fun i => f i l)).
Proof.
  induction n as [|n IH]; intro H; cbn [CSumTo]; [apply cpoly_const|]. apply (cpoly_add k (fun l => CSumTo n (fun i => f i l)) (f n)); [apply IH; auto|apply H; lia].
Qed.
Lemma cpoly_Det k n : forall m : list R -> nat -> nat -> C, (forall i j, (i < n)%nat -> (j < n)%nat -> CPolynomial k (fun l => m l i j)) -> CPolynomial k (fun l => CDet n (m l)).
Proof.
  induction n as [|n IH]; intros m H; [exact (cpoly_const k 1)|]. cbn [CDet]. apply (cpoly_SumTo k (S n) (fun j l => csign j * m l O j * CDet n (cminor j (m l)))). intros j Hj.
  apply cpoly_mul; [apply (cpoly_mul k (fun _ => csign j)); [apply cpoly_const|apply H; lia]|]. apply (IH (fun l => cminor j (m l))). intros r c Hr Hc. unfold cminor. destruct (Nat.ltb_spec c j); apply H; lia.
Qed.
Lemma cuses_Det k A n (m : list R -> nat -> nat -> C) : (forall i j, (i < n)%nat -> (j < n)%nat -> CUses k A (fun l => m l i j)) -> CUses k A (fun l => CDet n (m l)).
Proof. intros H l l' Hl Hl' E. apply CDet_ext. intros i j Hi Hj. now apply (H i j Hi Hj). Qed.
Lemma csign_even i : csign (i + i) = RtoC 1.
Proof. induction i as [|i IH]; [reflexivity|]. replace (S i + S i)%nat with (S (S (i + i))) by lia. cbn [csign]. rewrite IH. ring. Qed.

(** ** The generated GUE matrix *)
Section Full.
Variable N : nat.
Let K := (2 * (N * N))%nat.
Let X (i j : nat) : nat := (i * N + j)%nat.
Let Y (i j : nat) : nat := (N * N + (i * N + j))%nat.
(** The draws of row [p] and of column [p], in both halves of the list. *)
Let row (p q : nat) : bool := let q' := if Nat.ltb q (N * N) then q else (q - N * N)%nat in (Nat.eqb (q' / N) p || Nat.eqb (q' mod N) p)%bool.
Let G (l : list R) (i j : nat) : C := gue N l i j.
Lemma C_eq l i j : (i < N)%nat -> (j < N)%nat ->
  G l i j = (/ 2 * nth (X i j) l 0 + / 2 * nth (X j i) l 0, / 2 * nth (Y i j) l 0 + - / 2 * nth (Y j i) l 0)%R.
Proof. intros Hi Hj. unfold G. rewrite gue_draws by assumption. unfold complex_draws, Cplus, Cmult, RtoC, Cconj, X, Y. cbn [fst snd]. f_equal; field. Qed.
Lemma X_lt i j : (i < N)%nat -> (j < N)%nat -> (X i j < K)%nat.
Proof. intros. unfold X, K. nia. Qed.
Lemma Y_lt i j : (i < N)%nat -> (j < N)%nat -> (Y i j < K)%nat.
Proof. intros. unfold Y, K. nia. Qed.
Lemma X_row i j p : (i < N)%nat -> (j < N)%nat -> row p (X i j) = (Nat.eqb i p || Nat.eqb j p)%bool.
Proof. intros Hi Hj. destruct (row_major N i j Hi Hj) as (A & B & D). unfold row, X. destruct (Nat.ltb_spec (i * N + j) (N * N)); [|lia]. now rewrite B, D. Qed.
Lemma Y_row i j p : (i < N)%nat -> (j < N)%nat -> row p (Y i j) = (Nat.eqb i p || Nat.eqb j p)%bool.
Proof.
  intros Hi Hj. destruct (row_major N i j Hi Hj) as (A & B & D). unfold row, Y. destruct (Nat.ltb_spec (N * N + (i * N + j)) (N * N)); [lia|].
  replace (N * N + (i * N + j) - N * N)%nat with (i * N + j)%nat by lia. now rewrite B, D.
Qed.
Lemma C_poly i j : (i < N)%nat -> (j < N)%nat -> CPolynomial K (fun l => G l i j).
Proof.
  intros Hi Hj. split.
  - apply (poly_ext _ (fun l => / 2 * nth (X i j) l 0 + / 2 * nth (X j i) l 0)%R); [intros; now rewrite C_eq|]. apply poly_add; apply poly_scale, poly_coord; now apply X_lt.
  - apply (poly_ext _ (fun l => / 2 * nth (Y i j) l 0 + - / 2 * nth (Y j i) l 0)%R); [intros; now rewrite C_eq|]. apply poly_add; apply poly_scale, poly_coord; now apply Y_lt.
Qed.
Lemma C_uses (A : nat -> bool) i j : (i < N)%nat -> (j < N)%nat -> A (X i j) = true -> A (X j i) = true -> A (Y i j) = true -> A (Y j i) = true -> CUses K A (fun l => G l i j).
Proof.
  intros Hi Hj A1 A2 A3 A4 l l' _ _ E. cbv beta. rewrite !C_eq by assumption.
  rewrite (E (X i j)), (E (X j i)), (E (Y i j)), (E (Y j i)); auto using X_lt, Y_lt.
Qed.
Lemma C_mean i j : (i < N)%nat -> (j < N)%nat -> CNormalAverage K (fun l => G l i j) 0.
Proof.
  intros Hi Hj. split.
  - refine (navg_ext _ _ _ _ _ (navg_value _ _ _ _ _ (navg_lin K _ _ _ _ (/ 2) (/ 2) (navg_coord K (X i j) (X_lt i j Hi Hj)) (navg_coord K (X j i) (X_lt j i Hj Hi))))); [|cbn; ring].
    intros l _. now rewrite C_eq.
  - refine (navg_ext _ _ _ _ _ (navg_value _ _ _ _ _ (navg_lin K _ _ _ _ (/ 2) (- / 2) (navg_coord K (Y i j) (Y_lt i j Hi Hj)) (navg_coord K (Y j i) (Y_lt j i Hj Hi))))); [|cbn; ring].
    intros l _. now rewrite C_eq.
Qed.
Let delta (i j : nat) : R := if Nat.eqb i j then 1%R else 0%R.
Lemma forms_avg a b c d p q r s : (p < K)%nat -> (q < K)%nat -> (r < K)%nat -> (s < K)%nat ->
  NormalAverage K (fun l => (a * nth p l 0 + b * nth q l 0) * (c * nth r l 0 + d * nth s l 0))%R (a * c * delta p r + a * d * delta p s + b * c * delta q r + b * d * delta q s)%R.
Proof.
  intros Hp Hq Hr Hs.
  pose proof (navg_lin _ _ _ _ _ 1 1 (navg_lin _ _ _ _ _ (a * c) (a * d) (navg_pair K p r Hp Hr) (navg_pair K p s Hp Hs)) (navg_lin _ _ _ _ _ (b * c) (b * d) (navg_pair K q r Hq Hr) (navg_pair K q s Hq Hs))) as H.
  refine (navg_ext _ _ _ _ _ (navg_value _ _ _ _ _ H)); [intros l _; cbv beta; ring|unfold delta; ring].
Qed.
Lemma delta_XX i j k l : (i < N)%nat -> (j < N)%nat -> (k < N)%nat -> (l < N)%nat -> delta (X i j) (X k l) = if (Nat.eqb i k && Nat.eqb j l)%bool then 1%R else 0%R.
Proof. intros. unfold delta, X. now rewrite position_eqb. Qed.
Lemma delta_YY i j k l : (i < N)%nat -> (j < N)%nat -> (k < N)%nat -> (l < N)%nat -> delta (Y i j) (Y k l) = if (Nat.eqb i k && Nat.eqb j l)%bool then 1%R else 0%R.
Proof.
  intros. unfold delta, Y. rewrite <- (position_eqb N) by assumption. destruct (Nat.eqb_spec (i * N + j) (k * N + l)) as [->|Ne]; [now rewrite Nat.eqb_refl|].
  destruct (Nat.eqb_spec (N * N + (i * N + j)) (N * N + (k * N + l))); [lia|reflexivity].
Qed.
Lemma delta_XY i j k l : (i < N)%nat -> (j < N)%nat -> delta (X i j) (Y k l) = 0%R.
Proof. intros Hi Hj. destruct (row_major N i j Hi Hj) as (A & _). unfold delta, X, Y. destruct (Nat.eqb_spec (i * N + j) (N * N + (k * N + l))); [lia|reflexivity]. Qed.
Lemma delta_YX i j k l : (k < N)%nat -> (l < N)%nat -> delta (Y i j) (X k l) = 0%R.
Proof. intros Hi Hj. destruct (row_major N k l Hi Hj) as (A & _). unfold delta, X, Y. destruct (Nat.eqb_spec (N * N + (i * N + j)) (k * N + l)); [lia|reflexivity]. Qed.
Lemma C_cov p a b : (p < N)%nat -> (a < N)%nat -> (b < N)%nat -> a <> p -> b <> p -> CNormalAverage K (fun l => G l p a * G l b p) (RtoC (if Nat.eqb a b then 1 else 0)).
Proof.
  intros Hp Ha Hb Na Nb. apply Nat.eqb_neq in Na. assert (Nat.eqb p b = false) as Nb' by (apply Nat.eqb_neq; congruence). assert (Nat.eqb p a = false) as Na' by (rewrite Nat.eqb_sym; exact Na).
  split.
  - pose proof (navg_lin _ _ _ _ _ 1 (-1) (forms_avg (/ 2) (/ 2) (/ 2) (/ 2) (X p a) (X a p) (X b p) (X p b) (X_lt p a Hp Ha) (X_lt a p Ha Hp) (X_lt b p Hb Hp) (X_lt p b Hp Hb))
      (forms_avg (/ 2) (- / 2) (/ 2) (- / 2) (Y p a) (Y a p) (Y b p) (Y p b) (Y_lt p a Hp Ha) (Y_lt a p Ha Hp) (Y_lt b p Hb Hp) (Y_lt p b Hp Hb))) as H.
    refine (navg_ext _ _ _ _ _ (navg_value _ _ _ _ _ H)); [intros l _; rewrite !C_eq by assumption; cbn [fst snd Cmult]; ring|].
    rewrite !delta_XX, !delta_YY by assumption. rewrite !Nat.eqb_refl, Na, Nb'. cbn [andb]. rewrite Bool.andb_true_r. cbn [fst RtoC]. destruct (Nat.eqb a b); field.
  - pose proof (navg_lin _ _ _ _ _ 1 1 (forms_avg (/ 2) (/ 2) (/ 2) (- / 2) (X p a) (X a p) (Y b p) (Y p b) (X_lt p a Hp Ha) (X_lt a p Ha Hp) (Y_lt b p Hb Hp) (Y_lt p b Hp Hb))
      (forms_avg (/ 2) (- / 2) (/ 2) (/ 2) (Y p a) (Y a p) (X b p) (X p b) (Y_lt p a Hp Ha) (Y_lt a p Ha Hp) (X_lt b p Hb Hp) (X_lt p b Hp Hb))) as H.
    refine (navg_ext _ _ _ _ _ (navg_value _ _ _ _ _ H)); [intros l _; rewrite !C_eq by assumption; cbn [fst snd Cmult]; ring|].
    rewrite !delta_XY, !delta_YX by assumption. cbn [snd RtoC]. ring.
Qed.
Lemma gue_avg x n : (forall s, Places N n s -> CNormalAverage K (fun l => CCharPoly n (fun i j => G l (s i) (s j)) x) (RtoC (Hermite 1 n x))) /\
  (forall s, Places N (S n) s -> CNormalAverage K (fun l => CCharPoly (S n) (fun i j => G l (s i) (s j)) x) (RtoC (Hermite 1 (S n) x))).
Proof.
  induction n as [|n [I0 I1]].
  - split; [intros s _; exact (cavg_const K 1)|]. intros s [Hs _].
    pose proof (cavg_add _ _ _ _ _ (cavg_const K (RtoC x)) (cavg_scale _ _ (- RtoC 1) _ (C_mean (s O) (s O) (Hs O ltac:(lia)) (Hs O ltac:(lia))))) as H.
    refine (cavg_ext _ _ _ _ _ (cavg_value _ _ _ _ _ H)); [|unfold Hermite; cbn [HermitePair fst INR]; rewrite !RtoC_minus, !RtoC_mult; ring]. intros l _. unfold CCharPoly. cbn [CDet CSumTo csign Nat.eqb]. ring.
  - split; [exact I1|]. intros s [Hs Hinj].
    set (m := fun l i j => RtoC (if Nat.eqb i j then x else 0%R) - G l (s i) (s j)).
    assert (forall B i j, (i < S (S n))%nat -> (j < S (S n))%nat -> B (X (s i) (s j)) = true -> B (X (s j) (s i)) = true -> B (Y (s i) (s j)) = true -> B (Y (s j) (s i)) = true -> CUses K B (fun l => m l i j)) as HU.
    { intros B i j Hi Hj H1 H2 H3 H4 l l' Hl Hl' E. unfold m. f_equal. apply (C_uses B (s i) (s j)); auto. }
    assert (forall i j, (i < S (S n))%nat -> (j < S (S n))%nat -> CPolynomial K (fun l => m l i j)) as HP.
    { intros i j Hi Hj. pose proof (cpoly_add K _ _ (cpoly_const K (RtoC (if Nat.eqb i j then x else 0%R))) (cpoly_mul K _ _ (cpoly_const K (- RtoC 1)) (C_poly (s i) (s j) (Hs i Hi) (Hs j Hj)))) as [H1 H2].
      split; [revert H1|revert H2]; apply poly_ext; intros l _; unfold m; f_equal; ring. }
    assert (forall i, (i < S (S n))%nat -> row (s O) (X (s O) (s i)) = true /\ row (s O) (X (s i) (s O)) = true /\ row (s O) (Y (s O) (s i)) = true /\ row (s O) (Y (s i) (s O)) = true) as HR.
    { intros i Hi. pose proof (Hs O ltac:(lia)). pose proof (Hs i Hi). rewrite !X_row, !Y_row by assumption. rewrite Nat.eqb_refl, Bool.orb_true_r. auto. }
    assert (forall i j, (i < S n)%nat -> (j < S n)%nat -> negb (row (s O) (X (s (S i)) (s (S j)))) = true /\ negb (row (s O) (Y (s (S i)) (s (S j)))) = true) as HQ.
    { intros i j Hi Hj. rewrite X_row, Y_row by (apply Hs; lia).
      rewrite (proj2 (Nat.eqb_neq (s (S i)) (s O))), (proj2 (Nat.eqb_neq (s (S j)) (s O))); [auto| |]; intro E; apply Hinj in E; lia. }
    assert (forall i j, (i < S n)%nat -> (j < S n)%nat -> CUses K (fun q => negb (row (s O) q)) (fun l => m l (S i) (S j))) as HV.
    { intros i j Hi Hj. destruct (HQ i j Hi Hj) as [Q1 Q2]. destruct (HQ j i Hj Hi) as [Q3 Q4]. apply (HU (fun q => negb (row (s O) q))); auto; lia. }
    assert (CNormalAverage K (fun l => m l O O * CDet (S n) (fun i j => m l (S i) (S j))) (RtoC x * RtoC (Hermite 1 (S n) x))) as HA.
    { apply (cavg_indep K (row (s O)) (fun l => m l O O) (fun l => CDet (S n) (fun i j => m l (S i) (S j)))).
      - destruct (HR O ltac:(lia)) as (A1 & A2 & A3 & A4). apply HU; auto; lia.
      - apply (cuses_Det _ _ (S n) (fun l i j => m l (S i) (S j))). exact HV.
      - pose proof (cavg_add _ _ _ _ _ (cavg_const K (RtoC x)) (cavg_scale _ _ (- RtoC 1) _ (C_mean (s O) (s O) (Hs O ltac:(lia)) (Hs O ltac:(lia))))) as H.
        refine (cavg_ext _ _ _ _ _ (cavg_value _ _ _ _ _ H)); [intros l _; unfold m; cbn [Nat.eqb]; ring|ring].
      - apply (I1 (fun i => s (S i))). split; [intros; apply Hs; lia|]. intros i j Hi Hj E. apply Hinj in E; lia. }
    assert (forall j k, (j < S n)%nat -> (k < S n)%nat -> CNormalAverage K (fun l => (m l O (S j) * m l (S k) O) * CDet n (fun r c => m l (S (up k r)) (S (up j c)))) (if Nat.eqb j k then RtoC (Hermite 1 n x) else RtoC 0)) as HB.
    { intros j k Hj Hk. assert (exists v, CNormalAverage K (fun l => CDet n (fun r c => m l (S (up k r)) (S (up j c)))) v /\ (j = k -> v = RtoC (Hermite 1 n x))) as (v & Hv & Hjk).
      { destruct (Nat.eq_dec j k) as [<-|Njk].
        - exists (RtoC (Hermite 1 n x)). split; [|reflexivity]. refine (cavg_ext _ _ _ _ _ (I0 (fun i => s (S (up j i))) _)).
          + intros l _. unfold CCharPoly, m. apply CDet_ext. intros r c _ _. cbn [Nat.eqb]. destruct (Nat.eqb_spec r c) as [->|E]; [now rewrite Nat.eqb_refl|].
            destruct (Nat.eqb_spec (up j r) (up j c)) as [E'|_]; [apply up_inj in E'; contradiction|reflexivity].
          + split; [intros i Hi; apply Hs; pose proof (up_ltb j i n Hi); lia|]. intros a b Ha Hb E. pose proof (up_ltb j a n Ha). pose proof (up_ltb j b n Hb). apply Hinj in E; [|lia..]. apply (up_inj j). lia.
        - destruct (cpoly_avg K (fun l => CDet n (fun r c => m l (S (up k r)) (S (up j c))))) as (v & Hv); [|exists v; split; [exact Hv|congruence]].
          apply (cpoly_Det _ n (fun l r c => m l (S (up k r)) (S (up j c)))). intros r c Hr Hc. pose proof (up_ltb k r n Hr). pose proof (up_ltb j c n Hc). apply HP; lia. }
      apply (cavg_value _ _ (RtoC (if Nat.eqb j k then 1%R else 0%R) * v)); [destruct (Nat.eqb_spec j k) as [E|E]; [rewrite Hjk by exact E; ring|ring]|].
      apply (cavg_indep K (row (s O)) (fun l => m l O (S j) * m l (S k) O) (fun l => CDet n (fun r c => m l (S (up k r)) (S (up j c))))).
      - intros l l' Hl Hl' E. destruct (HR (S j) ltac:(lia)) as (A1 & A2 & A3 & A4). destruct (HR (S k) ltac:(lia)) as (B1 & B2 & B3 & B4). f_equal.
        + apply (HU (row (s O)) O (S j)); auto; lia.
        + apply (HU (row (s O)) (S k) O); auto; lia.
      - apply (cuses_Det _ _ n (fun l r c => m l (S (up k r)) (S (up j c)))). intros r c Hr Hc. pose proof (up_ltb k r n Hr). pose proof (up_ltb j c n Hc). apply HV; lia.
      - pose proof (C_cov (s O) (s (S j)) (s (S k)) (Hs O ltac:(lia)) (Hs (S j) ltac:(lia)) (Hs (S k) ltac:(lia))) as H.
        assert (s (S j) <> s O) as N1 by (intro E; apply Hinj in E; lia). assert (s (S k) <> s O) as N2 by (intro E; apply Hinj in E; lia). specialize (H N1 N2).
        replace (Nat.eqb (s (S j)) (s (S k))) with (Nat.eqb j k) in H by (destruct (Nat.eqb_spec j k) as [->|E]; [now rewrite Nat.eqb_refl|symmetry; apply Nat.eqb_neq; intro E'; apply Hinj in E'; lia]).
        revert H. apply cavg_ext. intros l _. unfold m. cbn [Nat.eqb]. ring.
      - exact Hv. }
    pose proof (cavg_SumTo K (S n) _ _ (fun j Hj => cavg_SumTo K (S n) _ _ (fun k Hk => cavg_scale K _ (csign (j + k)) _ (HB j k Hj Hk)))) as HC.
    pose proof (cavg_add _ _ _ _ _ HA (cavg_scale _ _ (- RtoC 1) _ HC)) as H. refine (cavg_ext _ _ _ _ _ (cavg_value _ _ _ _ _ H)).
    + intros l _. unfold CCharPoly. fold (m l). rewrite CDet_border. ring.
    + assert (CSumTo (S n) (fun i => CSumTo (S n) (fun i0 => csign (i + i0) * (if Nat.eqb i i0 then RtoC (Hermite 1 n x) else RtoC 0))) = RtoC (INR (S n) * Hermite 1 n x)) as ->.
      { transitivity (CSumTo (S n) (fun _ => RtoC (Hermite 1 n x))).
        - apply CSumTo_ext. intros i Hi.
          transitivity (CSumTo (S n) (fun k => if Nat.eqb k i then RtoC (Hermite 1 n x) else RtoC 0)); [|exact (CSumTo_delta (S n) i (fun _ => RtoC (Hermite 1 n x)) Hi)].
          apply CSumTo_ext. intros k _. rewrite (Nat.eqb_sym i k). destruct (Nat.eqb_spec k i) as [->|]; [rewrite csign_even|]; ring.
        - generalize (Hermite 1 n x). intro h. generalize (S n). intro k. induction k as [|k IHk]; [cbn; now rewrite Rmult_0_l|]. cbn [CSumTo]. rewrite IHk, S_INR, <- RtoC_plus. f_equal. ring. }
      unfold Hermite. cbn [HermitePair]. destruct (HermitePair 1 n x) as [p q]. cbn [fst snd]. unfold RtoC, Cplus, Cmult, Copp. cbn [fst snd]. f_equal; ring.
Qed.
End Full.
