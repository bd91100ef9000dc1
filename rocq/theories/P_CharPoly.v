(** Determinants of tridiagonal matrices and averages of their characteristic polynomials. *)
From Coq Require Import List Arith ZArith Lia Reals Lra.
From Coquelicot Require Import Coquelicot.
From Verif Require Import Base S_Generate S_Normal S_Rotate S_CharPoly M_Generate P_Generate P_Surmise P_Rotate T_Rotate P_Moments P_Det.
Import ListNotations.
Local Open Scope R_scope.

(** A zero first column makes the determinant zero. *)
Lemma Det_column n : forall m, (0 < n)%nat -> (forall i, (i < n)%nat -> m i O = 0) -> Det n m = 0.
Proof.
  induction n as [|k IH]; intros m Hn H; [lia|]. cbn [Det]. apply SumTo_0. intros [|j] Hj.
  - rewrite H by lia. ring.
  - rewrite (IH (minor (S j) m)); [ring|lia|]. intros i Hi. unfold minor. cbn. apply H. lia.
Qed.
(** The recurrence for matrices that vanish off the three diagonals. *)
Lemma Det_tridiagonal n m : (forall i j, (S i < j)%nat \/ (S j < i)%nat -> m i j = 0) ->
  Det (S (S n)) m = m O O * Det (S n) (fun i j => m (S i) (S j)) - m O 1%nat * m 1%nat O * Det n (fun i j => m (S (S i)) (S (S j))).
Proof.
  intro H. assert (forall k, Det (S (S k)) m = m O O * Det (S k) (minor 0 m) - m O 1%nat * Det (S k) (minor 1 m)) as E.
  { intro k. change (Det (S (S k)) m) with (SumTo (S (S k)) (fun j => (-1) ^ j * m O j * Det (S k) (minor j m))). rewrite !SumTo_shift, SumTo_0.
    - cbn [pow]. ring.
    - intros i _. rewrite H by lia. ring. }
  rewrite E. rewrite (Det_ext (S n) (minor 0 m) (fun i j => m (S i) (S j))) by reflexivity.
  assert (Det (S n) (minor 1 m) = m 1%nat O * Det n (fun i j => m (S (S i)) (S (S j)))) as ->; [|ring].
  change (Det (S n) (minor 1 m)) with (SumTo (S n) (fun j => (-1) ^ j * minor 1 m O j * Det n (minor j (minor 1 m)))). rewrite SumTo_shift.
  rewrite SumTo_0.
  - unfold minor at 1. cbn [Nat.ltb Nat.leb pow]. rewrite (Det_ext n (minor 0 (minor 1 m)) (fun i j => m (S (S i)) (S (S j)))) by reflexivity. ring.
  - intros j Hj. rewrite (Det_column n (minor (S j) (minor 1 m))); [ring|lia|]. intros i Hi. unfold minor. cbn. apply H. lia.
Qed.

(** The same determinant from the diagonal [as_] and the products [cs] of opposite entries, with that of the next smaller one. *)
Fixpoint cont (x : R) (as_ cs : list R) : R * R :=
  match as_ with
  | [] => (1, 0)
  | a :: as' => let '(d, d') := cont x as' (tl cs) in ((x - a) * d - hd 0 cs * d', d)
  end.
Lemma cont_det x n : forall m as_ cs, length as_ = n -> (forall i j, (S i < j)%nat \/ (S j < i)%nat -> m i j = 0) ->
  (forall i, (i < n)%nat -> m i i = nth i as_ 0) -> (forall i, (S i < n)%nat -> m i (S i) * m (S i) i = nth i cs 0) ->
  fst (cont x as_ cs) = CharPoly n m x /\ snd (cont x as_ cs) = match n with O => 0 | S k => CharPoly k (fun i j => m (S i) (S j)) x end.
Proof.
  induction n as [|k IH]; intros m as_ cs Hl Hz Hd Hc.
  - destruct as_; [|discriminate]. now cbn.
  - destruct as_ as [|a as_]; [discriminate|]. injection Hl as Hl. cbn [cont].
    specialize (IH (fun i j => m (S i) (S j)) as_ (tl cs)). destruct (cont x as_ (tl cs)) as [d d'] eqn:Ec. cbn [fst snd] in *.
    destruct IH as [I1 I2]; [exact Hl|intros; apply Hz; lia|intros i Hi; rewrite (Hd (S i)) by lia; reflexivity|intros i Hi; rewrite (Hc (S i)) by lia; destruct cs; [now destruct i|reflexivity]|].
    split; [|exact I1]. pose proof (Hd O ltac:(lia)) as Ha. cbn in Ha. destruct k as [|k].
    + rewrite I1, I2. unfold CharPoly. cbn. rewrite Ha. ring.
    + pose proof (Hc O ltac:(lia)) as H0. rewrite I1, I2. unfold CharPoly. rewrite (Det_tridiagonal k).
      * cbn [Nat.eqb]. rewrite Ha. replace (hd 0 cs) with (nth 0 cs 0) by now destruct cs. rewrite <- H0. ring.
      * intros i j Hij. rewrite Hz by exact Hij. destruct (Nat.eqb_spec i j); [lia|ring].
Qed.

(** The characteristic polynomial from the eigenvalues. *)
Lemma Det_diagonal n : forall d, Det n (fun i j => if Nat.eqb i j then d i else 0) = fold_right Rmult 1 (map d (seq 0 n)).
Proof.
  induction n as [|n IH]; intro d; [reflexivity|]. change (Det (S n) ?m) with (SumTo (S n) (fun j => (-1) ^ j * m O j * Det n (minor j m))). rewrite SumTo_shift, SumTo_0.
  - cbn [seq map fold_right Nat.eqb pow]. rewrite <- seq_shift, map_map, <- (IH (fun i => d (S i))). rewrite (Det_ext n _ (fun i j => if Nat.eqb i j then d (S i) else 0)) by reflexivity. ring.
  - intros i _. cbn [Nat.eqb]. ring.
Qed.
Lemma charpoly_spectrum n m lam x : Spectrum n m lam -> CharPoly n m x = fold_right Rmult 1 (map (fun l => x - l) lam).
Proof.
  intros (Hl & q & Hq & E). set (qt := fun i j => q j i). set (a := fun i j => (if Nat.eqb i j then x else 0) - m i j).
  assert (Det n qt * Det n q = 1) as H1.
  { rewrite <- Det_product. rewrite (Det_ext n _ (fun i j => if Nat.eqb i j then 1 else 0)).
    - rewrite (Det_diagonal n (fun _ => 1)). generalize (seq 0 n). intro l. induction l as [|y l IH]; [reflexivity|]. cbn [map fold_right]. rewrite IH. ring.
    - intros i j Hi Hj. unfold product, qt. now apply Hq. }
  assert (Det n (product n qt (product n a q)) = fold_right Rmult 1 (map (fun l => x - l) lam)) as H2.
  { rewrite (Det_ext n _ (fun i j => if Nat.eqb i j then x - nth i lam 0 else 0)).
    - rewrite (Det_diagonal n (fun i => x - nth i lam 0)). f_equal. subst n. clear. induction lam as [|y lam IH]; [reflexivity|]. cbn [length seq map nth]. f_equal. rewrite <- seq_shift, map_map. exact IH.
    - intros i j Hi Hj. unfold product, qt.
      assert (forall k, (k < n)%nat -> SumTo n (fun l => a k l * q l j) = (x - nth j lam 0) * q k j) as Hk.
      { intros k Hk. transitivity (SumTo n (fun l => (if Nat.eqb l k then x * q l j else 0) + (-1) * (m k l * q l j))).
        - apply SumTo_ext. intros l _. unfold a. rewrite (Nat.eqb_sym k l). destruct (Nat.eqb l k); ring.
        - rewrite SumTo_add, SumTo_scale, (SumTo_delta n k (fun l => x * q l j)) by exact Hk.
          assert (SumTo n (fun l => m k l * q l j) = nth j lam 0 * q k j) as ->; [|ring].
          transitivity (SumTo n (fun l => SumTo n (fun t => q k t * nth t lam 0 * (q l t * q l j)))).
          + apply SumTo_ext. intros l Hl'. rewrite E by assumption. unfold turn. rewrite Rmult_comm, <- SumTo_scale. apply SumTo_ext. intros t Ht.
            assert (SumTo n (fun l0 => diagonal lam t l0 * q l l0) = nth t lam 0 * q l t) as ->; [|ring].
            rewrite <- (SumTo_delta n t (fun l0 => nth t lam 0 * q l l0) Ht). apply SumTo_ext. intros u _. unfold diagonal. rewrite (Nat.eqb_sym t u). destruct (Nat.eqb u t); ring.
          + rewrite SumTo_swap. rewrite <- (SumTo_delta n j (fun t => nth t lam 0 * q k t) Hj). apply SumTo_ext. intros t Ht. rewrite SumTo_scale, Hq by assumption. destruct (Nat.eqb t j); ring. }
      rewrite (SumTo_ext n _ (fun k => (x - nth j lam 0) * (q k i * q k j))) by (intros k Hk'; rewrite Hk by exact Hk'; ring). rewrite SumTo_scale, Hq by assumption.
      destruct (Nat.eqb_spec i j) as [->|]; ring. }
  rewrite !Det_product in H2. unfold CharPoly. fold a. rewrite <- H2. transitivity (Det n a * (Det n qt * Det n q)); [rewrite H1|]; ring.
Qed.

(** Averages. *)
Lemma firstn_exact {A} (l m : list A) : firstn (length l) (l ++ m) = l.
Proof. rewrite firstn_app, Nat.sub_diag, firstn_all. cbn. apply app_nil_r. Qed.
Lemma skipn_exact {A} (l m : list A) : skipn (length l) (l ++ m) = m.
Proof. rewrite skipn_app, Nat.sub_diag, skipn_all. reflexivity. Qed.
Definition halves (l : list R) : list R := map (fun c => c / 2) l.
(** The determinant is affine in every diagonal entry and in every product of opposite entries, so its average over independent
    entries is its value at the averages. *)
Lemma cont_tail_avg x as_ : forall a b dofs,
  NormalAverage (fold_right Nat.add O dofs) (fun w => let p := cont x as_ (halves (chi_squares dofs w)) in a * fst p + b * snd p)
    (let p := cont x as_ (halves (map INR dofs)) in a * fst p + b * snd p).
Proof.
  induction as_ as [|c as_ IH]; intros a b dofs; [exact (navg_const (fold_right Nat.add O dofs) (a * 1 + b * 0))|]. destruct dofs as [|d dofs]; [reflexivity|].
  cbn [fold_right chi_squares map cont halves tl hd]. fold (halves (map INR dofs)).
  apply (navg_compose d _ _ (fun l => let p := cont x as_ (halves (map INR dofs)) in (a * (x - c) + b) * fst p + (- a * (squares l / 2)) * snd p)).
  - intros l Hl. pose proof (IH (a * (x - c) + b) (- a * (squares l / 2)) dofs) as H. revert H. apply navg_ext. intros w _. subst d.
    rewrite firstn_exact, skipn_exact. fold (halves (chi_squares dofs w)). cbv zeta. destruct (cont x as_ (halves (chi_squares dofs w))) as [p q]. cbn [fst snd]. ring.
  - cbv zeta. destruct (cont x as_ (halves (map INR dofs))) as [p q]. cbn [fst snd].
    pose proof (navg_lin d squares (fun _ => 1) (INR d) 1 (- a * q / 2) ((a * (x - c) + b) * p) (navg_squares d) (navg_const d 1)) as H.
 refine (navg_ext _ _ _ _ _ (navg_value _ _ _ _ _ H)); [intros l _; field|field].
Qed.
Lemma cont_diag_avg x n : forall a b cs,
  NormalAverage n (fun z => let p := cont x z cs in a * fst p + b * snd p) (let p := cont x (repeat 0 n) cs in a * fst p + b * snd p).
Proof.
  induction n as [|n IH]; intros a b cs; [reflexivity|].
  apply (navg_first n _ (fun y => let p := cont x (repeat 0 n) (tl cs) in (a * (x - y) + b) * fst p + (- a * hd 0 cs) * snd p)).
  - intro y. pose proof (IH (a * (x - y) + b) (- a * hd 0 cs) (tl cs)) as H. revert H. apply navg_ext. intros z _. cbn [cont]. cbv zeta.
    destruct (cont x z (tl cs)) as [p q]. cbn [fst snd]. ring.
  - cbn [repeat cont]. cbv zeta. destruct (cont x (repeat 0 n) (tl cs)) as [p q]. cbn [fst snd].
    pose proof (whole_lin _ _ _ _ (- a * p) 1 moment1 (phi_times ((a * x + b) * p + (- a * hd 0 cs) * q))) as H.
    match type of H with WholeLine _ ?v => replace (a * ((x - 0) * p - hd 0 cs * q) + b * p) with v by ring end. revert H. apply whole_ext. intro y. ring.
Qed.
Lemma cont_hermite x n : cont x (repeat 0 n) (halves (map INR (map Z.to_nat (chi_range n)))) = HermitePair (/ 2) n x.
Proof.
  induction n as [|n IH]; [reflexivity|]. cbn [repeat cont HermitePair].
  assert (chi_range (S n) = match n with O => [] | S _ => Z.of_nat n :: chi_range n end) as Hc.
  { destruct n as [|n]; [reflexivity|]. unfold chi_range. replace (S (S n) - 1)%nat with (S n) by lia. replace (S n - 1)%nat with n by lia. cbn [seq map].
    rewrite <- seq_shift, map_map. f_equal; [lia|]. apply map_ext. intro k. lia. }
  rewrite Hc. destruct n as [|n]; [cbn; f_equal; ring|]. cbn [map halves tl hd]. fold (halves (map INR (map Z.to_nat (chi_range (S n))))). rewrite IH.
  destruct (HermitePair (/ 2) (S n) x) as [p q]. rewrite Nat2Z.id. f_equal. field.
Qed.

(** ** The full matrix *)
(** Expansion along the first row and the first column. *)
Lemma Det_border n m : Det (S (S n)) m = m O O * Det (S n) (fun i j => m (S i) (S j)) -
  SumTo (S n) (fun j => SumTo (S n) (fun k => (-1) ^ (j + k) * ((m O (S j) * m (S k) O) * Det n (fun r c => m (S (up k r)) (S (up j c)))))).
Proof.
  transitivity (SumTo (S (S n)) (fun j => (-1) ^ j * m O j * Det (S n) (minor j m))); [reflexivity|]. rewrite (SumTo_shift (S n)). unfold Rminus. f_equal.
  - cbn [pow]. rewrite (Det_ext (S n) (minor 0 m) (fun i j => m (S i) (S j))) by reflexivity. ring.
  - transitivity (-1 * SumTo (S n) (fun j => SumTo (S n) (fun k => (-1) ^ (j + k) * ((m O (S j) * m (S k) O) * Det n (fun r c => m (S (up k r)) (S (up j c))))))); [|ring].
    rewrite <- SumTo_scale. apply SumTo_ext. intros j _. rewrite (Det_first_column n), <- !SumTo_scale. apply SumTo_ext. intros k _. rewrite pow_add. unfold minor at 1. cbn [Nat.ltb Nat.leb pow].
    rewrite (Det_ext n _ (fun r c => m (S (up k r)) (S (up j c)))); [ring|]. intros r c _ _. unfold minor, up. change (Nat.ltb (S c) (S j)) with (Nat.ltb c j). now destruct (Nat.ltb c j).
Qed.
Lemma poly_Det k n : forall m : list R -> nat -> nat -> R, (forall i j, (i < n)%nat -> (j < n)%nat -> Polynomial k (fun l => m l i j)) -> Polynomial k (fun l => Det n (m l)).
Proof.
  induction n as [|n IH]; intros m H; [exact (poly_const k 1)|]. cbn [Det]. apply (poly_SumTo k (S n) (fun j l => (-1) ^ j * m l O j * Det n (minor j (m l)))). intros j Hj.
  apply poly_mul; [apply poly_scale, H; lia|]. apply (IH (fun l => minor j (m l))). intros r c Hr Hc. unfold minor. destruct (Nat.ltb_spec c j); apply H; lia.
Qed.
Lemma uses_Det k A n (m : list R -> nat -> nat -> R) : (forall i j, (i < n)%nat -> (j < n)%nat -> Uses k A (fun l => m l i j)) -> Uses k A (fun l => Det n (m l)).
Proof. intros H l l' Hl Hl' E. apply Det_ext. intros i j Hi Hj. now apply (H i j Hi Hj). Qed.

Section Full.
Variable N : nat.
Let G (l : list R) (i j : nat) : R := goe_matrix sqrt N l i j.
Let row (p : nat) (q : nat) : bool := (Nat.eqb (q / N) p || Nat.eqb (q mod N) p)%bool.
Lemma G_eq l i j : G l i j = / sqrt 2 * (nth (i * N + j) l 0 + nth (j * N + i) l 0).
Proof. unfold G, goe_matrix, square, n2. cbn. unfold Rdiv. change (IZR 2) with 2. ring. Qed.
Lemma place i j : (i < N)%nat -> (j < N)%nat -> (i * N + j < N * N)%nat.
Proof. intros. nia. Qed.
Lemma place_row i j : (i < N)%nat -> (j < N)%nat -> ((i * N + j) / N = i /\ (i * N + j) mod N = j)%nat.
Proof. intros. split; [rewrite Nat.div_add_l, Nat.div_small by lia; lia|]. rewrite Nat.add_comm, Nat.mod_add, Nat.mod_small by lia. reflexivity. Qed.
Lemma G_poly i j : (i < N)%nat -> (j < N)%nat -> Polynomial (N * N) (fun l => G l i j).
Proof.
  intros Hi Hj. apply (poly_ext _ (fun l => / sqrt 2 * (nth (i * N + j) l 0 + nth (j * N + i) l 0))); [intros; symmetry; apply G_eq|].
  apply poly_scale, poly_add; apply poly_coord; now apply place.
Qed.
Lemma G_uses (A : nat -> bool) i j : (i < N)%nat -> (j < N)%nat -> A (i * N + j)%nat = true -> A (j * N + i)%nat = true -> Uses (N * N) A (fun l => G l i j).
Proof. intros Hi Hj Ha Hb l l' _ _ E. cbv beta. rewrite !G_eq. rewrite (E (i * N + j)%nat), (E (j * N + i)%nat); [reflexivity| | | |]; auto using place. Qed.
Lemma G_mean i j : (i < N)%nat -> (j < N)%nat -> NormalAverage (N * N) (fun l => G l i j) 0.
Proof.
  intros Hi Hj. pose proof (navg_lin (N * N) _ _ _ _ (/ sqrt 2) (/ sqrt 2) (navg_coord (N * N) (i * N + j) (place i j Hi Hj)) (navg_coord (N * N) (j * N + i) (place j i Hj Hi))) as H.
  replace (/ sqrt 2 * 0 + / sqrt 2 * 0) with 0 in H by ring. revert H. apply navg_ext. intros l _. rewrite G_eq. ring.
Qed.
Lemma G_cov p a b : (p < N)%nat -> (a < N)%nat -> (b < N)%nat -> a <> p -> b <> p -> NormalAverage (N * N) (fun l => G l p a * G l b p) (if Nat.eqb a b then 1 else 0).
Proof.
  intros Hp Ha Hb Na Nb.
  pose proof (navg_pair (N * N) (p * N + a) (b * N + p) (place p a Hp Ha) (place b p Hb Hp)) as H1.
  pose proof (navg_pair (N * N) (p * N + a) (p * N + b) (place p a Hp Ha) (place p b Hp Hb)) as H2.
  pose proof (navg_pair (N * N) (a * N + p) (b * N + p) (place a p Ha Hp) (place b p Hb Hp)) as H3.
  pose proof (navg_pair (N * N) (a * N + p) (p * N + b) (place a p Ha Hp) (place p b Hp Hb)) as H4.
  rewrite position_eqb in H1, H2, H3, H4 by assumption. rewrite !Nat.eqb_refl in H2, H3. rewrite (proj2 (Nat.eqb_neq a p)) in H1, H4 by exact Na. rewrite Bool.andb_false_r in H1. cbn in H1, H4.
  rewrite Bool.andb_true_r in H3. cbn in H2.
  pose proof (navg_lin _ _ _ _ _ 1 1 (navg_lin _ _ _ _ _ (/ 2) (/ 2) H1 H2) (navg_lin _ _ _ _ _ (/ 2) (/ 2) H3 H4)) as H.
  refine (navg_ext _ _ _ _ _ (navg_value _ _ _ _ _ H)); [|destruct (Nat.eqb a b); field]. intros l _. cbv beta. rewrite !G_eq.
  assert (/ sqrt 2 * / sqrt 2 = / 2) as E by (rewrite <- Rinv_mult, sqrt_sqrt by lra; reflexivity).
  set (u := nth (p * N + a) l 0). set (v := nth (a * N + p) l 0). set (w := nth (b * N + p) l 0). set (z := nth (p * N + b) l 0).
  transitivity ((/ sqrt 2 * / sqrt 2) * ((u + v) * (w + z))); [rewrite E; ring|ring].
Qed.
Definition Places (n : nat) (s : nat -> nat) : Prop := (forall i, (i < n)%nat -> (s i < N)%nat) /\ (forall i j, (i < n)%nat -> (j < n)%nat -> s i = s j -> i = j).
Lemma full_avg x n : (forall s, Places n s -> NormalAverage (N * N) (fun l => CharPoly n (fun i j => G l (s i) (s j)) x) (Hermite 1 n x)) /\
  (forall s, Places (S n) s -> NormalAverage (N * N) (fun l => CharPoly (S n) (fun i j => G l (s i) (s j)) x) (Hermite 1 (S n) x)).
Proof.
  induction n as [|n [I0 I1]].
  - split; [intros s _; exact (navg_const (N * N) 1)|]. intros s [Hs _].
    pose proof (navg_lin _ _ _ _ _ x (-1) (navg_const (N * N) 1) (G_mean (s O) (s O) (Hs O ltac:(lia)) (Hs O ltac:(lia)))) as H.
    refine (navg_ext _ _ _ _ _ (navg_value _ _ _ _ _ H)); [|unfold Hermite; cbn; ring]. intros l _. unfold CharPoly. cbn. ring.
  - split; [exact I1|]. intros s [Hs Hinj].
    set (m := fun l i j => (if Nat.eqb i j then x else 0) - G l (s i) (s j)).
    assert (forall B i j, (i < S (S n))%nat -> (j < S (S n))%nat -> B (s i * N + s j)%nat = true -> B (s j * N + s i)%nat = true -> Uses (N * N) B (fun l => m l i j)) as HU.
    { intros B i j Hi Hj H1 H2 l l' Hl Hl' E. unfold m. f_equal. apply (G_uses B (s i) (s j)); auto. }
    assert (forall i j, (i < S (S n))%nat -> (j < S (S n))%nat -> Polynomial (N * N) (fun l => m l i j)) as HP.
    { intros i j Hi Hj. apply (poly_ext _ (fun l => (if Nat.eqb i j then x else 0) + -1 * G l (s i) (s j))); [intros; unfold m; ring|].
      apply (poly_add _ (fun _ => if Nat.eqb i j then x else 0)); [apply poly_const|]. apply poly_scale, G_poly; auto. }
    assert (forall i, (i < S (S n))%nat -> row (s O) (s O * N + s i) = true /\ row (s O) (s i * N + s O) = true) as HR.
    { intros i Hi. unfold row. destruct (place_row (s O) (s i)) as [-> ->]; [apply Hs; lia..|]. destruct (place_row (s i) (s O)) as [-> ->]; [apply Hs; lia..|]. rewrite Nat.eqb_refl, Bool.orb_true_r. auto. }
    assert (forall i j, (i < S n)%nat -> (j < S n)%nat -> negb (row (s O) (s (S i) * N + s (S j))) = true) as HQ.
    { intros i j Hi Hj. unfold row. destruct (place_row (s (S i)) (s (S j))) as [-> ->]; [apply Hs; lia..|].
      rewrite (proj2 (Nat.eqb_neq (s (S i)) (s O))), (proj2 (Nat.eqb_neq (s (S j)) (s O))); [reflexivity| |]; intro E; apply Hinj in E; lia. }
    assert (NormalAverage (N * N) (fun l => m l O O * Det (S n) (fun i j => m l (S i) (S j))) (x * Hermite 1 (S n) x)) as HA.
    { apply (navg_indep (N * N) (row (s O)) (fun l => m l O O) (fun l => Det (S n) (fun i j => m l (S i) (S j)))).
      - destruct (HR O ltac:(lia)). apply HU; auto; lia.
      - apply uses_Det. intros i j Hi Hj. apply (HU (fun q => negb (row (s O) q))); auto; lia.
      - pose proof (navg_lin _ _ _ _ _ x (-1) (navg_const (N * N) 1) (G_mean (s O) (s O) (Hs O ltac:(lia)) (Hs O ltac:(lia)))) as H.
        refine (navg_ext _ _ _ _ _ (navg_value _ _ _ _ _ H)); [intros l _; unfold m; cbn [Nat.eqb]; ring|ring].
      - apply (I1 (fun i => s (S i))). split; [intros; apply Hs; lia|]. intros i j Hi Hj E. apply Hinj in E; lia. }
    assert (forall j k, (j < S n)%nat -> (k < S n)%nat -> NormalAverage (N * N) (fun l => (m l O (S j) * m l (S k) O) * Det n (fun r c => m l (S (up k r)) (S (up j c)))) (if Nat.eqb j k then Hermite 1 n x else 0)) as HB.
    { intros j k Hj Hk. assert (exists v, NormalAverage (N * N) (fun l => Det n (fun r c => m l (S (up k r)) (S (up j c)))) v /\ (j = k -> v = Hermite 1 n x)) as (v & Hv & Hjk).
      { destruct (Nat.eq_dec j k) as [<-|Njk].
        - exists (Hermite 1 n x). split; [|reflexivity]. refine (navg_ext _ _ _ _ _ (I0 (fun i => s (S (up j i))) _)).
          + intros l _. unfold CharPoly, m. apply Det_ext. intros r c _ _. cbn [Nat.eqb]. destruct (Nat.eqb_spec r c) as [->|E]; [now rewrite Nat.eqb_refl|].
            destruct (Nat.eqb_spec (up j r) (up j c)) as [E'|_]; [apply up_inj in E'; contradiction|reflexivity].
          + split; [intros i Hi; apply Hs; pose proof (up_ltb j i n Hi); lia|]. intros a b Ha Hb E. pose proof (up_ltb j a n Ha). pose proof (up_ltb j b n Hb). apply Hinj in E; [|lia..]. apply (up_inj j). lia.
        - destruct (poly_avg (N * N) (fun l => Det n (fun r c => m l (S (up k r)) (S (up j c))))) as (v & Hv); [|exists v; split; [exact Hv|congruence]].
          apply (poly_Det _ n (fun l r c => m l (S (up k r)) (S (up j c)))). intros r c Hr Hc. pose proof (up_ltb k r n Hr). pose proof (up_ltb j c n Hc). apply HP; lia. }
      apply (navg_value _ _ ((if Nat.eqb j k then 1 else 0) * v)); [destruct (Nat.eqb_spec j k) as [E|E]; [rewrite Hjk by exact E; ring|ring]|].
      apply (navg_indep (N * N) (row (s O)) (fun l => m l O (S j) * m l (S k) O) (fun l => Det n (fun r c => m l (S (up k r)) (S (up j c))))).
      - intros l l' Hl Hl' E. destruct (HR (S j) ltac:(lia)) as [A1 A2]. destruct (HR (S k) ltac:(lia)) as [B1 B2]. f_equal.
        + apply (HU (row (s O)) O (S j)); auto; lia.
        + apply (HU (row (s O)) (S k) O); auto; lia.
      - apply (uses_Det _ _ n (fun l r c => m l (S (up k r)) (S (up j c)))). intros r c Hr Hc. pose proof (up_ltb k r n Hr). pose proof (up_ltb j c n Hc).
        apply (HU (fun q => negb (row (s O) q))); [lia|lia|apply HQ; lia|apply HQ; lia].
      - pose proof (G_cov (s O) (s (S j)) (s (S k)) (Hs O ltac:(lia)) (Hs (S j) ltac:(lia)) (Hs (S k) ltac:(lia))) as H.
        assert (s (S j) <> s O) as N1 by (intro E; apply Hinj in E; lia). assert (s (S k) <> s O) as N2 by (intro E; apply Hinj in E; lia). specialize (H N1 N2).
        replace (Nat.eqb (s (S j)) (s (S k))) with (Nat.eqb j k) in H by (destruct (Nat.eqb_spec j k) as [->|E]; [now rewrite Nat.eqb_refl|symmetry; apply Nat.eqb_neq; intro E'; apply Hinj in E'; lia]).
        revert H. apply navg_ext. intros l _. unfold m. cbn [Nat.eqb]. ring.
      - exact Hv. }
    pose proof (navg_SumTo (N * N) (S n) _ _ (fun j Hj => navg_SumTo (N * N) (S n) _ _ (fun k Hk => navg_scale (N * N) _ _ ((-1) ^ (j + k)) (HB j k Hj Hk)))) as HC.
    pose proof (navg_lin _ _ _ _ _ 1 (-1) HA HC) as H. refine (navg_ext _ _ _ _ _ (navg_value _ _ _ _ _ H)).
    + intros l _. unfold CharPoly. fold (m l). rewrite Det_border. ring.
    + assert (SumTo (S n) (fun i => SumTo (S n) (fun i0 => (-1) ^ (i + i0) * (if Nat.eqb i i0 then Hermite 1 n x else 0))) = INR (S n) * Hermite 1 n x) as ->.
      { transitivity (SumTo (S n) (fun _ => Hermite 1 n x)); [|rewrite SumTo_const; ring]. apply SumTo_ext. intros i Hi.
        transitivity (SumTo (S n) (fun k => if Nat.eqb k i then Hermite 1 n x else 0)); [|exact (SumTo_delta (S n) i (fun _ => Hermite 1 n x) Hi)]. apply SumTo_ext. intros k _. rewrite (Nat.eqb_sym i k). destruct (Nat.eqb_spec k i) as [->|]; [|ring].
        replace (i + i)%nat with (2 * i)%nat by lia. rewrite pow_1_even. apply Rmult_1_l. }
      unfold Hermite. cbn [HermitePair]. destruct (HermitePair 1 n x) as [p q]. cbn [fst snd]. ring.
Qed.
End Full.
