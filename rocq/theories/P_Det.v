(** The determinant of a product. *)
From Coq Require Import List Arith Lia Reals Lra.
From Verif Require Import S_Generate S_CharPoly P_Generate.
Local Open Scope R_scope.

Lemma Det_ext n : forall m m', (forall i j, (i < n)%nat -> (j < n)%nat -> m i j = m' i j) -> Det n m = Det n m'.
Proof.
  induction n as [|k IH]; intros m m' H; [reflexivity|]. cbn [Det]. apply SumTo_ext. intros j Hj. rewrite (H O j) by lia. f_equal. apply IH.
  intros i c Hi Hc. unfold minor. destruct (Nat.ltb_spec c j); apply H; lia.
Qed.
Definition up (j c : nat) : nat := if Nat.ltb c j then c else S c.
Lemma up_ltb j c n : (c < n)%nat -> (up j c < S n)%nat.
Proof. unfold up. destruct (Nat.ltb_spec c j); lia. Qed.
Lemma up_inj j a b : up j a = up j b -> a = b.
Proof. unfold up. destruct (Nat.ltb_spec a j), (Nat.ltb_spec b j); lia. Qed.
(** Expansion along the first column. *)
Lemma Det_first_column n : forall m, Det (S n) m = SumTo (S n) (fun i => (-1) ^ i * m i O * Det n (fun r c => m (up i r) (S c))).
Proof.
  induction n as [|n IH]; intro m; [cbn; ring|].
  transitivity (SumTo (S (S n)) (fun j => (-1) ^ j * m O j * Det (S n) (minor j m))); [reflexivity|]. rewrite !(SumTo_shift (S n)). f_equal.
  transitivity (SumTo (S n) (fun j => SumTo (S n) (fun i => - ((-1) ^ (i + j)) * m O (S j) * m (S i) O * Det n (fun r c => m (S (up i r)) (S (up j c)))))).
  - apply SumTo_ext. intros j _. rewrite IH, <- SumTo_scale. apply SumTo_ext. intros i _. rewrite pow_add. unfold minor at 1. cbn [Nat.ltb Nat.leb pow].
    rewrite (Det_ext n _ (fun r c => m (S (up i r)) (S (up j c)))); [ring|]. intros r c _ _. unfold minor, up. change (Nat.ltb (S c) (S j)) with (Nat.ltb c j). now destruct (Nat.ltb c j).
  - rewrite SumTo_swap. apply SumTo_ext. intros i _.
    transitivity ((-1) ^ S i * m (S i) O * SumTo (S n) (fun j => (-1) ^ j * m O (S j) * Det n (fun r c => m (S (up i r)) (S (up j c))))).
    { rewrite <- SumTo_scale. apply SumTo_ext. intros j _. rewrite pow_add. cbn [pow]. ring. }
    f_equal. cbn [Det]. apply SumTo_ext. intros j _. unfold up at 3. cbn [Nat.ltb Nat.leb]. f_equal. apply Det_ext. intros r c _ _. unfold minor, up.
    change (Nat.ltb (S r) (S i)) with (Nat.ltb r i). now destruct (Nat.ltb r i).
Qed.

(** Replacing one row. *)
Definition setrow (r : nat) (u : nat -> R) (m : nat -> nat -> R) : nat -> nat -> R := fun i j => if Nat.eqb i r then u j else m i j.
Definition Extensional (n : nat) (D : (nat -> nat -> R) -> R) : Prop := forall m m', (forall i j, (i < n)%nat -> (j < n)%nat -> m i j = m' i j) -> D m = D m'.
Definition Linear (n : nat) (D : (nat -> nat -> R) -> R) : Prop := forall r a b u v m, (r < n)%nat ->
  D (setrow r (fun j => a * u j + b * v j) m) = a * D (setrow r u m) + b * D (setrow r v m).
Definition Alternating (n : nat) (D : (nat -> nat -> R) -> R) : Prop := forall r s m, (r < n)%nat -> (s < n)%nat -> r <> s -> (forall j, (j < n)%nat -> m r j = m s j) -> D m = 0.

Lemma Det_linear n : Linear n (Det n).
Proof.
  induction n as [|n IH]; intros r a b u v m Hr; [lia|]. cbn [Det]. rewrite <- !SumTo_scale, <- SumTo_add. apply SumTo_ext. intros j Hj. destruct r as [|r].
  - assert (forall w, Det n (minor j (setrow 0 w m)) = Det n (minor j m)) as E by reflexivity. rewrite !E. unfold setrow. cbn [Nat.eqb]. ring.
  - assert (forall w, Det n (minor j (setrow (S r) w m)) = Det n (setrow r (fun c => w (up j c)) (minor j m))) as E by (intro w; apply Det_ext; reflexivity).
    rewrite !E. rewrite (IH r a b (fun c => u (up j c)) (fun c => v (up j c)) (minor j m)) by lia. assert (forall w, setrow (S r) w m O j = m O j) as E0 by reflexivity. rewrite !E0. ring.
Qed.
(** Two equal neighbouring rows. *)
Lemma Det_neighbours n : forall m r, (S r < n)%nat -> (forall j, (j < n)%nat -> m r j = m (S r) j) -> Det n m = 0.
Proof.
  induction n as [|n IH]; intros m r Hr H; [lia|]. rewrite Det_first_column.
  assert (forall i, i <> r -> i <> S r -> (i < S n)%nat -> Det n (fun a c => m (up i a) (S c)) = 0) as HZ.
  { intros i N1 N2 Hi. destruct (Nat.lt_trichotomy i r) as [Hlt|[->|Hgt]]; [|contradiction|].
    - apply (IH _ (r - 1)%nat); [lia|]. intros j Hj. unfold up. destruct (Nat.ltb_spec (r - 1) i); [lia|]. destruct (Nat.ltb_spec (S (r - 1)) i); [lia|]. replace (S (r - 1)) with r by lia. apply H. lia.
    - apply (IH _ r); [lia|]. intros j Hj. unfold up. destruct (Nat.ltb_spec r i); [|lia]. destruct (Nat.ltb_spec (S r) i); [|lia]. apply H. lia. }
  set (f := fun i => (-1) ^ i * m i O * Det n (fun a c => m (up i a) (S c))). fold f.
  assert (f r + f (S r) = 0) as E.
  { unfold f. rewrite <- (H O) by lia. cbn [pow]. rewrite (Det_ext n (fun a c => m (up (S r) a) (S c)) (fun a c => m (up r a) (S c))); [ring|].
    intros a c Ha Hc. unfold up. destruct (Nat.ltb_spec a (S r)), (Nat.ltb_spec a r); try lia; try reflexivity. assert (a = r) as -> by lia. apply H. lia. }
  transitivity (SumTo (S n) (fun i => (if Nat.eqb i r then f i else 0) + (if Nat.eqb i (S r) then f i else 0))).
  - apply SumTo_ext. intros i Hi. destruct (Nat.eqb_spec i r) as [->|N1]; [destruct (Nat.eqb_spec r (S r)); [lia|ring]|]. destruct (Nat.eqb_spec i (S r)) as [->|N2]; [ring|].
    unfold f. rewrite HZ by assumption. ring.
  - rewrite SumTo_add, (SumTo_delta (S n) r f), (SumTo_delta (S n) (S r) f) by lia. exact E.
Qed.

(** Exchanging rows. *)
Definition swap (r s : nat) (m : nat -> nat -> R) : nat -> nat -> R := fun i j => if Nat.eqb i r then m s j else if Nat.eqb i s then m r j else m i j.
Lemma swap_sign n D r s m : Extensional n D -> Linear n D -> (r < n)%nat -> (s < n)%nat -> r <> s ->
  (forall m, (forall j, (j < n)%nat -> m r j = m s j) -> D m = 0) -> D (swap r s m) = - D m.
Proof.
  intros HE HL Hr Hs N HA.
  pose (b := fun u v : nat -> R => setrow r u (setrow s v m)).
  assert (forall u u' v, D (b (fun j => 1 * u j + 1 * u' j) v) = D (b u v) + D (b u' v)) as L1.
  { intros u u' v. unfold b. rewrite HL by exact Hr. ring. }
  assert (forall u v, D (b u v) = D (setrow s v (setrow r u m))) as C.
  { intros u v. apply HE. intros i j _ _. unfold b, setrow. destruct (Nat.eqb_spec i r), (Nat.eqb_spec i s); try reflexivity. congruence. }
  assert (forall u v v', D (b u (fun j => 1 * v j + 1 * v' j)) = D (b u v) + D (b u v')) as L2.
  { intros u v v'. rewrite !C, HL by exact Hs. ring. }
  assert (forall u, D (b u u) = 0) as Z.
  { intro u. apply HA. intros j _. unfold b, setrow. rewrite Nat.eqb_refl. destruct (Nat.eqb_spec s r); [congruence|]. now rewrite Nat.eqb_refl. }
  pose proof (Z (fun j => 1 * m r j + 1 * m s j)) as K. rewrite L1, !L2, !Z in K.
  assert (D (b (m r) (m s)) = D m) as K1 by (apply HE; intros i j _ _; unfold b, setrow; destruct (Nat.eqb_spec i r) as [->|]; [reflexivity|]; destruct (Nat.eqb_spec i s) as [->|]; reflexivity).
  assert (D (b (m s) (m r)) = D (swap r s m)) as K2 by (apply HE; reflexivity). lra.
Qed.
Lemma Det_alternating n : Alternating n (Det n).
Proof.
  assert (forall d r m, (r + S d < n)%nat -> (forall j, (j < n)%nat -> m r j = m (r + S d)%nat j) -> Det n m = 0) as H.
  { induction d as [|d IH]; intros r m Hr E.
    - apply (Det_neighbours n m r); [lia|]. replace (S r) with (r + 1)%nat by lia. exact E.
    - assert (Det n (swap (r + S d) (S (r + S d)) m) = - Det n m) as S1.
      { apply (swap_sign n); [exact (Det_ext n)|apply Det_linear|lia|lia|lia|]. intros w Hw. apply (Det_neighbours n w (r + S d)); [lia|exact Hw]. }
      rewrite (IH r) in S1; [lra|lia|]. intros j Hj. unfold swap. destruct (Nat.eqb_spec r (r + S d)); [lia|]. destruct (Nat.eqb_spec r (S (r + S d))); [lia|]. rewrite Nat.eqb_refl.
      replace (S (r + S d)) with (r + S (S d))%nat by lia. now apply E. }
  intros r s m Hr Hs N E. destruct (Nat.lt_gt_cases r s) as [[L|L] _]; [exact N| |].
  - apply (H (s - r - 1)%nat r m); [lia|]. replace (r + S (s - r - 1))%nat with s by lia. exact E.
  - apply (H (r - s - 1)%nat s m); [lia|]. replace (s + S (r - s - 1))%nat with r by lia. intros j Hj. symmetry. now apply E.
Qed.

(** Adding a multiple of one row to another. *)
Lemma add_row n D r s c m : Extensional n D -> Linear n D -> Alternating n D -> (r < n)%nat -> (s < n)%nat -> r <> s -> D (setrow r (fun j => m r j + c * m s j) m) = D m.
Proof.
  intros HE HL HA Hr Hs N. transitivity (D (setrow r (fun j => 1 * m r j + c * m s j) m)); [apply HE; intros i j _ _; unfold setrow; destruct (Nat.eqb i r); [ring|reflexivity]|].
  rewrite HL by exact Hr. rewrite (HA r s (setrow r (m s) m)); [|assumption..|].
  - rewrite (HE (setrow r (m r) m) m); [ring|]. intros i j _ _. unfold setrow. destruct (Nat.eqb_spec i r) as [->|]; reflexivity.
  - intros j _. unfold setrow. rewrite Nat.eqb_refl. destruct (Nat.eqb_spec s r); [congruence|reflexivity].
Qed.
Lemma linear_sum n D r k (c : nat -> R) (u : nat -> nat -> R) m : Extensional n D -> Linear n D -> (r < n)%nat ->
  D (setrow r (fun j => SumTo k (fun t => c t * u t j)) m) = SumTo k (fun t => c t * D (setrow r (u t) m)).
Proof.
  intros HE HL Hr. induction k as [|k IH]; cbn [SumTo].
  - transitivity (D (setrow r (fun j => 0 * u O j + 0 * u O j) m)); [apply HE; intros i j _ _; unfold setrow; destruct (Nat.eqb i r); [ring|reflexivity]|]. rewrite HL by exact Hr. ring.
  - transitivity (D (setrow r (fun j => 1 * SumTo k (fun t => c t * u t j) + c k * u k j) m)); [apply HE; intros i j _ _; unfold setrow; destruct (Nat.eqb i r); [ring|reflexivity]|].
    rewrite HL by exact Hr. rewrite IH. ring.
Qed.
Definition unit_matrix (i j : nat) : R := if Nat.eqb i j then 1 else 0.
Definition down (j c : nat) : nat := if Nat.ltb c j then c else (c - 1)%nat.
(** A first row with its one in column [j], a zero column below it. *)
Definition insert (j : nat) (b : nat -> nat -> R) : nat -> nat -> R :=
  fun i c => match i with O => unit_matrix j c | S i' => if Nat.eqb c j then 0 else b i' (down j c) end.
Lemma down_up j c : down j (up j c) = c.
Proof. unfold down, up. destruct (Nat.ltb_spec c j); [destruct (Nat.ltb_spec c j); lia|destruct (Nat.ltb_spec (S c) j); lia]. Qed.
Lemma up_neq j c : up j c <> j.
Proof. unfold up. destruct (Nat.ltb_spec c j); lia. Qed.
Lemma up_down j c : c <> j -> up j (down j c) = c.
Proof. intro N. unfold up, down. destruct (Nat.ltb_spec c j); [destruct (Nat.ltb_spec c j); lia|destruct (Nat.ltb_spec (c - 1) j); lia]. Qed.
Lemma down_lt j c n : (c < S n)%nat -> (j < S n)%nat -> c <> j -> (down j c < n)%nat.
Proof. intros. unfold down. destruct (Nat.ltb_spec c j); lia. Qed.

(** Every alternating multilinear function of the rows is a multiple of the determinant. *)
Lemma Det_unique n : forall D, Extensional n D -> Linear n D -> Alternating n D -> forall m, D m = Det n m * D unit_matrix.
Proof.
  induction n as [|n IH]; intros D HE HL HA m.
  - cbn [Det]. rewrite (HE m unit_matrix) by (intros; lia). ring.
  - transitivity (SumTo (S n) (fun j => m O j * D (setrow 0 (unit_matrix j) m))).
    { rewrite <- (linear_sum (S n) D 0 (S n) (m O) unit_matrix m HE HL ltac:(lia)). apply HE. intros i c Hi Hc. unfold setrow. destruct (Nat.eqb_spec i 0) as [->|]; [|reflexivity].
      rewrite <- (SumTo_delta (S n) c (m O) Hc) at 1. apply SumTo_ext. intros t _. unfold unit_matrix. destruct (Nat.eqb t c); ring. }
    assert (forall j, (j < S n)%nat -> D (insert j unit_matrix) = (-1) ^ j * D unit_matrix) as HI.
    { induction j as [|j IHj]; intro Hj.
      - rewrite (HE (insert 0 unit_matrix) unit_matrix); [cbn; ring|]. intros [|i] [|c] _ _; try reflexivity. unfold insert, unit_matrix, down. cbn. now rewrite Nat.sub_0_r.
      - cbn [pow]. rewrite Rmult_assoc, <- IHj by lia. transitivity (D (swap 0 (S j) (insert j unit_matrix))).
        + apply HE. intros i c Hi Hc. unfold swap. destruct i as [|i]; cbn [Nat.eqb].
          * unfold insert, unit_matrix, down. destruct (Nat.eqb_spec c j) as [->|N]; [destruct (Nat.eqb_spec (S j) j); [lia|reflexivity]|]. destruct (Nat.ltb_spec c j).
            -- destruct (Nat.eqb_spec j c), (Nat.eqb_spec (S j) c); lia || reflexivity.
            -- destruct (Nat.eqb_spec j (c - 1)), (Nat.eqb_spec (S j) c); lia || reflexivity.
          * destruct (Nat.eqb_spec i j) as [->|Ni].
            -- unfold insert, unit_matrix, down. destruct (Nat.eqb_spec c (S j)) as [->|N]; [destruct (Nat.eqb_spec j (S j)); [lia|reflexivity]|]. destruct (Nat.ltb_spec c (S j)); [reflexivity|].
               destruct (Nat.eqb_spec j (c - 1)), (Nat.eqb_spec j c); lia || reflexivity.
            -- unfold insert, unit_matrix, down. destruct (Nat.eqb_spec c (S j)) as [Ec|N].
               ++ subst c. destruct (Nat.eqb_spec (S j) j); [lia|]. destruct (Nat.ltb_spec (S j) j); [lia|]. destruct (Nat.eqb_spec i (S j - 1)); [lia|reflexivity].
               ++ destruct (Nat.eqb_spec c j) as [Ec|N'].
                  ** subst c. destruct (Nat.ltb_spec j (S j)); [|lia]. destruct (Nat.eqb_spec i j); [lia|reflexivity].
                  ** destruct (Nat.ltb_spec c (S j)), (Nat.ltb_spec c j); try lia; reflexivity.
        + rewrite (swap_sign (S n) D 0 (S j) _ HE HL); [ring|lia|lia|lia|]. intros w Hw. apply (HA 0%nat (S j) w); [lia|lia|lia|exact Hw]. }
    assert (forall j, (j < S n)%nat -> D (setrow 0 (unit_matrix j) m) = D (insert j (minor j m))) as HM.
    { intros j Hj. pose (w := fun t i c => match i with O => unit_matrix j c | S i' => if Nat.ltb i' t then if Nat.eqb c j then 0 else m (S i') c else m (S i') c end).
      assert (forall t, (t <= n)%nat -> D (w t) = D (w O)) as HW.
      { induction t as [|t IHt]; intro Ht; [reflexivity|]. rewrite <- IHt by lia. rewrite <- (add_row (S n) D (S t) 0 (- m (S t) j) (w t)); [|assumption..|lia|lia|lia].
        apply HE. intros [|i] c Hi Hc; unfold w, setrow; cbn [Nat.eqb]; [reflexivity|]. destruct (Nat.eqb_spec i t) as [->|N].
        - destruct (Nat.ltb_spec t (S t)); [|lia]. destruct (Nat.ltb_spec t t); [lia|]. unfold unit_matrix. rewrite (Nat.eqb_sym j c). destruct (Nat.eqb_spec c j) as [->|]; ring.
        - destruct (Nat.ltb_spec i (S t)), (Nat.ltb_spec i t); try lia; reflexivity. }
      transitivity (D (w O)); [apply HE; intros [|i] c _ _; reflexivity|]. rewrite <- (HW n) by lia. apply HE. intros [|i] c Hi Hc; unfold w, insert; [reflexivity|].
      destruct (Nat.ltb_spec i n); [|lia]. destruct (Nat.eqb_spec c j) as [->|N]; [reflexivity|]. unfold minor. fold (up j (down j c)). now rewrite up_down. }
    assert (forall j, (j < S n)%nat -> forall b, D (insert j b) = Det n b * D (insert j unit_matrix)) as HD.
    { intros j Hj. apply (IH (fun b => D (insert j b))).
      - intros b b' H. apply HE. intros [|i] c Hi Hc; unfold insert; [reflexivity|]. destruct (Nat.eqb_spec c j) as [->|N]; [reflexivity|]. apply H; [lia|]. now apply down_lt.
      - intros r a b u v w Hr. pose (e := fun (u : nat -> R) c => if Nat.eqb c j then 0 else u (down j c)).
        assert (forall u, D (insert j (setrow r u w)) = D (setrow (S r) (e u) (insert j w))) as E.
        { intro u0. apply HE. intros [|i] c _ _; unfold insert, setrow, e; cbn [Nat.eqb]; [reflexivity|]. destruct (Nat.eqb i r), (Nat.eqb c j); reflexivity. }
        rewrite !E. rewrite <- HL by lia. apply HE. intros i c _ _. unfold setrow, e. destruct (Nat.eqb i (S r)); [|reflexivity]. destruct (Nat.eqb c j); ring.
      - intros r s w Hr Hs N H. apply (HA (S r) (S s)); [lia|lia|lia|]. intros c Hc. unfold insert. destruct (Nat.eqb_spec c j) as [->|Nc]; [reflexivity|]. apply H. now apply down_lt. }
    cbn [Det]. rewrite Rmult_comm, <- SumTo_scale. apply SumTo_ext. intros j Hj. rewrite HM, HD, HI by exact Hj. ring.
Qed.
Definition product (n : nat) (a b : nat -> nat -> R) : nat -> nat -> R := fun i j => SumTo n (fun k => a i k * b k j).
Lemma Det_product n a b : Det n (product n a b) = Det n a * Det n b.
Proof.
  rewrite (Det_unique n (fun a => Det n (product n a b))).
  - f_equal. apply Det_ext. intros i j Hi Hj. unfold product, unit_matrix. rewrite <- (SumTo_delta n i (fun k => b k j) Hi). apply SumTo_ext. intros k _.
    rewrite (Nat.eqb_sym i k). destruct (Nat.eqb k i); ring.
  - intros m m' H. apply Det_ext. intros i j Hi Hj. unfold product. apply SumTo_ext. intros k Hk. now rewrite H.
  - intros r c d u v m Hr. pose (e := fun (u : nat -> R) j => SumTo n (fun k => u k * b k j)).
    assert (forall u, Det n (product n (setrow r u m) b) = Det n (setrow r (e u) (product n m b))) as E.
    { intro w. apply Det_ext. intros i j _ _. unfold product, setrow, e. destruct (Nat.eqb i r); reflexivity. }
    rewrite !E, <- Det_linear by exact Hr. apply Det_ext. intros i j _ _. unfold setrow, e. destruct (Nat.eqb i r); [|reflexivity]. rewrite <- !SumTo_scale, <- SumTo_add. apply SumTo_ext. intros. ring.
  - intros r s m Hr Hs N H. apply (Det_alternating n r s); [assumption..|]. intros j _. unfold product. apply SumTo_ext. intros k Hk. now rewrite H.
Qed.
