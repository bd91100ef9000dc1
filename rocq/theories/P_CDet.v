(** The determinant of a product of complex matrices. *)
From Coq Require Import List Arith Lia Reals Lra.
From Coquelicot Require Import Complex.
From Verif Require Import S_Generate S_Rotate S_CharPoly S_CCharPoly P_Generate P_Det.
Local Open Scope R_scope.
Local Open Scope C_scope.

Lemma CSumTo_ext n (f g : nat -> C) : (forall i, (i < n)%nat -> f i = g i) -> CSumTo n f = CSumTo n g.
Proof. induction n as [|n IH]; intro H; cbn; [reflexivity|]. rewrite IH, H; auto. Qed.
Lemma CSumTo_add n (f g : nat -> C) : CSumTo n (fun i => f i + g i) = CSumTo n f + CSumTo n g.
Proof. induction n as [|n IH]; cbn; [ring|]. rewrite IH. ring. Qed.
Lemma CSumTo_scale n (c : C) (f : nat -> C) : CSumTo n (fun i => c * f i) = c * CSumTo n f.
Proof. induction n as [|n IH]; cbn; [ring|]. rewrite IH. ring. Qed.
Lemma CSumTo_0 n (f : nat -> C) : (forall i, (i < n)%nat -> f i = 0) -> CSumTo n f = 0.
Proof. induction n as [|n IH]; intro H; cbn; [reflexivity|]. rewrite IH, H by auto. ring. Qed.
Lemma CSumTo_shift n (f : nat -> C) : CSumTo (S n) f = f 0%nat + CSumTo n (fun i => f (S i)).
Proof. induction n as [|n IH]; [cbn; ring|]. change (CSumTo (S (S n)) f) with (CSumTo (S n) f + f (S n)). rewrite IH. cbn [CSumTo]. ring. Qed.
Lemma CSumTo_swap n m (f : nat -> nat -> C) : CSumTo n (fun i => CSumTo m (f i)) = CSumTo m (fun j => CSumTo n (fun i => f i j)).
Proof. induction n as [|n IH]; cbn [CSumTo]; [symmetry; apply CSumTo_0; reflexivity|]. rewrite IH, <- CSumTo_add. reflexivity. Qed.
Lemma CSumTo_delta n k (f : nat -> C) : (k < n)%nat -> CSumTo n (fun i => if Nat.eqb i k then f i else 0) = f k.
Proof.
  induction n as [|n IH]; intro H; [lia|]. cbn [CSumTo]. destruct (Nat.eqb_spec n k) as [->|N].
  - rewrite CSumTo_0; [ring|]. intros i Hi. destruct (Nat.eqb_spec i k); [lia|reflexivity].
  - rewrite IH by lia. ring.
Qed.
Lemma csign_add a b : csign (a + b)%nat = csign a * csign b.
Proof. induction a as [|a IH]; cbn [csign Nat.add]; [ring|]. rewrite IH. ring. Qed.

Lemma CDet_ext n : forall m m', (forall i j, (i < n)%nat -> (j < n)%nat -> m i j = m' i j) -> CDet n m = CDet n m'.
Proof.
  induction n as [|k IH]; intros m m' H; [reflexivity|]. cbn [CDet]. apply CSumTo_ext. intros j Hj. rewrite (H O j) by lia. f_equal. apply IH.
  intros i c Hi Hc. unfold cminor. destruct (Nat.ltb_spec c j); apply H; lia.
Qed.
(** Expansion along the first column. *)
Lemma CDet_first_column n : forall m, CDet (S n) m = CSumTo (S n) (fun i => csign i * m i O * CDet n (fun r c => m (up i r) (S c))).
Proof.
  induction n as [|n IH]; intro m; [cbn; ring|].
  transitivity (CSumTo (S (S n)) (fun j => csign j * m O j * CDet (S n) (cminor j m))); [reflexivity|]. rewrite !(CSumTo_shift (S n)). f_equal.
  transitivity (CSumTo (S n) (fun j => CSumTo (S n) (fun i => - (csign (i + j)) * m O (S j) * m (S i) O * CDet n (fun r c => m (S (up i r)) (S (up j c)))))).
  - apply CSumTo_ext. intros j _. rewrite IH, <- CSumTo_scale. apply CSumTo_ext. intros i _. rewrite csign_add. unfold cminor at 1. cbn [Nat.ltb Nat.leb csign].
    rewrite (CDet_ext n _ (fun r c => m (S (up i r)) (S (up j c)))); [ring|]. intros r c _ _. unfold cminor, up. change (Nat.ltb (S c) (S j)) with (Nat.ltb c j). now destruct (Nat.ltb c j).
  - rewrite CSumTo_swap. apply CSumTo_ext. intros i _.
    transitivity (csign (S i) * m (S i) O * CSumTo (S n) (fun j => csign j * m O (S j) * CDet n (fun r c => m (S (up i r)) (S (up j c))))).
    { rewrite <- CSumTo_scale. apply CSumTo_ext. intros j _. rewrite csign_add. cbn [csign]. ring. }
    f_equal. cbn [CDet]. apply CSumTo_ext. intros j _. unfold up at 3. cbn [Nat.ltb Nat.leb]. f_equal. apply CDet_ext. intros r c _ _. unfold cminor, up.
    change (Nat.ltb (S r) (S i)) with (Nat.ltb r i). now destruct (Nat.ltb r i).
Qed.

(** Replacing one row. *)
Definition csetrow (r : nat) (u : nat -> C) (m : nat -> nat -> C) : nat -> nat -> C := fun i j => if Nat.eqb i r then u j else m i j.
Definition cExtensional (n : nat) (D : (nat -> nat -> C) -> C) : Prop := forall m m', (forall i j, (i < n)%nat -> (j < n)%nat -> m i j = m' i j) -> D m = D m'.
Definition cLinear (n : nat) (D : (nat -> nat -> C) -> C) : Prop := forall r a b u v m, (r < n)%nat ->
  D (csetrow r (fun j => a * u j + b * v j) m) = a * D (csetrow r u m) + b * D (csetrow r v m).
Definition cAlternating (n : nat) (D : (nat -> nat -> C) -> C) : Prop := forall r s m, (r < n)%nat -> (s < n)%nat -> r <> s -> (forall j, (j < n)%nat -> m r j = m s j) -> D m = 0.

Lemma CDet_linear n : cLinear n (CDet n).
Proof.
  induction n as [|n IH]; intros r a b u v m Hr; [lia|]. cbn [CDet]. rewrite <- !CSumTo_scale, <- CSumTo_add. apply CSumTo_ext. intros j Hj. destruct r as [|r].
  - assert (forall w, CDet n (cminor j (csetrow 0 w m)) = CDet n (cminor j m)) as E by reflexivity. rewrite !E. unfold csetrow. cbn [Nat.eqb]. ring.
  - assert (forall w, CDet n (cminor j (csetrow (S r) w m)) = CDet n (csetrow r (fun c => w (up j c)) (cminor j m))) as E by (intro w; apply CDet_ext; reflexivity).
    rewrite !E. rewrite (IH r a b (fun c => u (up j c)) (fun c => v (up j c)) (cminor j m)) by lia. assert (forall w, csetrow (S r) w m O j = m O j) as E0 by reflexivity. rewrite !E0. ring.
Qed.
(** Two equal neighbouring rows. *)
Lemma CDet_neighbours n : forall m r, (S r < n)%nat -> (forall j, (j < n)%nat -> m r j = m (S r) j) -> CDet n m = 0.
Proof.
  induction n as [|n IH]; intros m r Hr H; [lia|]. rewrite CDet_first_column.
  assert (forall i, i <> r -> i <> S r -> (i < S n)%nat -> CDet n (fun a c => m (up i a) (S c)) = 0) as HZ.
  { intros i N1 N2 Hi. destruct (Nat.lt_trichotomy i r) as [Hlt|[->|Hgt]]; [|contradiction|].
    - apply (IH _ (r - 1)%nat); [lia|]. intros j Hj. unfold up. destruct (Nat.ltb_spec (r - 1) i); [lia|]. destruct (Nat.ltb_spec (S (r - 1)) i); [lia|]. replace (S (r - 1)) with r by lia. apply H. lia.
    - apply (IH _ r); [lia|]. intros j Hj. unfold up. destruct (Nat.ltb_spec r i); [|lia]. destruct (Nat.ltb_spec (S r) i); [|lia]. apply H. lia. }
  set (f := fun i => csign i * m i O * CDet n (fun a c => m (up i a) (S c))). fold f.
  assert (f r + f (S r) = 0) as E.
  { unfold f. rewrite <- (H O) by lia. cbn [csign]. rewrite (CDet_ext n (fun a c => m (up (S r) a) (S c)) (fun a c => m (up r a) (S c))); [ring|].
    intros a c Ha Hc. unfold up. destruct (Nat.ltb_spec a (S r)), (Nat.ltb_spec a r); try lia; try reflexivity. assert (a = r) as -> by lia. apply H. lia. }
  transitivity (CSumTo (S n) (fun i => (if Nat.eqb i r then f i else 0) + (if Nat.eqb i (S r) then f i else 0))).
  - apply CSumTo_ext. intros i Hi. destruct (Nat.eqb_spec i r) as [->|N1]; [destruct (Nat.eqb_spec r (S r)); [lia|ring]|]. destruct (Nat.eqb_spec i (S r)) as [->|N2]; [ring|].
    unfold f. rewrite HZ by assumption. ring.
  - rewrite CSumTo_add, (CSumTo_delta (S n) r f), (CSumTo_delta (S n) (S r) f) by lia. exact E.
Qed.

(** Exchanging rows. *)
Definition cswap (r s : nat) (m : nat -> nat -> C) : nat -> nat -> C := fun i j => if Nat.eqb i r then m s j else if Nat.eqb i s then m r j else m i j.
Lemma cswap_sign n D r s m : cExtensional n D -> cLinear n D -> (r < n)%nat -> (s < n)%nat -> r <> s ->
  (forall m, (forall j, (j < n)%nat -> m r j = m s j) -> D m = 0) -> D (cswap r s m) = - D m.
Proof.
  intros HE HL Hr Hs N HA.
  pose (b := fun u v : nat -> C => csetrow r u (csetrow s v m)).
  assert (forall u u' v, D (b (fun j => 1 * u j + 1 * u' j) v) = D (b u v) + D (b u' v)) as L1.
  { intros u u' v. unfold b. rewrite HL by exact Hr. ring. }
  assert (forall u v, D (b u v) = D (csetrow s v (csetrow r u m))) as C.
  { intros u v. apply HE. intros i j _ _. unfold b, csetrow. destruct (Nat.eqb_spec i r), (Nat.eqb_spec i s); try reflexivity. congruence. }
  assert (forall u v v', D (b u (fun j => 1 * v j + 1 * v' j)) = D (b u v) + D (b u v')) as L2.
  { intros u v v'. rewrite !C, HL by exact Hs. ring. }
  assert (forall u, D (b u u) = 0) as Z.
  { intro u. apply HA. intros j _. unfold b, csetrow. rewrite Nat.eqb_refl. destruct (Nat.eqb_spec s r); [congruence|]. now rewrite Nat.eqb_refl. }
  pose proof (Z (fun j => 1 * m r j + 1 * m s j)) as K. rewrite L1, !L2, !Z in K.
  assert (D (b (m r) (m s)) = D m) as K1 by (apply HE; intros i j _ _; unfold b, csetrow; destruct (Nat.eqb_spec i r) as [->|]; [reflexivity|]; destruct (Nat.eqb_spec i s) as [->|]; reflexivity).
  assert (D (b (m s) (m r)) = D (cswap r s m)) as K2 by (apply HE; reflexivity). rewrite K1, K2 in K. transitivity (0 + D m + (D (cswap r s m) + 0) - D m); [ring|]. rewrite K. ring.
Qed.
Lemma CDet_alternating n : cAlternating n (CDet n).
Proof.
  assert (forall d r m, (r + S d < n)%nat -> (forall j, (j < n)%nat -> m r j = m (r + S d)%nat j) -> CDet n m = 0) as H.
  { induction d as [|d IH]; intros r m Hr E.
    - apply (CDet_neighbours n m r); [lia|]. replace (S r) with (r + 1)%nat by lia. exact E.
    - assert (CDet n (cswap (r + S d) (S (r + S d)) m) = - CDet n m) as S1.
      { apply (cswap_sign n); [exact (CDet_ext n)|apply CDet_linear|lia|lia|lia|]. intros w Hw. apply (CDet_neighbours n w (r + S d)); [lia|exact Hw]. }
      rewrite (IH r) in S1; [transitivity (- - CDet n m); [ring|]; rewrite <- S1; ring|lia|]. intros j Hj. unfold cswap. destruct (Nat.eqb_spec r (r + S d)); [lia|]. destruct (Nat.eqb_spec r (S (r + S d))); [lia|]. rewrite Nat.eqb_refl.
      replace (S (r + S d)) with (r + S (S d))%nat by lia. now apply E. }
  intros r s m Hr Hs N E. destruct (Nat.lt_gt_cases r s) as [[L|L] _]; [exact N| |].
  - apply (H (s - r - 1)%nat r m); [lia|]. replace (r + S (s - r - 1))%nat with s by lia. exact E.
  - apply (H (r - s - 1)%nat s m); [lia|]. replace (s + S (r - s - 1))%nat with r by lia. intros j Hj. symmetry. now apply E.
Qed.

(** Adding a multiple of one row to another. *)
Lemma cadd_row n D r s c m : cExtensional n D -> cLinear n D -> cAlternating n D -> (r < n)%nat -> (s < n)%nat -> r <> s -> D (csetrow r (fun j => m r j + c * m s j) m) = D m.
Proof.
  intros HE HL HA Hr Hs N. transitivity (D (csetrow r (fun j => 1 * m r j + c * m s j) m)); [apply HE; intros i j _ _; unfold csetrow; destruct (Nat.eqb i r); [ring|reflexivity]|].
  rewrite HL by exact Hr. rewrite (HA r s (csetrow r (m s) m)); [|assumption..|].
  - rewrite (HE (csetrow r (m r) m) m); [ring|]. intros i j _ _. unfold csetrow. destruct (Nat.eqb_spec i r) as [->|]; reflexivity.
  - intros j _. unfold csetrow. rewrite Nat.eqb_refl. destruct (Nat.eqb_spec s r); [congruence|reflexivity].
Qed.
Lemma clinear_sum n D r k (c : nat -> C) (u : nat -> nat -> C) m : cExtensional n D -> cLinear n D -> (r < n)%nat ->
  D (csetrow r (fun j => CSumTo k (fun t => c t * u t j)) m) = CSumTo k (fun t => c t * D (csetrow r (u t) m)).
Proof.
  intros HE HL Hr. induction k as [|k IH]; cbn [CSumTo].
  - transitivity (D (csetrow r (fun j => 0 * u O j + 0 * u O j) m)); [apply HE; intros i j _ _; unfold csetrow; destruct (Nat.eqb i r); [ring|reflexivity]|]. rewrite HL by exact Hr. ring.
  - transitivity (D (csetrow r (fun j => 1 * CSumTo k (fun t => c t * u t j) + c k * u k j) m)); [apply HE; intros i j _ _; unfold csetrow; destruct (Nat.eqb i r); [ring|reflexivity]|].
    rewrite HL by exact Hr. rewrite IH. ring.
Qed.
Definition cunit_matrix (i j : nat) : C := if Nat.eqb i j then 1 else 0.
(** A first row with its one in column [j], a zero column below it. *)
Definition cinsert (j : nat) (b : nat -> nat -> C) : nat -> nat -> C :=
  fun i c => match i with O => cunit_matrix j c | S i' => if Nat.eqb c j then 0 else b i' (down j c) end.

(** Every alternating multilinear function of the rows is a multiple of the determinant. *)
Lemma CDet_unique n : forall D, cExtensional n D -> cLinear n D -> cAlternating n D -> forall m, D m = CDet n m * D cunit_matrix.
Proof.
  induction n as [|n IH]; intros D HE HL HA m.
  - cbn [CDet]. rewrite (HE m cunit_matrix) by (intros; lia). ring.
  - transitivity (CSumTo (S n) (fun j => m O j * D (csetrow 0 (cunit_matrix j) m))).
    { rewrite <- (clinear_sum (S n) D 0 (S n) (m O) cunit_matrix m HE HL ltac:(lia)). apply HE. intros i c Hi Hc. unfold csetrow. destruct (Nat.eqb_spec i 0) as [->|]; [|reflexivity].
      rewrite <- (CSumTo_delta (S n) c (m O) Hc) at 1. apply CSumTo_ext. intros t _. unfold cunit_matrix. destruct (Nat.eqb t c); ring. }
    assert (forall j, (j < S n)%nat -> D (cinsert j cunit_matrix) = csign j * D cunit_matrix) as HI.
    { induction j as [|j IHj]; intro Hj.
      - rewrite (HE (cinsert 0 cunit_matrix) cunit_matrix); [cbn; ring|]. intros [|i] [|c] _ _; try reflexivity. unfold cinsert, cunit_matrix, down. cbn. now rewrite Nat.sub_0_r.
      - cbn [csign]. transitivity (- (csign j * D cunit_matrix)); [|ring]. rewrite <- IHj by lia. transitivity (D (cswap 0 (S j) (cinsert j cunit_matrix))).
        + apply HE. intros i c Hi Hc. unfold cswap. destruct i as [|i]; cbn [Nat.eqb].
          * unfold cinsert, cunit_matrix, down. destruct (Nat.eqb_spec c j) as [->|N]; [destruct (Nat.eqb_spec (S j) j); [lia|reflexivity]|]. destruct (Nat.ltb_spec c j).
            -- destruct (Nat.eqb_spec j c), (Nat.eqb_spec (S j) c); lia || reflexivity.
            -- destruct (Nat.eqb_spec j (c - 1)), (Nat.eqb_spec (S j) c); lia || reflexivity.
          * destruct (Nat.eqb_spec i j) as [->|Ni].
            -- unfold cinsert, cunit_matrix, down. destruct (Nat.eqb_spec c (S j)) as [->|N]; [destruct (Nat.eqb_spec j (S j)); [lia|reflexivity]|]. destruct (Nat.ltb_spec c (S j)); [reflexivity|].
               destruct (Nat.eqb_spec j (c - 1)), (Nat.eqb_spec j c); lia || reflexivity.
            -- unfold cinsert, cunit_matrix, down. destruct (Nat.eqb_spec c (S j)) as [Ec|N].
               ++ subst c. destruct (Nat.eqb_spec (S j) j); [lia|]. destruct (Nat.ltb_spec (S j) j); [lia|]. destruct (Nat.eqb_spec i (S j - 1)); [lia|reflexivity].
               ++ destruct (Nat.eqb_spec c j) as [Ec|N'].
                  ** subst c. destruct (Nat.ltb_spec j (S j)); [|lia]. destruct (Nat.eqb_spec i j); [lia|reflexivity].
                  ** destruct (Nat.ltb_spec c (S j)), (Nat.ltb_spec c j); try lia; reflexivity.
        + rewrite (cswap_sign (S n) D 0 (S j) _ HE HL); [ring|lia|lia|lia|]. intros w Hw. apply (HA 0%nat (S j) w); [lia|lia|lia|exact Hw]. }
    assert (forall j, (j < S n)%nat -> D (csetrow 0 (cunit_matrix j) m) = D (cinsert j (cminor j m))) as HM.
    { intros j Hj. pose (w := fun t i c => match i with O => cunit_matrix j c | S i' => if Nat.ltb i' t then if Nat.eqb c j then 0 else m (S i') c else m (S i') c end).
      assert (forall t, (t <= n)%nat -> D (w t) = D (w O)) as HW.
      { induction t as [|t IHt]; intro Ht; [reflexivity|]. rewrite <- IHt by lia. rewrite <- (cadd_row (S n) D (S t) 0 (- m (S t) j) (w t)); [|assumption..|lia|lia|lia].
        apply HE. intros [|i] c Hi Hc; unfold w, csetrow; cbn [Nat.eqb]; [reflexivity|]. destruct (Nat.eqb_spec i t) as [->|N].
        - destruct (Nat.ltb_spec t (S t)); [|lia]. destruct (Nat.ltb_spec t t); [lia|]. unfold cunit_matrix. rewrite (Nat.eqb_sym j c). destruct (Nat.eqb_spec c j) as [->|]; ring.
        - destruct (Nat.ltb_spec i (S t)), (Nat.ltb_spec i t); try lia; reflexivity. }
      transitivity (D (w O)); [apply HE; intros [|i] c _ _; reflexivity|]. rewrite <- (HW n) by lia. apply HE. intros [|i] c Hi Hc; unfold w, cinsert; [reflexivity|].
      destruct (Nat.ltb_spec i n); [|lia]. destruct (Nat.eqb_spec c j) as [->|N]; [reflexivity|]. unfold cminor. fold (up j (down j c)). now rewrite up_down. }
    assert (forall j, (j < S n)%nat -> forall b, D (cinsert j b) = CDet n b * D (cinsert j cunit_matrix)) as HD.
    { intros j Hj. apply (IH (fun b => D (cinsert j b))).
      - intros b b' H. apply HE. intros [|i] c Hi Hc; unfold cinsert; [reflexivity|]. destruct (Nat.eqb_spec c j) as [->|N]; [reflexivity|]. apply H; [lia|]. now apply down_lt.
      - intros r a b u v w Hr. pose (e := fun (u : nat -> C) c => if Nat.eqb c j then RtoC 0 else u (down j c)).
        assert (forall u, D (cinsert j (csetrow r u w)) = D (csetrow (S r) (e u) (cinsert j w))) as E.
        { intro u0. apply HE. intros [|i] c _ _; unfold cinsert, csetrow, e; cbn [Nat.eqb]; [reflexivity|]. destruct (Nat.eqb i r), (Nat.eqb c j); reflexivity. }
        rewrite !E. rewrite <- HL by lia. apply HE. intros i c _ _. unfold csetrow, e. destruct (Nat.eqb i (S r)); [|reflexivity]. destruct (Nat.eqb c j); ring.
      - intros r s w Hr Hs N H. apply (HA (S r) (S s)); [lia|lia|lia|]. intros c Hc. unfold cinsert. destruct (Nat.eqb_spec c j) as [->|Nc]; [reflexivity|]. apply H. now apply down_lt. }
    cbn [CDet]. rewrite Cmult_comm, <- CSumTo_scale. apply CSumTo_ext. intros j Hj. rewrite HM, HD, HI by exact Hj. ring.
Qed.
Definition cproduct (n : nat) (a b : nat -> nat -> C) : nat -> nat -> C := fun i j => CSumTo n (fun k => a i k * b k j).
Lemma CDet_product n a b : CDet n (cproduct n a b) = CDet n a * CDet n b.
Proof.
  rewrite (CDet_unique n (fun a => CDet n (cproduct n a b))).
  - f_equal. apply CDet_ext. intros i j Hi Hj. unfold cproduct, cunit_matrix. rewrite <- (CSumTo_delta n i (fun k => b k j) Hi). apply CSumTo_ext. intros k _.
    rewrite (Nat.eqb_sym i k). destruct (Nat.eqb k i); ring.
  - intros m m' H. apply CDet_ext. intros i j Hi Hj. unfold cproduct. apply CSumTo_ext. intros k Hk. now rewrite H.
  - intros r c d u v m Hr. pose (e := fun (u : nat -> C) j => CSumTo n (fun k => u k * b k j)).
    assert (forall u, CDet n (cproduct n (csetrow r u m) b) = CDet n (csetrow r (e u) (cproduct n m b))) as E.
    { intro w. apply CDet_ext. intros i j _ _. unfold cproduct, csetrow, e. destruct (Nat.eqb i r); reflexivity. }
    rewrite !E, <- CDet_linear by exact Hr. apply CDet_ext. intros i j _ _. unfold csetrow, e. destruct (Nat.eqb i r); [|reflexivity]. rewrite <- !CSumTo_scale, <- CSumTo_add. apply CSumTo_ext. intros. ring.
  - intros r s m Hr Hs N H. apply (CDet_alternating n r s); [assumption..|]. intros j _. unfold cproduct. apply CSumTo_ext. intros k Hk. now rewrite H.
Qed.
