(** Sums of fourth powers of eigenvalues: in terms of the entries of a matrix; their averages over normal numbers. *)
From Coq Require Import List ZArith Bool Arith Lia Reals Lra Ring.
From Coquelicot Require Import Coquelicot.
From Verif Require Import Base M_Generate S_Generate S_Normal S_Rotate S_Fourth P_Generate P_Surmise P_Rotate T_Rotate P_Moments P_Wishart.
Import ListNotations.
Local Open Scope R_scope.

(** ** The square of a matrix that is diagonal in some basis *)
Section Square.
Variable K : Type.
Variables (zero one : K) (add mul sub : K -> K -> K) (opp : K -> K).
Hypothesis Kth : ring_theory zero one add mul sub opp eq.
Add Ring Kring4 : Kth.
Variable conj : K -> K.
Hypothesis conj_zero : conj zero = zero.
Hypothesis conj_one : conj one = one.
Hypothesis conj_add : forall x y, conj (add x y) = add (conj x) (conj y).
Hypothesis conj_mul : forall x y, conj (mul x y) = mul (conj x) (conj y).
Hypothesis conj_conj : forall x, conj (conj x) = x.
Variable n : nat.
Variable u : nat -> nat -> K.
Local Notation gsum := (gsum K zero add).
Local Notation delta := (delta K zero one).
Hypothesis Hu : forall k l, (k < n)%nat -> (l < n)%nat -> gsum n (fun i => mul (u i k) (conj (u i l))) = delta k l.
Local Notation gturn := (gturn K zero add mul conj n u).
Lemma gturn_product a b i j : gsum n (fun h => mul (gturn a i h) (gturn b h j)) = gturn (fun k l => gsum n (fun p => mul (a k p) (b p l))) i j.
Proof.
  assert (forall N c f, gsum N (fun i => mul c (f i)) = mul c (gsum N f)) as SM by (exact (gsum_mul K zero one add mul sub opp Kth)).
  assert (forall N M f, gsum N (fun i => gsum M (f i)) = gsum M (fun j => gsum N (fun i => f i j))) as SW by (exact (gsum_swap K zero one add mul sub opp Kth)).
  assert (forall N f g, (forall i, (i < N)%nat -> f i = g i) -> gsum N f = gsum N g) as SE by (exact (gsum_ext K zero add)).
  assert (forall N c f, gsum N (fun i => mul (f i) c) = mul (gsum N f) c) as SR by (exact (gsum_mul_r K zero one add mul sub opp Kth)).
  set (r := fun k => gsum n (fun l => mul (b k l) (conj (u j l)))).
  transitivity (gsum n (fun k => mul (u i k) (gsum n (fun p => mul (a k p) (r p))))).
  - transitivity (gsum n (fun h => gsum n (fun k => mul (u i k) (gsum n (fun p => gsum n (fun q => mul (mul (a k p) (r q)) (mul (u h q) (conj (u h p))))))))).
    { apply SE. intros h _. unfold P_Rotate.gturn at 1. rewrite <- SR. apply SE. intros k _.
      transitivity (mul (u i k) (mul (gsum n (fun p => mul (a k p) (conj (u h p)))) (gturn b h j))); [ring|]. f_equal. rewrite <- SR. apply SE. intros p _.
      unfold P_Rotate.gturn. rewrite <- SM. apply SE. intros q _. fold (r q). ring. }
    rewrite SW. apply SE. intros k _. rewrite SM. f_equal. rewrite SW. apply SE. intros p Hp. rewrite SW.
    transitivity (gsum n (fun q => mul (delta p q) (mul (a k p) (r q)))).
    { apply SE. intros q Hq. rewrite SM, Hu by assumption. replace (delta q p) with (delta p q) by (unfold P_Rotate.delta; now rewrite (Nat.eqb_sym p q)). ring. }
    exact (gsum_delta K zero one add mul sub opp Kth n p (fun q => mul (a k p) (r q)) Hp).
  - unfold P_Rotate.gturn. apply SE. intros k _. f_equal.
    transitivity (gsum n (fun p => gsum n (fun l => mul (a k p) (mul (b p l) (conj (u j l)))))).
    { apply SE. intros p _. now rewrite SM. }
    rewrite SW. apply SE. intros l _. rewrite <- SR. apply SE. intros p _. ring.
Qed.
End Square.
Lemma turn_product n q a b i j : Orthogonal n q -> SumTo n (fun h => turn n q a i h * turn n q b h j) = turn n q (fun k l => SumTo n (fun p => a k p * b p l)) i j.
Proof. intro H. exact (gturn_product R 0 1 Rplus Rmult Rminus Ropp RTheory (fun x => x) n q H a b i j). Qed.
Lemma cturn_product n u a b i j : Unitary n u -> CSumTo n (fun h => Cmult (cturn n u a i h) (cturn n u b h j)) = cturn n u (fun k l => CSumTo n (fun p => Cmult (a k p) (b p l))) i j.
Proof. intro H. exact (gturn_product C (RtoC 0) (RtoC 1) Cplus Cmult Cminus Copp Cth Cconj n u (Unitary_delta n u H) a b i j). Qed.
Definition msquare (n : nat) (m : nat -> nat -> R) (i k : nat) : R := SumTo n (fun j => m i j * m j k).
Lemma diagonal_product n lam k l : (k < n)%nat -> SumTo n (fun p => diagonal lam k p * diagonal lam p l) = diagonal (map (fun x => x * x) lam) k l.
Proof.
  intro Hk. rewrite (SumTo_ext n _ (fun p => if Nat.eqb p k then diagonal lam k k * diagonal lam k l else 0)).
  - rewrite (SumTo_delta n k (fun _ => diagonal lam k k * diagonal lam k l)) by exact Hk. unfold diagonal. rewrite Nat.eqb_refl.
    assert (nth k (map (fun x => x * x) lam) 0 = nth k lam 0 * nth k lam 0) as ->.
    { replace 0 with (0 * 0) at 1 by ring. apply (map_nth (fun x => x * x)). }
    destruct (Nat.eqb k l); ring.
  - intros p _. unfold diagonal at 1. rewrite (Nat.eqb_sym p k). destruct (Nat.eqb_spec k p) as [->|]; [|ring]. unfold diagonal at 2. now rewrite Nat.eqb_refl.
Qed.
Lemma spectrum_msquare n m lam : Spectrum n m lam -> Spectrum n (msquare n m) (map (fun x => x * x) lam).
Proof.
  intros (H & q & Hq & E). split; [now rewrite map_length|]. exists q. split; [exact Hq|]. intros i j Hi Hj. unfold msquare.
  transitivity (SumTo n (fun h => turn n q (diagonal lam) i h * turn n q (diagonal lam) h j)); [apply SumTo_ext; intros h Hh; now rewrite <- !E|].
  rewrite (turn_product n q _ _ i j Hq). apply turn_ext. intros k l Hk _. now apply diagonal_product.
Qed.
Lemma squares_fourths lam : squares (map (fun x => x * x) lam) = fourths lam.
Proof. unfold squares, fourths. rewrite map_map. f_equal. apply map_ext. intro x. ring. Qed.
Lemma spectrum_fourths n m lam : Spectrum n m lam -> fourths lam = SumTo n (fun i => SumTo n (fun k => msquare n m i k * msquare n m i k)).
Proof. intro H. rewrite <- squares_fourths. apply spectrum_squares, spectrum_msquare, H. Qed.
Definition cre2 n (re im : nat -> nat -> R) (i k : nat) : R := SumTo n (fun j => re i j * re j k - im i j * im j k).
Definition cim2 n (re im : nat -> nat -> R) (i k : nat) : R := SumTo n (fun j => re i j * im j k + im i j * re j k).
Lemma CSumTo_pair n f : CSumTo n f = (SumTo n (fun i => fst (f i)), SumTo n (fun i => snd (f i))).
Proof. induction n as [|n IH]; [reflexivity|]. cbn [CSumTo SumTo]. rewrite IH. unfold Cplus. cbn [fst snd]. reflexivity. Qed.
Lemma cspectrum_fourths n re im lam : CSpectrum n re im lam ->
  fourths lam = SumTo n (fun i => SumTo n (fun k => cre2 n re im i k * cre2 n re im i k + cim2 n re im i k * cim2 n re im i k)).
Proof.
  intros (H & u & Hu & E). rewrite <- squares_fourths. apply cspectrum_squares. split; [now rewrite map_length|]. exists u. split; [exact Hu|]. intros i j Hi Hj.
  transitivity (CSumTo n (fun h => Cmult (cturn n u (fun k l => RtoC (diagonal lam k l)) i h) (cturn n u (fun k l => RtoC (diagonal lam k l)) h j))).
  - rewrite CSumTo_pair. unfold cre2, cim2. f_equal; apply SumTo_ext; intros h Hh; rewrite <- !E by assumption; reflexivity.
  - rewrite (cturn_product n u _ _ i j Hu). apply cturn_ext. intros k l Hk _. rewrite <- (diagonal_product n lam k l Hk).
    rewrite CSumTo_pair. unfold RtoC. f_equal; [apply SumTo_ext; intros; cbn; ring|]. apply SumTo_0. intros. cbn. ring.
Qed.

(** ** Averages when the entries are linear forms *)
Lemma navg_sum4 K n (f : nat -> nat -> nat -> nat -> list R -> R) v :
  (forall i k j h, (i < n)%nat -> (k < n)%nat -> (j < n)%nat -> (h < n)%nat -> NormalAverage K (f i k j h) (v i k j h)) ->
  NormalAverage K (fun l => SumTo n (fun i => SumTo n (fun k => SumTo n (fun j => SumTo n (fun h => f i k j h l)))))
    (SumTo n (fun i => SumTo n (fun k => SumTo n (fun j => SumTo n (fun h => v i k j h))))).
Proof.
  intro H. apply (navg_SumTo K n (fun i l => SumTo n (fun k => SumTo n (fun j => SumTo n (fun h => f i k j h l))))). intros i Hi.
  apply (navg_SumTo K n (fun k l => SumTo n (fun j => SumTo n (fun h => f i k j h l)))). intros k Hk.
  apply (navg_SumTo K n (fun j l => SumTo n (fun h => f i k j h l))). intros j Hj. apply (navg_SumTo K n (fun h l => f i k j h l)). intros h Hh. now apply H.
Qed.
Lemma kron_pick n a f : (a < n)%nat -> SumTo n (fun j => kron a j * f j) = f a.
Proof. intro H. rewrite <- (SumTo_delta n a f H). apply SumTo_ext. intros j _. unfold kron. rewrite (Nat.eqb_sym a j). destruct (Nat.eqb j a); ring. Qed.
Lemma kron_total n a : (a < n)%nat -> SumTo n (kron a) = 1.
Proof. intro H. rewrite <- (kron_pick n a (fun _ => 1) H). apply SumTo_ext. intros; ring. Qed.
Lemma kron_sym a b : kron a b = kron b a.
Proof. unfold kron. now rewrite (Nat.eqb_sym a b). Qed.
Lemma kron_refl a : kron a a = 1.
Proof. unfold kron. now rewrite Nat.eqb_refl. Qed.
Ltac krons := unfold kron; repeat match goal with |- context [Nat.eqb ?a ?b] => destruct (Nat.eqb_spec a b); subst end; try lia; try congruence; lra.
Lemma lin_pick K a l : (a < K)%nat -> lin K (kron a) l = nth a l 0.
Proof. intro H. exact (kron_pick K a (fun p => nth p l 0) H). Qed.
Lemma lin_comb K a b u v l : lin K (fun p => a * u p + b * v p) l = a * lin K u l + b * lin K v l.
Proof. unfold lin. rewrite <- !SumTo_scale, <- SumTo_add. apply SumTo_ext. intros; ring. Qed.
Lemma dot_comb K a b u v w : dot K (fun p => a * u p + b * v p) w = a * dot K u w + b * dot K v w.
Proof. unfold dot. rewrite <- !SumTo_scale, <- SumTo_add. apply SumTo_ext. intros; ring. Qed.
Lemma dot_sym K u v : dot K u v = dot K v u.
Proof. apply SumTo_ext. intros; ring. Qed.
Lemma dot_pick K a b : (a < K)%nat -> dot K (kron a) (kron b) = kron a b.
Proof. intro H. unfold dot. rewrite (kron_pick K a (kron b) H). apply kron_sym. Qed.
Lemma kron_place n i j k l : (i < n)%nat -> (j < n)%nat -> (k < n)%nat -> (l < n)%nat -> kron (i * n + j) (k * n + l) = kron i k * kron j l.
Proof. intros. unfold kron. rewrite position_eqb by assumption. destruct (Nat.eqb i k), (Nat.eqb j l); cbn; ring. Qed.

(** The full GOE matrix. *)
Definition gco (n i j : nat) (p : nat) : R := / sqrt 2 * kron (i * n + j) p + / sqrt 2 * kron (j * n + i) p.
Lemma goe_lin n l i j : (i < n)%nat -> (j < n)%nat -> goe_matrix sqrt n l i j = lin (n * n) (gco n i j) l.
Proof.
  intros Hi Hj. unfold gco. rewrite lin_comb, !lin_pick by now apply row_major. unfold goe_matrix, square, n2. cbn [n0 nadd ndiv nofZ Num_R]. field. exact P_Generate.sqrt2_nz.
Qed.
Lemma gco_dot n i j k l : (i < n)%nat -> (j < n)%nat -> (k < n)%nat -> (l < n)%nat -> dot (n * n) (gco n i j) (gco n k l) = kron i k * kron j l + kron i l * kron j k.
Proof.
  intros Hi Hj Hk Hl. unfold gco. rewrite dot_comb, !(dot_sym _ (kron _)), !dot_comb, !dot_pick, !kron_place by (now apply row_major || assumption).
  transitivity (2 / (sqrt 2 * sqrt 2) * (kron i k * kron j l + kron i l * kron j k)).
  - rewrite (kron_sym k j), (kron_sym l i), (kron_sym k i), (kron_sym l j). field. exact P_Generate.sqrt2_nz.
  - rewrite sqrt_sqrt by lra. field.
Qed.
Lemma full_fourths n : NormalAverage (n * n) (fun l => SumTo n (fun i => SumTo n (fun k => msquare n (goe_matrix sqrt n l) i k * msquare n (goe_matrix sqrt n l) i k)))
  (2 * INR n ^ 3 + 5 * INR n ^ 2 + 5 * INR n).
Proof.
  pose (u := fun (l : list R) i j => lin (n * n) (gco n i j) l).
  pose (c := fun i j k l => kron i k * kron j l + kron i l * kron j k).
  apply (navg_ext _ (fun l => SumTo n (fun i => SumTo n (fun k => SumTo n (fun j => SumTo n (fun h => u l i j * u l j k * u l i h * u l h k)))))).
  { intros l _. apply SumTo_ext. intros i Hi. apply SumTo_ext. intros k Hk. unfold msquare. rewrite SumTo_product. apply SumTo_ext. intros j Hj. apply SumTo_ext. intros h Hh.
    rewrite !goe_lin by assumption. unfold u. ring. }
  apply (navg_value _ _ (SumTo n (fun i => SumTo n (fun k => SumTo n (fun j => SumTo n (fun h => c i j j k * c i h h k + c i j i h * c j k h k + c i j h k * c j k i h)))))).
  - transitivity (SumTo n (fun i => SumTo n (fun k => kron i k * ((INR n + 1) * (INR n + 1)) + (INR n + 2 + (4 + INR n) * kron i k)))).
    + apply SumTo_ext. intros i Hi. apply SumTo_ext. intros k Hk.
      rewrite (SumTo_ext n _ (fun j => c i j j k * SumTo n (fun h => c i h h k) + (1 + kron k j + kron i j + (4 * (kron i j * kron k j) + kron i k)))).
      * rewrite SumTo_add. replace (kron i k * ((INR n + 1) * (INR n + 1))) with (SumTo n (fun j => c i j j k) * SumTo n (fun h => c i h h k)).
        { f_equal; [rewrite (SumTo_ext n _ (fun j => SumTo n (fun h => c i h h k) * c i j j k)) by (intros; ring); rewrite SumTo_scale; ring|].
          rewrite !SumTo_add, !SumTo_const, (SumTo_scale n 4), (kron_pick n i (fun j => kron k j)) by exact Hi.
          rewrite (kron_total n k), (kron_total n i), (kron_sym k i) by assumption. ring. }
        assert (SumTo n (fun j => c i j j k) = (INR n + 1) * kron i k) as ->; [|unfold kron; destruct (Nat.eqb i k); ring]. unfold c.
        rewrite (SumTo_ext n _ (fun j => kron i j * kron j k + kron i k)) by (intros; rewrite kron_refl; ring). rewrite SumTo_add, SumTo_const, (kron_pick n i (fun j => kron j k)) by exact Hi. ring.
      * intros j Hj. rewrite <- SumTo_scale.
        rewrite (SumTo_ext n _ (fun h => c i j j k * c i h h k + kron j h * (1 + kron k j + kron i j + (4 * (kron i j * kron k j) + kron i k)))).
        { rewrite SumTo_add. now rewrite (kron_pick n j (fun h => 1 + kron k j + kron i j + (4 * (kron i j * kron k j) + kron i k))). }
        intros h _. unfold c. krons.
    + rewrite (SumTo_ext n _ (fun i => INR n * INR n + 2 * INR n + ((INR n + 1) * (INR n + 1) + (4 + INR n)))); [rewrite SumTo_const; ring|]. intros i Hi.
      rewrite (SumTo_ext n _ (fun k => kron i k * ((INR n + 1) * (INR n + 1) + (4 + INR n)) + (INR n + 2))) by (intros; ring).
      rewrite SumTo_add, SumTo_const, (kron_pick n i (fun _ => (INR n + 1) * (INR n + 1) + (4 + INR n))) by exact Hi. ring.
  - apply navg_sum4. intros i k j h Hi Hk Hj Hh. pose proof (wick4 (n * n) (gco n i j) (gco n j k) (gco n i h) (gco n h k)) as W. rewrite !gco_dot in W by assumption. exact W.
Qed.
