(** Existence and uniqueness of the spectrum of a symmetric or Hermitian matrix. *)
From Coq Require Import List ZArith Bool Arith Lia Reals Lra Sorting.Permutation.
From Coquelicot Require Import Coquelicot.
From Verif Require Import Base S_Generate S_Normal S_Rotate S_Moments S_Law P_Generate P_Rotate P_Wishart P_Fourth P_CDet P_Loop P_Approx P_Semi P_Law P_Spectral P_Spectral2.
Import ListNotations.
Local Open Scope C_scope.
Local Notation length := List.length.

Section Exists.
Variable n : nat.
Variable h v : nat -> nat -> C.
Hypothesis Hh : Hermitian n h.
Hypothesis Hc : Columns n v.
Hypothesis Hr : Rows n v.
Hypothesis Hd : forall k l, (k < n)%nat -> (l < n)%nat -> k <> l -> form n h (col v k) (col v l) = 0.
Definition levels : list R := map (fun k => fst (form n h (col v k) (col v k))) (seq 0 n).
Lemma levels_length : length levels = n.
Proof. unfold levels. now rewrite map_length, seq_length. Qed.
Lemma levels_diagonal k l : (k < n)%nat -> (l < n)%nat -> RtoC (diagonal levels k l) = form n h (col v k) (col v l).
Proof.
  intros Hk Hl. unfold diagonal. destruct (Nat.eqb k l) eqn:E; [|apply Nat.eqb_neq in E; now rewrite Hd]. apply Nat.eqb_eq in E. subst l.
  unfold levels. rewrite (nth_indep _ 0%R (fst (form n h (col v O) (col v O)))) by (now rewrite map_length, seq_length). rewrite (map_nth (fun k => fst (form n h (col v k) (col v k)))), seq_nth by exact Hk. symmetry. now apply form_real.
Qed.
Lemma columns_unitary : Unitary n v.
Proof.
  intros k l Hk Hl. pose proof (Hc l k Hl Hk) as H. unfold form, col in H. unfold ck, kron in H. rewrite Nat.eqb_sym in H. rewrite <- H. apply CSumTo_ext. intros i Hi.
  rewrite <- (ck_pick n i (fun j => v j k) Hi) at 1. rewrite Cmult_comm. reflexivity.
Qed.
Lemma rebuild i j : (i < n)%nat -> (j < n)%nat -> h i j = cturn n v (fun k l => RtoC (diagonal levels k l)) i j.
Proof.
  intros Hi Hj. unfold cturn. symmetry.
  rewrite (CSumTo_ext n _ (fun k => CSumTo n (fun a => v i k * Cconj (v a k) * h a j))).
  - rewrite CSumTo_swap. rewrite (CSumTo_ext n _ (fun a => ck i a * h a j)); [now rewrite (ck_pick n i (fun a => h a j))|]. intros a Ha. rewrite <- (Hr i a Hi Ha). rewrite Cmult_comm, <- CSumTo_scale. apply CSumTo_ext. intros; ring.
  - intros k Hk. rewrite (CSumTo_ext n _ (fun l => CSumTo n (fun a => Cconj (v a k) * CSumTo n (fun b => h a b * (v b l * Cconj (v j l)))))).
    + rewrite CSumTo_swap, <- CSumTo_scale. apply CSumTo_ext. intros a Ha. rewrite CSumTo_scale, CSumTo_swap.
      rewrite (CSumTo_ext n (fun b => CSumTo n (fun l => h a b * (v b l * Cconj (v j l)))) (fun b => ck j b * h a b)); [rewrite (ck_pick n j (fun b => h a b)) by exact Hj; ring|].
      intros b Hb. rewrite CSumTo_scale, (Hr b j Hb Hj), (ck_sym b j). ring.
    + intros l Hl. rewrite levels_diagonal by assumption. unfold form, col. rewrite Cmult_comm, <- CSumTo_scale. apply CSumTo_ext. intros a Ha.
      rewrite (CSumTo_ext n (fun b => h a b * (v b l * Cconj (v j l))) (fun b => Cconj (v j l) * (h a b * v b l))) by (intros; ring). rewrite CSumTo_scale. ring.
Qed.
End Exists.

Lemma cspectrum_exists n re im : Symmetric n re -> Antisymmetric n im -> exists lam, CSpectrum n re im lam.
Proof.
  intros H1 H2. set (h := fun i j => (re i j, im i j)). assert (Hermitian n h) as Hh by (intros i j Hi Hj; unfold h, Cconj; cbn; f_equal; [now apply H1|now apply H2]).
  destruct (jacobi n h Hh) as (v & Hc & Hr & Hd & _). exists (levels n h v). split; [apply levels_length|]. exists v. split; [now apply columns_unitary|]. intros i j Hi Hj. change (re i j, im i j) with (h i j). now apply rebuild.
Qed.
Lemma cturn_ext n u u' m i j : (forall a b, (a < n)%nat -> (b < n)%nat -> u a b = u' a b) -> (i < n)%nat -> (j < n)%nat -> cturn n u m i j = cturn n u' m i j.
Proof. intros E Hi Hj. unfold cturn. apply CSumTo_ext. intros k Hk. rewrite E by assumption. f_equal. apply CSumTo_ext. intros l Hl. now rewrite E. Qed.
Lemma spectrum_exists n m : Symmetric n m -> exists lam, Spectrum n m lam.
Proof.
  intro H. set (h := fun i j => RtoC (m i j)). assert (Hermitian n h) as Hh by (intros i j Hi Hj; unfold h; rewrite Cconj_RtoC; f_equal; now apply H).
  destruct (jacobi n h Hh) as (v & Hc & Hr & Hd & Hreal). specialize (Hreal ltac:(reflexivity)). exists (levels n h v). split; [apply levels_length|]. exists (fun i k => fst (v i k)).
  assert (forall a b, (a < n)%nat -> (b < n)%nat -> v a b = RtoC (fst (v a b))) as E by (intros a b Ha Hb; rewrite (surjective_pairing (v a b)) at 1; unfold RtoC; f_equal; auto). split.
  - intros k l Hk Hl. apply RtoC_inj. rewrite <- (columns_unitary n v Hc k l Hk Hl), RtoC_SumTo. apply CSumTo_ext. intros i Hi. rewrite (E i k), (E i l) by assumption. rewrite Cconj_RtoC, <- RtoC_mult. reflexivity.
  - intros i j Hi Hj. apply RtoC_inj. change (RtoC (m i j)) with (h i j). rewrite (rebuild n h v Hh Hr Hd i j Hi Hj), <- real_turn. now apply cturn_ext.
Qed.

(** ** Uniqueness: power sums determine a finite list up to its order. *)
Local Open Scope R_scope.
Lemma poly_total cs l : total (map (peval cs) l) = SumTo (length cs) (fun k => nth k cs 0 * power_sum k l).
Proof.
  unfold power_sum. induction l as [|x t IH]; unfold total in *; cbn [map fold_right].
  - rewrite (SumTo_ext _ _ (fun _ => 0)) by (intros; ring). rewrite SumTo_const. ring.
  - rewrite IH, peval_sum, <- SumTo_add. apply SumTo_ext. intros; ring.
Qed.
Definition away (x : R) (l : list R) (y : R) : R := fold_right (fun z r => (if Req_EM_T z x then 1 else y - z) * r) 1 l.
Lemma away_poly x l : IsPoly (away x l).
Proof. induction l as [|z l IH]; [apply ispoly_const|]. cbn [away fold_right]. apply ispoly_mul; [|exact IH]. destruct (Req_EM_T z x); [apply ispoly_const|]. apply (ispoly_ext (fun y => y + - z)); [intro; ring|]. apply (ispoly_add (fun y => y)); [apply ispoly_id|apply ispoly_const]. Qed.
Lemma away_here x l : away x l x <> 0.
Proof. induction l as [|z l IH]; cbn; [lra|]. apply Rmult_integral_contrapositive_currified; [|exact IH]. destruct (Req_EM_T z x); lra. Qed.
Lemma away_there x l y : In y l -> y <> x -> away x l y = 0.
Proof. induction l as [|z l IH]; [intros []|]. intros [<-|H] Hy; cbn [away fold_right]; [destruct (Req_EM_T z x); [contradiction|ring]|]. change (fold_right _ 1 l) with (away x l y). rewrite IH by assumption. ring. Qed.
Lemma away_total x l s : (forall y, In y s -> In y l) -> total (map (away x l) s) = INR (count_occ Req_EM_T s x) * away x l x.
Proof.
  induction s as [|y s IH]; intro H; unfold total in *; cbn [map fold_right count_occ]; [cbn; ring|]. rewrite IH by (intros; apply H; now right). destruct (Req_EM_T y x) as [->|N].
  - rewrite S_INR. ring.
  - rewrite (away_there x l y) by (auto; apply H; now left). ring.
Qed.
Lemma powers_permutation l l' : (forall k, power_sum k l = power_sum k l') -> Permutation l l'.
Proof.
  intro H. apply (Permutation_count_occ Req_EM_T). intro x. destruct (away_poly x (l ++ l')) as (cs & Hcs).
  assert (total (map (away x (l ++ l')) l) = total (map (away x (l ++ l')) l')) as E.
  { rewrite !(map_ext _ _ Hcs), !poly_total. apply SumTo_ext. intros k _. now rewrite H. }
  rewrite !away_total in E by (intros y Hy; apply in_or_app; auto). apply Rmult_eq_reg_r in E; [now apply INR_eq|apply away_here].
Qed.
Lemma cspectrum_unique n re im lam lam' : CSpectrum n re im lam -> CSpectrum n re im lam' -> Permutation lam lam'.
Proof.
  intros (L & u & Hu & E) (L' & u' & Hu' & E'). apply powers_permutation. intro k. apply RtoC_inj.
  assert (forall l, length l = n -> (exists u, Unitary n u /\ (forall i j, (i < n)%nat -> (j < n)%nat -> (re i j, im i j) = cturn n u (fun k l' => RtoC (diagonal l k l')) i j)) -> RtoC (power_sum k l) = traces n [k] (fun i j => (re i j, im i j))) as G.
  { intros l Hl Hx. rewrite (traces_power n _ l [k] Hl Hx). unfold power_sums. cbn. f_equal. ring. }
  rewrite (G lam L), (G lam' L'); [reflexivity|exists u'; auto|exists u; auto].
Qed.
Lemma spectrum_cspectrum n m lam : Spectrum n m lam -> CSpectrum n m (fun _ _ => 0) lam.
Proof.
  intros (L & q & Hq & E). split; [exact L|]. exists (fun a c => RtoC (q a c)). split; [now apply real_unitary|]. intros i j Hi Hj. rewrite real_turn, <- E by assumption. reflexivity.
Qed.
Lemma spectrum_unique n m lam lam' : Spectrum n m lam -> Spectrum n m lam' -> Permutation lam lam'.
Proof. intros H H'. apply spectrum_cspectrum in H, H'. exact (cspectrum_unique _ _ _ _ _ H H'). Qed.
