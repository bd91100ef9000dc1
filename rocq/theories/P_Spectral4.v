(** The ascending list of eigenvalues as a function of the matrix. *)
From Coq Require Import List ZArith Bool Arith Lia Reals Lra Sorting.Permutation FinFun.
From Coquelicot Require Import Coquelicot.
From Verif Require Import Base S_Generate S_Normal S_Rotate S_Moments S_Order P_Order P_EigVals P_Generate P_Draw P_Rotate P_Wishart P_Fourth P_CDet P_Loop P_Semi P_LawUnfold P_Spectral3.
Import ListNotations.
Local Open Scope R_scope.
Local Notation length := List.length.

(** Sums do not depend on the order. *)
Lemma reorder_perm n f : bFun n f -> bInjective n f -> Permutation (map f (seq 0 n)) (seq 0 n).
Proof.
  intros Hb Hi. apply NoDup_Permutation_bis.
  - apply (NoDup_nth _ 0%nat). intros i j Hx Hy E. rewrite map_length, seq_length in Hx, Hy. rewrite !(nth_indep _ 0%nat (f 0%nat)) in E by (now rewrite map_length, seq_length). rewrite !map_nth, !seq_nth in E by assumption. apply Hi; assumption.
  - now rewrite map_length.
  - intros x Hx. apply in_map_iff in Hx. destruct Hx as (y & <- & Hy). apply in_seq in Hy. apply in_seq. specialize (Hb y). lia.
Qed.
Lemma CSumTo_list n f : CSumTo n f = fold_right Cplus (RtoC 0) (map f (seq 0 n)).
Proof.
  induction n as [|n IH]; [reflexivity|]. rewrite seq_S, map_app. cbn [CSumTo map Nat.add]. rewrite IH. generalize (map f (seq 0 n)). intro l. induction l as [|a l IHl]; cbn [fold_right app]; [ring|]. rewrite <- IHl. ring.
Qed.
Lemma csum_perm l l' : Permutation l l' -> fold_right Cplus (RtoC 0) l = fold_right Cplus (RtoC 0) l'.
Proof. induction 1; cbn [fold_right]; [reflexivity|now rewrite IHPermutation|ring|congruence]. Qed.
Lemma CSumTo_reorder n f (g : nat -> C) : bFun n f -> bInjective n f -> CSumTo n (fun k => g (f k)) = CSumTo n g.
Proof. intros Hb Hi. rewrite !CSumTo_list, <- (map_map f g). apply csum_perm, Permutation_map, reorder_perm; assumption. Qed.
Lemma cturn_diagonal n u lam i j : cturn n u (fun k l => RtoC (diagonal lam k l)) i j = CSumTo n (fun k => Cmult (Cmult (u i k) (Cconj (u j k))) (RtoC (nth k lam 0))).
Proof.
  unfold cturn. apply P_CDet.CSumTo_ext. intros k Hk. rewrite (P_CDet.CSumTo_ext n _ (fun l => if Nat.eqb l k then Cmult (RtoC (nth k lam 0)) (Cconj (u j l)) else RtoC 0)).
  - rewrite P_CDet.CSumTo_delta by exact Hk. ring.
  - intros l _. unfold diagonal. rewrite (Nat.eqb_sym k l). destruct (Nat.eqb l k); [reflexivity|ring].
Qed.
Lemma eqb_injective n f k l : bInjective n f -> (k < n)%nat -> (l < n)%nat -> Nat.eqb (f k) (f l) = Nat.eqb k l.
Proof. intros Hi Hk Hl. destruct (Nat.eqb k l) eqn:E; [apply Nat.eqb_eq in E; subst; apply Nat.eqb_refl|]. apply Nat.eqb_neq in E. apply Nat.eqb_neq. intro G. apply E. apply Hi; assumption. Qed.
Lemma cspectrum_perm n re im lam lam' : Permutation lam lam' -> CSpectrum n re im lam -> CSpectrum n re im lam'.
Proof.
  intros P (L & u & Hu & E). apply (Permutation_nth lam lam' 0) in P. rewrite L in P. destruct P as (L' & f & Hb & Hi & Hn). split; [exact L'|]. exists (fun i k => u i (f k)). split.
  - intros k l Hk Hl. rewrite (Hu (f k) (f l)) by (apply Hb; assumption). now rewrite (eqb_injective n f k l Hi).
  - intros i j Hx Hy. rewrite E by assumption. rewrite !cturn_diagonal. rewrite <- (CSumTo_reorder n f (fun k => Cmult (Cmult (u i k) (Cconj (u j k))) (RtoC (nth k lam 0))) Hb Hi). apply P_CDet.CSumTo_ext. intros k Hk. now rewrite Hn.
Qed.
Lemma turn_diagonal n q lam i j : turn n q (diagonal lam) i j = SumTo n (fun k => q i k * q j k * nth k lam 0).
Proof.
  unfold turn. apply SumTo_ext. intros k Hk. rewrite (SumTo_ext n _ (fun l => if Nat.eqb l k then nth k lam 0 * q j l else 0)).
  - rewrite SumTo_delta by exact Hk. ring.
  - intros l _. unfold diagonal. rewrite (Nat.eqb_sym k l). destruct (Nat.eqb l k); [reflexivity|ring].
Qed.
Lemma SumTo_list n f : SumTo n f = total (map f (seq 0 n)).
Proof.
  induction n as [|n IH]; [reflexivity|]. rewrite seq_S, map_app. cbn [SumTo map Nat.add]. rewrite IH. unfold total. generalize (map f (seq 0 n)). intro l. induction l as [|a l IHl]; cbn [fold_right app]; [ring|]. rewrite <- IHl. ring.
Qed.
Lemma SumTo_reorder n f (g : nat -> R) : bFun n f -> bInjective n f -> SumTo n (fun k => g (f k)) = SumTo n g.
Proof. intros Hb Hi. rewrite !SumTo_list, <- (map_map f g). apply total_perm, reorder_perm; assumption. Qed.
Lemma spectrum_perm n m lam lam' : Permutation lam lam' -> Spectrum n m lam -> Spectrum n m lam'.
Proof.
  intros P (L & q & Hq & E). apply (Permutation_nth lam lam' 0) in P. rewrite L in P. destruct P as (L' & f & Hb & Hi & Hn). split; [exact L'|]. exists (fun i k => q i (f k)). split.
  - intros k l Hk Hl. rewrite (Hq (f k) (f l)) by (apply Hb; assumption). now rewrite (eqb_injective n f k l Hi).
  - intros i j Hx Hy. rewrite E by assumption. rewrite !turn_diagonal. rewrite <- (SumTo_reorder n f (fun k => q i k * q j k * nth k lam 0) Hb Hi). apply SumTo_ext. intros k Hk. now rewrite Hn.
Qed.

(** The eigenvalues in ascending order. *)
Definition sorted_eigs (n : nat) (re im : nat -> nat -> R) : list R :=
  map (fun i => real (Lub_Rbar (fun x => exists l, CSpectrum n re im l /\ x <= nth i (np_sort l) 0))) (seq 0 n).
Lemma sorted_eigs_eq n re im lam : CSpectrum n re im lam -> sorted_eigs n re im = np_sort lam.
Proof.
  intro H. assert (length (np_sort lam) = n) as L by (rewrite <- (Permutation_length (sort_perm lam)); apply H). apply (nth_ext _ _ 0 0).
  - unfold sorted_eigs. now rewrite map_length, seq_length, L.
  - intros i Hi. unfold sorted_eigs in *. rewrite map_length, seq_length in Hi. set (F := fun i => real (Lub_Rbar (fun x => exists l, CSpectrum n re im l /\ x <= nth i (np_sort l) 0))).
    rewrite (nth_indep _ 0 (F O)) by (now rewrite map_length, seq_length). rewrite (map_nth F), seq_nth by exact Hi. unfold F. cbn [Nat.add].
    rewrite (is_lub_Rbar_unique _ (nth i (np_sort lam) 0)); [reflexivity|]. split.
    + intros x (l & Hl & Hx). cbn. rewrite (np_sort_perm_R l lam) in Hx; [exact Hx|]. exact (cspectrum_unique _ _ _ _ _ Hl H).
    + intros b Hb. apply Hb. exists lam. split; [exact H|lra].
Qed.
