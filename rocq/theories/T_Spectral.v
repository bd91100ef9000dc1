(** Property C155: the spectrum of a generated matrix exists, and is determined by the draws alone. *)
From Coq Require Import String List ZArith Bool Arith Lia Reals Lra Sorting.Permutation Sorting.Sorted.
From Coquelicot Require Import Coquelicot.
From Verif Require Import Base M_Enum M_Generate M_Analytic M_Construct S_Order S_Generate S_Normal S_Rotate P_Order P_Step P_TrimStat P_EigVals P_Generate P_Draw P_Rotate T_Rotate P_Spectral3 P_Spectral4.
Import ListNotations.
Local Open Scope R_scope.
Local Notation length := List.length.

(** C155. Every symmetric matrix, and every Hermitian one, has exactly one ascending list of eigenvalues. *)
Theorem C155_symmetric : forall n m, Symmetric n m -> exists lam, Spectrum n m lam /\ Ascending lam /\ forall lam', Spectrum n m lam' <-> Permutation lam' lam.
Proof.
  intros n m H. destruct (spectrum_exists n m H) as (l & Hl). assert (Spectrum n m (np_sort l)) as Hs by (apply (spectrum_perm n m l); [apply sort_perm|exact Hl]).
  exists (np_sort l). split; [exact Hs|]. split; [apply sort_asc|]. intro l'. split; intro Hx; [exact (spectrum_unique _ _ _ _ Hx Hs)|]. apply (spectrum_perm n m (np_sort l)); [now apply Permutation_sym|exact Hs].
Qed.
Print Assumptions C155_symmetric.
Theorem C155_hermitian : forall n re im, Symmetric n re -> Antisymmetric n im ->
  exists lam, CSpectrum n re im lam /\ Ascending lam /\ forall lam', CSpectrum n re im lam' <-> Permutation lam' lam.
Proof.
  intros n re im H1 H2. destruct (cspectrum_exists n re im H1 H2) as (l & Hl). assert (CSpectrum n re im (np_sort l)) as Hs by (apply (cspectrum_perm n re im l); [apply sort_perm|exact Hl]).
  exists (np_sort l). split; [exact Hs|]. split; [apply sort_asc|]. intro l'. split; intro Hx; [exact (cspectrum_unique _ _ _ _ _ Hx Hs)|]. apply (cspectrum_perm n re im (np_sort l)); [now apply Permutation_sym|exact Hs].
Qed.
Print Assumptions C155_hermitian.

(** C155. So there are routines doing what is asked of np.linalg.eigvalsh, at every order. *)
Theorem C155_routine : exists eig : nat -> (nat -> nat -> R) -> (nat -> nat -> R) -> list R,
  (forall n re im, Symmetric n re -> Antisymmetric n im -> CSpectrum n re im (eig n re im) /\ Ascending (eig n re im)) /\
  (forall n m, Symmetric n m -> Spectrum n m (eig n m (fun _ _ => 0)) /\ Ascending (eig n m (fun _ _ => 0))).
Proof.
  exists sorted_eigs. split.
  - intros n re im H1 H2. destruct (cspectrum_exists n re im H1 H2) as (l & Hl). rewrite (sorted_eigs_eq _ _ _ l Hl). split; [|apply sort_asc]. exact (cspectrum_perm n re im l _ (sort_perm l) Hl).
  - intros n m H. destruct (spectrum_exists n m H) as (l & Hl). rewrite (sorted_eigs_eq _ _ _ l (spectrum_cspectrum _ _ _ Hl)). split; [|apply sort_asc]. exact (spectrum_perm n m l _ (sort_perm l) Hl).
Qed.
Print Assumptions C155_routine.

(** C155. The eigenvalues of Eigenvalues.generate, and both spectra of goe_unfolded, do not depend on which such routine is used or on the
    order in which it lists them: only on the draws. *)
Definition Diagonalises (eigvalsh : nat -> (nat -> nat -> R) -> (nat -> nat -> R) -> result (list R)) : Prop :=
  forall n re im, Symmetric n re -> Antisymmetric n im -> exists lam, eigvalsh n re im = Ok lam /\ CSpectrum n re im lam.
Lemma same_sorted e1 e2 n re im : Diagonalises e1 -> Diagonalises e2 -> Symmetric n re -> Antisymmetric n im ->
  exists l1 l2, e1 n re im = Ok l1 /\ e2 n re im = Ok l2 /\ Permutation l1 l2 /\ length l1 = n.
Proof.
  intros H1 H2 S A. destruct (H1 n re im S A) as (l1 & E1 & C1). destruct (H2 n re im S A) as (l2 & E2 & C2). exists l1, l2. repeat split; try assumption; [exact (cspectrum_unique _ _ _ _ _ C1 C2)|apply C1].
Qed.
Lemma zero_antisymmetric n : Antisymmetric n (fun _ _ => 0).
Proof. intros i j _ _. ring. Qed.
Lemma same_sort e1 e2 n re im : Diagonalises e1 -> Diagonalises e2 -> Symmetric n re -> Antisymmetric n im -> (let! e := e1 n re im in Ok (np_sort e)) = (let! e := e2 n re im in Ok (np_sort e)).
Proof. intros H1 H2 S A. destruct (same_sorted e1 e2 n re im H1 H2 S A) as (l1 & l2 & -> & -> & P & _). cbn [bind]. now rewrite (np_sort_perm_R _ _ P). Qed.
Lemma gue_re_symmetric n (re im : list R) i j : gue_re n re im i j = gue_re n re im j i.
Proof. unfold gue_re. cbn. lra. Qed.
Lemma gue_im_antisymmetric n (re im : list R) i j : gue_im n re im i j = - gue_im n re im j i.
Proof. unfold gue_im. cbn. lra. Qed.
Theorem C155_generate : forall (St : Type) (seed_with : Z -> result St) (os_state : St) (standard_normal normal_sqrt2 : nat -> St -> list R * St) (chisquare : list Z -> St -> list R * St)
    (eig1 eig2 : nat -> (nat -> nat -> R) -> (nat -> nat -> R) -> result (list R)), Diagonalises eig1 -> Diagonalises eig2 ->
  forall matsize kind seed tri st,
    generate sqrt St seed_with os_state standard_normal normal_sqrt2 chisquare eig1 matsize kind seed tri st =
    generate sqrt St seed_with os_state standard_normal normal_sqrt2 chisquare eig2 matsize kind seed tri st.
Proof.
  intros St sw os sn ns cs e1 e2 H1 H2 n kind seed tri st. unfold generate. destruct (M_Enum.validate M_Enum.MatrixKind kind) as [k|]; [|reflexivity]. cbv zeta.
  repeat match goal with |- (if ?b then _ else _) = (if ?b then _ else _) => destruct b; [try reflexivity|try reflexivity] end.
  - destruct (seed_if_given St sw os seed st) as [st1|]; [|reflexivity]. destruct (sn (n * n)%nat st1) as [re st2]. destruct (sn (n * n)%nat st2) as [im st3]. f_equal. apply same_sort; auto.
    + intros i j _ _. apply gue_re_symmetric.
    + intros i j _ _. apply gue_im_antisymmetric.
  - destruct (seed_if_given St sw os seed st) as [st1|]; [|reflexivity]. destruct (Z.ltb 500 (Z.of_nat n) && tri)%bool.
    + destruct (cs (chi_range n) st1) as [chi st2]. destruct (ns n st2) as [d st3]. f_equal. apply same_sort; auto using zero_antisymmetric. intros i j _ _. apply tri_symmetric.
    + destruct (sn (n * n)%nat st1) as [d st2]. f_equal. apply same_sort; auto using zero_antisymmetric, goe_symmetric.
Qed.
Print Assumptions C155_generate.
Theorem C155_unfolded : forall (St : Type) (normal_sqrt2 : nat -> St -> list R * St) (chisquare : list Z -> St -> list R * St)
    (eig1 eig2 : nat -> (nat -> nat -> R) -> (nat -> nat -> R) -> result (list R)), Diagonalises eig1 -> Diagonalises eig2 ->
  forall matsize st, goe_unfolded St normal_sqrt2 chisquare eig1 matsize st = goe_unfolded St normal_sqrt2 chisquare eig2 matsize st.
Proof.
  intros St ns cs e1 e2 H1 H2 n st. unfold goe_unfolded. destruct (cs (chi_range n) st) as [chi st1]. destruct (ns n st1) as [d st2]. f_equal. destruct (Nat.eqb n 0) eqn:E; [reflexivity|]. apply Nat.eqb_neq in E.
  destruct (same_sorted e1 e2 n (goe_tridiagonal sqrt chi d) (fun _ _ => 0) H1 H2 ltac:(intros i j _ _; apply tri_symmetric) (zero_antisymmetric n)) as (l1 & l2 & -> & -> & P & L). cbn [bind].
  pose proof (Permutation_length P) as L2. destruct l1 as [|a l1]; [cbn in L; lia|]. destruct l2 as [|b l2]; [discriminate|]. rewrite (np_sort_perm_R _ _ P), (np_sort_perm_R _ _ (Permutation_map (smooth_goe n) P)). reflexivity.
Qed.
Print Assumptions C155_unfolded.

(** The matrix with zeros on and ones off the diagonal has the eigenvalues -1 and 1. *)
Example C155_matrix : sorted_eigs 2 (fun i j => if Nat.eqb i j then 0 else 1) (fun _ _ => 0) = [-1; 1].
Proof.
  set (m := fun i j => if Nat.eqb i j then 0 else 1). assert (Symmetric 2 m) as S by (intros i j _ _; unfold m; now rewrite Nat.eqb_sym).
  rewrite (sorted_eigs_eq _ _ _ _ (spectrum_cspectrum _ _ _ (ex_eig_ok m S))). unfold ex_eig, m. cbn [Nat.eqb].
  assert (sqrt ((0 - 0) * (0 - 0) + 4 * (1 * 1)) = 2) as -> by (replace ((0 - 0) * (0 - 0) + 4 * (1 * 1)) with (2 * 2) by ring; apply sqrt_square; lra).
  replace ((0 + 0 - 2) / 2) with (-1) by field. replace ((0 + 0 + 2) / 2) with 1 by field. apply sort_eq; [apply Permutation_refl|]. apply StronglySorted_R. repeat (constructor; [|repeat constructor; lra]). constructor.
Qed.
(** A routine and the one that lists its eigenvalues backwards. *)
Lemma sorted_diagonalises : Diagonalises (fun n re im => Ok (sorted_eigs n re im)) /\ Diagonalises (fun n re im => Ok (rev (sorted_eigs n re im))).
Proof.
  split; intros n re im S A; destruct (cspectrum_exists n re im S A) as (l & Hl); rewrite (sorted_eigs_eq _ _ _ l Hl); eexists; (split; [reflexivity|]).
  - exact (cspectrum_perm n re im l _ (sort_perm l) Hl).
  - refine (cspectrum_perm n re im l _ (Permutation_trans (sort_perm l) (Permutation_rev _)) Hl).
Qed.
Example C155_case : forall matsize, let sn := fun (k : nat) (st : nat) => (map (fun i => INR (st + i)) (seq 0 k), (st + k)%nat) in
  generate sqrt nat (fun z => Ok (Z.to_nat z)) O sn sn (fun c st => (map IZR c, st)) (fun n re im => Ok (sorted_eigs n re im)) matsize (PStr "gue"%string) (Some 5%Z) false 0%nat =
  generate sqrt nat (fun z => Ok (Z.to_nat z)) O sn sn (fun c st => (map IZR c, st)) (fun n re im => Ok (rev (sorted_eigs n re im))) matsize (PStr "gue"%string) (Some 5%Z) false 0%nat.
Proof. intros matsize sn. apply C155_generate; apply sorted_diagonalises. Qed.
