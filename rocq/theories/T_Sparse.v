(** Property C95: the sparse branch of [from_time_series]. *)
From mathcomp Require Import all_ssreflect all_algebra.
From Verif Require Base.
From Verif Require Import S_Corr M_Corr M_Sparse P_Corr T_Corr.
Set Implicit Arguments.
Unset Strict Implicit.
Unset Printing Implicit Defensive.
Import Order.Theory GRing.Theory Num.Theory.
Local Open Scope ring_scope.

Lemma tril_trig (R : rcfType) m (A : 'M[R]_m) : is_trig_mx (tril A).
Proof. by apply/is_trig_mxP => i j lt_ij; rewrite mxE leqNgt lt_ij. Qed.
Lemma tril_char (R : rcfType) m (A : 'M[R]_m) : char_poly (tril A) = \prod_(i < m) ('X - (A i i)%:P).
Proof. by rewrite char_poly_trig ?tril_trig //; apply: eq_bigr => i _; rewrite mxE leqnn. Qed.
Lemma tril_eig (R : rcfType) m (A : 'M[R]_m) a : IsEigenvalue (tril A) a <-> exists i, A i i = a.
Proof.
rewrite IsEigenvalueP tril_char rootE horner_prod; split.
  by move=> /prodf_eq0 [i _]; rewrite hornerXsubC subr_eq0 => /eqP ->; exists i.
by move=> [i <-]; apply/prodf_eq0; exists i => //; rewrite hornerXsubC subrr.
Qed.

(** C95 is false of the code.  With [use_sparse=True] and N <= T the sparse solver receives only the lower triangle, as if it were the
    whole matrix: the eigenvalues of what it receives are the diagonal entries, which for correlations are all 1, whatever the
    data; and unless all correlations vanish it is not symmetric, as that solver requires.  When two series agree, 0 is an eigenvalue
    of the correlation matrix and not of the matrix handed over. *)
Theorem C95_lower_triangle_refuted : forall (R : rcfType) (n t : nat) (M : 'M[R]_(n, t)), (n <= t)%N -> (1 < t)%N ->
  (forall covariance, exists A, solver_request covariance true M = Eigsh_N _ A /\
     (forall a, IsEigenvalue A a <-> exists i, direct_matrix covariance M i i = a) /\
     (A^T = A <-> forall i j, i != j -> direct_matrix covariance M i j = 0)) /\
  ((forall i, NotConstant (fun k => M i k)) -> (0 < n)%N -> exists A, solver_request false true M = Eigsh_N _ A /\
     (forall a, IsEigenvalue A a <-> a = 1) /\
     (forall i j, i != j -> (forall k, M i k = M j k) -> IsEigenvalue (direct_matrix false M) 0 /\ ~ IsEigenvalue A 0)).
Proof.
move=> R n t M le_nt gt1; have sym : forall cov i j, direct_matrix cov M i j = direct_matrix cov M j i.
  move=> [] i j; rewrite /direct_matrix; last exact: corr_sym.
  by rewrite !np_cov_entry; congr (_ / _); apply: eq_bigr => k _; rewrite mulrC.
split=> [cov|nc n0].
  exists (tril (direct_matrix cov M)); split; first by rewrite /solver_request le_nt.
  split; first by move=> a; apply: tril_eig.
  split=> [E i j ne|E].
    have := ne; rewrite neq_ltn => /orP [lt|lt].
      by move/matrixP/(_ j i): E; rewrite !mxE leqNgt lt /= (ltnW lt) => ->.
    by move/matrixP/(_ i j): E; rewrite !mxE leqNgt lt /= (ltnW lt) => ->.
  apply/matrixP => i j; rewrite !mxE; case: (ltngtP i j) => [lt|lt|/val_inj -> //].
    by rewrite E // neq_ltn lt orbT.
  by rewrite E // neq_ltn lt orbT.
exists (tril (direct_matrix false M)); split; first by rewrite /solver_request le_nt.
have D : forall i, direct_matrix false M i i = 1 by move=> i; apply: corr_diag.
have T : forall a, IsEigenvalue (tril (direct_matrix false M)) a <-> a = 1.
  move=> a; rewrite tril_eig; split=> [[i <-]|->]; first by rewrite D.
  by exists (Ordinal n0); rewrite D.
split=> // i j ne E; split; last by rewrite T => /eqP; rewrite eq_sym oner_eq0.
have S : forall k, direct_matrix false M i k = direct_matrix false M j k.
  move=> k; rewrite /direct_matrix !correlate_pearson // !pearson_ss //.
  have av : Avg (fun l => M i l) = Avg (fun l => M j l) by congr (_ / _); apply: eq_bigr => l _.
  by congr (_ / (Num.sqrt _ * _)); apply: eq_bigr => l _; rewrite av !E.
exists (delta_mx 0 i - delta_mx 0 j); split.
  apply/eqP => /matrixP /(_ 0 i); rewrite !mxE !eqxx /= (negbTE ne) subr0 => /eqP; by rewrite oner_eq0.
move: (direct_matrix false M) S => C S.
by rewrite mulmxBl scale0r -!rowE; apply/rowP => k; rewrite !mxE S subrr.
Qed.
Print Assumptions C95_lower_triangle_refuted.
(** Two equal series (0, 1), (0, 1). *)
Definition twins (R : rcfType) : 'M[R]_(2, 2) := \matrix_(i, k) k%:R.
Lemma twins_vary (R : rcfType) i : NotConstant (fun k => twins R i k).
Proof. by exists ord0, (lift ord0 ord0); rewrite !mxE eq_sym oner_eq0. Qed.
Example C95_case (R : rcfType) : exists A, solver_request false true (twins R) = Eigsh_N _ A /\
  ~ IsEigenvalue A 0 /\ IsEigenvalue (direct_matrix false (twins R)) 0.
Proof.
have [_ H] := C95_lower_triangle_refuted (twins R) (isT : (2 <= 2)%N) isT.
have [A [E [_ D]]] := H (@twins_vary R) isT.
have [] := D ord0 (lift ord0 ord0) isT; first by move=> k; rewrite !mxE.
by exists A.
Qed.

(** C95. The option is ignored for N > T; for N <= T it makes the call fail for every data set unless the caller also passes
    [return_eigenvectors=False]. *)
Theorem C95_option_refuted : forall (R : rcfType) (n t : nat) (M : 'M[R]_(n, t)) eigvalsh eigsh covariance re,
  ((t < n)%N -> series_eigs eigvalsh eigsh covariance true re M = series_eigs eigvalsh eigsh covariance false re M) /\
  ((n <= t)%N -> re <> Some false -> series_eigs eigvalsh eigsh covariance true re M = Base.Raise Base.ValueError).
Proof.
move=> R n t M ev es cov re; rewrite /series_eigs /solver_request; split=> [lt|le nr].
  by rewrite leqNgt lt.
by rewrite le; case: re nr => [[]|].
Qed.
Print Assumptions C95_option_refuted.
Example C95_option_case (R : rcfType) eigvalsh eigsh : series_eigs eigvalsh eigsh true true None (twins R) = Base.Raise Base.ValueError.
Proof. by []. Qed.
