(** Properties C20, C22 and C68: the transpose trick and validity of correlation matrices. *)
From mathcomp Require Import all_ssreflect all_algebra.
From Verif Require Import S_Corr M_Corr P_Corr.
Set Implicit Arguments.
Unset Strict Implicit.
Unset Printing Implicit Defensive.
Import Order.Theory GRing.Theory Num.Theory.
Local Open Scope ring_scope.

(** C20. For every data matrix with more series than time points, the characteristic polynomial of the N x N
    covariance (correlation) matrix is X^(N-T) times that of the T x T matrix whose eigenvalues are returned. *)
Theorem C20_transpose_trick : forall (R : rcfType) (n t : nat) (M : 'M[R]_(n, t)) (covariance : bool),
  (t < n)%N -> (1 < t)%N -> (~~ covariance -> forall i, NotConstant (fun k => M i k)) ->
  char_poly (direct_matrix covariance M) = 'X^(n - t) * char_poly (transposed_matrix covariance M) /\
  (forall a, a != 0 -> (IsEigenvalue (direct_matrix covariance M) a <-> IsEigenvalue (transposed_matrix covariance M) a)) /\
  IsEigenvalue (direct_matrix covariance M) 0.
Proof.
move=> R n t M cov lt_tn gt1 nc.
have E : char_poly (direct_matrix cov M) = 'X^(n - t) * char_poly (transposed_matrix cov M).
  case: cov nc => nc; first by apply: trick_cov; apply: ltnW.
  by apply: trick_corr => //; [apply: ltnW | apply: nc].
split=> //; split=> [a nz|].
  by rewrite !IsEigenvalueP E !rootE hornerM hornerXn mulf_eq0 expf_eq0 (negbTE nz) andbF.
by rewrite IsEigenvalueP E rootE hornerM hornerXn mulf_eq0 expf_eq0 subn_gt0 lt_tn eqxx.
Qed.
Print Assumptions C20_transpose_trick.

(** The N x N matrices are the textbook ones: entry (i,j) is the sample covariance (Pearson correlation) of series
    i and j. *)
Theorem C20_direct_matrix_entries : forall (R : rcfType) (n t : nat) (M : 'M[R]_(n, t)) i j, (1 < t)%N ->
  direct_matrix true M i j = SampleCov (fun k => M i k) (fun k => M j k) /\
  ((forall i, NotConstant (fun k => M i k)) ->
   direct_matrix false M i j = Pearson (fun k => M i k) (fun k => M j k)).
Proof.
move=> R n t M i j gt1; split; first by rewrite /direct_matrix np_cov_entry natr_pred // ltnW.
by move=> nc; rewrite /direct_matrix correlate_pearson.
Qed.
Print Assumptions C20_direct_matrix_entries.

(** Three series of two points: rows (0,1), (0,2), (0,3). *)
Definition ex_data (R : rcfType) : 'M[R]_(3, 2) := \matrix_(i, k) ((i.+1 * k)%N)%:R.
Lemma ex_not_constant (R : rcfType) i : NotConstant (fun k => ex_data R i k).
Proof. by exists ord0, (lift ord0 ord0); rewrite !mxE muln0 muln1 eq_sym pnatr_eq0. Qed.
Example C20_case (R : rcfType) (covariance : bool) :
  char_poly (direct_matrix covariance (ex_data R)) = 'X^1 * char_poly (transposed_matrix covariance (ex_data R)).
Proof. by case: (@C20_transpose_trick R 3 2 (ex_data R) covariance) => // _ i; apply: ex_not_constant. Qed.

(** C22. [correlate_fast] is the Pearson correlation matrix: symmetric, unit diagonal, entries in [-1,1],
    independent of ddof, invariant under positive affine maps of the rows; the clipping changes nothing. *)
Theorem C22_correlate_fast : forall (R : rcfType) (n t : nat) (M : 'M[R]_(n, t)) (ddof : nat),
  (1 < t)%N -> (ddof < t)%N -> (forall i, NotConstant (fun k => M i k)) ->
  (forall i j, correlate_fast ddof M i j = Pearson (fun k => M i k) (fun k => M j k)) /\
  (forall i j, correlate_fast ddof M i j = correlate_fast ddof M j i) /\
  (forall i, correlate_fast ddof M i i = 1) /\
  (forall i j, -1 <= correlate_fast ddof M i j <= 1) /\
  (forall d, (d < t)%N -> correlate_fast d M = correlate_fast ddof M) /\
  (forall (a b : 'I_n -> R) (M' : 'M[R]_(n, t)), (forall i, 0 < a i) ->
     (forall i k, M' i k = a i * M i k + b i) -> correlate_fast ddof M' = correlate_fast ddof M) /\
  correlate_fast ddof M = corr_unclipped ddof M.
Proof.
move=> R n t M ddof gt1 ltd nc; do !split.
- by move=> i j; rewrite correlate_pearson.
- by move=> i j; apply: corr_sym.
- by move=> i; apply: corr_diag.
- by move=> i j; apply: corr_range.
- by move=> d ltd'; apply/matrixP => i j; rewrite !correlate_pearson.
- move=> a b M' a0 E; have -> : M' = affine_rows a b M by apply/matrixP => i k; rewrite mxE E.
  by apply/matrixP => i j; rewrite corr_affine.
- exact: clip_nothing.
Qed.
Print Assumptions C22_correlate_fast.
Example C22_case (R : rcfType) : forall i, correlate_fast 1 (ex_data R) i i = 1.
Proof. by have [_ [_ [h _]]] := C22_correlate_fast (ddof := 1) (isT : (1 < 2)%N) isT (@ex_not_constant R). Qed.

(** C68. In exact arithmetic no eigenvalue of the covariance or correlation matrix is negative, and no eigenvalue of the
    correlation matrix exceeds the number of series; the trace of the correlation matrix is that number. *)
Theorem C68_spectrum_bounds : forall (R : rcfType) (n t : nat) (M : 'M[R]_(n, t)), (1 < t)%N ->
  (forall a, IsEigenvalue (direct_matrix true M) a -> 0 <= a) /\
  ((forall i, NotConstant (fun k => M i k)) ->
     (forall a, IsEigenvalue (direct_matrix false M) a -> 0 <= a <= n%:R) /\ \tr (direct_matrix false M) = n%:R).
Proof.
move=> R n t M gt1; split.
  move=> a; have [|c [Z [c0 ->]]] := @direct_gram R n t true M gt1; first by [].
  exact: gram_eig_ge0.
move=> nc; split=> [a|].
  move=> Ha; apply/andP; split; last exact: corr_eig_le Ha.
  move: Ha; have [|c [Z [c0 ->]]] := @direct_gram R n t false M gt1; first by move=> _; apply: nc.
  exact: gram_eig_ge0.
rewrite /mxtrace (eq_bigr (fun=> 1)); first by rewrite sumr_const card_ord.
by move=> i _; rewrite corr_diag.
Qed.
Print Assumptions C68_spectrum_bounds.
Example C68_case (R : rcfType) : \tr (direct_matrix false (ex_data R)) = 3%:R.
Proof. by have [_ [|_ ->]] := C68_spectrum_bounds (ex_data R) (isT : (1 < 2)%N); [apply: ex_not_constant|]. Qed.
