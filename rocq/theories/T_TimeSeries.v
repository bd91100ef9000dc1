(** Property theorems about [time_series_eigs] and the zero eigenvalues of correlation matrices of short series. *)
From Coq Require Import String.
From mathcomp Require Import all_ssreflect all_algebra.
From Verif Require Base.
From Verif Require Import S_Corr M_Corr P_Corr M_Sparse T_Corr.
Set Implicit Arguments.
Unset Strict Implicit.
Unset Printing Implicit Defensive.
Import Order.Theory GRing.Theory Num.Theory.
Local Open Scope ring_scope.

Lemma corr_ddof (R : rcfType) (n t : nat) (M : 'M[R]_(n, t)) d d' : (d < t)%N -> (d' < t)%N -> correlate_fast d M = correlate_fast d' M.
Proof. by move=> h h'; rewrite /correlate_fast; congr map_mx; apply/matrixP => k l; rewrite !corr_entry. Qed.

(** The rows of the centred data sum to zero. *)
Lemma centre_sum (R : rcfType) (n t : nat) (M : 'M[R]_(n, t)) i : (0 < t)%N -> \sum_k centre M i k = 0.
Proof.
move=> gt0; under eq_bigr do rewrite mxE; rewrite sumrB sumr_const card_ord /row_mean -[X in _ - X]mulr_natr mulfVK ?subrr //.
by rewrite pnatr_eq0 -lt0n.
Qed.

Lemma transposed_zero (R : rcfType) (n t : nat) (M : 'M[R]_(n, t)) cov : (0 < t)%N -> IsEigenvalue (transposed_matrix cov M) 0.
Proof.
move=> gt0; exists (const_mx 1); split.
  apply/eqP => E; have := congr1 (fun v : 'rV[R]_t => v 0 (Ordinal gt0)) E; rewrite !mxE => /eqP; by rewrite oner_eq0.
rewrite scale0r /transposed_matrix /=; set Z := (if cov then _ else _).
suff E : const_mx 1 *m Z^T = 0 :> 'rV[R]_n by rewrite mulmxA E mul0mx.
apply/rowP => i; rewrite mxE [RHS]mxE.
rewrite (eq_bigr (fun j => Z i j)); last by move=> j _; rewrite mxE mul1r mxE.
rewrite /Z; case: cov {Z}; first exact: centre_sum.
rewrite (eq_bigr (fun j => centre M i j / np_std1 M i)); last by move=> j _; rewrite mxE.
by rewrite -mulr_suml centre_sum // mul0r.
Qed.

Lemma count_zeros (R : rcfType) (s : seq R) k : ('X^k : {poly R}) %| \prod_(x <- s) ('X - x%:P) -> (k <= count_mem 0%R s)%N.
Proof.
elim: s k => [|x s IH] k; first by rewrite big_nil dvdp1 size_polyXn => /eqP [] ->.
rewrite big_cons /=; case: (eqVneq x 0) => [->|nz].
  case: k => // k; rewrite polyC0 subr0 exprS dvdp_mul2l ?polyX_eq0 // => /IH; by rewrite add1n ltnS.
rewrite Gauss_dvdpr ?add0n; first exact: IH.
by rewrite coprimep_expl // coprimep_XsubC rootX.
Qed.
Lemma sub_leading (R : rcfType) (s : seq R) : (0 < size s)%N -> (\prod_(x <- s) ('X - x%:P))`_(size s).-1 = - \sum_(x <- s) x.
Proof.
elim: s => // x s IH _; rewrite !big_cons /=; set p := \prod_(_ <- s) _ in IH *.
have M : p \is monic by apply: monic_prod_XsubC.
have Z : size p = (size s).+1 by rewrite size_prod_XsubC.
have L : p`_(size s) = 1 by move/monicP: M; rewrite lead_coefE Z.
rewrite mulrBl coefB coefXM coefCM L mulr1 opprD addrC; congr (_ + _).
clear M Z L; rewrite /p {p} in IH *; case: s IH => [|y s] IH /=; first by rewrite big_nil oppr0.
exact: IH.
Qed.

(** Every eigenvalue computed for more series than time points that is forced to be zero: the solver's answer, if it is the spectrum,
    contains zero at least n - t + 1 times. *)
Lemma zeros_of_spectrum (R : rcfType) (n t : nat) (M : 'M[R]_(n, t)) cov (s : seq R) :
  (t < n)%N -> (1 < t)%N -> (~~ cov -> forall i, NotConstant (fun k => M i k)) ->
  char_poly (direct_matrix cov M) = \prod_(x <- s) ('X - x%:P) -> (n - t < count_mem 0%R s)%N.
Proof.
move=> lt gt1 nc E; have [P _] := C20_transpose_trick lt gt1 nc.
have /IsEigenvalueP := transposed_zero M cov (ltnW gt1); rewrite -dvdp_XsubCl polyC0 subr0 => /dvdpP [q Q].
by apply: count_zeros; rewrite -E P Q mulrCA -exprSr dvdp_mull.
Qed.

Theorem C107_time_series_eigs : forall (R : rcfType) (n t : nat) (M : 'M[R]_(n, t)) (eigvalsh eigsh : forall m, 'M[R]_m -> seq R) dist,
  (1 < t)%N -> (forall i, NotConstant (fun k => M i k)) ->
  (dist <> "normal"%string -> time_series_eigs eigvalsh dist M = Base.Raise Base.UnboundLocalErr) /\
  (exists s, time_series_eigs eigvalsh "normal" M = Base.Ok s /\
     ((n <= t)%N -> series_eigs eigvalsh eigsh false false None M = Base.Ok s) /\
     (char_poly (direct_matrix false M) = \prod_(x <- eigvalsh n (direct_matrix false M)) ('X - x%:P) ->
        size s = n /\ (forall x, x \in s -> 0 <= x <= n%:R) /\ \sum_(x <- s) x = n%:R /\ ((t < n)%N -> (n - t < count_mem 0%R s)%N))).
Proof.
move=> R n t M ev es dist gt1 nc; split.
  by move=> /String.eqb_neq h; rewrite /time_series_eigs h.
have E : correlate_fast 0 M = direct_matrix false M by apply: corr_ddof => //; apply: ltnW.
exists (ev n (direct_matrix false M)); split; first by rewrite /time_series_eigs E.
split; first by move=> le; rewrite /series_eigs /solver_request le.
set s := ev n _ => P; have [_ /(_ nc) [B T]] := C68_spectrum_bounds M gt1; do !split.
- have := congr1 (fun p : {poly R} => size p) P; by rewrite size_char_poly size_prod_XsubC => -[].
- by move=> x xs; apply: B; apply/IsEigenvalueP; rewrite P root_prod_XsubC.
- have N : size s = n by have := congr1 (fun p : {poly R} => size p) P; rewrite size_char_poly size_prod_XsubC => -[].
  case: (posnP n) => [n0|ngt0].
    by move: N; rewrite n0 => /size0nil ->; rewrite big_nil.
  have := char_poly_trace (direct_matrix false M) ngt0; rewrite P T -{1}N sub_leading ?N //.
  exact: oppr_inj.
- by move=> lt; apply: (@zeros_of_spectrum R n t M false).
Qed.
Print Assumptions C107_time_series_eigs.

(** The three series (0,1), (0,2), (0,3): all correlations are one and the spectrum is 0, 0, 3. *)
Definition three (R : rcfType) (m : nat) (A : 'M[R]_m) : seq R := [:: 0; 0; 3%:R].
Example C107_case (R : rcfType) eigsh :
  char_poly (direct_matrix false (ex_data R)) = \prod_(x <- three (direct_matrix false (ex_data R))) ('X - x%:P) /\
  (exists s, time_series_eigs (@three R) "normal" (ex_data R) = Base.Ok s /\ (1 < count_mem 0%R s)%N) /\
  time_series_eigs eigsh "uniform" (ex_data R) = Base.Raise Base.UnboundLocalErr.
Proof.
have P : char_poly (direct_matrix false (ex_data R)) = \prod_(x <- three (direct_matrix false (ex_data R))) ('X - x%:P).
  pose N : 'M[R]_(3, 2) := \matrix_(i, k) k%:R.
  have nc i : NotConstant (fun k => N i k) by exists ord0, (lift ord0 ord0); rewrite !mxE eq_sym oner_eq0.
  have [C1 [_ [C3 [_ [_ [C6 _]]]]]] := C22_correlate_fast (ddof := 1) (isT : (1 < 2)%N) isT nc.
  have -> : direct_matrix false (ex_data R) = (const_mx 1 : 'cV[R]_3) *m (const_mx 1 : 'rV[R]_3).
    rewrite /direct_matrix (C6 (fun i => i.+1%:R) (fun=> 0)); last first.
    - by move=> i k; rewrite !mxE addr0 -natrM.
    - by move=> i; rewrite ltr0n.
    apply/matrixP => i j; rewrite C1 [RHS]mxE big_ord1 !mxE mulr1 -(C3 i) C1.
    have A i' : Avg (fun k => N i' k) = (\sum_(k < 2) k%:R) / 2%:R by congr (_ / _); apply: eq_bigr => k _; rewrite mxE.
    have S i' j' : SampleCov (fun k => N i' k) (fun k => N j' k) = SampleCov (fun k => N i k) (fun k => N i k).
      by congr (_ / _); apply: eq_bigr => k _; rewrite !A !mxE.
    by rewrite /Pearson /SampleVar !S.
  rewrite (char_poly_swap_lt _ _ (isT : (1 <= 3)%N)) /three !big_cons big_nil mulr1 polyC0 subr0 mulrA -expr2; congr (_ * _).
  rewrite /char_poly /char_poly_mx det_mx11 !mxE eqxx mulr1n; congr (_ - _%:P).
  by rewrite (eq_bigr (fun=> 1)) ?sumr_const ?card_ord // => i _; rewrite !mxE mulr1.
split=> //; have [_ [s [E [_ H]]]] := C107_time_series_eigs (@three R) eigsh "normal" (isT : (1 < 2)%N) (@ex_not_constant R).
split; last by [].
by exists s; split=> //; have [_ [_ [_ /(_ isT)]]] := H P.
Qed.

