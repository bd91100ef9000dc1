(** Proofs about covariance / correlation matrices and the transpose trick. *)
From mathcomp Require Import all_ssreflect all_algebra.
From Verif Require Import S_Corr M_Corr.
Set Implicit Arguments.
Unset Strict Implicit.
Unset Printing Implicit Defensive.
Import Order.Theory GRing.Theory Num.Theory.
Local Open Scope ring_scope.

(** Characteristic polynomials of AB and BA. *)
Lemma char_poly_swap (R : comRingType) (n m : nat) (A : 'M[R]_(n, m)) (B : 'M[R]_(m, n)) :
  'X^m * char_poly (A *m B) = 'X^n * char_poly (B *m A).
Proof.
rewrite /char_poly /char_poly_mx !map_mxM.
set A' := map_mx _ A; set B' := map_mx _ B.
pose K := block_mx ('X%:M : 'M_n) A' B' (1%:M : 'M_m).
have E1 : K *m block_mx 1%:M 0 (- B') 1%:M = block_mx ('X%:M - A' *m B') A' 0 1%:M.
  by rewrite /K mulmx_block !mulmx1 !mul1mx !mulmx0 ?mul0mx !add0r mulmxN subrr.
have E2 : block_mx 1%:M 0 (- B') 'X%:M *m K = block_mx 'X%:M A' 0 ('X%:M - B' *m A').
  rewrite /K mulmx_block !mul1mx !mul0mx !addr0 mulmx1 mulNmx.
  by rewrite mul_mx_scalar mul_scalar_mx addNr mulNmx [- _ + _]addrC.
have D1 : \det K = \det ('X%:M - A' *m B').
  by move/(congr1 determinant): E1; rewrite det_mulmx det_lblock det_ublock !det1 !mulr1.
have D2 : 'X^m * \det K = 'X^n * \det ('X%:M - B' *m A').
  by move/(congr1 determinant): E2; rewrite det_mulmx det_lblock det_ublock det1 mul1r !det_scalar.
by rewrite -D1.
Qed.

Lemma char_poly_swap_lt (R : idomainType) (n m : nat) (A : 'M[R]_(n, m)) (B : 'M[R]_(m, n)) :
  (m <= n)%N -> char_poly (A *m B) = 'X^(n - m) * char_poly (B *m A).
Proof.
move=> le_mn; have := char_poly_swap A B.
have -> : ('X^n : {poly R}) = 'X^m * 'X^(n - m) by rewrite -exprD subnKC.
by rewrite -mulrA => /mulfI; apply; rewrite expf_neq0 // polyX_eq0.
Qed.

Section Proofs.
Variables (R : rcfType) (n t : nat).
Implicit Type M : 'M[R]_(n, t).

Let rowf M (i : 'I_n) : 'I_t -> R := fun k => M i k.

Lemma natr_pred : (0 < t)%N -> (t%:R - 1 : R) = t.-1%:R.
Proof. by case: t => // t' _; rewrite -addn1 natrD addrK addn1. Qed.

Lemma np_cov_entry M ddof i j : np_cov ddof M i j =
  (\sum_(k < t) (M i k - Avg (rowf M i)) * (M j k - Avg (rowf M j))) / (t%:R - ddof%:R).
Proof. by rewrite !mxE mulrC; congr (_ / _); apply: eq_bigr => k _; rewrite !mxE. Qed.

Definition ss M i j : R := \sum_(k < t) (M i k - Avg (rowf M i)) * (M j k - Avg (rowf M j)).

Lemma ss_ge0 M i : 0 <= ss M i i.
Proof. by apply: sumr_ge0 => k _; rewrite -expr2 sqr_ge0. Qed.

Lemma ss_gt0 M i : NotConstant (rowf M i) -> 0 < ss M i i.
Proof.
case=> k [l neq_kl]; rewrite lt_def ss_ge0 andbT; apply/eqP => E.
have z k' : M i k' - Avg (rowf M i) = 0.
  have /eqP := E; rewrite /ss psumr_eq0 => [/allP /(_ k')|k0 _]; last by rewrite -expr2 sqr_ge0.
  by rewrite mem_index_enum => /(_ isT) /=; rewrite mulf_eq0 orbb => /eqP.
case/eqP: neq_kl; rewrite /rowf.
have := z k; have := z l; move=> /eqP; rewrite subr_eq0 => /eqP-> /eqP; by rewrite subr_eq0 => /eqP.
Qed.

(** Cauchy-Schwarz. *)
Lemma ss_cauchy M i j : ss M i j ^+ 2 <= ss M i i * ss M j j.
Proof.
have [z|nz] := eqVneq (ss M j j) 0.
  suff -> : ss M i j = 0 by rewrite expr0n /= mulr_ge0 ?ss_ge0.
  apply: big1 => k _.
  move/eqP: z; rewrite /ss psumr_eq0 => [/allP /(_ k)|k0 _]; last by rewrite -expr2 sqr_ge0.
  by rewrite mem_index_enum => /(_ isT) /=; rewrite mulf_eq0 orbb => /eqP ->; rewrite mulr0.
have pos : 0 < ss M j j by rewrite lt_def nz ss_ge0.
pose u k := M i k - Avg (rowf M i); pose v k := M j k - Avg (rowf M j).
have : 0 <= \sum_(k < t) (ss M j j * u k - ss M i j * v k) ^+ 2 by apply: sumr_ge0 => k _; rewrite sqr_ge0.
have -> : \sum_(k < t) (ss M j j * u k - ss M i j * v k) ^+ 2 =
          ss M j j * (ss M i i * ss M j j - ss M i j ^+ 2).
  have E k : (ss M j j * u k - ss M i j * v k) ^+ 2 =
    ss M j j ^+ 2 * (u k * u k) + (- (2%:R * (ss M j j * ss M i j)) * (u k * v k) + ss M i j ^+ 2 * (v k * v k)).
    rewrite sqrrB !exprMn -!expr2 addrA; congr (_ + _); congr (_ + _).
    rewrite mulNr -mulr_natl; congr (- _).
    by rewrite -!mulrA; congr (_ * _); congr (_ * _); rewrite mulrCA.
  rewrite (eq_bigr _ (fun k _ => E k)) !big_split /= -!mulr_sumr -/(ss M i i) -/(ss M i j) -/(ss M j j).
  rewrite mulrBr; set a := ss M i i; set b := ss M j j; set c := ss M i j.
  have -> : b ^+ 2 * a = b * (a * b) by rewrite expr2 -mulrA [b * a]mulrC.
  congr (_ + _).
  rewrite mulNr [2%:R * _]mulr_natl mulrnAl mulr2n opprD.
  have -> : b * c * c = b * c ^+ 2 by rewrite expr2 mulrA.
  by rewrite [c ^+ 2 * b]mulrC -addrA addNr addr0.
by rewrite pmulr_rge0 // subr_ge0.
Qed.

Lemma np_clip_id (x : R) : -1 <= x -> x <= 1 -> np_clip (-1) 1 x = x.
Proof. by move=> h1 h2; rewrite /np_clip (max_idPl h1) (min_idPl h2). Qed.

(** The unclipped entry does not involve the normalisation. *)
Lemma corr_entry M ddof i j : (ddof < t)%N ->
  corr_unclipped ddof M i j = ss M i j / (Num.sqrt (ss M i i) * Num.sqrt (ss M j j)).
Proof.
move=> lt_d; rewrite mxE !np_cov_entry -!/(ss M _ _).
have d0 : 0 < (t%:R - ddof%:R : R) by rewrite subr_gt0 ltr_nat.
set d := t%:R - ddof%:R in d0 *.
rewrite !sqrtrM ?ss_ge0 // !invfM -!mulrA; congr (_ * _).
rewrite sqrtrV ?(ltW d0) // !invrK.
have {1}-> : d^-1 = (Num.sqrt d)^-1 * (Num.sqrt d)^-1 by rewrite -invfM -expr2 sqr_sqrtr // (ltW d0).
have s0 : Num.sqrt d != 0 by rewrite gt_eqF // sqrtr_gt0.
set a := (Num.sqrt (ss M i i))^-1; set b := (Num.sqrt (ss M j j))^-1; set s := Num.sqrt d in s0 *.
rewrite -(mulrA s^-1) (mulrCA s^-1 a) (mulrA s^-1 s) mulVf // mul1r.
by rewrite mulrCA; congr (_ * _); rewrite mulrCA mulVf // mulr1.
Qed.

Lemma pearson_ss M i j : (1 < t)%N -> Pearson (rowf M i) (rowf M j) = ss M i j / (Num.sqrt (ss M i i) * Num.sqrt (ss M j j)).
Proof.
move=> gt1; rewrite -(@corr_entry M 1%N i j gt1) mxE !np_cov_entry /Pearson /SampleVar /SampleCov.
by rewrite natr_pred ?(ltnW gt1) // invfM mulrA.
Qed.

Lemma corr_le1 M i j : NotConstant (rowf M i) -> NotConstant (rowf M j) ->
  `|ss M i j / (Num.sqrt (ss M i i) * Num.sqrt (ss M j j))| <= 1.
Proof.
move=> /ss_gt0 pi /ss_gt0 pj.
have den : 0 < Num.sqrt (ss M i i) * Num.sqrt (ss M j j) by rewrite mulr_gt0 ?sqrtr_gt0.
rewrite normrM normfV (gtr0_norm den) ler_pdivr_mulr // mul1r.
rewrite -ler_sqr ?nnegrE ?normr_ge0 ?(ltW den) // real_normK ?num_real // exprMn !sqr_sqrtr ?ss_ge0 //.
exact: ss_cauchy.
Qed.

Lemma clip_nothing M ddof : (ddof < t)%N -> (forall i, NotConstant (rowf M i)) ->
  correlate_fast ddof M = corr_unclipped ddof M.
Proof.
move=> lt_d nc; apply/matrixP => i j; rewrite mxE corr_entry //.
by have := corr_le1 (nc i) (nc j); rewrite ler_norml => /andP[h1 h2]; rewrite np_clip_id.
Qed.

Lemma correlate_pearson M ddof i j : (1 < t)%N -> (ddof < t)%N -> (forall i, NotConstant (rowf M i)) ->
  correlate_fast ddof M i j = Pearson (rowf M i) (rowf M j).
Proof. by move=> gt1 lt_d nc; rewrite clip_nothing // corr_entry // pearson_ss. Qed.

Lemma ssC M i j : ss M i j = ss M j i.
Proof. by apply: eq_bigr => k _; rewrite mulrC. Qed.

Lemma corr_sym M ddof i j : correlate_fast ddof M i j = correlate_fast ddof M j i.
Proof.
rewrite [LHS]mxE [RHS]mxE; congr (np_clip _ _ _).
rewrite [LHS]mxE [RHS]mxE !np_cov_entry -!/(ss M _ _) (ssC M j i).
by rewrite mulrAC.
Qed.

Lemma corr_diag M ddof i : (ddof < t)%N -> (forall i, NotConstant (rowf M i)) -> correlate_fast ddof M i i = 1.
Proof.
move=> lt_d nc; rewrite clip_nothing // corr_entry // -expr2 sqr_sqrtr ?ss_ge0 // divff //.
by rewrite gt_eqF // ss_gt0.
Qed.

Lemma corr_range M ddof i j : -1 <= correlate_fast ddof M i j <= 1.
Proof.
have n11 : (-1 : R) <= 1 by rewrite (le_trans (lerN10 R)) ?ler01.
by rewrite mxE /np_clip le_minr le_maxr lexx orbT n11 le_minl lexx orbT.
Qed.

Definition affine_rows (a b : 'I_n -> R) M : 'M[R]_(n, t) := \matrix_(i, k) (a i * M i k + b i).

Lemma avg_affine (a b : 'I_n -> R) M i : (0 < t)%N ->
  Avg (rowf (affine_rows a b M) i) = a i * Avg (rowf M i) + b i.
Proof.
move=> t0; rewrite /Avg /rowf.
rewrite (eq_bigr (fun k => a i * M i k + b i)); last by move=> k _; rewrite mxE.
rewrite big_split /= -mulr_sumr sumr_const card_ord mulrDl -mulrA; congr (_ + _).
by rewrite -[b i *+ t]mulr_natr mulfK // pnatr_eq0 -lt0n.
Qed.

Lemma ss_affine (a b : 'I_n -> R) M i j : (0 < t)%N ->
  ss (affine_rows a b M) i j = (a i * a j) * ss M i j.
Proof.
move=> t0; rewrite /ss mulr_sumr; apply: eq_bigr => k _.
rewrite !avg_affine // !mxE !opprD !addrA.
have E (x y c : R) : x + c - y - c = x - y by rewrite (addrAC x c) addrK.
by rewrite !E -!mulrBr mulrACA.
Qed.

Lemma corr_affine (a b : 'I_n -> R) M ddof i j : (ddof < t)%N -> (forall i, 0 < a i) ->
  correlate_fast ddof (affine_rows a b M) i j = correlate_fast ddof M i j.
Proof.
move=> lt_d a0; have t0 : (0 < t)%N by apply: leq_ltn_trans lt_d.
rewrite [LHS]mxE [RHS]mxE; congr (np_clip _ _ _); rewrite !corr_entry // !ss_affine //.
have S i' : Num.sqrt (a i' * a i' * ss M i' i') = a i' * Num.sqrt (ss M i' i').
  by rewrite sqrtrM ?mulr_ge0 ?(ltW (a0 _)) // -expr2 sqrtr_sqr (gtr0_norm (a0 _)).
rewrite !S mulrACA -mulf_div divff ?mul1r //.
by rewrite mulf_neq0 // gt_eqF.
Qed.

Lemma affine_not_constant (a b : 'I_n -> R) M i : 0 < a i -> NotConstant (rowf M i) ->
  NotConstant (rowf (affine_rows a b M) i).
Proof.
move=> ai [k [l ne]]; exists k, l; rewrite /rowf !mxE.
by rewrite (inj_eq (addIr _)) (inj_eq (mulfI _)) // gt_eqF.
Qed.

(** The transpose trick. *)
Lemma trick_cov M : (t <= n)%N ->
  char_poly (direct_matrix true M) = 'X^(n - t) * char_poly (transposed_matrix true M).
Proof.
move=> le_tn; rewrite /direct_matrix /transposed_matrix /np_cov /=.
by rewrite scalemxAl (char_poly_swap_lt _ _ le_tn).
Qed.

Lemma trick_corr M : (t <= n)%N -> (1 < t)%N -> (forall i, NotConstant (rowf M i)) ->
  char_poly (direct_matrix false M) = 'X^(n - t) * char_poly (transposed_matrix false M).
Proof.
move=> le_tn gt1 nc; rewrite /direct_matrix /transposed_matrix /=.
set Z := \matrix_(i, k) _.
have -> : correlate_fast 1 M = ((t%:R - 1)^-1 *: Z) *m Z^T; last by rewrite (char_poly_swap_lt _ _ le_tn).
apply/matrixP => i j; rewrite clip_nothing // -scalemxAl [LHS]mxE [RHS]mxE.
have E i' : Num.sqrt (np_cov 1 M i' i') = np_std1 M i'.
  by rewrite np_cov_entry; congr (Num.sqrt (_ / _)); apply: eq_bigr => k' _; rewrite expr2.
have -> : (Z *m Z^T) i j = ss M i j / np_std1 M i / np_std1 M j.
  by rewrite mxE /ss !mulr_suml; apply: eq_bigr => k _; rewrite !mxE mulrACA mulrA.
by rewrite !E np_cov_entry -/(ss M i j) -!mulrA mulrCA.
Qed.

Lemma IsEigenvalueP (m : nat) (A : 'M[R]_m) a : IsEigenvalue A a <-> root (char_poly A) a.
Proof.
rewrite -eigenvalue_root_char; split.
  by case=> v [nz E]; apply/eigenvalueP; exists v.
by case/eigenvalueP => v E nz; exists v.
Qed.

Lemma sumsq_gt0 (m : nat) (v : 'rV[R]_m) : v != 0 -> 0 < (v *m v^T) 0 0.
Proof.
move=> nz; have ge : 0 <= (v *m v^T) 0 0 by rewrite mxE sumr_ge0 // => k _; rewrite mxE -expr2 sqr_ge0.
rewrite lt_def ge andbT; apply/eqP => E; case/eqP: nz; apply/matrixP => i k; rewrite ord1 mxE.
have /eqP := E; rewrite mxE psumr_eq0 => [/allP /(_ k)|k0 _]; last by rewrite mxE -expr2 sqr_ge0.
by rewrite mem_index_enum mxE => /(_ isT) /=; rewrite mulf_eq0 orbb => /eqP.
Qed.

Lemma gram_eig_ge0 (m p : nat) (c : R) (Z : 'M[R]_(m, p)) a : 0 <= c ->
  IsEigenvalue (c *: (Z *m Z^T)) a -> 0 <= a.
Proof.
move=> c0 [v [nz E]]; have pos := sumsq_gt0 nz.
have E2 : a * (v *m v^T) 0 0 = c * ((v *m Z) *m (v *m Z)^T) 0 0.
  have := congr1 (fun w => (w *m v^T) 0 0) E; rewrite -scalemxAl [X in _ = X]mxE => <-.
  by rewrite trmx_mul -scalemxAr -scalemxAl [X in X = _]mxE !mulmxA.
rewrite -(pmulr_lge0 _ pos) E2 mulr_ge0 // mxE sumr_ge0 // => k _.
by rewrite [X in _ * X]mxE -expr2 sqr_ge0.
Qed.

Lemma direct_gram cov M : (1 < t)%N -> (~~ cov -> forall i, NotConstant (rowf M i)) ->
  exists c (Z : 'M[R]_(n, t)), 0 <= c /\ direct_matrix cov M = c *: (Z *m Z^T).
Proof.
move=> gt1 nc; have c0 : 0 <= ((t%:R - 1)^-1 : R).
  by rewrite invr_ge0 subr_ge0 -[1]/(1%:R) ler_nat ltnW.
case: cov nc => nc; first by exists (t%:R - 1)^-1, (centre M).
exists (t%:R - 1)^-1, (\matrix_(i, k) (centre M i k / np_std1 M i)); split => //.
rewrite /direct_matrix; apply/matrixP => i j; rewrite clip_nothing; [|done|exact: nc].
rewrite [LHS]mxE [RHS]mxE.
have E i' : Num.sqrt (np_cov 1 M i' i') = np_std1 M i'.
  by rewrite np_cov_entry; congr (Num.sqrt (_ / _)); apply: eq_bigr => k' _; rewrite expr2.
set Z := \matrix_(i, k) _.
have -> : (Z *m Z^T) i j = ss M i j / np_std1 M i / np_std1 M j.
  by rewrite mxE /ss !mulr_suml; apply: eq_bigr => k _; rewrite !mxE mulrACA mulrA.
by rewrite !E np_cov_entry -/(ss M i j) -!mulrA mulrCA.
Qed.

Lemma corr_eig_le M ddof a : IsEigenvalue (correlate_fast ddof M) a -> a <= n%:R.
Proof.
move=> [v [nz E]]; have pos := sumsq_gt0 nz.
rewrite -(ler_pmul2r pos).
have -> : a * (v *m v^T) 0 0 = \sum_i \sum_j v 0 i * correlate_fast ddof M i j * v 0 j.
  have := congr1 (fun w => (w *m v^T) 0 0) E; rewrite -scalemxAl [X in _ = X]mxE => <-.
  rewrite mxE exchange_big /=; apply: eq_bigr => j _.
  by rewrite [X in _ * X]mxE [X in X * _]mxE mulr_suml.
have -> : n%:R * (v *m v^T) 0 0 = \sum_i \sum_j (v 0 i ^+ 2 + v 0 j ^+ 2) / 2%:R.
  set S := (v *m v^T) 0 0.
  have ES : S = \sum_i v 0 i ^+ 2 by rewrite /S mxE; apply: eq_bigr => k _; rewrite mxE expr2.
  have -> : \sum_i \sum_j (v 0 i ^+ 2 + v 0 j ^+ 2) / 2%:R = (\sum_i (v 0 i ^+ 2 *+ n + S)) / 2%:R.
    rewrite mulr_suml; apply: eq_bigr => i _.
    by rewrite -mulr_suml big_split /= sumr_const card_ord -ES.
  rewrite big_split /= sumr_const card_ord sumrMnl -ES -mulr2n -[S *+ n]mulr_natl -[_ *+ 2]mulr_natr mulfK //.
  by rewrite pnatr_eq0.
apply: ler_sum => i _; apply: ler_sum => j _.
have /andP[h1 h2] := corr_range M ddof i j; set c := correlate_fast ddof M i j in h1 h2 *.
have two : (0 : R) < 2%:R by rewrite ltr0n.
rewrite ler_pdivl_mulr //.
have h3 : v 0 i * c * v 0 j <= `|v 0 i| * `|v 0 j|.
  apply: le_trans (ler_norm _) _; rewrite !normrM ler_wpmul2r ?normr_ge0 //.
  by rewrite -[X in _ <= X]mulr1 ler_wpmul2l ?normr_ge0 // ler_norml h1 h2.
apply: le_trans (ler_wpmul2r (ltW two) h3) _.
have := sqr_ge0 (`|v 0 i| - `|v 0 j|); rewrite sqrrB !real_normK ?num_real // addrAC subr_ge0.
by rewrite -[_ *+ 2]mulr_natr.
Qed.
End Proofs.
