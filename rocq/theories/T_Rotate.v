(** Properties C138 and C139: the GOE and GUE generators are invariant under orthogonal and unitary changes of basis and under
    a change of sign; mean squares of the generated eigenvalues. *)
From Coq Require Import List ZArith Bool Arith Lia Reals Lra FunctionalExtensionality.
From Coquelicot Require Import Coquelicot.
From Verif Require Import Base M_Generate M_Analytic S_Generate S_Normal S_Rotate P_Generate P_Analytic P_Surmise P_Rotate.
Import ListNotations.
Local Open Scope R_scope.
Local Notation sqrt2_nz := P_Generate.sqrt2_nz.
Local Notation sqrt2_sq := P_Generate.sqrt2_sq.

(** ** C138 *)
(** The draws G, row by row, replaced by those of Q G Q^T. *)
Definition rotated (n : nat) (q : nat -> nat -> R) (draws : list R) : list R :=
  entries n (turn n q (fun k l => nth (k * n + l) draws 0)).
Lemma rotated_iso n q : Orthogonal n q -> Isometry (n * n) (rotated n q).
Proof.
  intro Hq. constructor.
  - intros x _. apply entries_length.
  - intros a x b y _ _. unfold rotated at 1. unfold entries, combination at 2. apply map_ext_in. intros p Hp. apply in_seq in Hp.
    assert (n <> 0)%nat as Hn by (intros ->; cbn in Hp; lia).
    assert (p / n < n)%nat as H1 by (apply Nat.div_lt_upper_bound; lia). assert (p mod n < n)%nat as H2 by now apply Nat.mod_upper_bound.
    assert (p = p / n * n + p mod n)%nat as E by (rewrite (Nat.mul_comm (p / n)); now apply Nat.div_mod).
    rewrite E at 3 4. unfold rotated. rewrite !entries_nth by assumption. rewrite <- turn_lin. apply turn_ext. intros k l Hk Hl.
    unfold combination. rewrite nth_map_seq; [reflexivity|]. now apply row_major.
  - intros x Hx. unfold rotated. rewrite squares_entries, (turn_form n q _ _ Hq). symmetry. now apply squares_rows.
Qed.
(** C138. Replacing the draws G by Q G Q^T is a linear isometry, so it keeps the joint density of independent standard normal
    draws, and it turns the generated matrix M into Q M Q^T: the full GOE matrix has no preferred basis. *)
Theorem C138_goe : forall n q, Orthogonal n q ->
  Isometry (n * n) (rotated n q) /\
  forall draws, length draws = (n * n)%nat ->
    joint_density (rotated n q draws) = joint_density draws /\
    forall i j, (i < n)%nat -> (j < n)%nat ->
      goe_matrix sqrt n (rotated n q draws) i j = turn n q (goe_matrix sqrt n draws) i j.
Proof.
  intros n q Hq. pose proof (rotated_iso n q Hq) as HI. split; [exact HI|]. intros draws Hd. split; [now apply (iso_density (n * n))|].
  intros i j Hi Hj. set (g := fun k l => nth (k * n + l) draws 0).
  assert (goe_matrix sqrt n (rotated n q draws) i j = / sqrt 2 * turn n q g i j + / sqrt 2 * turn n q g j i) as ->.
  { unfold goe_matrix, square, rotated. cbn [nadd ndiv n0 Num_R]. rewrite !entries_nth by assumption. fold g. unfold n2. cbn [nofZ Num_R]. field. exact sqrt2_nz. }
  rewrite (turn_swap n q g i j), <- turn_lin. apply turn_ext. intros k l _ _. unfold goe_matrix, square, n2, g. cbn [nadd ndiv n0 nofZ Num_R]. field. exact sqrt2_nz.
Qed.
Print Assumptions C138_goe.

(** The same for pairs of real and imaginary draws, first all real, then all imaginary ones. *)
Definition complex_draws (n : nat) (draws : list R) (k l : nat) : C := (nth (k * n + l) draws 0, nth (n * n + (k * n + l)) draws 0).
Definition crotated (n : nat) (u : nat -> nat -> C) (draws : list R) : list R :=
  entries n (fun i j => fst (cturn n u (complex_draws n draws) i j)) ++ entries n (fun i j => snd (cturn n u (complex_draws n draws) i j)).
Lemma crotated_length n u x : length (crotated n u x) = (2 * (n * n))%nat.
Proof. unfold crotated. rewrite app_length, !entries_length. lia. Qed.
Lemma crotated_re n u x i j : (i < n)%nat -> (j < n)%nat -> nth (i * n + j) (crotated n u x) 0 = fst (cturn n u (complex_draws n x) i j).
Proof.
  intros Hi Hj. unfold crotated. rewrite app_nth1 by (rewrite entries_length; now apply row_major). apply (entries_nth n (fun i j => fst (cturn n u (complex_draws n x) i j))); assumption.
Qed.
Lemma crotated_im n u x i j : (i < n)%nat -> (j < n)%nat -> nth (n * n + (i * n + j)) (crotated n u x) 0 = snd (cturn n u (complex_draws n x) i j).
Proof.
  intros Hi Hj. unfold crotated. rewrite app_nth2 by (rewrite entries_length; lia). rewrite entries_length.
  replace (n * n + (i * n + j) - n * n)%nat with (i * n + j)%nat by lia. apply (entries_nth n (fun i j => snd (cturn n u (complex_draws n x) i j))); assumption.
Qed.
Lemma crotated_draws n u x i j : (i < n)%nat -> (j < n)%nat -> complex_draws n (crotated n u x) i j = cturn n u (complex_draws n x) i j.
Proof. intros Hi Hj. unfold complex_draws at 1. rewrite crotated_re, crotated_im by assumption. now destruct (cturn n u (complex_draws n x) i j). Qed.
Lemma combination_nth k a x b y p : (p < k)%nat -> nth p (combination k a x b y) 0 = a * nth p x 0 + b * nth p y 0.
Proof. intro H. unfold combination. now rewrite nth_map_seq. Qed.
Lemma crotated_iso n u : Unitary n u -> Isometry (2 * (n * n)) (crotated n u).
Proof.
  intro Hu. constructor.
  - intros x _. apply crotated_length.
  - intros a x b y _ _. apply (nth_ext _ _ 0 0); [unfold combination; now rewrite crotated_length, map_length, seq_length|].
    intros p Hp. rewrite crotated_length in Hp. rewrite combination_nth by exact Hp.
    assert (n <> 0)%nat as Hn by (intros ->; cbn in Hp; lia).
    assert (forall k l, (k < n)%nat -> (l < n)%nat -> complex_draws n (combination (2 * (n * n)) a x b y) k l
      = Cplus (Cmult (RtoC a) (complex_draws n x k l)) (Cmult (RtoC b) (complex_draws n y k l))) as HC.
    { intros k l Hk Hl. destruct (row_major n k l Hk Hl) as (Hr & _). unfold complex_draws. rewrite !combination_nth by lia. unfold Cplus, Cmult, RtoC. cbn [fst snd]. f_equal; ring. }
    assert (forall i j, cturn n u (complex_draws n (combination (2 * (n * n)) a x b y)) i j
      = Cplus (Cmult (RtoC a) (cturn n u (complex_draws n x) i j)) (Cmult (RtoC b) (cturn n u (complex_draws n y) i j))) as HT.
    { intros i j. rewrite <- cturn_lin. now apply cturn_ext. }
    destruct (Nat.lt_ge_cases p (n * n)) as [G|G].
    + assert (p / n < n)%nat as H1 by (apply Nat.div_lt_upper_bound; lia). assert (p mod n < n)%nat as H2 by now apply Nat.mod_upper_bound.
      assert (p = p / n * n + p mod n)%nat as E by (rewrite (Nat.mul_comm (p / n)); now apply Nat.div_mod).
      rewrite E. rewrite !crotated_re by assumption. rewrite HT. unfold Cplus, Cmult, RtoC. cbn [fst snd]. ring.
    + set (r := (p - n * n)%nat). assert (r / n < n)%nat as H1 by (apply Nat.div_lt_upper_bound; unfold r; lia). assert (r mod n < n)%nat as H2 by now apply Nat.mod_upper_bound.
      assert (p = n * n + (r / n * n + r mod n))%nat as E.
      { assert (r = r / n * n + r mod n)%nat as E by (rewrite (Nat.mul_comm (r / n)); now apply Nat.div_mod). rewrite <- E. unfold r. lia. }
      rewrite E. rewrite !crotated_im by assumption. rewrite HT. unfold Cplus, Cmult, RtoC. cbn [fst snd]. ring.
  - intros x Hx.
    assert (forall m : nat -> nat -> C, SumTo n (fun i => SumTo n (fun j => fst (m i j) * fst (m i j))) + SumTo n (fun i => SumTo n (fun j => snd (m i j) * snd (m i j)))
      = fst (CSumTo n (fun i => CSumTo n (fun j => Cmult (m i j) (Cconj (m i j)))))) as HF.
    { intro m. rewrite CSumTo_fst, <- SumTo_add. apply SumTo_ext. intros i _. rewrite CSumTo_fst, <- SumTo_add. apply SumTo_ext. intros j _. destruct (m i j). cbn. ring. }
    unfold crotated. rewrite squares_app, !squares_entries, HF, (cturn_form n u _ _ Hu), <- HF. unfold complex_draws. cbn [fst snd].
    rewrite squares_SumTo, Hx. replace (2 * (n * n))%nat with (n * n + n * n)%nat by lia. rewrite SumTo_split, !SumTo_rows. reflexivity.
Qed.
Lemma nth_firstn (l : list R) k p : (p < k)%nat -> nth p (firstn k l) 0 = nth p l 0.
Proof. revert k l. induction p as [|p IH]; intros [|k] [|x l] H; try lia; try reflexivity. cbn. apply IH. lia. Qed.
Lemma nth_skipn (l : list R) k p : nth p (skipn k l) 0 = nth (k + p) l 0.
Proof. revert l. induction k as [|k IH]; intro l; [reflexivity|]. destruct l as [|x l]; cbn; [now destruct p|]. apply IH. Qed.
(** The generated Hermitian matrix from such a list. *)
Definition gue (n : nat) (draws : list R) (i j : nat) : C :=
  (gue_re n (firstn (n * n) draws) (skipn (n * n) draws) i j, gue_im n (firstn (n * n) draws) (skipn (n * n) draws) i j).
Lemma gue_draws n draws i j : (i < n)%nat -> (j < n)%nat ->
  gue n draws i j = Cplus (Cmult (RtoC (/ 2)) (complex_draws n draws i j)) (Cmult (RtoC (/ 2)) (Cconj (complex_draws n draws j i))).
Proof.
  intros Hi Hj. unfold gue, gue_re, gue_im, square, complex_draws, n2. cbn [n0 nadd ndiv nopp nofZ Num_R].
  rewrite !nth_firstn by (now apply row_major). rewrite !nth_skipn. unfold Cplus, Cmult, RtoC, Cconj. cbn [fst snd]. f_equal; field.
Qed.
Theorem C138_gue : forall n u, Unitary n u ->
  Isometry (2 * (n * n)) (crotated n u) /\
  forall draws, length draws = (2 * (n * n))%nat ->
    joint_density (crotated n u draws) = joint_density draws /\
    forall i j, (i < n)%nat -> (j < n)%nat -> gue n (crotated n u draws) i j = cturn n u (gue n draws) i j.
Proof.
  intros n u Hu. pose proof (crotated_iso n u Hu) as HI. split; [exact HI|]. intros draws Hd. split; [now apply (iso_density (2 * (n * n)))|].
  intros i j Hi Hj. rewrite gue_draws, !crotated_draws, cturn_conj by assumption. rewrite <- cturn_lin. apply cturn_ext. intros k l Hk Hl. symmetry. now apply gue_draws.
Qed.
Print Assumptions C138_gue.

(** C138. Any average over the draws is the same for the generated matrix and for its negative: the spectrum is symmetric in law. *)
Theorem C138_sign : forall n (f : (nat -> nat -> R) -> R) v,
  NormalAverage (n * n) (fun draws => f (goe_matrix sqrt n draws)) v ->
  NormalAverage (n * n) (fun draws => f (fun i j => - goe_matrix sqrt n draws i j)) v.
Proof.
  intros n f v H. refine (navg_ext _ _ _ _ _ (navg_opp _ _ _ H)). intros l _. cbv beta. f_equal.
  apply functional_extensionality. intro i. apply functional_extensionality. intro j. unfold goe_matrix, square, n2. cbn [n0 nadd ndiv nofZ Num_R].
  rewrite <- Ropp_0 at 1 2. rewrite !map_nth. field. exact sqrt2_nz.
Qed.
Print Assumptions C138_sign.
(** A rotation by the angle with cosine 3/5, an exchange of axes with a phase, and what they do to the draws 1 0 / 0 0. *)
Definition ex_q (i j : nat) : R := match i, j with O, O => 3 / 5 | S O, S O => 3 / 5 | O, S O => - (4 / 5) | _, _ => 4 / 5 end.
Definition ex_u (i j : nat) : C := match i, j with O, S O => Ci | S O, O => RtoC 1 | _, _ => RtoC 0 end.
Example C138_ex : Orthogonal 2 ex_q /\ rotated 2 ex_q [1; 0; 0; 0] = [9 / 25; 12 / 25; 12 / 25; 16 / 25] /\
  goe_matrix sqrt 2 (rotated 2 ex_q [1; 0; 0; 0]) 0 1 = 24 / 25 / sqrt 2 /\ goe_matrix sqrt 2 [1; 0; 0; 0] 0 1 = 0.
Proof.
  assert (rotated 2 ex_q [1; 0; 0; 0] = [9 / 25; 12 / 25; 12 / 25; 16 / 25]) as E.
  { unfold rotated, entries. cbn. repeat (apply f_equal2; [field|]). reflexivity. }
  split; [|split; [exact E|split]].
  - intros [|[|k]] [|[|l]] Hk Hl; try lia; cbn; field.
  - rewrite E. unfold goe_matrix, square. cbn. field. exact sqrt2_nz.
  - unfold goe_matrix, square. cbn. field. exact sqrt2_nz.
Qed.
Example C138_gue_ex : Unitary 2 ex_u /\ crotated 2 ex_u [1; 2; 3; 4; 5; 6; 7; 8] = [4; -7; 6; 1; 8; 3; -2; 5].
Proof.
  split.
  - intros [|[|k]] [|[|l]] Hk Hl; try lia; unfold CSumTo, Cplus, Cmult, Cconj, RtoC; cbn; apply f_equal2; ring.
  - unfold crotated, entries. cbn. repeat (apply f_equal2; [ring|]). reflexivity.
Qed.

(** ** C139 *)
Lemma diagonal_squares n lam : length lam = n -> SumTo n (fun i => SumTo n (fun j => diagonal lam i j * diagonal lam i j)) = squares lam.
Proof.
  intro H. rewrite squares_SumTo, H. apply SumTo_ext. intros i Hi.
  rewrite (SumTo_ext n _ (fun j => if Nat.eqb j i then nth i lam 0 * nth i lam 0 else 0)).
  - now rewrite (SumTo_delta n i (fun _ => nth i lam 0 * nth i lam 0)).
  - intros j _. unfold diagonal. rewrite (Nat.eqb_sym j i). destruct (Nat.eqb i j); ring.
Qed.
Lemma total_nth lam : total lam = SumTo (length lam) (fun i => nth i lam 0).
Proof. rewrite (list_seq lam) at 1. apply total_SumTo. Qed.
Lemma spectrum_squares n m lam : Spectrum n m lam -> squares lam = SumTo n (fun i => SumTo n (fun j => m i j * m i j)).
Proof.
  intros (H & q & Hq & E). rewrite <- (diagonal_squares n lam H), <- (turn_form n q _ _ Hq). symmetry. apply SumTo_ext. intros i Hi. apply SumTo_ext. intros j Hj. now rewrite E.
Qed.
Lemma spectrum_total n m lam : Spectrum n m lam -> total lam = SumTo n (fun i => m i i).
Proof.
  intros (H & q & Hq & E). rewrite total_nth, H. transitivity (SumTo n (fun k => diagonal lam k k)).
  - apply SumTo_ext. intros i _. unfold diagonal. now rewrite Nat.eqb_refl.
  - rewrite <- (turn_trace n q _ Hq). symmetry. apply SumTo_ext. intros i Hi. now apply E.
Qed.
Lemma cspectrum_squares n re im lam : CSpectrum n re im lam -> squares lam = SumTo n (fun i => SumTo n (fun j => re i j * re i j + im i j * im i j)).
Proof.
  intros (H & u & Hu & E).
  pose proof (f_equal fst (cturn_form n u (fun k l => RtoC (diagonal lam k l)) (fun k l => RtoC (diagonal lam k l)) Hu)) as K. rewrite !CSumTo_fst in K.
  rewrite <- (diagonal_squares n lam H). etransitivity; [|etransitivity; [symmetry; exact K|]].
  - apply SumTo_ext. intros i _. rewrite CSumTo_fst. apply SumTo_ext. intros j _. cbn. ring.
  - apply SumTo_ext. intros i Hi. rewrite CSumTo_fst. apply SumTo_ext. intros j Hj. rewrite <- E by assumption. cbn. ring.
Qed.
Lemma navg_value k f v w : v = w -> NormalAverage k f v -> NormalAverage k f w.
Proof. intros ->. exact (fun H => H). Qed.
Lemma position_eqb n i j k l : (i < n)%nat -> (j < n)%nat -> (k < n)%nat -> (l < n)%nat -> Nat.eqb (i * n + j) (k * n + l) = (Nat.eqb i k && Nat.eqb j l)%bool.
Proof.
  intros Hi Hj Hk Hl. destruct (row_major n i j Hi Hj) as (_ & A & B). destruct (row_major n k l Hk Hl) as (_ & C & D).
  destruct (Nat.eqb_spec (i * n + j) (k * n + l)) as [E|E].
  - rewrite E in A, B. assert (i = k) as -> by congruence. assert (j = l) as -> by congruence. now rewrite !Nat.eqb_refl.
  - destruct (Nat.eqb_spec i k) as [->|]; [|reflexivity]. destruct (Nat.eqb_spec j l) as [->|]; [lia|reflexivity].
Qed.

(** C139. Over n^2 independent standard normal draws, and for any eigenvalue routine: the eigenvalues of the full GOE matrix add
    up to zero on average, their sum has variance 2n, and the average of the sum of their squares is n(n+1). *)
Theorem C139_full : forall n (eig : (nat -> nat -> R) -> list R),
  (forall m, Symmetric n m -> Spectrum n m (eig m)) ->
  NormalAverage (n * n) (fun draws => total (eig (goe_matrix sqrt n draws))) 0 /\
  NormalAverage (n * n) (fun draws => let t := total (eig (goe_matrix sqrt n draws)) in t * t) (2 * INR n) /\
  NormalAverage (n * n) (fun draws => squares (eig (goe_matrix sqrt n draws))) (INR n * (INR n + 1)).
Proof.
  intros n eig He. assert (forall l, Spectrum n (goe_matrix sqrt n l) (eig (goe_matrix sqrt n l))) as HS by (intro l; apply He, goe_symmetric).
  assert (forall l, total (eig (goe_matrix sqrt n l)) = sqrt 2 * SumTo n (fun i => nth (i * n + i) l 0)) as HT.
  { intro l. rewrite (spectrum_total _ _ _ (HS l)), <- SumTo_scale. apply SumTo_ext. intros i _. unfold goe_matrix, square, n2. cbn [n0 nadd ndiv nofZ Num_R].
    transitivity (nth (i * n + i) l 0 * (sqrt 2 * sqrt 2) / sqrt 2); [rewrite sqrt2_sq; field; exact sqrt2_nz|]. field. exact sqrt2_nz. }
  split; [|split].
  - refine (navg_ext _ _ _ _ (fun l _ => eq_sym (HT l)) _). apply (navg_value _ _ (sqrt 2 * SumTo n (fun _ => 0))); [rewrite SumTo_const; ring|].
    apply (navg_scale (n * n) (fun l => SumTo n (fun i => nth (i * n + i) l 0))). apply (navg_SumTo (n * n) n (fun i l => nth (i * n + i) l 0)). intros i Hi. apply navg_coord. now apply row_major.
  - apply (navg_ext _ (fun l => 2 * SumTo n (fun i => SumTo n (fun j => nth (i * n + i) l 0 * nth (j * n + j) l 0)))).
    + intros l _. cbv zeta. rewrite HT. rewrite (SumTo_ext n (fun i => SumTo n _) (fun i => SumTo n (fun j => nth (j * n + j) l 0) * nth (i * n + i) l 0)).
      2:{ intros i _. rewrite SumTo_scale. ring. }
      rewrite SumTo_scale. set (w := SumTo n _). transitivity (sqrt 2 * sqrt 2 * (w * w)); [|ring]. rewrite sqrt2_sq. ring.
    + apply navg_scale. apply (navg_value _ _ (SumTo n (fun i => SumTo n (fun j => if Nat.eqb j i then 1 else 0)))).
      * rewrite (SumTo_ext n _ (fun _ => 1)) by (intros i Hi; now apply (SumTo_delta n i (fun _ => 1))). rewrite SumTo_const. ring.
      * apply (navg_SumTo (n * n) n (fun i l => SumTo n (fun j => nth (i * n + i) l 0 * nth (j * n + j) l 0))). intros i Hi.
        apply (navg_SumTo (n * n) n (fun j l => nth (i * n + i) l 0 * nth (j * n + j) l 0)). intros j Hj.
        apply (navg_value _ _ (if Nat.eqb (i * n + i) (j * n + j) then 1 else 0)); [rewrite position_eqb by assumption; rewrite (Nat.eqb_sym j i); now destruct (Nat.eqb i j)|].
        apply navg_pair; now apply row_major.
  - apply (navg_ext _ (fun l => SumTo n (fun i => SumTo n (fun j => / 2 * (nth (i * n + j) l 0 * nth (i * n + j) l 0) + / 2 * (nth (j * n + i) l 0 * nth (j * n + i) l 0) + 1 * (nth (i * n + j) l 0 * nth (j * n + i) l 0))))).
    + intros l _. rewrite (spectrum_squares _ _ _ (HS l)). apply SumTo_ext. intros i _. apply SumTo_ext. intros j _. unfold goe_matrix, square, n2. cbn [n0 nadd ndiv nofZ Num_R].
      set (x := nth (i * n + j) l 0). set (y := nth (j * n + i) l 0). transitivity ((x + y) * (x + y) / (sqrt 2 * sqrt 2)); [|field; exact sqrt2_nz]. rewrite sqrt2_sq. field.
    + apply (navg_value _ _ (SumTo n (fun i => SumTo n (fun j => 1 + if Nat.eqb j i then 1 else 0)))).
      * rewrite (SumTo_ext n _ (fun _ => INR n + 1)); [rewrite SumTo_const; ring|]. intros i Hi. rewrite SumTo_add, SumTo_const, (SumTo_delta n i (fun _ => 1)) by exact Hi. ring.
      * apply (navg_SumTo (n * n) n (fun i l => SumTo n (fun j => / 2 * (nth (i * n + j) l 0 * nth (i * n + j) l 0) + / 2 * (nth (j * n + i) l 0 * nth (j * n + i) l 0) + 1 * (nth (i * n + j) l 0 * nth (j * n + i) l 0)))).
        intros i Hi. apply (navg_SumTo (n * n) n (fun j l => / 2 * (nth (i * n + j) l 0 * nth (i * n + j) l 0) + / 2 * (nth (j * n + i) l 0 * nth (j * n + i) l 0) + 1 * (nth (i * n + j) l 0 * nth (j * n + i) l 0))).
        intros j Hj. pose proof (proj1 (row_major n i j Hi Hj)) as A. pose proof (proj1 (row_major n j i Hj Hi)) as B.
        pose proof (navg_lin (n * n) _ _ _ _ (/ 2) (/ 2) (navg_pair _ _ _ A A) (navg_pair _ _ _ B B)) as K.
        pose proof (navg_lin (n * n) _ _ _ _ 1 1 K (navg_pair _ _ _ A B)) as K'.
        refine (navg_ext _ _ _ _ _ (navg_value _ _ _ _ _ K')); [intros l _; cbv beta; ring|]. rewrite !position_eqb, !Nat.eqb_refl by assumption. rewrite (Nat.eqb_sym j i). destruct (Nat.eqb i j); cbn; field.
Qed.
Print Assumptions C139_full.

(** C139. The tridiagonal matrix, from n + n(n-1)/2 standard normal numbers: the diagonal draws sqrt 2 times the first n, the
    chi-square draws sums of squares of the others with the degrees of freedom the code asks for: half of that. *)
Definition tri_draws (n : nat) (z : list R) : nat -> nat -> R :=
  goe_tridiagonal sqrt (chi_squares (map Z.to_nat (chi_range n)) (skipn n z)) (map (Rmult (sqrt 2)) (firstn n z)).
Lemma total_chi dofs z : total (chi_squares dofs z) = squares (firstn (fold_right Nat.add 0%nat dofs) z).
Proof.
  revert z. induction dofs as [|k t IH]; intro z; cbn [chi_squares fold_right]; [reflexivity|]. unfold total in *. cbn [fold_right]. rewrite IH, <- squares_app. f_equal.
  assert (forall (a b : nat) (l : list R), firstn a l ++ firstn b (skipn a l) = firstn (a + b) l) as HF; [|apply HF].
  clear. induction a as [|a IH]; intros b l; [reflexivity|]. destruct l as [|x l]; [now rewrite !firstn_nil|]. cbn. now rewrite IH.
Qed.
Lemma chi_length dofs z : length (chi_squares dofs z) = length dofs.
Proof. revert z. induction dofs as [|k t IH]; intro z; [reflexivity|]. cbn. now rewrite IH. Qed.
Lemma squares_nonneg l : 0 <= squares l.
Proof. unfold squares, total. induction l as [|x l IH]; cbn; [lra|]. nra. Qed.
Lemma chi_nonneg dofs z k : 0 <= nth k (chi_squares dofs z) 0.
Proof.
  revert z k. induction dofs as [|d t IH]; intros z k; cbn [chi_squares]; [destruct k; cbn; lra|]. destruct k as [|k]; cbn [nth]; [apply squares_nonneg|apply IH].
Qed.
Lemma chi_range_total n : (fold_right Nat.add 0 (map Z.to_nat (chi_range n)) = n * (n - 1) / 2)%nat.
Proof.
  assert (forall m, fold_right Nat.add 0 (map Z.to_nat (chi_range (S m))) = m + fold_right Nat.add 0 (map Z.to_nat (chi_range m)))%nat as HS.
  { intros [|m]; [reflexivity|]. unfold chi_range. replace (S (S m) - 1)%nat with (S m) by lia. replace (S m - 1)%nat with m by lia. cbn [seq map fold_right].
    rewrite <- seq_shift, !map_map. f_equal; [lia|]. f_equal. apply map_ext. intro k. f_equal. lia. }
  assert (forall m, 2 * fold_right Nat.add 0 (map Z.to_nat (chi_range m)) = m * (m - 1))%nat as H2.
  { induction m as [|m IH]; [reflexivity|]. rewrite HS. destruct m as [|m]; [reflexivity|]. nia. }
  rewrite <- H2. rewrite Nat.mul_comm, Nat.div_mul; [reflexivity|lia].
Qed.
Lemma tri_draws_squares n z : length z = (n + n * (n - 1) / 2)%nat -> SumTo n (fun i => SumTo n (fun j => tri_draws n z i j * tri_draws n z i j)) = squares z.
Proof.
  intro Hz. set (chisq := chi_squares (map Z.to_nat (chi_range n)) (skipn n z)). set (normals := map (Rmult (sqrt 2)) (firstn n z)).
  transitivity (TraceSq n (tri (fun i => nth i normals 0 / sqrt 2) (fun k => sqrt (nth k chisq 0) / sqrt 2))).
  { unfold TraceSq. apply SumTo_ext. intros i _. apply SumTo_ext. intros j _. unfold tri_draws. fold chisq normals.
    rewrite (tri_symmetric chisq normals i j) at 2. rewrite !tri_entry. reflexivity. }
  rewrite tri_trace_sq. replace (squares z) with (squares (firstn n z) + squares (skipn n z)) by (rewrite <- squares_app; now rewrite firstn_skipn). f_equal.
  - rewrite squares_SumTo. rewrite firstn_length, Nat.min_l by lia. apply SumTo_ext. intros i _. unfold normals.
    rewrite (nth_map_div (Rmult (sqrt 2))) by ring. field. exact sqrt2_nz.
  - transitivity (total chisq).
    + rewrite total_nth. unfold chisq at 3. rewrite chi_length, map_length, chi_range_length, <- SumTo_scale. apply SumTo_ext. intros k _.
      transitivity (2 * (sqrt (nth k chisq 0) * sqrt (nth k chisq 0)) / (sqrt 2 * sqrt 2)); [field; exact sqrt2_nz|].
      rewrite sqrt2_sq, sqrt_sqrt by apply chi_nonneg. field.
    + unfold chisq. rewrite total_chi, chi_range_total. f_equal. apply firstn_all2. rewrite skipn_length. lia.
Qed.
Lemma tri_draws_symmetric n z : Symmetric n (tri_draws n z).
Proof. intros i j _ _. unfold tri_draws. apply tri_symmetric. Qed.
Lemma navg_squares k : NormalAverage k squares (INR k).
Proof.
  apply (navg_ext k (fun l => SumTo k (fun i => nth i l 0 * nth i l 0))); [intros l Hl; now rewrite squares_SumTo, Hl|].
  apply (navg_value _ _ (SumTo k (fun _ => 1))); [rewrite SumTo_const; ring|]. apply (navg_SumTo k k (fun i l => nth i l 0 * nth i l 0)). intros i Hi.
  pose proof (navg_pair k i i Hi Hi) as H. now rewrite Nat.eqb_refl in H.
Qed.
Lemma half_product n : INR (n * (n - 1) / 2) = INR n * (INR n - 1) / 2.
Proof.
  assert (2 * (n * (n - 1) / 2) = n * (n - 1))%nat as H.
  { induction n as [|n IH]; [reflexivity|]. replace (S n * (S n - 1))%nat with (n * (n - 1) + n * 2)%nat by (destruct n as [|n]; [reflexivity|]; replace (S (S n) - 1)%nat with (S n) by lia; replace (S n - 1)%nat with n by lia; nia). rewrite Nat.div_add by lia. generalize dependent (n * (n - 1))%nat. intros w IH. lia. }
  apply (f_equal INR) in H. rewrite !mult_INR in H. change (INR 2) with 2 in H. destruct n as [|n]; [cbn; lra|].
  assert (INR (S n - 1) = INR (S n) - 1) as E by (rewrite S_INR; replace (S n - 1)%nat with n by lia; lra). rewrite E in H. lra.
Qed.
Theorem C139_tridiagonal : forall n (eig : (nat -> nat -> R) -> list R),
  (forall m, Symmetric n m -> Spectrum n m (eig m)) ->
  (forall z, length z = (n + n * (n - 1) / 2)%nat -> squares (eig (tri_draws n z)) = squares z) /\
  NormalAverage (n + n * (n - 1) / 2) (fun z => squares (eig (tri_draws n z))) (INR n * (INR n + 1) / 2).
Proof.
  intros n eig He. assert (forall z, length z = (n + n * (n - 1) / 2)%nat -> squares (eig (tri_draws n z)) = squares z) as H.
  { intros z Hz. rewrite (spectrum_squares n (tri_draws n z)) by (apply He, tri_draws_symmetric). now apply tri_draws_squares. }
  split; [exact H|]. refine (navg_ext _ _ _ _ (fun z Hz => eq_sym (H z Hz)) _). apply (navg_value _ _ (INR (n + n * (n - 1) / 2))); [|apply navg_squares].
  rewrite plus_INR, half_product. field.
Qed.
Print Assumptions C139_tridiagonal.

(** C139. The GUE matrix, from 2 n^2 draws: n^2. *)
Theorem C139_gue : forall n (eig : (nat -> nat -> R) -> (nat -> nat -> R) -> list R),
  (forall re im, Symmetric n re -> Antisymmetric n im -> CSpectrum n re im (eig re im)) ->
  NormalAverage (2 * (n * n)) (fun draws => squares (eig (fun i j => fst (gue n draws i j)) (fun i j => snd (gue n draws i j)))) (INR n * INR n).
Proof.
  intros n eig He.
  pose (x := fun (l : list R) i j => nth (i * n + j) l 0). pose (y := fun (l : list R) i j => nth (n * n + (i * n + j)) l 0).
  apply (navg_ext _ (fun l => SumTo n (fun i => SumTo n (fun j =>
    1 * (/ 4 * (x l i j * x l i j + x l j i * x l j i) + / 2 * (x l i j * x l j i)) + 1 * (/ 4 * (y l i j * y l i j + y l j i * y l j i) + - / 2 * (y l i j * y l j i)))))).
  - intros l _. symmetry. erewrite cspectrum_squares; [|apply He].
    + apply SumTo_ext. intros i Hi. apply SumTo_ext. intros j Hj. rewrite gue_draws by assumption. unfold complex_draws, Cplus, Cmult, RtoC, Cconj. cbn [fst snd]. fold (x l i j) (x l j i) (y l i j) (y l j i). field.
    + intros i j Hi Hj. rewrite !gue_draws by assumption. unfold Cplus, Cmult, RtoC, Cconj. cbn [fst snd]. ring.
    + intros i j Hi Hj. rewrite !gue_draws by assumption. unfold Cplus, Cmult, RtoC, Cconj. cbn [fst snd]. ring.
  - apply (navg_value _ _ (SumTo n (fun _ => SumTo n (fun _ => 1)))); [rewrite !SumTo_const; ring|].
    apply (navg_SumTo _ n (fun i l => SumTo n (fun j => 1 * (/ 4 * (x l i j * x l i j + x l j i * x l j i) + / 2 * (x l i j * x l j i)) + 1 * (/ 4 * (y l i j * y l i j + y l j i * y l j i) + - / 2 * (y l i j * y l j i))))).
    intros i Hi. apply (navg_SumTo _ n (fun j l => 1 * (/ 4 * (x l i j * x l i j + x l j i * x l j i) + / 2 * (x l i j * x l j i)) + 1 * (/ 4 * (y l i j * y l i j + y l j i * y l j i) + - / 2 * (y l i j * y l j i)))).
    intros j Hj. pose proof (proj1 (row_major n i j Hi Hj)) as A. pose proof (proj1 (row_major n j i Hj Hi)) as B.
    assert (forall p q c, (p < 2 * (n * n))%nat -> (q < 2 * (n * n))%nat -> NormalAverage (2 * (n * n))
      (fun l => / 4 * (nth p l 0 * nth p l 0 + nth q l 0 * nth q l 0) + c * (nth p l 0 * nth q l 0)) (/ 2 + c * if Nat.eqb p q then 1 else 0)) as K.
    { intros p q c Hp Hq. pose proof (navg_lin _ _ _ _ _ (/ 4) (/ 4) (navg_pair _ _ _ Hp Hp) (navg_pair _ _ _ Hq Hq)) as K1.
      pose proof (navg_lin _ _ _ _ _ 1 c K1 (navg_pair _ _ _ Hp Hq)) as K2. refine (navg_ext _ _ _ _ _ (navg_value _ _ _ _ _ K2)); [intros l _; cbv beta; ring|]. rewrite !Nat.eqb_refl. field. }
    pose proof (K (i * n + j)%nat (j * n + i)%nat (/ 2) ltac:(lia) ltac:(lia)) as K1. pose proof (K (n * n + (i * n + j))%nat (n * n + (j * n + i))%nat (- / 2) ltac:(lia) ltac:(lia)) as K2.
    refine (navg_value _ _ _ _ _ (navg_lin _ _ _ _ _ 1 1 K1 K2)).
    assert (Nat.eqb (n * n + (i * n + j)) (n * n + (j * n + i)) = Nat.eqb (i * n + j) (j * n + i)) as ->.
    { destruct (Nat.eqb_spec (i * n + j) (j * n + i)) as [->|]; [apply Nat.eqb_refl|]. apply Nat.eqb_neq. lia. }
    field.
Qed.
Print Assumptions C139_gue.

(** C139. The sum of squares under the level density that unfold_goe integrates is n^2/2: below the tridiagonal average by the
    factor 1 + 1/n, and less than half the average of the full matrix, which that density does not fit at any size. *)
Lemma band_squares n : (0 < n)%nat -> is_RInt (fun x => x * x * goe_R1 n x) (- sqrt (2 * INR n)) (sqrt (2 * INR n)) (INR n * INR n / 2).
Proof.
  intro Hn. set (a := sqrt (2 * INR n)). pose proof (a_sq n Hn) as Ha2. pose proof (a_pos n Hn) as Ha. fold a in Ha2, Ha. pose proof PI_RGT_0 as HPI.
  assert (forall x, continuous (fun x => x * x * goe_R1 n x) x) as HC.
  { intro x. apply (continuous_mult (K := R_AbsRing) (fun x => x * x) (goe_R1 n)); [apply (continuous_mult (K := R_AbsRing)); apply continuous_id|now apply R1_continuous]. }
  assert (is_RInt (fun t => scal (a * cos t) ((fun x => x * x * goe_R1 n x) (a * sin t))) (- (PI / 2)) (PI / 2)
    (RInt (fun x => x * x * goe_R1 n x) (a * sin (- (PI / 2))) (a * sin (PI / 2)))) as HS.
  { apply (is_RInt_comp (V := R_CompleteNormedModule) (fun x => x * x * goe_R1 n x) (fun t => a * sin t) (fun t => a * cos t)).
    - intros t _. apply HC.
    - intros t _. split; [auto_derive; [exact I|ring]|]. apply (continuous_mult (K := R_AbsRing) (fun _ => a) cos); [apply continuous_const|apply continuous_cos]. }
  rewrite sin_neg, sin_PI2 in HS. replace (a * - (1)) with (- a) in HS by ring. rewrite Rmult_1_r in HS.
  assert (is_RInt (fun t => scal (a * cos t) ((fun x => x * x * goe_R1 n x) (a * sin t))) (- (PI / 2)) (PI / 2) (INR n * INR n / 2)) as HV.
  { pose (F := fun t => a * a * (a * a) / (8 * PI) * (t - sin t * cos t * (1 - 2 * (sin t * sin t)))).
    apply (is_RInt_ext (fun t => a * a * (a * a) / PI * (sin t * sin t * (cos t * cos t)))).
    - intros t Ht. rewrite Rmin_left, Rmax_right in Ht by lra. unfold scal. cbn. unfold mult. cbn. rewrite (R1_eq n Hn).
      assert (0 <= cos t) as Hc by (apply cos_ge_0; lra). replace (2 * INR n - a * sin t * (a * sin t)) with (a * cos t * (a * cos t)).
      + rewrite sqrt_square by nra. field. lra.
      + rewrite <- Ha2. pose proof (sin2_cos2 t) as K. unfold Rsqr in K. replace (cos t * cos t) with (1 - sin t * sin t) by lra.
        replace (a * cos t * (a * cos t)) with (a * a * (cos t * cos t)) by ring. replace (cos t * cos t) with (1 - sin t * sin t) by lra. ring.
    - replace (INR n * INR n / 2) with (F (PI / 2) - F (- (PI / 2))).
      2:{ unfold F. rewrite sin_neg, cos_neg, sin_PI2, cos_PI2. rewrite Ha2. field. lra. }
      apply (is_RInt_derive (V := R_CompleteNormedModule) F).
      + intros t _. unfold F. auto_derive; [exact I|]. pose proof (sin2_cos2 t) as K. unfold Rsqr in K.
        assert (cos t * cos t = 1 - sin t * sin t) as K2 by lra. set (s := sin t) in *. set (c := cos t) in *.
        match goal with |- ?l = ?r => replace l with (a * a * (a * a) / (8 * PI) * (1 - (c * c - s * s) * (1 - 2 * (s * s)) + 4 * (s * s) * (c * c))) by (field; lra) end.
        rewrite K2. field. lra.
      + intros t _. apply (ex_derive_continuous (V := R_NormedModule)). auto_derive. exact I. }
  pose proof (is_RInt_unique (V := R_CompleteNormedModule) _ _ _ _ HS) as E1. rewrite (is_RInt_unique (V := R_CompleteNormedModule) _ _ _ _ HV) in E1. rewrite E1.
  apply (RInt_correct (V := R_CompleteNormedModule)), (ex_RInt_continuous (V := R_CompleteNormedModule)). intros x _. apply HC.
Qed.
Theorem C139_band : forall n, (0 < n)%nat ->
  let band := RInt (fun x => x * x * goe_R1 n x) (- sqrt (2 * INR n)) (sqrt (2 * INR n)) in
  band = INR n * INR n / 2 /\ INR n * (INR n + 1) / 2 = (1 + / INR n) * band /\ 2 * band < INR n * (INR n + 1).
Proof.
  intros n Hn band. assert (band = INR n * INR n / 2) as E by (apply (is_RInt_unique (V := R_CompleteNormedModule)), band_squares, Hn).
  assert (0 < INR n) as Hp by now apply lt_0_INR. rewrite E. split; [reflexivity|]. split; [field; lra|nra].
Qed.
Print Assumptions C139_band.

(** The hypothesis is met: an eigenvalue routine for order two. *)
Definition ex_eig (m : nat -> nat -> R) : list R :=
  let a := m 0%nat 0%nat in let b := m 0%nat 1%nat in let d := m 1%nat 1%nat in
  let r := sqrt ((a - d) * (a - d) + 4 * (b * b)) in [(a + d - r) / 2; (a + d + r) / 2].
Lemma ex_eig_ok m : Symmetric 2 m -> Spectrum 2 m (ex_eig m).
Proof.
  intro Hs. split; [reflexivity|]. unfold ex_eig. set (a := m 0%nat 0%nat). set (b := m 0%nat 1%nat). set (d := m 1%nat 1%nat).
  assert (m 1%nat 0%nat = b) as Hb by (apply Hs; lia). set (r := sqrt _).
  assert (r * r = (a - d) * (a - d) + 4 * (b * b)) as Hr by (apply sqrt_sqrt; pose proof (Rle_0_sqr (a - d)); pose proof (Rle_0_sqr b); unfold Rsqr in *; lra). assert (0 <= r) as Hr0 by apply sqrt_pos.
  assert (exists c s, c * c + s * s = 1 /\ r * (c * c - s * s) = a - d /\ 2 * r * (c * s) = 2 * b) as (c & s & E1 & E2 & E3).
  { destruct (Req_dec r 0) as [Hz|Hz].
    - exists 1, 0. rewrite Hz in Hr |- *. pose proof (Rle_0_sqr (a - d)). pose proof (Rle_0_sqr b).
      assert (a - d = 0) by (apply Rsqr_0_uniq; unfold Rsqr in *; lra). assert (b = 0) by (apply Rsqr_0_uniq; unfold Rsqr in *; lra). repeat split; lra.
    - assert (0 < r) as Hp by lra. set (w := (a - d) / r). assert (r * w = a - d) as Hw by (unfold w; field; lra).
      assert (w * w <= 1) as Hw1. { apply (Rmult_le_reg_l (r * r)); [now apply Rmult_lt_0_compat|]. replace (r * r * (w * w)) with ((a - d) * (a - d)) by (rewrite <- Hw; ring). pose proof (Rle_0_sqr b). unfold Rsqr in *. lra. }
      assert (-1 <= w <= 1) as Hw2 by nra. set (p := sqrt ((1 + w) / 2)). set (q := sqrt ((1 - w) / 2)).
      assert (p * p = (1 + w) / 2) as Hp2 by (apply sqrt_sqrt; lra). assert (q * q = (1 - w) / 2) as Hq2 by (apply sqrt_sqrt; lra).
      assert (0 <= p) by apply sqrt_pos. assert (0 <= q) by apply sqrt_pos.
      assert ((r * (p * q)) * (r * (p * q)) = b * b) as Hpq.
      { replace (r * (p * q) * (r * (p * q))) with (r * r * ((p * p) * (q * q))) by ring. rewrite Hp2, Hq2.
        replace (r * r * ((1 + w) / 2 * ((1 - w) / 2))) with ((r * r - (r * w) * (r * w)) / 4) by field. rewrite Hr, Hw. field. }
      assert (0 <= r * (p * q)) by (apply Rmult_le_pos; [lra|now apply Rmult_le_pos]).
      destruct (Rle_dec 0 b) as [G|G].
      + exists p, q. split; [lra|]. split; [rewrite Hp2, Hq2, <- Hw; field|]. assert (r * (p * q) = b) by nra. lra.
      + exists p, (- q). split; [lra|]. split; [replace (- q * - q) with (q * q) by ring; rewrite Hp2, Hq2, <- Hw; field|]. assert (r * (p * q) = - b) by nra. lra. }
  exists (fun i j => match i, j with O, O => - s | O, _ => c | _, O => c | _, _ => s end). split.
  - intros [|[|k]] [|[|l]] Hk Hl; try lia; cbn; lra.
  - intros [|[|i]] [|[|j]] Hi Hj; try lia; unfold turn, diagonal; cbn; fold a b d; try rewrite Hb.
    + transitivity ((c * c + s * s) * (a + d) / 2 + r * (c * c - s * s) / 2); [rewrite E1, E2; field|field].
    + transitivity (2 * r * (c * s) / 2); [rewrite E3; field|field].
    + transitivity (2 * r * (c * s) / 2); [rewrite E3; field|field].
    + transitivity ((c * c + s * s) * (a + d) / 2 - r * (c * c - s * s) / 2); [rewrite E1, E2; field|field].
Qed.
Example C139_ex :
  NormalAverage 4 (fun draws => squares (ex_eig (goe_matrix sqrt 2 draws))) 6 /\
  NormalAverage 3 (fun z => squares (ex_eig (tri_draws 2 z))) 3 /\
  RInt (fun x => x * x * goe_R1 2 x) (- sqrt (2 * INR 2)) (sqrt (2 * INR 2)) = 2.
Proof.
  split; [|split].
  - apply (navg_value _ _ (INR 2 * (INR 2 + 1))); [cbn; ring|]. exact (proj2 (proj2 (C139_full 2 ex_eig ex_eig_ok))).
  - apply (navg_value _ _ (INR 2 * (INR 2 + 1) / 2)); [cbn; field|]. exact (proj2 (C139_tridiagonal 2 ex_eig ex_eig_ok)).
  - rewrite (proj1 (C139_band 2 ltac:(lia))). cbn. field.
Qed.
Example C138_sign_ex : NormalAverage 4 (fun draws => squares (ex_eig (fun i j => - goe_matrix sqrt 2 draws i j))) 6.
Proof. exact (C138_sign 2 (fun m => squares (ex_eig m)) 6 (proj1 C139_ex)). Qed.
Example C139_gue_ex : NormalAverage 2 (fun draws => squares [fst (gue 1 draws 0%nat 0%nat)]) 1.
Proof.
  apply (navg_value _ _ (INR 1 * INR 1)); [cbn; ring|]. apply (C139_gue 1 (fun re _ => [re 0%nat 0%nat])). intros re im Hr Hi. split; [reflexivity|].
  exists (fun _ _ => RtoC 1). split.
  - intros [|k] [|l] Hk Hl; try lia. unfold CSumTo, Cplus, Cmult, Cconj, RtoC; cbn; apply f_equal2; ring.
  - intros [|k] [|l] Hk Hl; try lia. assert (im 0%nat 0%nat = 0) as -> by (pose proof (Hi 0%nat 0%nat Hk Hl); lra).
    unfold cturn, CSumTo, Cplus, Cmult, Cconj, RtoC; cbn; apply f_equal2; ring.
Qed.
