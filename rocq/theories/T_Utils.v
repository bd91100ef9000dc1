(** Properties C96 and C97: the array helpers of utils.py. *)
From Coq Require Import List ZArith Bool Arith Lia Reals Lra QArith.
From Verif Require Import Base S_EigVals S_Trim S_Loops M_Step M_EigVals M_Series M_Utils P_EigVals P_TrimStat P_Ols P_Loops.
Import ListNotations.
Local Open Scope R_scope.
Local Notation length := List.length.

(** ** Index tuples *)
(** An index tuple of an array of shape [s]. *)
Definition InRange (s idx : list nat) : Prop := Forall2 (fun d i => (i < d)%nat) s idx.
(** Row-major offset: the last index runs fastest. *)
Fixpoint Offset (s idx : list nat) : nat :=
  match s, idx with
  | _ :: s', i :: t => i * fold_right Nat.mul 1%nat s' + Offset s' t
  | _, _ => 0
  end.
(** The entry of an array at an index tuple. *)
Definition EntryAt {F} (a : ndarray F) (idx : list nat) : option F := nth_error (data a) (Offset (shape a) idx).
(** Lexicographic order of index tuples. *)
Fixpoint Lex (a b : list nat) : Prop :=
  match a, b with
  | i :: s, j :: t => (i < j)%nat \/ i = j /\ Lex s t
  | _, _ => False
  end.

Lemma offset_lt s idx : InRange s idx -> (Offset s idx < dims_prod s)%nat.
Proof. induction 1 as [|d i s idx H _ IH]; cbn; [lia|]. change (fold_right Nat.mul 1 s)%nat with (dims_prod s) in *. nia. Qed.
Lemma offset_lex s idx idx' : InRange s idx -> InRange s idx' -> (Lex idx' idx <-> (Offset s idx' < Offset s idx)%nat).
Proof.
  intros H. revert idx'. induction H as [|d i s idx Hi H IH]; intros idx' H'; inversion H' as [|? i' ? idx'' Hi' H'']; subst; cbn; [lia|].
  specialize (IH idx'' H''). pose proof (offset_lt s idx H). pose proof (offset_lt s idx'' H''). change (fold_right Nat.mul 1 s)%nat with (dims_prod s) in *.
  rewrite IH. split; [nia|]. intros G. destruct (Nat.lt_trichotomy i' i) as [E|[E|E]]; [now left|right; subst; lia|nia].
Qed.
Lemma unravel_spec s k : (k < dims_prod s)%nat -> InRange s (unravel s k) /\ Offset s (unravel s k) = k.
Proof.
  revert k. induction s as [|d s IH]; intros k H; cbn in H |- *; [split; [constructor|lia]|]. change (fold_right Nat.mul 1 s)%nat with (dims_prod s) in *.
  assert (dims_prod s <> 0)%nat by (intros E; rewrite E in H; lia).
  destruct (IH (k mod dims_prod s)%nat) as (I1 & I2); [apply Nat.mod_upper_bound; assumption|]. split.
  - constructor; [|exact I1]. apply Nat.div_lt_upper_bound; [assumption|lia].
  - rewrite I2. pose proof (Nat.div_mod k (dims_prod s)). lia.
Qed.
Lemma offset_inj s idx idx' : InRange s idx -> InRange s idx' -> Offset s idx = Offset s idx' -> idx = idx'.
Proof.
  intros H. revert idx'. induction H as [|d i s idx Hi H IH]; intros idx' H' E; inversion H' as [|? i' ? idx'' Hi' H'']; subst; [reflexivity|]. cbn in E.
  pose proof (offset_lt s idx H). pose proof (offset_lt s idx'' H''). change (fold_right Nat.mul 1 s)%nat with (dims_prod s) in *.
  assert (i = i') as <- by nia. f_equal. apply IH; [exact H''|lia].
Qed.

(** C97. [nd_find] returns the lexicographically first index tuple at which the value stands, None if there is none. *)
Theorem C97_nd_find : forall {F} {N : Num F} (a : ndarray F) value, wf_array a ->
  (forall idx, nd_find a value = Some idx <->
     InRange (shape a) idx /\ (exists v, EntryAt a idx = Some v /\ neq v value = true) /\
     forall idx' v, InRange (shape a) idx' -> Lex idx' idx -> EntryAt a idx' = Some v -> neq v value = false) /\
  (nd_find a value = None <-> forall idx v, InRange (shape a) idx -> EntryAt a idx = Some v -> neq v value = false).
Proof.
  intros F N a value W. unfold wf_array in W.
  assert (G : forall l k, match nd_find_from value (shape a) k l with
    | None => forall j v, nth_error l j = Some v -> neq v value = false
    | Some idx => exists j v, idx = unravel (shape a) (k + j) /\ nth_error l j = Some v /\ neq v value = true /\
        forall i w, (i < j)%nat -> nth_error l i = Some w -> neq w value = false end).
  { induction l as [|x l IH]; intros k; cbn [nd_find_from]; [intros [|j] v; discriminate|]. destruct (neq x value) eqn:E.
    - exists 0%nat, x. rewrite Nat.add_0_r. repeat split; auto. intros; lia.
    - specialize (IH (S k)). destruct (nd_find_from value (shape a) (S k) l) as [idx|].
      + destruct IH as (j & v & -> & I2 & I3 & I4). exists (S j), v. repeat split; auto; [f_equal; lia|]. intros [|i] w Hi Hw; [cbn in Hw; congruence|]. apply (I4 i); [lia|exact Hw].
      + intros [|j] v Hv; [cbn in Hv; congruence|]. eapply IH. exact Hv. }
  specialize (G (data a) 0%nat). fold (nd_find a value) in G. unfold EntryAt.
  assert (Q : forall idx, nd_find a value = Some idx -> InRange (shape a) idx /\ (exists v, nth_error (data a) (Offset (shape a) idx) = Some v /\ neq v value = true) /\
     forall idx' v, InRange (shape a) idx' -> Lex idx' idx -> nth_error (data a) (Offset (shape a) idx') = Some v -> neq v value = false).
  { intros idx E. rewrite E in G. destruct G as (j & v & -> & I2 & I3 & I4). cbn [plus].
    assert (Hj : (j < dims_prod (shape a))%nat) by (rewrite <- W; apply nth_error_Some; congruence).
    destruct (unravel_spec (shape a) j Hj) as (R1 & R2). split; [exact R1|]. rewrite R2. split; [now exists v|].
    intros idx' w R' L Hw. apply (offset_lex (shape a)) in L; [|assumption..]. rewrite R2 in L. now apply (I4 _ w L). }
  split.
  - intros idx. split; [apply Q|]. intros (R1 & (v & V1 & V2) & R3). destruct (nd_find a value) as [idx2|] eqn:E.
    + f_equal. destruct (Q idx2 eq_refl) as (S1 & (w & W1 & W2) & S3). apply (offset_inj (shape a)); [assumption..|].
      destruct (Nat.lt_trichotomy (Offset (shape a) idx2) (Offset (shape a) idx)) as [H|[H|H]]; [|exact H|].
      * apply (offset_lex (shape a)) in H; [|assumption..]. rewrite (R3 idx2 w S1 H W1) in W2. discriminate.
      * apply (offset_lex (shape a)) in H; [|assumption..]. rewrite (S3 idx v R1 H V1) in V2. discriminate.
    + rewrite (G _ _ V1) in V2. discriminate.
  - destruct (nd_find a value) as [idx|] eqn:E.
    + split; [discriminate|]. intros H. destruct (Q idx eq_refl) as (S1 & (w & W1 & W2) & _). rewrite (H idx w S1 W1) in W2. discriminate.
    + split; [|reflexivity]. intros _ idx v R1 Hv. eapply G. exact Hv.
Qed.
Print Assumptions C97_nd_find.
Example C97_nd_find_case : let a := mkarr [2; 2; 2]%nat [0; 1; 2; 5; 3; 5; 1; 5]%Q in
  nd_find a 5%Q = Some [0; 1; 1]%nat /\ nd_find a 1%Q = Some [0; 0; 1]%nat /\ nd_find a 7%Q = None.
Proof. vm_compute. repeat split; reflexivity. Qed.

Lemma dims_prod_app s t : dims_prod (s ++ t) = (dims_prod s * dims_prod t)%nat.
Proof. unfold dims_prod. induction s as [|d s IH]; cbn [app fold_right]; [lia|]. rewrite IH. lia. Qed.
Lemma offset_app s idx l j : length s = length idx -> Offset (s ++ [l]) (idx ++ [j]) = (Offset s idx * l + j)%nat.
Proof.
  revert idx. induction s as [|d s IH]; intros [|i idx] H; try discriminate; cbn [app Offset]; [cbn; lia|].
  rewrite IH by (cbn in H; lia). change (fold_right Nat.mul 1 (s ++ [l]))%nat with (dims_prod (s ++ [l])). change (fold_right Nat.mul 1 s)%nat with (dims_prod s).
  rewrite dims_prod_app. change (dims_prod [l]) with (l * 1)%nat. nia.
Qed.
Lemma in_range_length s idx : InRange s idx -> length s = length idx.
Proof. induction 1; cbn; congruence. Qed.
(** C97. [flatten_4D] of an array of two or more dimensions has one row per leading index tuple, in row-major order, and the last
    axis as columns; one-dimensional arrays are rejected (the error is a by-product: np.prod of no dimensions is a float), and so are 0-dimensional ones. *)
Theorem C97_flatten : forall {F} (a : ndarray F), wf_array a ->
  (forall s l, shape a = s ++ [l] -> s <> [] -> exists b, flatten_4D a = Ok b /\ wf_array b /\ shape b = [dims_prod s; l] /\
     forall idx j, InRange s idx -> (j < l)%nat -> InRange (shape b) [Offset s idx; j] /\ EntryAt b [Offset s idx; j] = EntryAt a (idx ++ [j])) /\
  (forall n, shape a = [n] -> flatten_4D a = Raise TypeError) /\ (shape a = [] -> flatten_4D a = Raise IndexError).
Proof.
  intros F a W. unfold flatten_4D. split; [|split].
  - intros s l E Hs. rewrite E, removelast_last.
    assert (last_opt (s ++ [l]) = Some l) as ->. { unfold last_opt. rewrite app_length. cbn [length]. rewrite Nat.add_sub, nth_error_app2, Nat.sub_diag by lia. reflexivity. }
    exists (mkarr [dims_prod s; l] (data a)). split; [destruct s; [congruence|reflexivity]|]. unfold wf_array in *. cbn [shape data].
    rewrite E, dims_prod_app in W. split; [rewrite W; cbn; lia|]. split; [reflexivity|]. intros idx j H Hj.
    split; [constructor; [apply offset_lt; exact H|constructor; [exact Hj|constructor]]|].
    unfold EntryAt. cbn [shape data]. rewrite E. rewrite offset_app by (apply in_range_length; exact H). f_equal. cbn. lia.
  - intros n E. rewrite E. reflexivity.
  - intros E. rewrite E. reflexivity.
Qed.
Print Assumptions C97_flatten.
Example C97_flatten_case : flatten_4D (mkarr [2; 1; 2; 2]%nat [1; 2; 3; 4; 5; 6; 7; 8]%Z) = Ok (mkarr [4; 2]%nat [1; 2; 3; 4; 5; 6; 7; 8]%Z) /\
  EntryAt (mkarr [2; 1; 2; 2]%nat [1; 2; 3; 4; 5; 6; 7; 8]%Z) [1; 0; 1; 0]%nat = Some 7%Z /\
  EntryAt (mkarr [4; 2]%nat [1; 2; 3; 4; 5; 6; 7; 8]%Z) [3; 0]%nat = Some 7%Z /\
  flatten_4D (mkarr [3]%nat [1; 2; 3]%Z) = Raise TypeError /\ flatten_4D (mkarr [] [5%Z]) = Raise IndexError.
Proof. repeat split; reflexivity. Qed.

(** C97. [variance] of two or more values is the unbiased sample variance: n / (n - 1) times the population variance, so
    non-negative, zero iff all values agree; a single value raises. *)
Theorem C97_variance : forall (arr : list R), (2 <= length arr)%nat -> exists s, variance arr = Ok s /\
  s = PopVar arr * (INR (length arr) / (INR (length arr) - 1)) /\ 0 <= s /\ (s = 0 <-> forall x y, In x arr -> In y arr -> x = y).
Proof.
  intros arr H. unfold variance. replace (Nat.eqb (length arr) 1) with false by (symmetry; apply Nat.eqb_neq; lia). cbv zeta.
  rewrite nmean_R, nsum_R. cbn [nsub nmul ndiv n1 nofZ Num_R]. rewrite <- INR_IZR_INZ. assert (Hn : 2 <= INR (length arr)) by (apply le_INR in H; cbn in H; lra).
  eexists. split; [reflexivity|].
  assert (E : 1 / (INR (length arr) - 1) * Rsum (map (fun x => (x - Rmean arr) * (x - Rmean arr)) arr) = PopVar arr * (INR (length arr) / (INR (length arr) - 1))).
  { unfold PopVar. field. lra. }
  split; [exact E|]. rewrite E. assert (P : 0 < INR (length arr) / (INR (length arr) - 1)) by (apply Rdiv_lt_0_compat; lra).
  pose proof (PopVar_nonneg arr) as Q. split; [apply Rmult_le_pos; lra|]. rewrite <- PopVar_zero by (destruct arr; [cbn in H; lia|discriminate]).
  split; intros Z; [apply Rmult_integral in Z; lra|rewrite Z; ring].
Qed.
Print Assumptions C97_variance.
Example C97_variance_case : exists q, variance [1; 2; 4; 5]%Q = Ok q /\ Qeq q (10 # 3).
Proof. eexists. split; [vm_compute; reflexivity|reflexivity]. Qed.
Example C97_variance_single : variance [1]%Q = Raise GenericException.
Proof. reflexivity. Qed.

(** ** is_symmetric *)
Lemma isclose_R rtol atol (x y : R) : isclose rtol atol x y = true <-> Rabs (x - y) <= atol + rtol * Rabs y.
Proof. unfold isclose. apply nle_R_true. Qed.
Lemma forallb_seq (f : nat -> bool) n : forallb f (seq 0 n) = true <-> forall i, (i < n)%nat -> f i = true.
Proof. rewrite forallb_forall. split; intros H i Hi; apply H; [apply in_seq; lia|apply in_seq in Hi; lia]. Qed.
Definition Entry2 (c : nat) (d : list R) (i j : nat) : R := nth (i * c + j) d 0.
(** C96. A square array is accepted exactly when every pair of mirrored entries differs by at most atol plus rtol times the
    smaller of the two magnitudes; so its transpose gets the same answer, and exactly symmetric arrays are accepted. *)
Theorem C96_square : forall rtol atol (n : nat) (d : list R), 0 <= rtol -> 0 <= atol ->
  (exists b, is_symmetric rtol atol (mkarr [n; n] d) = Ok b /\
     (b = true <-> forall i j, (i < n)%nat -> (j < n)%nat ->
        Rabs (Entry2 n d i j - Entry2 n d j i) <= atol + rtol * Rmin (Rabs (Entry2 n d i j)) (Rabs (Entry2 n d j i)))) /\
  (forall d', (forall i j, (i < n)%nat -> (j < n)%nat -> Entry2 n d' i j = Entry2 n d j i) ->
     is_symmetric rtol atol (mkarr [n; n] d') = is_symmetric rtol atol (mkarr [n; n] d)) /\
  ((forall i j, (i < n)%nat -> (j < n)%nat -> Entry2 n d i j = Entry2 n d j i) -> is_symmetric rtol atol (mkarr [n; n] d) = Ok true).
Proof.
  intros rtol atol n d Hr Ha.
  assert (G : forall d, exists b, is_symmetric rtol atol (mkarr [n; n] d) = Ok b /\
     (b = true <-> forall i j, (i < n)%nat -> (j < n)%nat -> Rabs (Entry2 n d i j - Entry2 n d j i) <= atol + rtol * Rabs (Entry2 n d j i))).
  { clear d. intros d. unfold is_symmetric. cbn [shape data]. rewrite Nat.eqb_refl. eexists. split; [reflexivity|]. rewrite forallb_seq.
    split; intros H i; [intros j Hi Hj; specialize (H i Hi); rewrite forallb_seq in H; specialize (H j Hj); now apply isclose_R in H|].
    intros Hi. apply forallb_seq. intros j Hj. apply isclose_R. now apply H. }
  destruct (G d) as (b & E & B). split; [|split].
  - exists b. split; [exact E|]. rewrite B. split; intros H i j Hi Hj.
    + pose proof (H i j Hi Hj) as H1. pose proof (H j i Hj Hi) as H2. rewrite <- Rabs_Ropp in H2. replace (- (Entry2 n d j i - Entry2 n d i j)) with (Entry2 n d i j - Entry2 n d j i) in H2 by ring.
      unfold Rmin. destruct (Rle_dec _ _); assumption.
    + eapply Rle_trans; [now apply H|]. apply Rplus_le_compat_l, Rmult_le_compat_l; [exact Hr|apply Rmin_r].
  - intros d' T. destruct (G d') as (b' & E' & B'). rewrite E, E'. f_equal. apply eq_true_iff_eq. rewrite B, B'. split; intros H i j Hi Hj; specialize (H j i Hj Hi); rewrite ?T in * by assumption; exact H.
  - intros S. rewrite E. f_equal. apply B. intros i j Hi Hj. rewrite (S i j Hi Hj), Rminus_eq_0, Rabs_R0.
    pose proof (Rabs_pos (Entry2 n d j i)). assert (0 <= rtol * Rabs (Entry2 n d j i)) by (apply Rmult_le_pos; assumption). lra.
Qed.
Print Assumptions C96_square.
Example C96_case : is_symmetric (1 # 10)%Q 0%Q (mkarr [2; 2]%nat [1; 10; 9; 5]%Q) = Ok false /\
  is_symmetric (1 # 9)%Q 0%Q (mkarr [2; 2]%nat [1; 10; 9; 5]%Q) = Ok true /\ is_symmetric 0%Q 0%Q (mkarr [2; 2]%nat [1; 3; 3; 5]%Q) = Ok true.
Proof. vm_compute. repeat split; reflexivity. Qed.
(** C96 is false of arrays that are not square.  Every one-dimensional array is called symmetric, and so are a single row and a
    single column exactly when all entries agree up to the tolerances; other shapes raise instead of answering. *)
Theorem C96_not_square_refuted : forall rtol atol (d : list R), 0 <= rtol -> 0 <= atol ->
  is_symmetric rtol atol (mkarr [length d] d) = Ok true /\
  (forall (n : nat) x, is_symmetric rtol atol (mkarr [1%nat; n] (repeat x n)) = Ok true /\ is_symmetric rtol atol (mkarr [n; 1%nat] (repeat x n)) = Ok true) /\
  (forall r c : nat, r <> c -> r <> 1%nat -> c <> 1%nat -> is_symmetric rtol atol (mkarr [r; c] d) = Raise ValueError).
Proof.
  intros rtol atol d Hr Ha. assert (C : forall x : R, isclose rtol atol x x = true).
  { intros x. apply isclose_R. rewrite Rminus_eq_0, Rabs_R0. pose proof (Rabs_pos x). assert (0 <= rtol * Rabs x) by (apply Rmult_le_pos; assumption). lra. }
  split; [|split].
  - unfold is_symmetric. cbn [shape data]. f_equal. apply forallb_forall. intros x _. apply C.
  - intros n x. assert (Z : forall i, (i < n)%nat -> nth i (repeat x n) 0 = x).
    { intros i Hi. rewrite (nth_indep _ 0 x) by now rewrite repeat_length. apply nth_repeat. }
    assert (F : forallb (fun i => forallb (fun j => isclose rtol atol (nth j (repeat x n) 0) (nth i (repeat x n) 0)) (seq 0 n)) (seq 0 n) = true /\
                forallb (fun i => forallb (fun j => isclose rtol atol (nth i (repeat x n) 0) (nth j (repeat x n) 0)) (seq 0 n)) (seq 0 n) = true).
    { split; apply forallb_seq; intros i Hi; apply forallb_seq; intros j Hj; rewrite !Z by assumption; apply C. }
    destruct F as (F1 & F2). unfold is_symmetric. cbn [shape data]. split.
    + destruct (Nat.eqb_spec 1 n) as [<-|H]; [cbn [seq forallb Nat.mul Nat.add repeat nth]; now rewrite C|]. exact (f_equal Ok F1).
    + destruct (Nat.eqb_spec n 1) as [->|H]; [cbn [seq forallb Nat.mul Nat.add repeat nth]; now rewrite C|]. exact (f_equal Ok F2).
  - intros r c H1 H2 H3. unfold is_symmetric. cbn [shape]. apply Nat.eqb_neq in H1, H2, H3. now rewrite H1, H2, H3.
Qed.
Print Assumptions C96_not_square_refuted.
Example C96_row_case : is_symmetric 0%Q 0%Q (mkarr [1; 3]%nat [2; 2; 2]%Q) = Ok true /\ is_symmetric 0%Q 0%Q (mkarr [1; 3]%nat [2; 2; 3]%Q) = Ok false /\
  is_symmetric 0%Q 0%Q (mkarr [3]%nat [1; 2; 3]%Q) = Ok true /\ is_symmetric 0%Q 0%Q (mkarr [2; 3]%nat [0; 0; 0; 0; 0; 0]%Q) = Raise ValueError.
Proof. vm_compute. repeat split; reflexivity. Qed.
