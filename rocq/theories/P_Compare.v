(** Proofs about curve comparison. *)
From Coq Require Import String List ZArith Bool Arith Lia Reals Lra.
From Verif Require Import Base S_Order S_EigVals S_Trim M_Step M_EigVals M_Compare S_Compare P_Order P_Step P_EigVals P_TrimStat P_Ols.
Import ListNotations.
Local Notation length := List.length.

Section Validate.
Context {F : Type} {N : Num F}.
Lemma map_result_ok {A B} (f : A -> result B) (g : A -> B) l : Forall (fun x => f x = Ok (g x)) l -> map_result f l = Ok (map g l).
Proof. induction 1 as [|x l H _ IH]; [reflexivity|]. cbn. now rewrite H, IH. Qed.
Definition valid_args (c : compare (F := F)) : Prop :=
  (length (c_curves c) > 1 \/ (length (c_curves c) = 1 /\ c_base c <> None))%nat /\ length (c_curves c) = length (c_labels c).
Lemma validate_false (c : compare (F := F)) :
  (valid_args c -> validate c false = Ok tt) /\ (~ valid_args c -> validate c false = Raise ValueError).
Proof.
  unfold validate, valid_args. destruct (c_curves c) as [|a [|b l]]; cbn [length Nat.ltb Nat.leb].
  - split; [intros ([H|(H & _)] & _); lia|reflexivity].
  - change (Nat.eqb 1 1) with true. destruct (c_base c) eqn:B; cbn [andb].
    + destruct (c_labels c) as [|? [|]]; cbn; split; auto; intros H; try (destruct H as (_ & H); discriminate); exfalso; apply H; split; auto; right; split; auto; discriminate.
    + split; [intros ([H|(_ & H)] & _); [lia|congruence]|reflexivity].
  - change (Nat.eqb (S (S (length l))) 1) with false. cbn [andb]. destruct (Nat.eqb_spec (S (S (length l))) (length (c_labels c))) as [E|E]; cbn [negb].
    + split; [reflexivity|]. intros H. exfalso. apply H. split; [left; lia|exact E].
    + split; [intros (_ & H); congruence|reflexivity].
Qed.
Lemma validate_true (c : compare (F := F)) t : valid_args c -> AllLength t (c_curves c) ->
  (c_base_label c <> None -> forall b, c_base c = Some b -> length b = t) -> validate c true = Ok tt.
Proof.
  intros H HL HB. pose proof (proj1 (validate_false c) H) as V. unfold validate in *. cbv zeta in *. destruct (Nat.ltb _ 1) eqn:E1; [discriminate|].
  destruct (_ && _) eqn:E2; [discriminate|]. destruct (negb _) eqn:E3; [discriminate|]. unfold AllLength in HL.
  assert (H0 : length (nth 0 (c_curves c) []) = t).
  { destruct (c_curves c) as [|a l]; [discriminate|]. now inversion HL. }
  assert (HA : forallb (fun k => Nat.eqb (length k) (length (nth 0 (c_curves c) []))) (c_curves c) = true).
  { apply forallb_forall. intros k Hk. rewrite Forall_forall in HL. apply Nat.eqb_eq. now rewrite (HL k Hk), H0. }
  rewrite HA. destruct (c_base c) as [b|], (c_base_label c) as [s|]; cbn [bind negb]; try reflexivity.
  rewrite H0, (HB ltac:(discriminate) b eq_refl), Nat.eqb_refl. reflexivity.
Qed.
Lemma validate_true_inv (c : compare (F := F)) : validate c true = Ok tt -> valid_args c /\
  exists t, AllLength t (c_curves c) /\ (c_base_label c <> None -> forall b, c_base c = Some b -> length b = t).
Proof.
  intros V. split.
  - destruct (validate c false) as [[]|e] eqn:E.
    + unfold validate, valid_args in *. cbv zeta in *. destruct (Nat.ltb _ 1) eqn:E1; [discriminate|]. apply Nat.ltb_ge in E1.
      destruct (_ && _) eqn:E2; [discriminate|]. destruct (negb _) eqn:E3; [discriminate|]. apply negb_false_iff, Nat.eqb_eq in E3. split; [|exact E3].
      destruct (Nat.eq_dec (length (c_curves c)) 1) as [E4|E4]; [right|left; lia]. split; [exact E4|]. rewrite E4 in E2. cbn in E2. destruct (c_base c); [discriminate|discriminate].
    + unfold validate in *. cbv zeta in *. destruct (Nat.ltb _ 1); [discriminate|]. destruct (_ && _); [discriminate|]. destruct (negb _); discriminate.
  - exists (length (nth 0 (c_curves c) [])). unfold validate in V. cbv zeta in V. destruct (Nat.ltb _ 1); [discriminate|]. destruct (_ && _); [discriminate|].
    destruct (negb (Nat.eqb (length (c_curves c)) _)); [discriminate|].
    assert (G : (if negb (forallb (fun k => Nat.eqb (length k) (length (nth 0 (c_curves c) []))) (c_curves c)) then @Raise unit ValueError else Ok tt) = Ok tt ->
      AllLength (length (nth 0 (c_curves c) [])) (c_curves c)).
    { destruct (forallb _ _) eqn:E; [|discriminate]. intros _. apply Forall_forall. intros k Hk. rewrite forallb_forall in E. apply Nat.eqb_eq. now apply E. }
    destruct (c_base c) as [b|], (c_base_label c) as [s|]; cbn [bind] in V.
    + destruct (negb (Nat.eqb (length (nth 0 (c_curves c) [])) (length b))) eqn:E; [discriminate|]. cbn [bind] in V. split; [now apply G|].
      intros _ b' [= <-]. apply negb_false_iff, Nat.eqb_eq in E. now symmetry.
    + split; [now apply G|]. congruence.
    + split; [now apply G|]. intros _ b. discriminate.
    + split; [now apply G|]. congruence.
Qed.
Lemma validate_only (c : compare (F := F)) b : validate c b = Ok tt \/ validate c b = Raise ValueError.
Proof.
  unfold validate. cbv zeta. destruct (Nat.ltb _ 1); [auto|]. destruct (_ && _); [auto|]. destruct (negb _); [auto|]. destruct b; [|auto].
  destruct (c_base c) as [x|], (c_base_label c); cbn [bind]; try (destruct (negb _); auto; fail).
  destruct (negb _); cbn [bind]; [auto|]. destruct (negb _); auto.
Qed.
Lemma table_entry (g : F -> F) curves i j ci cj : nth_error curves i = Some ci -> nth_error curves j = Some cj ->
  Entry (fast_table g curves) i j (nmean (map g (map (fun p => nsub (fst p) (snd p)) (combine ci cj)))).
Proof.
  intros Hi Hj. unfold fast_table. eexists. split; [rewrite nth_error_map, Hi; reflexivity|]. rewrite nth_error_map, Hj. reflexivity.
Qed.
Lemma Entry_fun {A} (d : list (list A)) i j x y : Entry d i j x -> Entry d i j y -> x = y.
Proof. intros (r & H1 & H2) (r' & H3 & H4). congruence. Qed.
End Validate.

Local Open Scope R_scope.
Lemma entry_sq a b : nmean (map square (map (fun p : R * R => nsub (fst p) (snd p)) (combine a b))) = MeanSq a b.
Proof. rewrite nmean_R, map_map. reflexivity. Qed.
Lemma entry_abs a b : nmean (map nabs (map (fun p : R * R => nsub (fst p) (snd p)) (combine a b))) = MeanAbs a b.
Proof. rewrite nmean_R, map_map. reflexivity. Qed.

Lemma combine_swap {A B} (a : list A) (b : list B) : combine b a = map (fun p => (snd p, fst p)) (combine a b).
Proof. revert b. induction a as [|x a IH]; intros [|y b]; cbn; try reflexivity. now rewrite IH. Qed.
Lemma MeanSq_sym a b : MeanSq a b = MeanSq b a.
Proof. unfold MeanSq. rewrite (combine_swap a b), map_map. f_equal. apply map_ext. intros (x, y). cbn. ring. Qed.
Lemma MeanAbs_sym a b : MeanAbs a b = MeanAbs b a.
Proof. unfold MeanAbs. rewrite (combine_swap a b), map_map. f_equal. apply map_ext. intros (x, y). cbn. apply Rabs_minus_sym. Qed.
Lemma Rsum_nonneg l : Forall (fun x => 0 <= x) l -> 0 <= Rsum l.
Proof. induction 1 as [|x l H _ IH]; [cbn; lra|]. rewrite Rsum_cons. lra. Qed.
Lemma Rsum_zero_all l : Forall (fun x => 0 <= x) l -> Rsum l = 0 -> Forall (fun x => x = 0) l.
Proof.
  induction 1 as [|x l H Hl IH]; intros E; constructor; rewrite Rsum_cons in E; pose proof (Rsum_nonneg l Hl); [lra|]. apply IH. lra.
Qed.
Lemma Rmean_nonneg l : Forall (fun x => 0 <= x) l -> 0 <= Rmean l.
Proof.
  intros H. rewrite Rmean_INR. destruct l as [|a l]; [cbn; unfold Rdiv; rewrite Rmult_0_l; lra|]. apply Rmult_le_pos; [now apply Rsum_nonneg|].
  left. apply Rinv_0_lt_compat, lt_0_INR. cbn. lia.
Qed.
Lemma Rmean_zero_all l : l <> [] -> Forall (fun x => 0 <= x) l -> Rmean l = 0 -> Forall (fun x => x = 0) l.
Proof.
  intros Hl H E. apply Rsum_zero_all; [exact H|]. rewrite Rmean_INR in E. assert (INR (length l) <> 0) by (apply not_0_INR; now destruct l).
  apply (Rmult_eq_compat_r (INR (length l))) in E. unfold Rdiv in E. rewrite Rmult_assoc, Rinv_l, Rmult_1_r, Rmult_0_l in E by assumption. exact E.
Qed.
Lemma sq_nonneg x : 0 <= x * x. Proof. apply Rle_0_sqr. Qed.
Lemma sq_terms (l : list (R * R)) : Forall (fun x => 0 <= x) (map (fun p => (fst p - snd p) * (fst p - snd p)) l).
Proof. apply Forall_forall. intros x Hx. apply in_map_iff in Hx as (p & <- & _). apply sq_nonneg. Qed.
Lemma abs_terms (l : list (R * R)) : Forall (fun x => 0 <= x) (map (fun p => Rabs (fst p - snd p)) l).
Proof. apply Forall_forall. intros x Hx. apply in_map_iff in Hx as (p & <- & _). apply Rabs_pos. Qed.
Lemma combine_equal (a b : list R) : length a = length b -> (forall p, In p (combine a b) -> fst p = snd p) -> a = b.
Proof.
  revert b. induction a as [|x a IH]; intros [|y b] Hl H; try discriminate; [reflexivity|]. cbn in *. f_equal; [apply (H (x, y)); now left|].
  apply IH; [lia|]. intros p Hp. apply H. now right.
Qed.
Lemma combine_ne {A B} (a : list A) (b : list B) : a <> [] -> length a = length b -> combine a b <> [].
Proof. destruct a, b; cbn; congruence. Qed.
Lemma MeanSq_zero a b : a <> [] -> length a = length b -> MeanSq a b = 0 -> a = b.
Proof.
  intros Ha Hl E. apply combine_equal; [exact Hl|]. apply Rmean_zero_all in E; [|intros M; apply map_eq_nil in M; revert M; now apply combine_ne|apply sq_terms].
  rewrite Forall_forall in E. intros p Hp. specialize (E _ (in_map (fun p : R * R => (fst p - snd p) * (fst p - snd p)) _ _ Hp)). cbn in E.
  apply Rmult_integral in E. lra.
Qed.
Lemma MeanAbs_zero a b : a <> [] -> length a = length b -> MeanAbs a b = 0 -> a = b.
Proof.
  intros Ha Hl E. apply combine_equal; [exact Hl|]. apply Rmean_zero_all in E; [|intros M; apply map_eq_nil in M; revert M; now apply combine_ne|apply abs_terms].
  rewrite Forall_forall in E. intros p Hp. specialize (E _ (in_map (fun p : R * R => Rabs (fst p - snd p)) _ _ Hp)). cbn in E.
  destruct (Req_dec (fst p - snd p) 0) as [Q|Q]; [lra|]. apply Rabs_no_R0 in Q. contradiction.
Qed.
Lemma MeanSq_self a : MeanSq a a = 0.
Proof.
  unfold MeanSq. rewrite Rmean_INR. replace (Rsum _) with 0; [unfold Rdiv; ring|]. induction a as [|x a IH]; [reflexivity|]. cbn [combine map]. rewrite Rsum_cons, <- IH. cbn. ring.
Qed.
Lemma MeanAbs_self a : MeanAbs a a = 0.
Proof.
  unfold MeanAbs. rewrite Rmean_INR. replace (Rsum _) with 0; [unfold Rdiv; ring|]. induction a as [|x a IH]; [reflexivity|]. cbn [combine map]. rewrite Rsum_cons, <- IH.
  cbn. rewrite Rminus_diag_eq, Rabs_R0 by reflexivity. ring.
Qed.
Lemma MeanAbs_triangle a b c : length a = length b -> length b = length c -> MeanAbs a c <= MeanAbs a b + MeanAbs b c.
Proof.
  intros H1 H2. unfold MeanAbs. rewrite !Rmean_INR, !map_length, !combine_length.
  replace (Nat.min (length a) (length c)) with (length a) by lia. replace (Nat.min (length a) (length b)) with (length a) by lia.
  replace (Nat.min (length b) (length c)) with (length a) by lia. destruct a as [|x0 a0] eqn:Ea; [destruct b; [|discriminate]; cbn; unfold Rdiv; rewrite !Rmult_0_l; lra|]. rewrite <- Ea in *.
  assert (P : 0 < / INR (length a)) by (apply Rinv_0_lt_compat, lt_0_INR; rewrite Ea; cbn; lia). unfold Rdiv. rewrite <- Rmult_plus_distr_r.
  apply Rmult_le_compat_r; [lra|]. clear Ea x0 a0 P. revert b c H1 H2. induction a as [|x a IH]; intros [|y b] [|z c] H1 H2; try discriminate; [cbn; lra|].
  cbn [combine map]. rewrite !Rsum_cons. specialize (IH b c ltac:(cbn in *; lia) ltac:(cbn in *; lia)). cbn [fst snd].
  pose proof (Rabs_triang (x - y) (y - z)) as T. replace (x - y + (y - z)) with (x - z) in T by ring. lra.
Qed.

(** ** Correlation *)
Lemma cov1_R a b : cov1 a b = Codev a b / (INR (length a) - 1).
Proof.
  unfold cov1, Codev, nlen. rewrite nsum_R, !nmean_R. cbn [ndiv nsub n1 nofZ Num_R nmul]. rewrite INR_IZR_INZ. f_equal. f_equal.
  generalize (Rmean a) (Rmean b). intros m n. clear. revert b. induction a as [|x a IH]; intros [|y b]; try reflexivity. cbn [map combine]. now rewrite IH.
Qed.
Lemma Codev_sym a b : Codev a b = Codev b a.
Proof. unfold Codev. rewrite (combine_swap a b), map_map. f_equal. apply map_ext. intros (x, y). cbn. ring. Qed.
Lemma Codev_self a : Codev a a = Rsum (map (fun x => (x - Rmean a) * (x - Rmean a)) a).
Proof. unfold Codev. generalize (Rmean a) as m. intros m. induction a as [|x a IH]; [reflexivity|]. cbn [combine map]. now rewrite !Rsum_cons, IH. Qed.
Lemma Codev_nonneg a : 0 <= Codev a a.
Proof. rewrite Codev_self. apply (Rsum_sq_nonneg (fun x => x - Rmean a)). Qed.
Lemma Codev_pos a : NonConstant a -> 0 < Codev a a.
Proof.
  intros (x & y & Hx & Hy & Hxy). destruct (Codev_nonneg a) as [H|H]; [exact H|]. exfalso. symmetry in H. rewrite Codev_self in H.
  apply (Rsum_sq_zero (fun x => x - Rmean a)) in H. rewrite Forall_forall in H. pose proof (H x Hx). pose proof (H y Hy). cbn in *. lra.
Qed.
Lemma cs_general (l : list (R * R)) m n :
  let S f := Rsum (map f l) in
  S (fun p => (fst p - m) * (snd p - n)) * S (fun p => (fst p - m) * (snd p - n)) <=
  S (fun p => (fst p - m) * (fst p - m)) * S (fun p => (snd p - n) * (snd p - n)).
Proof.
  intros S. set (A := S (fun p => (fst p - m) * (fst p - m))). set (B := S (fun p => (snd p - n) * (snd p - n))). set (C := S (fun p => (fst p - m) * (snd p - n))).
  assert (E : forall u v, 0 <= u * u * A - 2 * u * v * C + v * v * B).
  { intros u v. replace (u * u * A - 2 * u * v * C + v * v * B) with (S (fun p => (u * (fst p - m) - v * (snd p - n)) * (u * (fst p - m) - v * (snd p - n)))).
    - apply Rsum_nonneg. apply Forall_forall. intros x Hx. apply in_map_iff in Hx as (p & <- & _). apply sq_nonneg.
    - unfold A, B, C, S. clear. induction l as [|p l IH]; [cbn; ring|]. cbn [map]. rewrite !Rsum_cons, IH. ring. }
  assert (HA : 0 <= A) by (pose proof (E 1 0); lra). assert (HB : 0 <= B) by (pose proof (E 0 1); lra).
  destruct HB as [HB|HB].
  - pose proof (E B C) as Q. replace (B * B * A - 2 * B * C * C + C * C * B) with (B * (A * B - C * C)) in Q by ring.
    destruct (Rle_or_lt (C * C) (A * B)) as [G|G]; [exact G|]. exfalso. assert (P : 0 < B * (C * C - A * B)) by (apply Rmult_lt_0_compat; lra). lra.
  - pose proof (E C (A + 1)) as Q. rewrite <- HB in *. rewrite Rmult_0_r in Q |- *.
    destruct (Rle_or_lt (C * C) 0) as [G|G]; [exact G|]. exfalso. assert (P : 0 < C * C * (A + 2)) by (apply Rmult_lt_0_compat; lra). lra.
Qed.
Lemma Codev_cs a b : length a = length b -> Codev a b * Codev a b <= Codev a a * Codev b b.
Proof.
  intros Hl. pose proof (cs_general (combine a b) (Rmean a) (Rmean b)) as H. cbv zeta in H. rewrite !Codev_self.
  replace (map (fun x => (x - Rmean a) * (x - Rmean a)) a) with (map (fun p => (fst p - Rmean a) * (fst p - Rmean a)) (combine a b)).
  2:{ generalize (Rmean a) as m. intros m. clear H. revert b Hl. induction a as [|x a IH]; intros [|y b] Hl; try discriminate; [reflexivity|]. cbn [combine map]. rewrite IH by (cbn in *; lia). reflexivity. }
  replace (map (fun x => (x - Rmean b) * (x - Rmean b)) b) with (map (fun p => (snd p - Rmean b) * (snd p - Rmean b)) (combine a b)).
  2:{ generalize (Rmean b) as m. intros m. clear H. revert b Hl. induction a as [|x a IH]; intros [|y b] Hl; try discriminate; [reflexivity|]. cbn [combine map]. rewrite IH by (cbn in *; lia). reflexivity. }
  exact H.
Qed.
Lemma Pearson_range a b : length a = length b -> NonConstant a -> NonConstant b -> -1 <= Pearson a b <= 1.
Proof.
  intros Hl Ha Hb. pose proof (Codev_pos a Ha) as PA. pose proof (Codev_pos b Hb) as PB. pose proof (Codev_cs a b Hl) as C. unfold Pearson.
  assert (P : 0 < Codev a a * Codev b b) by (apply Rmult_lt_0_compat; assumption). pose proof (sqrt_lt_R0 _ P) as S.
  assert (B : Rabs (Codev a b) <= sqrt (Codev a a * Codev b b)).
  { rewrite <- (sqrt_Rsqr_abs). apply sqrt_le_1_alt. exact C. }
  assert (Q : Rabs (Codev a b / sqrt (Codev a a * Codev b b)) <= 1).
  { unfold Rdiv. rewrite Rabs_mult, (Rabs_pos_eq (/ _)) by (left; now apply Rinv_0_lt_compat).
    apply Rmult_le_reg_r with (sqrt (Codev a a * Codev b b)); [exact S|]. rewrite Rmult_assoc, Rinv_l by lra. lra. }
  split; [pose proof (Rle_abs (- (Codev a b / sqrt (Codev a a * Codev b b)))) as G; rewrite Rabs_Ropp in G; lra|pose proof (Rle_abs (Codev a b / sqrt (Codev a a * Codev b b))); lra].
Qed.
Lemma Pearson_sym a b : Pearson a b = Pearson b a.
Proof. unfold Pearson. rewrite (Codev_sym a b), (Rmult_comm (Codev a a)). reflexivity. Qed.
Lemma Pearson_self a : NonConstant a -> Pearson a a = 1.
Proof. intros H. pose proof (Codev_pos a H). unfold Pearson. rewrite sqrt_square by lra. field. lra. Qed.
Lemma NonConstant_two a : NonConstant a -> (2 <= length a)%nat.
Proof. intros (x & y & Hx & Hy & Hxy). destruct a as [|u [|v a]]; [destruct Hx| |cbn; lia]. destruct Hx as [<-|[]], Hy as [<-|[]]. congruence. Qed.
Lemma corr_Pearson a b : length a = length b -> NonConstant a -> NonConstant b -> corrcoef a b = Pearson a b.
Proof.
  intros Hl Ha Hb. pose proof (Pearson_range a b Hl Ha Hb) as PR. pose proof (NonConstant_two a Ha) as T.
  assert (K : 0 < INR (length a) - 1) by (apply le_INR in T; cbn [INR] in T; lra).
  assert (E : corr_raw a b = Pearson a b).
  { unfold corr_raw. rewrite !cov1_R, <- Hl. cbn [ndiv Num_R]. unfold Pearson. pose proof (Codev_pos a Ha) as PA. pose proof (Codev_pos b Hb) as PB.
    rewrite !sqrt_div by lra. rewrite sqrt_mult by lra. set (k := INR (length a) - 1) in *.
    pose proof (sqrt_lt_R0 _ PA). pose proof (sqrt_lt_R0 _ PB). pose proof (sqrt_lt_R0 _ K). rewrite <- (sqrt_sqrt k) at 1 by lra. field. lra. }
  unfold corrcoef. rewrite E. unfold nmin2, nmax2. cbn [nlt nopp n1 Num_R]. destruct (Rlt_dec (Pearson a b) (- (1))); [lra|]. destruct (Rlt_dec 1 (Pearson a b)); [lra|reflexivity].
Qed.
