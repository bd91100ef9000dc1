(** The exact least-squares line of a staircase over a window, and the distance of the sampled rigidity from its minimum. *)
From Coq Require Import List ZArith Bool Arith Lia Reals Lra.
From Coquelicot Require Import Coquelicot.
From Verif Require Import Base S_Order S_EigVals S_Trim M_Step M_Quad S_Quad S_Rigidity P_Order P_Step P_EigVals P_TrimStat P_Quad P_Ols P_Loops P_RigidityLimit T_RigidityMean.
Import ListNotations.
Local Open Scope R_scope.
Local Notation length := List.length.

Definition stair (u : list R) (x : R) : R := IZR (CountLe u x).
Lemma stair_mono u x y : x <= y -> stair u x <= stair u y.
Proof.
  intros H. unfold stair. apply IZR_le. induction u as [|e u IH]; cbn [CountLe]; [lia|]. cbn. destruct (Rle_dec e x), (Rle_dec e y); lia || lra.
Qed.
(** ** Piecewise continuous functions built from the staircase are integrable *)
Lemma ex_RInt_pieces (T : list R) : forall (f : R -> R) (P : R -> R -> R) a b, a <= b -> (forall k x, continuous (P k) x) ->
  (forall c c', a < c < b -> a < c' < b -> (forall x, In x T -> (x <= c <-> x <= c')) -> f c = f c') -> ex_RInt (fun x => P (f x) x) a b.
Proof.
  induction T as [|x T IH]; intros f P a b Hab HP H.
  - apply (ex_RInt_ext (P (f ((a + b) / 2)))).
    + rewrite Rmin_left, Rmax_right by exact Hab. intros c Hc. f_equal. apply H; [lra|exact Hc|intros y []].
    + apply (ex_RInt_continuous (V := R_CompleteNormedModule)). intros; apply HP.
  - destruct (Rle_dec x a) as [Ha|Ha]; [|destruct (Rle_dec b x) as [Hb|Hb]].
    + apply IH; auto. intros c c' Hc Hc' E. apply H; auto. intros y [<-|Hy]; [|now apply E]. split; lra.
    + apply IH; auto. intros c c' Hc Hc' E. apply H; auto. intros y [<-|Hy]; [|now apply E]. split; lra.
    + apply (ex_RInt_Chasles (V := R_NormedModule) _ a x b); (apply IH; [lra|exact HP|]); intros c c' Hc Hc' E; apply H; try lra; intros y [<-|Hy]; try (now apply E); split; lra.
Qed.
Lemma ex_stair u (P : R -> R -> R) a b : a <= b -> (forall k x, continuous (P k) x) -> ex_RInt (fun x => P (stair u x) x) a b.
Proof. intros Hab HP. apply (ex_RInt_pieces u); auto. intros c c' _ _ E. unfold stair. f_equal. now apply countle_agree. Qed.
Lemma cont_of (f : R -> R) x : ex_derive f x -> continuous f x.
Proof. apply (ex_derive_continuous (V := R_NormedModule)). Qed.
Ltac cont := intros; apply cont_of; auto_derive; trivial.

(** ** The exact least-squares line *)
Section Window.
Variables (u : list R) (c L : R).
Hypothesis HL : 0 < L.
Let lo := c - L / 2.
Let hi := c + L / 2.
Let N := stair u hi - stair u lo.
Definition Q (A B : R) (x : R) : R := (stair u x - (A * x + B)) ^ 2.
Lemma ex_Q A B : ex_RInt (Q A B) lo hi.
Proof. apply (ex_stair u (fun k x => (k - (A * x + B)) ^ 2)). unfold lo, hi. lra. intros. apply cont_of. auto_derive. trivial. Qed.
Definition D (A B : R) : R := RInt (Q A B) lo hi / L.
Lemma D_dev A B : MeanSqDev u c L A B (D A B).
Proof. unfold MeanSqDev, D. assert (E : forall i : R, L * (i / L) = i) by (intro; field; lra). rewrite E. apply (RInt_correct (V := R_CompleteNormedModule)), ex_Q. Qed.
Lemma dev_D A B d : MeanSqDev u c L A B d -> d = D A B.
Proof. intros H. apply (is_RInt_unique (V := R_CompleteNormedModule)) in H. unfold D. change (RInt (Q A B) lo hi = L * d) in H. rewrite H. field. lra. Qed.
Definition I0 : R := RInt (fun x => stair u x) lo hi.
Definition I1 : R := RInt (fun x => (x - c) * (stair u x - (stair u hi + stair u lo) / 2)) lo hi.
Definition I2 : R := RInt (fun x => stair u x * stair u x) lo hi.
Let m := (stair u hi + stair u lo) / 2.
Lemma is_I0 : is_RInt (fun x => stair u x) lo hi I0.
Proof. apply (RInt_correct (V := R_CompleteNormedModule)). apply (ex_stair u (fun k _ => k)); [unfold lo, hi; lra|intros; apply continuous_const]. Qed.
Lemma is_I1 : is_RInt (fun x => (x - c) * (stair u x - m)) lo hi I1.
Proof. apply (RInt_correct (V := R_CompleteNormedModule)). apply (ex_stair u (fun k x => (x - c) * (k - m))); [unfold lo, hi; lra|cont]. Qed.
Lemma is_I2 : is_RInt (fun x => stair u x * stair u x) lo hi I2.
Proof. apply (RInt_correct (V := R_CompleteNormedModule)). apply (ex_stair u (fun k _ => k * k)); [unfold lo, hi; lra|intros; apply continuous_const]. Qed.
Definition A0 : R := 12 * I1 / (L * L * L).
Definition B0 : R := I0 / L - A0 * c.
Lemma D_form A B : D A B = D A0 B0 + L * L / 12 * (A - A0) ^ 2 + (B + A * c - (B0 + A0 * c)) ^ 2.
Proof.
  assert (F : forall A B, RInt (Q A B) lo hi = I2 - 2 * A * I1 - 2 * (B + A * c) * I0 + A * A * (L * L * L) / 12 + (B + A * c) ^ 2 * L).
  { intros a b. apply (is_RInt_unique (V := R_CompleteNormedModule)).
    pose proof (is_RInt_scal (V := R_NormedModule) _ _ _ (- 2 * a) _ is_I1) as J1. pose proof (is_RInt_scal (V := R_NormedModule) _ _ _ (- 2 * (b + a * c)) _ is_I0) as J0.
    pose proof (int_quadratic (a * a) (2 * a * b - 2 * a * m) (b * b + 2 * a * m * c) lo hi) as JP.
    pose proof (is_RInt_plus (V := R_NormedModule) _ _ _ _ _ _ (is_RInt_plus (V := R_NormedModule) _ _ _ _ _ _ is_I2 J1) (is_RInt_plus (V := R_NormedModule) _ _ _ _ _ _ J0 JP)) as J.
    match type of J with is_RInt _ _ _ ?v => replace v with (I2 - 2 * a * I1 - 2 * (b + a * c) * I0 + a * a * (L * L * L) / 12 + (b + a * c) ^ 2 * L) in J end.
    - eapply is_RInt_ext; [|exact J]. intros x _. unfold Q, plus, scal. cbn. unfold mult. cbn. ring.
    - unfold plus, scal. cbn. unfold mult. cbn. unfold lo, hi. field. }
  unfold D. rewrite !F. unfold B0, A0. set (a := 12 * I1 / (L * L * L)).
  assert (E1 : I1 = a * (L * L * L) / 12) by (unfold a; field; lra). rewrite E1. field. lra.
Qed.
Lemma exact : ExactRigidity u c L (D A0 B0).
Proof.
  split; [exists A0, B0; apply D_dev|]. intros A B d H. apply dev_D in H. rewrite H, (D_form A B).
  pose proof (pow2_ge_0 (A - A0)). pose proof (pow2_ge_0 (B + A * c - (B0 + A0 * c))). pose proof (Rmult_le_pos (L * L / 12) _ ltac:(pose proof (Rmult_lt_0_compat L L HL HL); lra) H0). lra.
Qed.
Lemma exact_unique e : ExactRigidity u c L e -> e = D A0 B0.
Proof.
  intros ((A & B & H) & Hm). destruct exact as (_ & Hx). apply Rle_antisym; [exact (Hm _ _ _ (D_dev A0 B0))|exact (Hx _ _ _ H)].
Qed.
(** ** Lines of moderate slope through the staircase *)
Definition Tame (A B : R) : Prop := Rabs A <= 3 * N / L /\ stair u lo <= A * c + B <= stair u hi.
Lemma N_pos : 0 <= N.
Proof. unfold N. pose proof (stair_mono u lo hi ltac:(unfold lo, hi; lra)). lra. Qed.
Lemma window x : lo <= x <= hi -> stair u lo <= stair u x <= stair u hi.
Proof. intros H. split; apply stair_mono; lra. Qed.
Lemma tame_dev A B x : Tame A B -> lo <= x <= hi -> Rabs (stair u x - (A * x + B)) <= 5 / 2 * N.
Proof.
  intros (HA & HB) Hx. pose proof (window x Hx) as W. pose proof N_pos as HN. replace (stair u x - (A * x + B)) with (stair u x - (A * c + B) - A * (x - c)) by ring.
  assert (Rabs (A * (x - c)) <= 3 / 2 * N).
  { rewrite Rabs_mult. apply Rle_trans with (3 * N / L * (L / 2)); [|right; field; lra]. apply Rmult_le_compat; try apply Rabs_pos; [exact HA|]. apply Rabs_le_between. unfold lo, hi in Hx. lra. }
  apply Rabs_le_between in H. apply Rabs_le_between. unfold N in *. lra.
Qed.
Definition W (x : R) : R := 5 * N * (stair u x + 3 * N / L * x).
Lemma tame_var A B : Tame A B -> forall p q, lo <= p -> p <= q -> q <= hi -> Rabs (Q A B q - Q A B p) <= W q - W p.
Proof.
  intros H p q Hp Hpq Hq. pose proof (tame_dev A B p H ltac:(lra)) as Rp. pose proof (tame_dev A B q H ltac:(lra)) as Rq. destruct H as (HA & _).
  unfold Q, W. set (rp := stair u p - (A * p + B)) in *. set (rq := stair u q - (A * q + B)) in *. replace (rq ^ 2 - rp ^ 2) with ((rq + rp) * (rq - rp)) by ring.
  rewrite Rabs_mult. replace (5 * N * (stair u q + 3 * N / L * q) - 5 * N * (stair u p + 3 * N / L * p)) with (5 * N * ((stair u q - stair u p) + 3 * N / L * (q - p))) by ring.
  apply Rmult_le_compat; try apply Rabs_pos; [eapply Rle_trans; [apply Rabs_triang|]; lra|].
  replace (rq - rp) with ((stair u q - stair u p) + (- A) * (q - p)) by (unfold rq, rp; ring). eapply Rle_trans; [apply Rabs_triang|].
  rewrite Rabs_mult, Rabs_Ropp, (Rabs_pos_eq (q - p)) by lra. rewrite Rabs_pos_eq by (pose proof (stair_mono u p q Hpq); lra).
  apply Rplus_le_compat_l. apply Rmult_le_compat_r; lra.
Qed.
Lemma W_total : W hi - W lo = 20 * N ^ 2.
Proof.
  unfold W. replace (5 * N * (stair u hi + 3 * N / L * hi) - 5 * N * (stair u lo + 3 * N / L * lo)) with (5 * N * ((stair u hi - stair u lo) + 3 * N / L * (hi - lo))) by ring.
  fold N. replace (hi - lo) with L by (unfold hi, lo; field). field. lra.
Qed.
Lemma exact_tame : Tame A0 B0.
Proof.
  pose proof N_pos as HN. assert (Hlh : lo <= hi) by (unfold lo, hi; lra). assert (EL : hi - lo = L) by (unfold lo, hi; field). split.
  - assert (B : Rabs (I1 - (hi - lo) * 0) <= (hi - lo) * (L / 2 * (N / 2))).
    { apply (cell _ lo hi 0 _ _ Hlh) with (2 := is_I1). intros t Ht. pose proof (window t Ht). rewrite Rminus_0_r, Rabs_mult.
      apply Rmult_le_compat; try apply Rabs_pos; apply Rabs_le_between; unfold N, m, lo, hi in *; lra. }
    rewrite EL in B. replace (I1 - L * 0) with I1 in B by ring. unfold A0. unfold Rdiv. rewrite !Rabs_mult, (Rabs_pos_eq 12) by lra.
    assert (PL : 0 < L * L * L) by (apply Rmult_lt_0_compat; nra). rewrite (Rabs_pos_eq (/ (L * L * L))) by (left; now apply Rinv_0_lt_compat).
    apply Rle_trans with (12 * (L * (L / 2 * (N / 2))) * / (L * L * L)); [|right; field; lra].
    apply Rmult_le_compat_r; [left; now apply Rinv_0_lt_compat|]. lra.
  - replace (A0 * c + B0) with (I0 / L) by (unfold B0; ring).
    assert (B : Rabs (I0 - (hi - lo) * m) <= (hi - lo) * (N / 2)).
    { apply (cell _ lo hi m _ _ Hlh) with (2 := is_I0). intros t Ht. pose proof (window t Ht). apply Rabs_le_between. unfold N, m. lra. }
    rewrite EL in B. apply Rabs_le_between in B. assert (E : L * (I0 / L) = I0) by (field; lra). unfold N, m in *. split; apply (Rmult_le_reg_l L); try exact HL; rewrite E; lra.
Qed.

(** ** The line fitted on the grid *)
Variable n : nat.
Hypothesis Hn : (3 <= n)%nat.
Let M := (n - 1)%nat.
Let s := (hi - lo) / (INR n - 1).
Let g := EvenGrid lo hi n.
Let y := map (stair u) g.
Lemma Hn1 : INR n - 1 = INR M.
Proof. unfold M. rewrite minus_INR by lia. reflexivity. Qed.
Lemma HM0 : 2 <= INR M.
Proof. rewrite <- Hn1. apply le_INR in Hn. cbn in Hn. lra. Qed.
Lemma s_pos : 0 < s.
Proof. unfold s. rewrite Hn1. pose proof HM0. apply Rdiv_lt_0_compat; unfold hi, lo; lra. Qed.
Lemma top : lo + INR M * s = hi.
Proof. unfold s. rewrite Hn1. pose proof HM0. field. lra. Qed.
Lemma g_nth i : (i <= M)%nat -> nth i g 0 = lo + INR i * s.
Proof. intros H. unfold g, EvenGrid. rewrite (nth_map_in _ _ _ 0 0%nat) by (rewrite seq_length; unfold M in H; lia). rewrite seq_nth by (unfold M in H; lia). reflexivity. Qed.
Lemma g_len : length g = S M.
Proof. unfold g, M. rewrite even_length. lia. Qed.
Lemma g_in x : In x g -> lo <= x <= hi.
Proof.
  intros H. apply In_nth with (d := 0) in H. destruct H as (i & Hi & <-). rewrite g_len in Hi. rewrite g_nth by lia. pose proof s_pos. pose proof (pos_INR i). assert (INR i <= INR M) by (apply le_INR; lia).
  rewrite <- top. split; nra.
Qed.
Lemma sqres_Q A B : SqResiduals g y A B = map (Q A B) g.
Proof. unfold SqResiduals, Residuals, y. rewrite map_map. clear. induction g as [|a l IH]; [reflexivity|]. cbn [map combine]. rewrite IH. f_equal. cbn [fst snd]. unfold Q. ring. Qed.
Lemma sum_seq k : Rsum (map INR (seq 0 k)) = INR k * (INR k - 1) / 2 /\ Rsum (map (fun i => INR i * INR i) (seq 0 k)) = INR k * (INR k - 1) * (2 * INR k - 1) / 6.
Proof.
  induction k as [|k (IH1 & IH2)]; [cbn; lra|]. rewrite seq_S, !map_app, !Rsum_app, IH1, IH2, S_INR. cbn [map plus]. rewrite !Rsum_cons. change (Rsum []) with 0. rewrite Nat.add_0_l. split; field.
Qed.
Lemma sum_aff k : forall a b, Rsum (map (fun i => a * INR i + b) (seq 0 k)) = a * (INR k * (INR k - 1) / 2) + INR k * b.
Proof. intros a b. rewrite <- (proj1 (sum_seq k)). rewrite <- (seq_length k 0) at 3. induction (seq 0 k) as [|i l IH]; [cbn; ring|]. cbn [map length]. rewrite !Rsum_cons, IH, S_INR. ring. Qed.
Lemma sum_quad k : forall a b d, Rsum (map (fun i => a * (INR i * INR i) + b * INR i + d) (seq 0 k)) = a * (INR k * (INR k - 1) * (2 * INR k - 1) / 6) + b * (INR k * (INR k - 1) / 2) + INR k * d.
Proof.
  intros a b d. rewrite <- (proj1 (sum_seq k)), <- (proj2 (sum_seq k)). rewrite <- (seq_length k 0) at 4. induction (seq 0 k) as [|i l IH]; [cbn; ring|]. cbn [map length]. rewrite !Rsum_cons, IH, S_INR. ring.
Qed.
Lemma g_mean : Rmean g = c.
Proof.
  pose proof HM0 as H. rewrite Rmean_INR. unfold g at 1, EvenGrid. fold s. rewrite (map_ext _ (fun i => s * INR i + lo)) by (intro; ring). rewrite sum_aff. unfold g. rewrite even_length.
  unfold s. rewrite Hn1. replace (INR n) with (INR M + 1) by (rewrite <- Hn1; ring). unfold hi, lo. field. lra.
Qed.
Lemma g_Sxx : INR n * (L * L) / 12 <= Sxy g g c c.
Proof.
  pose proof HM0 as H. unfold Sxy, g, EvenGrid. fold s. replace (combine _ _) with (map (fun i => (lo + INR i * s, lo + INR i * s)) (seq 0 n)) by (generalize (seq 0 n); induction l as [|i l IH]; [reflexivity|cbn; now rewrite IH]).
  rewrite map_map. cbn [fst snd]. rewrite (map_ext _ (fun i => s * s * (INR i * INR i) + 2 * s * (lo - c) * INR i + (lo - c) * (lo - c))) by (intro; ring). rewrite sum_quad.
  unfold s. rewrite Hn1. replace (INR n) with (INR M + 1) by (rewrite <- Hn1; ring). unfold hi, lo.
  match goal with |- _ <= ?r => replace r with ((INR M + 1) * (L * L) / 12 * ((INR M + 2) / INR M)) by (field; lra) end.
  rewrite <- (Rmult_1_r ((INR M + 1) * (L * L) / 12)) at 1. apply Rmult_le_compat_l; [nra|]. apply (Rmult_le_reg_r (INR M)); [lra|]. replace ((INR M + 2) / INR M * INR M) with (INR M + 2) by (field; lra). lra.
Qed.
Lemma Rsum_abs_bound (l : list R) K : (forall v, In v l -> Rabs v <= K) -> Rabs (Rsum l) <= INR (length l) * K.
Proof.
  induction l as [|a l IH]; intros H; [cbn; rewrite Rabs_R0; lra|]. rewrite Rsum_cons. cbn [length]. rewrite S_INR. eapply Rle_trans; [apply Rabs_triang|].
  pose proof (H a (or_introl eq_refl)). specialize (IH (fun v h => H v (or_intror h))). lra.
Qed.
Lemma Sxy_center mm mm' : Sxy g y c mm = Sxy g y c mm'.
Proof.
  assert (Z : Rsum (map (fun v => v - c) g) = 0). { assert (Hne : g <> []) by (intros E; pose proof g_len as H; rewrite E in H; cbn in H; lia). pose proof (Rsum_dev g Hne) as Z. rewrite g_mean in Z. exact Z. }
  assert (E : Sxy g y c mm = Sxy g y c mm' + (mm' - mm) * Rsum (map (fun v => v - c) g)).
  { unfold Sxy, y. clear. induction g as [|a l IH]; [cbn; ring|]. cbn [map combine]. rewrite !Rsum_cons, IH. cbn [fst snd]. ring. }
  rewrite E, Z. ring.
Qed.
Lemma fit_tame : let k := slope g y in Tame k (intercept g y k).
Proof.
  intro k. pose proof N_pos as HN. pose proof HM0 as H2. assert (Hne : g <> []) by (intros E; pose proof g_len as H; rewrite E in H; cbn in H; lia).
  assert (HSxx := g_Sxx). assert (PS : 0 < INR n * (L * L) / 12). { replace (INR n) with (INR M + 1) by (rewrite <- Hn1; ring). assert (0 < L * L) by nra. nra. }
  split.
  - unfold k. rewrite slope_R, g_mean. destruct Req_EM_T as [E|E]; [lra|]. rewrite (Sxy_center (Rmean y) m).
    assert (B : Rabs (Sxy g y c m) <= INR n * (L / 2 * (N / 2))).
    { unfold Sxy. replace n with (length (map (fun p : R * R => (fst p - c) * (snd p - m)) (combine g y))) at 1.
      - apply Rsum_abs_bound. intros v Hv. apply in_map_iff in Hv as ((a & b) & <- & Hp). cbn [fst snd].
        assert (Hb : In a g /\ b = stair u a). { clear - Hp. unfold y in Hp. induction g as [|z l IH]; cbn in Hp; [tauto|]. destruct Hp as [Ep|Hp]; [injection Ep as <- <-; split; [now left|reflexivity]|]. destruct (IH Hp). split; [now right|assumption]. }
        destruct Hb as (Ha & ->). pose proof (g_in a Ha) as Ga. pose proof (window a Ga). rewrite Rabs_mult. apply Rmult_le_compat; try apply Rabs_pos; apply Rabs_le_between; unfold N, m, lo, hi in *; lra.
      - rewrite map_length, combine_length. unfold y. rewrite map_length, g_len. unfold M. lia. }
    unfold Rdiv. rewrite Rabs_mult, (Rabs_pos_eq (/ Sxy g g c c)) by (left; apply Rinv_0_lt_compat; lra).
    apply Rle_trans with (INR n * (L / 2 * (N / 2)) * / (INR n * (L * L) / 12)).
    + apply Rmult_le_compat; [apply Rabs_pos|left; apply Rinv_0_lt_compat; lra|exact B|]. apply Rinv_le_contravar; assumption.
    + right. field. split; [lra|]. replace (INR n) with (INR M + 1) by (rewrite <- Hn1; ring). lra.
  - rewrite intercept_R, g_mean. replace (k * c + (Rmean y - k * c)) with (Rmean y) by ring. rewrite Rmean_INR.
    assert (Ly : length y = length g) by (unfold y; apply map_length). assert (Py : 0 < INR (length y)) by (rewrite Ly, g_len; apply lt_0_INR; lia).
    assert (B : Rabs (Rsum (map (fun v => v - m) y)) <= INR (length y) * (N / 2)).
    { rewrite <- (map_length (fun v => v - m) y) at 1. apply Rsum_abs_bound. intros v Hv. apply in_map_iff in Hv as (w & <- & Hw). unfold y in Hw. apply in_map_iff in Hw as (a & <- & Ha).
      pose proof (window a (g_in a Ha)). apply Rabs_le_between. unfold N, m. lra. }
    rewrite (Rsum_lin R (fun v => v)), map_id in B. apply Rabs_le_between in B. assert (E : INR (length y) * (Rsum y / INR (length y)) = Rsum y) by (field; lra).
    unfold N, m in B. split; apply (Rmult_le_reg_l (INR (length y))); try exact Py; rewrite E; lra.
Qed.
Lemma near_exact (simpson : bool) : let k := slope g y in let w := intercept g y k in
  Rabs ((if simpson then int_simps_nonunif g (SqResiduals g y k w) else integrate_fast g (SqResiduals g y k w)) / L - D A0 B0) <= 160 * N ^ 2 / (INR n - 1).
Proof.
  intros k w. pose proof fit_tame as Tk. cbv zeta in Tk. fold k w in Tk. pose proof exact_tame as T0. pose proof HM0 as H2. pose proof s_pos as Ps. pose proof top as Et.
  assert (Hne : g <> []) by (intros E; pose proof g_len as H; rewrite E in H; cbn in H; lia). assert (Ly : length g = length y) by (unfold y; symmetry; apply map_length).
  assert (HM2 : (2 <= M)%nat) by (unfold M; lia).
  assert (EV : forall A B, ex_RInt (Q A B) lo (lo + INR M * s)) by (intros; rewrite Et; apply ex_Q).
  assert (VV : forall A B, Tame A B -> forall p q, lo <= p -> p <= q -> q <= lo + INR M * s -> Rabs (Q A B q - Q A B p) <= W q - W p) by (intros A B H; rewrite Et; now apply tame_var).
  pose proof (rule_err (Q k w) W lo s M Ps (VV k w Tk) (EV k w) g g_len g_nth simpson HM2) as R1.
  pose proof (mean_err (Q k w) W lo s M Ps (VV k w Tk) (EV k w) g g_len g_nth ltac:(lia)) as R2.
  pose proof (mean_err (Q A0 B0) W lo s M Ps (VV A0 B0 T0) (EV A0 B0) g g_len g_nth ltac:(lia)) as R3.
  rewrite <- !sqres_Q in R1, R2, R3. rewrite Et, W_total in *. assert (EL : INR M * s = L) by (replace (INR M * s) with (hi - lo) by (rewrite <- Et; ring); unfold hi, lo; field). rewrite EL in *.
  pose proof (ols_minimal g y Hne Ly A0 B0) as O. fold k in O. fold w in O.
  change (Rsum (SqResiduals g y k w) <= Rsum (SqResiduals g y A0 B0)) in O.
  fold (D k w) in R2. fold (D A0 B0) in R3. set (q := if simpson then _ else _) in *.
  assert (R1' : Rabs (D k w - q / L) <= 80 * N ^ 2 / INR M).
  { unfold D. replace (RInt (Q k w) lo hi / L - q / L) with ((RInt (Q k w) lo hi - q) / L) by (field; lra). unfold Rdiv at 1. rewrite Rabs_mult, (Rabs_pos_eq (/ L)) by (left; now apply Rinv_0_lt_compat).
    apply (Rmult_le_reg_r L); [exact HL|]. rewrite Rmult_assoc, Rinv_l, Rmult_1_r by lra. eapply Rle_trans; [exact R1|]. right. rewrite <- EL. field. lra. }
  assert (PS : 0 < INR (S M)) by (rewrite S_INR; lra).
  assert (O' : Rsum (SqResiduals g y k w) / INR (S M) <= Rsum (SqResiduals g y A0 B0) / INR (S M)) by (apply Rmult_le_compat_r; [left; now apply Rinv_0_lt_compat|exact O]).
  assert (C : 2 * (20 * N ^ 2) / INR (S M) <= 40 * N ^ 2 / INR M).
  { replace (2 * (20 * N ^ 2)) with (40 * N ^ 2) by ring. apply Rmult_le_compat_l; [pose proof (pow2_ge_0 N); lra|]. apply Rinv_le_contravar; [lra|rewrite S_INR; lra]. }
  destruct exact as (_ & Hmin). specialize (Hmin k w _ (D_dev k w)). rewrite Hn1.
  apply Rabs_le_between in R1'. apply Rabs_le_between in R2. apply Rabs_le_between in R3. apply Rabs_le_between.
  replace (160 * N ^ 2 / INR M) with (80 * N ^ 2 / INR M + 2 * (40 * N ^ 2 / INR M)) by (field; lra). pose proof (pow2_ge_0 N). lra.
Qed.
End Window.
