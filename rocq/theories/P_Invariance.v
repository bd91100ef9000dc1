(** The sampled statistics under a change of scale and origin, and under reordering of the stored values. *)
From Coq Require Import List ZArith Bool Arith Lia Reals Lra Sorting.Permutation.
From Verif Require Import Base S_Order S_EigVals S_Trim M_Step M_Quad M_Loops S_Quad S_Loops P_Order P_Step P_EigVals P_TrimStat P_Quad P_Ols P_Loops P_Delta.
Import ListNotations.
Local Open Scope R_scope.
Local Notation length := List.length.

(** ** Level variance depends on the window counts only *)
Lemma sigma_init_ext {F} {N : Num F} size (u u' : list F) L L' c c' : n_within u' L' c' = n_within u L c -> sigma_init size u' L' c' = sigma_init size u L c.
Proof. intros H. unfold sigma_init. now rewrite H. Qed.
Lemma sigma_loop_ext {F} {N : Num F} size (u u' : list F) lo hi lo' hi' L L' mx mn tol draws fuel :
  (forall j, n_within u' L' (uniform lo' hi' (draws j)) = n_within u L (uniform lo hi (draws j))) ->
  forall pos st, sigma_loop fuel size u' lo' hi' L' mx mn tol draws pos st = sigma_loop fuel size u lo hi L mx mn tol draws pos st.
Proof.
  intros H. induction fuel as [|fuel IH]; intros pos st; [reflexivity|]. cbn [sigma_loop].
  assert (E : sigma_pass size u' L' (uniform lo' hi' (draws pos)) st = sigma_pass size u L (uniform lo hi (draws pos)) st) by (unfold sigma_pass; now rewrite H).
  rewrite E, IH. reflexivity.
Qed.
Lemma sigma_ext {F} {N : Num F} (h h' : F) t t' L L' mx tol mn draws :
  (forall j, n_within (h' :: t') L' (uniform (nmin h' t') (nmax h' t') (draws j)) = n_within (h :: t) L (uniform (nmin h t) (nmax h t) (draws j))) ->
  sigma_L (h' :: t') L' mx tol mn draws = sigma_L (h :: t) L mx tol mn draws.
Proof.
  intros H. unfold sigma_L. rewrite (sigma_init_ext BUFFER (h :: t) (h' :: t') L L' _ _ (H 0%nat)).
  rewrite (sigma_loop_ext BUFFER (h :: t) (h' :: t') (nmin h t) (nmax h t) (nmin h' t') (nmax h' t') L L' mx mn tol draws) by exact H. reflexivity.
Qed.

(** ** Extremes *)
Lemma IsMin_unique l a b : IsMin l a -> IsMin l b -> a = b.
Proof. intros (A & B) (C & D). rewrite Forall_forall in B, D. specialize (B _ C). specialize (D _ A). lra. Qed.
Lemma IsMax_unique l a b : IsMax l a -> IsMax l b -> a = b.
Proof. intros (A & B) (C & D). rewrite Forall_forall in B, D. specialize (B _ C). specialize (D _ A). lra. Qed.
Definition aff (a b x : R) : R := a * x + b.
Lemma IsMin_aff a b l m : 0 < a -> IsMin l m -> IsMin (map (aff a b) l) (aff a b m).
Proof.
  intros Ha (A & B). split; [now apply in_map|]. apply Forall_map. eapply Forall_impl; [|exact B]. intros x H. cbn in H. unfold aff. nra.
Qed.
Lemma IsMax_aff a b l m : 0 < a -> IsMax l m -> IsMax (map (aff a b) l) (aff a b m).
Proof.
  intros Ha (A & B). split; [now apply in_map|]. apply Forall_map. eapply Forall_impl; [|exact B]. intros x H. cbn in H. unfold aff. nra.
Qed.
Lemma nmin_aff a b (h : R) t : 0 < a -> nmin (aff a b h) (map (aff a b) t) = aff a b (nmin h t).
Proof. intros Ha. apply (IsMin_unique (map (aff a b) (h :: t))); [apply nmin_IsMin|]. apply IsMin_aff; [exact Ha|apply nmin_IsMin]. Qed.
Lemma nmax_aff a b (h : R) t : 0 < a -> nmax (aff a b h) (map (aff a b) t) = aff a b (nmax h t).
Proof. intros Ha. apply (IsMax_unique (map (aff a b) (h :: t))); [apply nmax_IsMax|]. apply IsMax_aff; [exact Ha|apply nmax_IsMax]. Qed.

(** ** Scaling *)
Lemma uniform_aff a b lo hi d : uniform (aff a b lo) (aff a b hi) d = aff a b (uniform lo hi d).
Proof. unfold uniform, aff. cbn. ring. Qed.
Lemma CountIn_aff a b u lo hi : 0 < a -> CountIn (map (aff a b) u) (aff a b lo) (aff a b hi) = CountIn u lo hi.
Proof.
  intros Ha. induction u as [|x u IH]; [reflexivity|]. cbn [map CountIn]. rewrite IH. unfold aff.
  destruct (Rle_dec (a * lo + b) (a * x + b)), (Rle_dec lo x); try nra; [|reflexivity].
  destruct (Rle_dec (a * x + b) (a * hi + b)), (Rle_dec x hi); try nra; reflexivity.
Qed.
Lemma n_within_aff a b u L c : 0 < a -> n_within (map (aff a b) u) (a * L) (aff a b c) = n_within u L c.
Proof.
  intros Ha. rewrite !n_within_R. f_equal. rewrite <- (CountIn_aff a b u (c - L / 2) (c + L / 2)) by exact Ha. f_equal; unfold aff; field.
Qed.
Lemma sigma_aff a b u L mx tol mn draws : 0 < a -> sigma_L (map (aff a b) u) (a * L) mx tol mn draws = sigma_L u L mx tol mn draws.
Proof.
  intros Ha. destruct u as [|h t]; [reflexivity|]. cbn [map]. apply sigma_ext. intros j. rewrite nmin_aff, nmax_aff by exact Ha.
  rewrite uniform_aff. change (aff a b h :: map (aff a b) t) with (map (aff a b) (h :: t)). now apply n_within_aff.
Qed.

Lemma linspace_aff a b lo hi n : (2 <= n)%nat -> linspace (aff a b lo) (aff a b hi) n = map (aff a b) (linspace lo hi n).
Proof.
  intros Hn. apply (nth_ext _ _ 0 0); [now rewrite map_length, !linspace_length|]. rewrite linspace_length. intros i Hi.
  rewrite (nth_map_in _ _ _ 0 0) by now rewrite linspace_length. rewrite !linspace_nth by lia. unfold aff. unfold Rdiv. ring.
Qed.
Lemma step_aff a b (eigs x : list R) : 0 < a -> step_function_fast (map (aff a b) eigs) (map (aff a b) x) = step_function_fast eigs x.
Proof.
  intros Ha. apply step_map; intros u v; cbn; unfold aff.
  - destruct (Rlt_dec u v), (Rlt_dec (a * u + b) (a * v + b)); auto; nra.
  - destruct (Rle_dec u v), (Rle_dec (a * u + b) (a * v + b)); auto; nra.
Qed.
Lemma Sxy_aff a b x y m n : Sxy (map (aff a b) x) y (aff a b m) n = a * Sxy x y m n.
Proof. unfold Sxy. revert y. induction x as [|v x IH]; intros [|w y]; try (cbn; ring). cbn [map combine]. rewrite !Rsum_cons, IH. cbn [fst snd]. unfold aff. ring. Qed.
Lemma Sxx_aff a b x m : Sxy (map (aff a b) x) (map (aff a b) x) (aff a b m) (aff a b m) = a * a * Sxy x x m m.
Proof. unfold Sxy. induction x as [|v x IH]; [cbn; ring|]. cbn [map combine]. rewrite !Rsum_cons, IH. cbn [fst snd]. unfold aff. ring. Qed.
Lemma Rmean_aff a b x : x <> [] -> Rmean (map (aff a b) x) = aff a b (Rmean x).
Proof. exact (Rmean_affine a b x). Qed.
Lemma slope_aff a b x y : 0 < a -> x <> [] -> slope (map (aff a b) x) y = slope x y / a.
Proof.
  intros Ha H. rewrite !slope_R, !Rmean_aff, Sxx_aff, Sxy_aff by exact H.
  set (s := Sxy x x _ _). destruct (Req_EM_T (a * a * s) 0) as [E|E], (Req_EM_T s 0) as [E'|E']; try (unfold Rdiv; ring); [..|field; lra].
  - exfalso. apply Rmult_integral in E as [E|E]; [|contradiction]. apply Rmult_integral in E. lra.
  - exfalso. apply E. rewrite E'. ring.
Qed.
Lemma intercept_aff a b x y k : 0 < a -> x <> [] -> intercept (map (aff a b) x) y (k / a) = intercept x y k - k * b / a.
Proof.
  intros Ha H. rewrite !intercept_R, Rmean_aff by exact H. unfold aff. field. lra.
Qed.
Lemma deviation_aff a b (st g : list R) k w : 0 < a -> sq_lin_deviation st (k / a) (w - k * b / a) (map (aff a b) g) = sq_lin_deviation st k w g.
Proof.
  intros Ha. unfold sq_lin_deviation. revert g. induction st as [|s st IH]; intros [|x g]; try reflexivity. cbn [combine map]. rewrite IH. f_equal.
  cbn [fst snd nsub nmul Num_R]. unfold aff. field. lra.
Qed.
Lemma ndiff_aff a b (g : list R) : ndiff (map (aff a b) g) = map (fun h => a * h) (ndiff g).
Proof. induction g as [|x [|y g] IH]; try reflexivity. cbn [map ndiff] in *. rewrite IH. f_equal. cbn. unfold aff. ring. Qed.
Lemma at_scale a (h : list R) i : at_ (map (fun x => a * x) h) i = a * at_ h i.
Proof.
  unfold at_, py_get. rewrite map_length. destruct (_ || _); [cbn; ring|]. rewrite nth_error_map. destruct (nth_error h _); cbn; ring.
Qed.
Lemma simps_pass_scale a (h v : list R) acc i : 0 < a -> simps_pass (map (fun x => a * x) h) v (a * acc) i = a * simps_pass h v acc i.
Proof.
  intros Ha. unfold simps_pass, cube, sq. rewrite !at_scale. set (p := at_ h i). set (q := at_ h (i - 1)). cbn [nadd nsub nmul ndiv nofZ Num_R].
  unfold Rdiv. replace (6 * (a * p) * (a * q)) with (a * a * (6 * p * q)) by ring.
  replace (6 * (a * q) * (a * p + a * q)) with (a * a * (6 * q * (p + q))) by ring.
  replace (6 * (a * p) * (a * p + a * q)) with (a * a * (6 * p * (p + q))) by ring.
  rewrite !(Rinv_mult (a * a)). set (d1 := / (6 * p * q)). set (d2 := / (6 * q * (p + q))). set (d3 := / (6 * p * (p + q))). field. lra.
Qed.
Lemma simps_aff a b (g v : list R) : 0 < a -> int_simps_nonunif (map (aff a b) g) v = a * int_simps_nonunif g v.
Proof.
  intros Ha. unfold int_simps_nonunif. rewrite ndiff_aff, map_length. set (n := (Z.of_nat (length g) - 1)%Z). set (h := ndiff g).
  assert (E : forall l acc, fold_left (fun acc j => simps_pass (map (fun x => a * x) h) v acc (2 * Z.of_nat j + 1)) l (a * acc) =
                    a * fold_left (fun acc j => simps_pass h v acc (2 * Z.of_nat j + 1)) l acc).
  { intros l. induction l as [|j l IH]; intros acc; [reflexivity|]. cbn [fold_left]. rewrite simps_pass_scale by exact Ha. apply IH. }
  specialize (E (seq 0 (Z.to_nat (n / 2))) n0). replace (a * n0) with (@n0 R _) in E by (cbn; ring). rewrite E. cbv zeta.
  destruct (_ =? 0)%Z; [|reflexivity]. rewrite !at_scale. unfold sq, cube. set (p := at_ h (n - 1)). set (q := at_ h (n - 2)). set (I := fold_left _ _ _).
  cbn [nadd nsub nmul ndiv nofZ Num_R]. unfold Rdiv. replace (6 * (a * q + a * p)) with (a * (6 * (q + p))) by ring.
  replace (6 * (a * q) * (a * q + a * p)) with (a * a * (6 * q * (q + p))) by ring. replace (6 * (a * q)) with (a * (6 * q)) by ring.
  rewrite (Rinv_mult (a * a)), !(Rinv_mult a). set (d1 := / (6 * (q + p))). set (d2 := / (6 * q)). set (d3 := / (6 * q * (q + p))). field. lra.
Qed.
Lemma trap_aff a b (g v : list R) : integrate_fast (map (aff a b) g) v = a * integrate_fast g v.
Proof.
  rewrite !integrate_fast_trap, map_length. assert (A : forall n, (n <= length g - 1)%nat -> trap (map (aff a b) g) v n = a * trap g v n); [|now apply A].
  intros n. induction n as [|n IH]; intros H; [unfold trap; cbn; ring|]. rewrite !trap_S, IH by lia. rewrite !(nth_map_in _ g _ 0 0) by lia. unfold aff. field.
Qed.
Lemma d3_aff simpson n a b L (u : list R) c : 0 < a -> (2 <= n)%nat ->
  d3_sample simpson n (a * L) (map (aff a b) u) (aff a b c) = d3_sample simpson n L u c.
Proof.
  intros Ha Hn. unfold d3_sample. cbn [nsub nadd ndiv nofZ Num_R].
  replace (aff a b c - a * L / 2) with (aff a b (c - L / 2)) by (unfold aff; field).
  replace (aff a b c + a * L / 2) with (aff a b (c + L / 2)) by (unfold aff; field).
  rewrite linspace_aff, step_aff by assumption. set (g := linspace _ _ _). assert (g <> []).
  { intros E. pose proof (linspace_length (c - L/2) (c + L/2) n) as E'. fold g in E'. rewrite E in E'. cbn in E'. lia. }
  destruct (step_function_fast u g); try reflexivity. cbv zeta. rewrite slope_aff, intercept_aff, deviation_aff by assumption.
  f_equal. rewrite simps_aff, trap_aff by assumption. unfold Rdiv. rewrite Rinv_mult. set (l := / L). destruct simpson; field; lra.
Qed.

(** ** Rigidity depends on the samples only *)
Lemma delta_loop_ext {F} {N : Num F} size (s s' : nat -> outcome F) mx mn tol fuel : (forall j, s' j = s j) ->
  forall pos st, delta_loop fuel size s' mx mn tol pos st = delta_loop fuel size s mx mn tol pos st.
Proof.
  intros H. induction fuel as [|fuel IH]; intros pos st; [reflexivity|]. cbn [delta_loop]. rewrite H. destruct (s pos); try reflexivity. now rewrite IH.
Qed.
Lemma delta_ext {F} {N : Num F} (u u' : list F) L L' g mx mn tol simpson draws :
  (forall j, delta_sample simpson g L' u' draws j = delta_sample simpson g L u draws j) ->
  delta_L u' L' g mx mn tol simpson draws = delta_L u L g mx mn tol simpson draws.
Proof.
  intros H. unfold delta_L, delta_run. rewrite H. destruct (delta_sample simpson g L u draws 0); try reflexivity.
  now rewrite (delta_loop_ext BUFFER _ _ mx mn tol _ H).
Qed.
Lemma delta_sample_aff simpson n a b L (u : list R) draws j : 0 < a -> (2 <= n)%nat ->
  delta_sample simpson n (a * L) (map (aff a b) u) draws j = delta_sample simpson n L u draws j.
Proof.
  intros Ha Hn. unfold delta_sample, head_opt, last_opt. rewrite map_length, !nth_error_map.
  destruct (nth_error u 0); cbn [option_map]; [|reflexivity]. destruct (nth_error u _); cbn [option_map]; [|reflexivity].
  rewrite uniform_aff. now apply d3_aff.
Qed.
Lemma delta_aff a b u L g mx mn tol simpson draws : 0 < a -> (2 <= g)%nat ->
  delta_L (map (aff a b) u) (a * L) g mx mn tol simpson draws = delta_L u L g mx mn tol simpson draws.
Proof. intros Ha Hg. apply delta_ext. intros j. now apply delta_sample_aff. Qed.

(** ** The lists over L *)
Lemma each_map {F} (N : Num F) (f f' : nat -> F -> result (F * bool * Z)) (s : F -> F) : (forall i x, f' i (s x) = f i x) ->
  forall L i, each i (map s L) f' = each i L f.
Proof. intros H L. induction L as [|x L IH]; intros i; [reflexivity|]. cbn [map each]. rewrite H. destruct (f i x); [|reflexivity]. cbn [bind]. now rewrite IH. Qed.
Lemma np_max_scale a (L : list R) : 0 < a -> np_max (map (fun x => a * x) L) = match np_max L with Ok m => Ok (a * m) | Raise e => Raise e end.
Proof.
  intros Ha. destruct L as [|h t]; [reflexivity|]. cbn [np_max map]. f_equal. pose proof (nmax_aff a 0 h t Ha) as E. unfold aff in E.
  rewrite (map_ext (fun x => a * x + 0) (fun x => a * x)) in E by (intros; ring). rewrite !Rplus_0_r in E. exact E.
Qed.
Lemma auto_limit_scale {A} a (L : list R) mx (probe probe' : R -> Z -> Z -> result (bool * Z)) (rest rest' : Z -> result A) : 0 < a ->
  (forall x m n, probe' (a * x) m n = probe x m n) -> (forall m, rest' m = rest m) ->
  auto_limit (map (fun x => a * x) L) mx probe' rest' = auto_limit L mx probe rest.
Proof.
  intros Ha H H'. unfold auto_limit. rewrite np_max_scale by exact Ha. rewrite H'. destruct (mx <=? 0)%Z; [|reflexivity].
  destruct (np_max L) as [m|e]; [|reflexivity]. cbn [bind]. rewrite H. destruct (probe _ _ _) as [r|e]; [|reflexivity]. cbn [bind]. now rewrite H'.
Qed.

(** ** Reordering *)
Lemma n_within_perm {F} {N : Num F} (u u' : list F) L c : Permutation u u' -> n_within u L c = n_within u' L c.
Proof.
  intros P. unfold n_within. f_equal. induction P as [|x l l' P IH|x y l|l l' l'' P IH P' IH'].
  - reflexivity.
  - cbn [filter]. destruct (_ && _); cbn [length]; now rewrite IH.
  - cbn [filter]. destruct (nge x _ && _), (nge y _ && _); reflexivity.
  - congruence.
Qed.
Lemma nmin_perm (h h' : R) t t' : Permutation (h :: t) (h' :: t') -> nmin h t = nmin h' t'.
Proof.
  intros P. apply (IsMin_unique (h' :: t')); [|apply nmin_IsMin]. destruct (nmin_IsMin h t) as (A & B). split.
  - eapply Permutation_in; eauto.
  - eapply Permutation_Forall; eauto.
Qed.
Lemma nmax_perm (h h' : R) t t' : Permutation (h :: t) (h' :: t') -> nmax h t = nmax h' t'.
Proof.
  intros P. apply (IsMax_unique (h' :: t')); [|apply nmax_IsMax]. destruct (nmax_IsMax h t) as (A & B). split.
  - eapply Permutation_in; eauto.
  - eapply Permutation_Forall; eauto.
Qed.
Lemma sigma_perm (u u' : list R) L mx tol mn draws : Permutation u u' -> sigma_L u' L mx tol mn draws = sigma_L u L mx tol mn draws.
Proof.
  intros P. destruct u as [|h t].
  - apply Permutation_nil in P. now subst.
  - destruct u' as [|h' t']; [symmetry in P; now apply Permutation_nil in P|]. apply sigma_ext. intros j.
    rewrite (nmin_perm _ _ _ _ P), (nmax_perm _ _ _ _ P). symmetry. now apply n_within_perm.
Qed.
