(** Averages over the tridiagonal generator from averages over the full one. *)
From Coq Require Import List ZArith Bool Arith Lia Reals Lra.
From Coquelicot Require Import Coquelicot.
From Verif Require Import Base M_Generate S_Generate S_Normal S_Rotate S_Moments P_Generate P_Surmise P_Rotate T_Rotate P_Moments P_Wishart P_Fourth P_Fourth2 P_Loop P_CDet P_CCharPoly P_Semi P_Stein P_Wick P_House T_Moments.
Import ListNotations.
Local Open Scope R_scope.
Local Notation length := List.length.
Local Notation lin := P_Wick.lin.

(** ** Powers of real matrices *)
Fixpoint rpow (n k : nat) (m : nat -> nat -> R) (i j : nat) : R :=
  match k with O => kron i j | S k' => SumTo n (fun h => m i h * rpow n k' m h j) end.
Definition rtraces (n : nat) (ks : list nat) (m : nat -> nat -> R) : R := fold_right Rmult 1 (map (fun k => SumTo n (fun a => rpow n k m a a)) ks).
Lemma rpow_complex n k m : forall i j, RtoC (rpow n k m i j) = mpow n k (fun a b => RtoC (m a b)) i j.
Proof. induction k as [|k IH]; intros i j; [reflexivity|]. cbn [rpow mpow]. rewrite RtoC_SumTo. apply CSumTo_ext. intros h _. now rewrite RtoC_mult, IH. Qed.
Lemma rtraces_complex n ks m : RtoC (rtraces n ks m) = traces n ks (fun a b => RtoC (m a b)).
Proof.
  unfold rtraces, traces. induction ks as [|k ks IH]; [reflexivity|]. cbn [map fold_right]. rewrite RtoC_mult, IH. f_equal. rewrite RtoC_SumTo. apply CSumTo_ext. intros a _. apply rpow_complex.
Qed.
Lemma rtraces_spectrum n ks m lam : Spectrum n m lam -> rtraces n ks m = power_sums ks lam.
Proof.
  intros (Hl & q & Hq & E). apply RtoC_inj. rewrite rtraces_complex. apply traces_power; [exact Hl|]. exists (fun a c => RtoC (q a c)). split; [now apply real_unitary|].
  intros i j Hi Hj. now rewrite real_turn, E.
Qed.
Lemma rpow_turn n q k M : Reflection n q -> forall i j, (i < n)%nat -> (j < n)%nat -> rpow n k (turn n q M) i j = turn n q (rpow n k M) i j.
Proof.
  intro H. induction k as [|k IH]; intros i j Hi Hj; cbn [rpow].
  - rewrite <- (reflection_rows n q i j H Hi Hj). unfold turn. apply SumTo_ext. intros a Ha. f_equal. symmetry. rewrite (kron_pick n a (fun l => q j l) Ha). reflexivity.
  - rewrite (SumTo_ext n _ (fun h => turn n q M i h * turn n q (rpow n k M) h j)) by (intros h Hh; now rewrite IH). now apply turn_product, H.
Qed.
Lemma rtraces_inv n ks : Inv n (rtraces n ks).
Proof.
  intros q M HR _ _. unfold rtraces. f_equal. apply map_ext. intro k. rewrite (SumTo_ext n _ (fun a => turn n q (rpow n k M) a a)) by (intros; now apply rpow_turn). apply turn_trace, HR.
Qed.
Lemma rpow_matpoly n k : forall i j, (i < n)%nat -> (j < n)%nat -> MatPoly n (fun M => rpow n k M i j).
Proof.
  induction k as [|k IH]; intros i j Hi Hj; cbn [rpow]; [apply matpoly_const|].
  apply (matpoly_SumTo n n (fun h M => M i h * rpow n k M h j)). intros h Hh. apply (matpoly_mul n (fun M => M i h) (fun M => rpow n k M h j)); [now apply matpoly_entry|auto].
Qed.
Lemma rtraces_matpoly n ks : MatPoly n (rtraces n ks).
Proof.
  unfold rtraces. induction ks as [|k ks IH]; cbn [map fold_right]; [apply matpoly_const|].
  apply (matpoly_mul n (fun M => SumTo n (fun a => rpow n k M a a)) (fun M => fold_right Rmult 1 (map (fun k => SumTo n (fun a => rpow n k M a a)) ks))); [|exact IH].
  apply (matpoly_SumTo n n (fun a M => rpow n k M a a)). intros a Ha. now apply rpow_matpoly.
Qed.
Lemma rpow_ext n k m m' : (forall i j, (i < n)%nat -> (j < n)%nat -> m i j = m' i j) -> forall i j, (i < n)%nat -> (j < n)%nat -> rpow n k m i j = rpow n k m' i j.
Proof. intro H. induction k as [|k IH]; intros i j Hi Hj; [reflexivity|]. cbn [rpow]. apply SumTo_ext. intros h Hh. now rewrite H, IH. Qed.
Lemma rpow_scale n k c m : forall i j, rpow n k (fun a b => c * m a b) i j = c ^ k * rpow n k m i j.
Proof. induction k as [|k IH]; intros i j; cbn [rpow pow]; [ring|]. rewrite <- SumTo_scale. apply SumTo_ext. intros h _. rewrite IH. ring. Qed.
Lemma rtraces_scale n ks c m : rtraces n ks (fun a b => c * m a b) = c ^ fold_right Nat.add O ks * rtraces n ks m.
Proof.
  unfold rtraces. induction ks as [|k ks IH]; cbn [map fold_right pow]; [ring|]. rewrite IH, pow_add, (SumTo_ext n _ (fun a => c ^ k * rpow n k m a a)) by (intros; apply rpow_scale). rewrite SumTo_scale. ring.
Qed.

(** ** The full matrix of this layout *)
Lemma goe_half n : Jointly n (n * n) (fun l i j => / sqrt 2 * goe_matrix sqrt n l i j) half_cov.
Proof.
  exists (fun i j p => / sqrt 2 * gco n i j p). split.
  - intros l i j _ Hi Hj. rewrite goe_lin by assumption. unfold P_Wishart.lin, P_Wick.lin. rewrite <- SumTo_scale. apply SumTo_ext. intros; ring.
  - intros i j a b Hi Hj Ha Hb. pose proof (gco_dot n i j a b Hi Hj Ha Hb) as D. unfold P_Wishart.dot in D. unfold rdot, half_cov. rewrite <- D. pose proof sqrt2_sq as S2. pose proof sqrt2_nz as N2.
    rewrite (SumTo_ext _ _ (fun p => / 2 * (gco n i j p * gco n a b p))); [rewrite SumTo_scale; field|]. intros p _. transitivity (gco n i j p * gco n a b p / (sqrt 2 * sqrt 2)); [field; exact N2|]. rewrite S2. field.
Qed.
Definition half_average (n : nat) (ks : list nat) : R := gaussian_average 1 n ks / sqrt 2 ^ fold_right Nat.add O ks.
Lemma full_average n ks : NormalAverage (tsize n) (fun z => rtraces n ks (Full n z)) (half_average n ks).
Proof.
  apply (same_average n (n * n) (tsize n) (fun l i j => / sqrt 2 * goe_matrix sqrt n l i j) (Full n) half_cov); [apply goe_half|apply full_jointly|apply rtraces_matpoly|].
  apply (navg_ext _ (fun l => / sqrt 2 ^ fold_right Nat.add O ks * fst (traces n ks (fun i j => RtoC (goe_matrix sqrt n l i j))))).
  - intros l _. rewrite rtraces_scale, <- rtraces_complex, pow_inv. reflexivity.
  - unfold half_average, Rdiv. rewrite Rmult_comm. apply navg_scale, goe_traces.
Qed.
Lemma tri_average n ks : NormalAverage (tsize n) (fun z => rtraces n ks (Tri n z)) (half_average n ks).
Proof. apply house; [apply rtraces_matpoly|apply rtraces_inv|apply full_average]. Qed.

(** ** Traces of powers of a tridiagonal matrix as polynomials in the diagonal and the squared off-diagonal *)
Definition outward (j : nat) (d s : nat -> R) (i h : nat) : R :=
  if Nat.eqb i h then d i else if Nat.eqb h (S i) then (if (i <? j)%nat then 1 else s i) else if Nat.eqb i (S h) then (if (h <? j)%nat then s h else 1) else 0.
Fixpoint steps (o : nat -> R) (a len : nat) : R := match len with O => 1 | S l => o a * steps o (S a) l end.
Lemma steps_end o : forall len a, steps o a (S len) = steps o a len * o (a + len)%nat.
Proof. induction len as [|l IH]; intro a; [cbn; rewrite Nat.add_0_r; ring|]. cbn [steps] in *. rewrite IH. replace (S a + l)%nat with (a + S l)%nat by lia. ring. Qed.
Definition between (o : nat -> R) (i j : nat) : R := steps o (Nat.min i j) (Nat.max i j - Nat.min i j).
Lemma between_refl o i : between o i i = 1.
Proof. unfold between. rewrite Nat.max_id, Nat.min_id, Nat.sub_diag. reflexivity. Qed.
Lemma between_up o i j : (i < j)%nat -> o i * between o (S i) j = between o i j.
Proof. intro H. unfold between. replace (Nat.max (S i) j) with j by lia. replace (Nat.min (S i) j) with (S i) by lia. replace (Nat.max i j) with j by lia. replace (Nat.min i j) with i by lia. replace (j - i)%nat with (S (j - S i)) by lia. reflexivity. Qed.
Lemma between_down o i j : (j <= i)%nat -> o i * between o i j = between o (S i) j.
Proof.
  intro H. unfold between. replace (Nat.max (S i) j) with (S i) by lia. replace (Nat.min (S i) j) with j by lia. replace (Nat.max i j) with i by lia. replace (Nat.min i j) with j by lia.
  replace (S i - j)%nat with (S (i - j)) by lia. rewrite steps_end. replace (j + (i - j))%nat with i by lia. ring.
Qed.
Lemma tri_outward n d o j k : (j < n)%nat -> forall i, (i < n)%nat -> rpow n k (tri d o) i j = between o i j * rpow n k (outward j d (fun a => o a * o a)) i j.
Proof.
  intro Hj. induction k as [|k IH]; intros i Hi; cbn [rpow].
  - unfold kron. destruct (Nat.eqb_spec i j) as [->|]; [rewrite between_refl|]; ring.
  - rewrite <- SumTo_scale. apply SumTo_ext. intros h Hh. rewrite IH by exact Hh.
    rewrite <- !Rmult_assoc. f_equal. unfold tri, outward.
    destruct (Nat.eqb_spec i h) as [->|N]; [ring|]. destruct (Nat.eqb_spec i (S h)) as [->|N1].
    + destruct (Nat.eqb_spec h (S (S h))); [lia|]. destruct (Nat.ltb_spec h j) as [L|L].
      * rewrite <- (between_up o h j L). ring.
      * rewrite <- (between_down o h j L). ring.
    + destruct (Nat.eqb_spec h (S i)) as [->|N2]; [|ring]. destruct (Nat.ltb_spec i j) as [L|L].
      * rewrite <- (between_up o i j L). ring.
      * rewrite <- (between_down o i j L). ring.
Qed.
Definition dtraces (n : nat) (ks : list nat) (d s : nat -> R) : R := fold_right Rmult 1 (map (fun k => SumTo n (fun a => rpow n k (outward a d s) a a)) ks).
Lemma tri_dtraces n ks d o : rtraces n ks (tri d o) = dtraces n ks d (fun a => o a * o a).
Proof. unfold rtraces, dtraces. f_equal. apply map_ext. intro k. apply SumTo_ext. intros a Ha. rewrite tri_outward by assumption. rewrite between_refl. ring. Qed.
Lemma outward_ext n j d d' s s' : (forall i, (i < n)%nat -> d i = d' i) -> (forall i, (S i < n)%nat -> s i = s' i) -> forall i h, (i < n)%nat -> (h < n)%nat -> outward j d s i h = outward j d' s' i h.
Proof.
  intros Hd Hs i h Hi Hh. unfold outward. destruct (Nat.eqb_spec i h); [auto|]. destruct (Nat.eqb_spec h (S i)) as [->|]; [now rewrite Hs|]. destruct (Nat.eqb_spec i (S h)) as [->|]; [now rewrite Hs|reflexivity].
Qed.
Lemma dtraces_ext n ks d d' s s' : (forall i, (i < n)%nat -> d i = d' i) -> (forall i, (S i < n)%nat -> s i = s' i) -> dtraces n ks d s = dtraces n ks d' s'.
Proof. intros Hd Hs. unfold dtraces. f_equal. apply map_ext. intro k. apply SumTo_ext. intros a Ha. apply rpow_ext; auto. now apply (outward_ext n). Qed.
Lemma dtraces_matpoly N n ks (d s : (nat -> nat -> R) -> nat -> R) : (forall i, (i < n)%nat -> MatPoly N (fun E => d E i)) -> (forall i, (S i < n)%nat -> MatPoly N (fun E => s E i)) -> MatPoly N (fun E => dtraces n ks (d E) (s E)).
Proof.
  intros Hd Hs. unfold dtraces. induction ks as [|k ks IH]; cbn [map fold_right]; [apply matpoly_const|].
  refine (matpoly_mul N (fun E => SumTo n (fun a => rpow n k (outward a (d E) (s E)) a a)) _ _ IH).
  apply (matpoly_SumTo N n (fun a E => rpow n k (outward a (d E) (s E)) a a)). intros a Ha.
  apply (matpoly_subst n N (fun M => rpow n k M a a) (fun E => outward a (d E) (s E))); [now apply rpow_matpoly|]. intros i j Hi Hj. unfold outward.
  destruct (Nat.eqb_spec i j); [now apply Hd|]. destruct (Nat.eqb_spec j (S i)) as [->|]; [destruct (Nat.ltb i a); [apply matpoly_const|now apply Hs]|].
  destruct (Nat.eqb_spec i (S j)) as [->|]; [destruct (Nat.ltb j a); [now apply Hs|apply matpoly_const]|apply matpoly_const].
Qed.

(** ** The order of the draws *)
Lemma nth_map_seq' (f : nat -> R) b m p : (p < m)%nat -> nth p (map f (seq b m)) 0 = f (b + p)%nat.
Proof. intro H. rewrite (nth_indep _ 0 (f O)) by (now rewrite map_length, seq_length). rewrite (map_nth f), seq_nth by exact H. reflexivity. Qed.
Lemma skipn_skipn (a b : nat) (l : list R) : skipn a (skipn b l) = skipn (a + b) l.
Proof. revert l. induction b as [|b IH]; intro l; [now rewrite Nat.add_0_r|]. replace (a + S b)%nat with (S (a + b)) by lia. destruct l as [|x l]; [now rewrite !skipn_nil|]. cbn [skipn]. apply IH. Qed.
Fixpoint idx (n a b : nat) : list nat := match n with O => [] | S m => a :: seq b m ++ idx m (S a) (b + m) end.
Fixpoint dofs (n : nat) : list nat := match n with O => [] | S m => match m with O => [] | S _ => m :: dofs m end end.
Lemma dofs_chi n : map Z.to_nat (chi_range n) = dofs n.
Proof.
  induction n as [|m IH]; [reflexivity|]. destruct m as [|m]; [reflexivity|]. change (dofs (S (S m))) with (S m :: dofs (S m)). rewrite <- IH. unfold chi_range. replace (S (S m) - 1)%nat with (S m) by lia. replace (S m - 1)%nat with m by lia.
  cbn [seq map]. f_equal; [lia|]. rewrite <- seq_shift, !map_map. apply map_ext. intro k. lia.
Qed.
Lemma idx_length n : forall a b, length (idx n a b) = tsize n.
Proof. induction n as [|m IH]; intros a b; [reflexivity|]. cbn [idx tsize]. cbn [length]. rewrite app_length, seq_length, IH. lia. Qed.
Lemma idx_in n : forall a b x, In x (idx n a b) -> (a <= x < a + n)%nat \/ (b <= x < b + (tsize n - n))%nat.
Proof.
  induction n as [|m IH]; intros a b x; [intros []|]. cbn [idx tsize]. intros [<-|H]; [lia|]. assert (m <= tsize m)%nat as Hm by (clear; induction m; cbn [tsize]; lia).
  apply in_app_or in H. destruct H as [H|H]; [apply in_seq in H; lia|]. apply IH in H. lia.
Qed.
Lemma idx_nodup n : forall a b, (a + n <= b \/ b + (tsize n - n) <= a)%nat -> NoDup (idx n a b).
Proof.
  induction n as [|m IH]; intros a b H; [constructor|]. cbn [idx tsize] in *. assert (m <= tsize m)%nat as Hm by (clear; induction m; cbn [tsize]; lia). constructor.
  - intro I. apply in_app_or in I. destruct I as [I|I]; [apply in_seq in I; lia|]. apply idx_in in I. lia.
  - assert (NoDup (idx m (S a) (b + m))) as D by (apply IH; lia). assert (forall x, In x (seq b m) -> ~ In x (idx m (S a) (b + m))) as D2.
    { intros x I J. apply in_seq in I. apply idx_in in J. lia. }
    pose proof (seq_NoDup m b) as D1. revert D1 D2. generalize (seq b m). intro l. induction l as [|x l IHl]; intros D1 D2; [exact D|]. inversion D1; subst. cbn [app]. constructor.
    + intro I. apply in_app_or in I. destruct I as [I|I]; [contradiction|]. exact (D2 x (or_introl eq_refl) I).
    + apply IHl; [assumption|]. intros y Hy. apply D2. now right.
Qed.
Lemma tri_bord d o m i j : (i < S m)%nat -> (j < S m)%nat -> tri d o i j = bord (d O) (first (o O)) (tri (fun i => d (S i)) (fun i => o (S i))) i j.
Proof.
  intros Hi Hj. destruct i as [|i], j as [|j]; unfold tri, bord, first; cbn [Nat.eqb]; try reflexivity; [destruct j|destruct i]; unfold kron; cbn [Nat.eqb]; ring.
Qed.
Lemma Tri_idx n : forall a b y i j, (b + (tsize n - n) <= length y)%nat -> (i < n)%nat -> (j < n)%nat ->
  Tri n (map (fun p => nth p y 0) (idx n a b)) i j = tri (fun i => nth (a + i) y 0) (fun k => sqrt (nth k (chi_squares (dofs n) (skipn b y)) 0) / sqrt 2) i j.
Proof.
  induction n as [|m IH]; intros a b y i j Hy Hi Hj; [lia|]. assert (m <= tsize m)%nat as Hm by (clear; induction m; cbn [tsize]; lia). cbn [tsize] in Hy.
  rewrite (tri_bord _ _ m) by assumption. cbn [idx map]. rewrite map_app.
  assert (length (map (fun p => nth p y 0) (seq b m)) = m) as L by now rewrite map_length, seq_length.
  rewrite app_comm_cons, tri_split by exact L. rewrite Nat.add_0_r.
  assert (map (fun p => nth p y 0) (seq b m) = firstn m (skipn b y)) as F.
  { apply (nth_ext _ _ 0 0); [rewrite L, firstn_length, skipn_length; lia|]. intros p Hp. rewrite L in Hp. rewrite (nth_map_seq' _ b m p Hp), nth_firstn, nth_skipn by exact Hp. reflexivity. }
  rewrite F. destruct m as [|m']; [destruct i as [|i], j as [|j]; try lia; reflexivity|]. set (m := S m') in *.
  assert (dofs (S m) = m :: dofs m) as -> by reflexivity. cbn [chi_squares nth].
  assert (skipn m (skipn b y) = skipn (b + m) y) as SS by (rewrite skipn_skipn; f_equal; lia).
  destruct i as [|i], j as [|j]; cbn [bord]; try reflexivity. rewrite IH by lia. rewrite SS. unfold tri.
  replace (a + S i)%nat with (S a + i)%nat by lia. reflexivity.
Qed.
(** The diagonal and the squared off-diagonal in the interleaved order. *)
Fixpoint td (n b : nat) (e : nat -> R) (i : nat) : R := match n with O => 0 | S m => match i with O => e b | S i' => td m (b + S m) e i' end end.
Fixpoint ts (n b : nat) (e : nat -> R) (k : nat) : R := match n with O => 0 | S m => match k with O => / 2 * SumTo m (fun p => e (b + S p)%nat * e (b + S p)%nat) | S k' => ts m (b + S m) e k' end end.
Lemma ts_nonneg n : forall b e k, 0 <= ts n b e k.
Proof. induction n as [|m IH]; intros b e [|k]; cbn [ts]; try lra; [|apply IH]. pose proof (sum_squares_pos m (fun p => e (b + S p)%nat)). cbv beta in *. lra. Qed.
Lemma Tri_tri n : forall b z i j, (b + tsize n <= length z)%nat -> (i < n)%nat -> (j < n)%nat ->
  Tri n (skipn b z) i j = tri (td n b (fun p => nth p z 0)) (fun k => sqrt (2 * ts n b (fun p => nth p z 0) k) / sqrt 2) i j.
Proof.
  induction n as [|m IH]; intros b z i j Hz Hi Hj; [lia|]. cbn [tsize] in Hz. rewrite (tri_bord _ _ m) by assumption. cbn [Tri]. rewrite nth_skipn, skipn_skipn.
  replace (S m + b)%nat with (b + S m)%nat by lia. rewrite Nat.add_0_r.
  assert (squares (firstn m (tl (skipn b z))) = 2 * ts (S m) b (fun p => nth p z 0) 0) as E.
  { cbn [ts]. assert (tl (skipn b z) = skipn (S b) z) as ->.
    { clear. revert z. induction b as [|b IH]; intro z; [now destruct z|]. destruct z as [|x z]; [reflexivity|]. cbn [skipn]. rewrite IH. destruct z; reflexivity. }
    rewrite squares_SumTo, firstn_length, skipn_length. replace (Nat.min m (length z - S b)) with m by lia. transitivity (SumTo m (fun p => nth (b + S p) z 0 * nth (b + S p) z 0)); [|field].
    apply SumTo_ext. intros p Hp. rewrite nth_firstn, nth_skipn by exact Hp. replace (S b + p)%nat with (b + S p)%nat by lia. reflexivity. }
  rewrite E. destruct i as [|i], j as [|j]; cbn [bord]; try reflexivity. rewrite IH by lia. reflexivity.
Qed.
Lemma Tri_dtraces n ks z : length z = tsize n -> rtraces n ks (Tri n z) = dtraces n ks (td n 0 (fun p => nth p z 0)) (ts n 0 (fun p => nth p z 0)).
Proof.
  intro Hz. transitivity (rtraces n ks (tri (td n 0 (fun p => nth p z 0)) (fun k => sqrt (2 * ts n 0 (fun p => nth p z 0) k) / sqrt 2))).
  - apply (matpoly_ext n); [apply rtraces_matpoly|]. intros i j Hi Hj. rewrite <- (Tri_tri n 0 z) by (lia || assumption). reflexivity.
  - rewrite tri_dtraces. apply dtraces_ext; [reflexivity|]. intros i _. pose proof (ts_nonneg n 0 (fun p => nth p z 0) i) as P. pose proof sqrt2_sq as S2. pose proof sqrt2_nz as N2.
    transitivity (sqrt (2 * ts n 0 (fun p => nth p z 0) i) * sqrt (2 * ts n 0 (fun p => nth p z 0) i) / (sqrt 2 * sqrt 2)); [field; exact N2|]. rewrite S2, sqrt_sqrt by lra. field.
Qed.
Lemma td_matpoly N n : forall b i, (b + tsize n <= N)%nat -> (i < n)%nat -> MatPoly N (fun E => td n b (E O) i).
Proof. induction n as [|m IH]; intros b i Hb Hi; [lia|]. cbn [tsize] in Hb. destruct i as [|i]; cbn [td]; [apply matpoly_entry; lia|apply IH; lia]. Qed.
Lemma ts_matpoly N n : forall b i, (b + tsize n <= N)%nat -> MatPoly N (fun E => ts n b (E O) i).
Proof.
  induction n as [|m IH]; intros b i Hb; [cbn [ts]; apply matpoly_const|]. cbn [tsize] in Hb. destruct i as [|i]; cbn [ts]; [|apply IH; lia].
  apply (matpoly_mul N (fun _ => / 2) (fun E => SumTo m (fun p => E O (b + S p)%nat * E O (b + S p)%nat))); [apply matpoly_const|].
  apply (matpoly_SumTo N m (fun p E => E O (b + S p)%nat * E O (b + S p)%nat)). intros p Hp.
  apply (matpoly_mul N (fun E => E O (b + S p)%nat) (fun E => E O (b + S p)%nat)); apply matpoly_entry; lia.
Qed.
Definition reorder (n a b : nat) (y : list R) : list R := map (fun p => nth p y 0) (idx n a b).
(** The diagonal numbers from position [a], the blocks from position [b]: apart and within the list. *)
Definition apart (n a b : nat) : Prop := ((a + n <= b \/ b + (tsize n - n) <= a) /\ a + n <= tsize n /\ b + (tsize n - n) <= tsize n)%nat.
Lemma reorder_length n a b y : length (reorder n a b y) = tsize n.
Proof. unfold reorder. now rewrite map_length, idx_length. Qed.
Lemma tsize_le n : (n <= tsize n)%nat. Proof. induction n; cbn [tsize]; lia. Qed.
Lemma order_jointly n : Jointly (tsize n) (tsize n) (fun z _ j => nth j z 0) (fun _ j _ b => kron j b).
Proof.
  exists (fun _ j p => kron j p). split.
  - intros l i j _ _ Hj. symmetry. apply (kron_pick (tsize n) j (fun p => nth p l 0) Hj).
  - intros i j a b _ Hj _ Hb. unfold rdot. rewrite (kron_pick (tsize n) j (fun p => kron b p) Hj). apply kron_sym.
Qed.
Lemma reorder_jointly n a0 b0 : apart n a0 b0 -> Jointly (tsize n) (tsize n) (fun y _ j => nth j (reorder n a0 b0 y) 0) (fun _ j _ b => kron j b).
Proof.
  intros (Hab & Ha & Hb0).
  assert (forall j, (j < tsize n)%nat -> (nth j (idx n a0 b0) O < tsize n)%nat) as HB.
  { intros j Hj. pose proof (tsize_le n). assert (In (nth j (idx n a0 b0) O) (idx n a0 b0)) as I by (apply nth_In; now rewrite idx_length). apply idx_in in I. lia. }
  exists (fun _ j p => kron (nth j (idx n a0 b0) O) p). split.
  - intros l i j _ _ Hj. unfold P_Wick.lin. rewrite (kron_pick (tsize n) _ (fun p => nth p l 0) (HB j Hj)). unfold reorder.
    rewrite (nth_indep _ 0 ((fun p => nth p l 0) O)) by (now rewrite map_length, idx_length). now rewrite (map_nth (fun p => nth p l 0)).
  - intros i j a b _ Hj _ Hb. unfold rdot. rewrite (kron_pick (tsize n) _ (fun p => kron (nth b (idx n a0 b0) O) p) (HB j Hj)). rewrite kron_sym. unfold kron.
    destruct (Nat.eqb_spec j b) as [->|N]; [now rewrite Nat.eqb_refl|]. destruct (Nat.eqb_spec (nth j (idx n a0 b0) O) (nth b (idx n a0 b0) O)) as [E|]; [|reflexivity].
    exfalso. apply N. apply (proj1 (NoDup_nth (idx n a0 b0) O) (idx_nodup n a0 b0 Hab) j b); rewrite ?idx_length; assumption.
Qed.
Definition tri_source (n a b : nat) (y : list R) : nat -> nat -> R :=
  tri (fun i => nth (a + i) y 0) (fun k => sqrt (nth k (chi_squares (map Z.to_nat (chi_range n)) (skipn b y)) 0) / sqrt 2).
Theorem tri_source_average n ks a b : apart n a b -> NormalAverage (n + n * (n - 1) / 2) (fun y => rtraces n ks (tri_source n a b y)) (half_average n ks).
Proof.
  intro Hab. rewrite <- tsize_eq. pose (H := fun E : nat -> nat -> R => dtraces n ks (td n 0 (E O)) (ts n 0 (E O))).
  assert (MatPoly (tsize n) H) as HP.
  { apply (dtraces_matpoly (tsize n) n ks (fun E => td n 0 (E O)) (fun E => ts n 0 (E O))); [intros i Hi; apply td_matpoly; [lia|exact Hi]|intros i Hi; apply ts_matpoly; lia]. }
  assert (NormalAverage (tsize n) (fun z => H (fun _ j => nth j z 0)) (half_average n ks)) as A.
  { refine (navg_ext _ _ _ _ _ (tri_average n ks)). intros z Hz. now apply Tri_dtraces. }
  pose proof (same_average (tsize n) _ _ _ _ _ H _ (order_jointly n) (reorder_jointly n a b Hab) HP A) as B. refine (navg_ext _ _ _ _ _ B). intros y Hy. unfold H. cbv beta.
  rewrite <- Tri_dtraces by apply reorder_length. apply (matpoly_ext n); [apply rtraces_matpoly|]. intros i j Hi Hj. destruct Hab as (_ & _ & Hb). unfold reorder. rewrite Tri_idx by (lia || assumption).
  unfold tri_source. now rewrite dofs_chi.
Qed.
Theorem tri_draws_average n ks : NormalAverage (n + n * (n - 1) / 2) (fun y => rtraces n ks (tri_draws n y)) (half_average n ks).
Proof.
  assert (apart n 0 n) as Hab by (pose proof (tsize_le n); repeat split; lia). refine (navg_ext _ _ _ _ _ (tri_source_average n ks 0 n Hab)). intros y Hy.
  apply (matpoly_ext n); [apply rtraces_matpoly|]. intros i j Hi Hj. rewrite tri_draws_tri by assumption. reflexivity.
Qed.
