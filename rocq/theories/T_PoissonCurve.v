(** Property C131: the Poisson curves for the rigidity and the level variance are those of independent levels. *)
From Coq Require Import List ZArith Bool Arith Lia Reals Lra.
From Coquelicot Require Import Coquelicot.
From Verif Require Import Base S_Order S_EigVals S_Trim M_Ensemble S_Loops S_Average S_Rigidity S_RigidityForm P_Order P_EigVals P_TrimStat P_Quad P_Ols P_Loops P_RigidityFit P_RigidityForm T_NumberVariance T_RigidityMean T_RigidityForm.
Import ListNotations.
Local Open Scope R_scope.
Local Notation length := List.length.

(** ** Averages of sums over levels and over pairs of levels *)
Lemma average_linear (g : R -> R) m : is_RInt g 0 1 m -> forall k, IsAverage k (fun l => Rsum (map g l)) (INR k * m).
Proof.
  intros I. induction k as [|k IH]; cbn [IsAverage]; [cbn; ring|]. exists (fun t => g t + INR k * m). split.
  - intro t. apply (average_ext k (fun l => g t + Rsum (map g l))); [intros; cbn [map]; now rewrite Rsum_cons|]. apply average_plus; [apply average_const|exact IH].
  - rewrite S_INR. replace ((INR k + 1) * m) with (m + INR k * m) by ring. exact (is_RInt_plus (V := R_NormedModule) _ _ _ _ _ _ I (RInt_const01 (INR k * m))).
Qed.
Lemma average_pairs (K : R -> R -> R) A : (forall s t, K s t = K t s) -> is_RInt (fun t => K t t) 0 1 A -> (forall t, is_RInt (K t) 0 1 0) ->
  forall k, IsAverage k (fun l => Rsum (map (fun s => Rsum (map (K s) l)) l)) (INR k * A).
Proof.
  intros Hs IA I0. induction k as [|k IH]; cbn [IsAverage]; [cbn; ring|]. exists (fun t => K t t + (2 * (INR k * 0) + INR k * A)). split.
  - intro t. apply (average_ext k (fun l => K t t + (2 * Rsum (map (K t) l) + Rsum (map (fun s => Rsum (map (K s) l)) l)))).
    + intros l _. cbn [map]. rewrite !Rsum_cons. assert (E : forall l' l, Rsum (map (fun s => Rsum (K s t :: map (K s) l')) l) = Rsum (map (K t) l) + Rsum (map (fun s => Rsum (map (K s) l')) l)).
      { intros l'. induction l0 as [|x l0 IHl]; [cbn; ring|]. cbn [map]. rewrite !Rsum_cons, IHl, (Hs x t). ring. }
      rewrite E. ring.
    + apply average_plus; [apply average_const|]. apply average_plus; [|exact IH]. apply average_scal. apply average_linear, I0.
  - rewrite S_INR. replace ((INR k + 1) * A) with (A + INR k * A) by ring. replace (2 * (INR k * 0) + INR k * A) with (INR k * A) by ring.
    exact (is_RInt_plus (V := R_NormedModule) _ _ _ _ _ _ IA (RInt_const01 (INR k * A))).
Qed.

(** ** Integrals over the position of one level *)
Section Level.
Variables a b c L : R.
Hypothesis HL : 0 < L.
Hypothesis Ha : a <= c - L / 2.
Hypothesis Hb : c + L / 2 <= b.
Let level t := a + (b - a) * t.
Let al := (c - L / 2 - a) / (b - a).
Let la := L / (b - a).
Lemma width : 0 < b - a. Proof. lra. Qed.
Lemma al_bounds : 0 <= al /\ 0 < la /\ al + la <= 1.
Proof.
  pose proof width as W. unfold al, la. split; [apply Rmult_le_pos; [lra|left; now apply Rinv_0_lt_compat]|]. split; [now apply Rdiv_lt_0_compat|].
  apply (Rmult_le_reg_r (b - a)); [exact W|]. replace (((c - L / 2 - a) / (b - a) + L / (b - a)) * (b - a)) with (c + L / 2 - a) by (field; lra). lra.
Qed.
Lemma share_level t : Share c L (level t) = Rmax 0 (Rmin 1 ((al + la - t) / la)).
Proof. pose proof width. unfold Share, level, al, la. do 2 f_equal. field. lra. Qed.
Lemma div_la x : (0 <= x -> 0 <= x / la) /\ (x <= 0 -> x / la <= 0) /\ (x <= la -> x / la <= 1) /\ (la <= x -> 1 <= x / la).
Proof.
  destruct al_bounds as (_ & H & _). assert (E : x = la * (x / la)) by (field; lra). set (q := x / la) in *. clearbody q. subst x. repeat split; intro; nra.
Qed.
Lemma share_int (f : R -> R) I : is_RInt f 0 1 I -> f 0 = 0 -> is_RInt (fun t => f (Share c L (level t))) 0 1 (al * f 1 + la * I).
Proof.
  intros HI F0. destruct al_bounds as (A0 & A1 & A2).
  assert (J1 : is_RInt (fun t => f (Share c L (level t))) 0 al (al * f 1)).
  { apply (is_RInt_ext (fun _ => f 1)); [rewrite Rmin_left, Rmax_right by lra; intros t Ht; rewrite share_level|].
    - destruct (div_la (al + la - t)) as (_ & _ & _ & D). specialize (D ltac:(lra)). rewrite Rmin_left, Rmax_right by (try rewrite Rmin_left; lra). reflexivity.
    - pose proof (is_RInt_const (V := R_NormedModule) 0 al (f 1)) as K. match type of K with is_RInt _ _ _ ?v => assert (E : v = al * f 1) by (unfold scal; cbn; unfold mult; cbn; ring); rewrite E in K end. exact K. }
  assert (J3 : is_RInt (fun t => f (Share c L (level t))) (al + la) 1 0).
  { apply (is_RInt_ext (fun _ => 0)); [rewrite Rmin_left, Rmax_right by lra; intros t Ht; rewrite share_level|].
    - destruct (div_la (al + la - t)) as (_ & D & _ & _). specialize (D ltac:(lra)). rewrite Rmin_right, Rmax_left by (try rewrite Rmin_right; lra). now rewrite F0.
    - pose proof (is_RInt_const (V := R_NormedModule) (al + la) 1 0) as K. match type of K with is_RInt _ _ _ ?v => assert (E : v = 0) by exact (Rmult_0_r _); rewrite E in K end. exact K. }
  assert (J2 : is_RInt (fun t => f (Share c L (level t))) al (al + la) (la * I)).
  { apply is_RInt_swap in HI. pose proof (is_RInt_comp_lin (V := R_NormedModule) f (- / la) ((al + la) / la) al (al + la) (opp I)) as K.
    replace (- / la * al + (al + la) / la) with 1 in K by (field; lra). replace (- / la * (al + la) + (al + la) / la) with 0 in K by (field; lra). specialize (K HI).
    apply (is_RInt_scal (V := R_NormedModule) _ _ _ (- la)) in K.
    match type of K with is_RInt _ _ _ ?v => assert (E : v = la * I) by (unfold scal, opp; cbn; unfold mult; cbn; ring); rewrite E in K end.
    eapply is_RInt_ext; [|exact K]. rewrite Rmin_left, Rmax_right by lra. intros t Ht. rewrite share_level. destruct (div_la (al + la - t)) as (D1 & _ & D2 & _). specialize (D1 ltac:(lra)). specialize (D2 ltac:(lra)).
    rewrite Rmin_right, Rmax_right by (try rewrite Rmin_right; lra). unfold scal; cbn; unfold mult; cbn. replace (- / la * t + (al + la) / la) with ((al + la - t) / la) by (field; lra).
    match goal with |- ?a = ?b => change (@eq R a b) end. field. lra. }
  pose proof (is_RInt_Chasles (V := R_NormedModule) _ _ _ _ _ _ J1 (is_RInt_Chasles (V := R_NormedModule) _ _ _ _ _ _ J2 J3)) as J.
  match type of J with is_RInt _ _ _ ?v => assert (E : v = al * f 1 + la * I) by (unfold plus; cbn; ring); rewrite E in J end. exact J.
Qed.
End Level.

Lemma int_min y : 0 <= y <= 1 -> is_RInt (Rmin y) 0 1 (y - y * y / 2).
Proof.
  intros Hy. assert (J1 : is_RInt (Rmin y) 0 y (y * y / 2)).
  { pose proof (int_quadratic 0 1 0 0 y) as K. match type of K with is_RInt _ _ _ ?v => replace v with (y * y / 2) in K by field end.
    eapply is_RInt_ext; [|exact K]. rewrite Rmin_left, Rmax_right by lra. intros t Ht. rewrite (Rmin_right y t) by lra. match goal with |- ?a = ?b => change (@eq R a b) end. ring. }
  assert (J2 : is_RInt (Rmin y) y 1 (y * (1 - y))).
  { pose proof (int_quadratic 0 0 y y 1) as K. match type of K with is_RInt _ _ _ ?v => replace v with (y * (1 - y)) in K by field end.
    eapply is_RInt_ext; [|exact K]. rewrite Rmin_left, Rmax_right by lra. intros t Ht. rewrite (Rmin_left y t) by lra. match goal with |- ?a = ?b => change (@eq R a b) end. ring. }
  pose proof (is_RInt_Chasles (V := R_NormedModule) _ _ _ _ _ _ J1 J2) as J. match type of J with is_RInt _ _ _ ?v => assert (E : v = y - y * y / 2) by (unfold plus; cbn; field); rewrite E in J end. exact J.
Qed.
Lemma int_pair y : 0 <= y <= 1 -> is_RInt (PairTerm y) 0 1 0.
Proof.
  intros Hy. pose proof (int_min y Hy) as J1. pose proof (int_quadratic (3 * (y * (1 - y))) (- y - 3 * (y * (1 - y))) 0 0 1) as J2.
  pose proof (is_RInt_plus (V := R_NormedModule) _ _ _ _ _ _ J1 J2) as J. match type of J with is_RInt _ _ _ ?v => assert (E : v = 0) by (unfold plus; cbn; field); rewrite E in J end.
  eapply is_RInt_ext; [|exact J]. intros t _. unfold PairTerm, plus. cbn. ring.
Qed.
Lemma int_diag : is_RInt (fun y => PairTerm y y) 0 1 (/ 15).
Proof.
  assert (K : is_RInt (fun t => t - t * t - 3 * (t * (1 - t)) * (t * (1 - t))) 0 1 (/ 15)).
  { set (F := fun t => t ^ 2 / 2 - t ^ 3 / 3 - 3 * (t ^ 3 / 3 - 2 * (t ^ 4 / 4) + t ^ 5 / 5)). replace (/ 15) with (F 1 - F 0) by (unfold F; field).
    apply (is_RInt_derive (V := R_CompleteNormedModule) F); unfold F.
    - intros t _. auto_derive; [trivial|]. field.
    - intros t _. apply cont_of. auto_derive. trivial. }
  eapply is_RInt_ext; [|exact K]. intros t _. unfold PairTerm. rewrite Rmin_left by lra. match goal with |- ?a = ?b => change (@eq R a b) end. ring.
Qed.

(** C131. The exact rigidity of a window inside [a, b], averaged over k independent levels uniform on [a, b], is the package's Poisson curve at the mean
    number of levels in the window; at unit density it is that curve at L. *)
Theorem C131_rigidity : forall euler a b c L k, 0 < L -> a <= c - L / 2 -> c + L / 2 <= b ->
  exists E, (forall l, ExactRigidity (map (fun t => a + (b - a) * t) l) c L (E l)) /\
    IsAverage k E (rigidity_at euler Poisson (INR k / (b - a) * L)).
Proof.
  intros euler a b c L k HL Ha Hb. exists (fun l => RigidityForm (map (Share c L) (map (fun t => a + (b - a) * t) l))). split; [intro l; now apply C130_closed_form|].
  set (Y := fun t => Share c L (a + (b - a) * t)).
  apply (average_ext k (fun l => Rsum (map (fun s => Rsum (map (fun t => PairTerm (Y s) (Y t)) l)) l))).
  { intros l _. unfold RigidityForm. rewrite !map_map. apply Rsum_map_ext. intro s. now rewrite !map_map. }
  replace (rigidity_at euler Poisson (INR k / (b - a) * L)) with (INR k * ((c - L / 2 - a) / (b - a) * PairTerm 1 1 + L / (b - a) * / 15)).
  2:{ unfold rigidity_at, PairTerm. rewrite Rmin_left by lra. field. lra. }
  apply (average_pairs (fun s t => PairTerm (Y s) (Y t))).
  - intros. apply pair_sym.
  - apply (share_int a b c L HL Ha Hb (fun y => PairTerm y y)); [exact int_diag|]. unfold PairTerm. rewrite Rmin_left by lra. ring.
  - intro s. pose proof (share_bounds c L (a + (b - a) * s)) as Bs. fold (Y s) in Bs.
    pose proof (share_int a b c L HL Ha Hb (PairTerm (Y s)) 0 (int_pair (Y s) Bs)) as J.
    match type of J with _ -> is_RInt _ _ _ ?v => replace v with 0 in J end; [|rewrite pair_sym, pair_end by (auto; lra); ring].
    apply J. rewrite pair_sym. apply pair_end; [now left|exact Bs].
Qed.
Print Assumptions C131_rigidity.

(** ** The number of levels in the window *)
Definition inside (c L e : R) : R := if Rle_dec (c - L / 2) e then if Rle_dec e (c + L / 2) then 1 else 0 else 0.
Lemma count_inside u c L : INR (CountIn u (c - L / 2) (c + L / 2)) = Rsum (map (inside c L) u).
Proof. induction u as [|e u IH]; [reflexivity|]. cbn [CountIn map]. rewrite Rsum_cons, plus_INR, IH. unfold inside. f_equal. destruct (Rle_dec (c - L / 2) e), (Rle_dec e (c + L / 2)); reflexivity. Qed.
Lemma int_inside a b c L : 0 <= L -> a < b -> a <= c - L / 2 -> c + L / 2 <= b -> is_RInt (fun t => inside c L (a + (b - a) * t)) 0 1 (L / (b - a)).
Proof.
  intros HL Hab Ha Hb. set (w := b - a). assert (W : 0 < w) by (unfold w; lra). set (p := (c - L / 2 - a) / w). set (q := (c + L / 2 - a) / w).
  assert (P0 : 0 <= p) by (apply Rmult_le_pos; [lra|left; now apply Rinv_0_lt_compat]).
  assert (PQ : p <= q) by (apply Rmult_le_compat_r; [left; now apply Rinv_0_lt_compat|lra]).
  assert (Q1 : q <= 1) by (apply (Rmult_le_reg_r w); [exact W|]; unfold q, Rdiv; rewrite Rmult_assoc, Rinv_l by lra; unfold w; lra).
  assert (Ep : a + w * p = c - L / 2) by (unfold p; field; lra). assert (Eq : a + w * q = c + L / 2) by (unfold q; field; lra).
  assert (Z : forall x y, x <= y -> (forall t, x < t < y -> inside c L (a + w * t) = 0) -> is_RInt (fun t => inside c L (a + w * t)) x y 0).
  { intros x y Hxy H. apply (is_RInt_ext (fun _ => 0)); [rewrite Rmin_left, Rmax_right by lra; intros t Ht; now rewrite H|].
    pose proof (is_RInt_const (V := R_NormedModule) x y 0) as K. match type of K with is_RInt _ _ _ ?v => assert (E : v = 0) by exact (Rmult_0_r _); rewrite E in K end. exact K. }
  assert (J1 : is_RInt (fun t => inside c L (a + w * t)) 0 p 0) by (apply Z; [lra|]; intros t Ht; unfold inside; assert (w * t < w * p) by (apply Rmult_lt_compat_l; lra); destruct (Rle_dec (c - L / 2) (a + w * t)); [lra|reflexivity]).
  assert (J3 : is_RInt (fun t => inside c L (a + w * t)) q 1 0) by (apply Z; [lra|]; intros t Ht; unfold inside; assert (w * q < w * t) by (apply Rmult_lt_compat_l; lra); destruct (Rle_dec (c - L / 2) (a + w * t)), (Rle_dec (a + w * t) (c + L / 2)); lra || reflexivity).
  assert (J2 : is_RInt (fun t => inside c L (a + w * t)) p q (q - p)).
  { apply (is_RInt_ext (fun _ => 1)).
    - rewrite Rmin_left, Rmax_right by lra. intros t Ht. unfold inside. assert (w * p < w * t < w * q) by (split; apply Rmult_lt_compat_l; lra). destruct (Rle_dec (c - L / 2) (a + w * t)), (Rle_dec (a + w * t) (c + L / 2)); lra || reflexivity.
    - pose proof (is_RInt_const (V := R_NormedModule) p q 1) as K. match type of K with is_RInt _ _ _ ?v => assert (E : v = q - p) by exact (Rmult_1_r _); rewrite E in K end. exact K. }
  pose proof (is_RInt_Chasles (V := R_NormedModule) _ _ _ _ _ _ J1 (is_RInt_Chasles (V := R_NormedModule) _ _ _ _ _ _ J2 J3)) as J.
  match type of J with is_RInt _ _ _ ?v => assert (E : v = L / w) by (unfold plus; cbn; unfold p, q; field; lra); rewrite E in J end. exact J.
Qed.
Lemma inside_sq c L e : inside c L e * inside c L e = inside c L e.
Proof. unfold inside. destruct (Rle_dec (c - L / 2) e), (Rle_dec e (c + L / 2)); ring. Qed.

(** C131. The number of levels in the window averages to the density times L; its mean squared deviation from that is the package's Poisson curve at this mean, less its square over k. *)
Theorem C131_level_variance : forall euler a b c L k, 0 <= L -> a < b -> a <= c - L / 2 -> c + L / 2 <= b -> (1 <= k)%nat ->
  let n l := INR (CountIn (map (fun t => a + (b - a) * t) l) (c - L / 2) (c + L / 2)) in let m := INR k / (b - a) * L in
  IsAverage k n m /\ IsAverage k (fun l => (n l - m) ^ 2) (levelvar_at euler Poisson m - m ^ 2 / INR k).
Proof.
  intros euler a b c L k HL Hab Ha Hb Hk n m. assert (Pk : 0 < INR k) by (apply lt_0_INR; lia). set (g := fun t => inside c L (a + (b - a) * t)).
  assert (En : forall l, n l = Rsum (map g l)) by (intro l; unfold n; rewrite count_inside, map_map; reflexivity).
  pose proof (int_inside a b c L HL Hab Ha Hb) as I1. fold g in I1.
  assert (I2 : is_RInt (fun t => g t * g t) 0 1 (L / (b - a))) by (eapply is_RInt_ext; [|exact I1]; intros t _; symmetry; apply inside_sq).
  split.
  - apply (average_ext k (fun l => Rsum (map g l))); [intros; now rewrite En|]. replace m with (INR k * (L / (b - a))) by (unfold m; field; lra). now apply average_linear.
  - pose proof (average_quad g _ _ I1 I2 k (m ^ 2) (- 2 * m) 1 0) as A. match type of A with IsAverage _ _ ?v => replace v with (levelvar_at euler Poisson m - m ^ 2 / INR k) in A by (unfold levelvar_at, m; field; lra) end.
    eapply average_ext; [|exact A]. intros l _. cbv beta. rewrite En. ring.
Qed.
Print Assumptions C131_level_variance.

(** Thirty independent levels on [0, 30] and the window [10, 16]: the rigidity averages to 2/5, the number of levels to 6 with mean squared deviation 24/5 (the Poisson curve says 6). *)
Example C131_case : (exists E, (forall l, ExactRigidity (map (fun t => 0 + (30 - 0) * t) l) 13 6 (E l)) /\ IsAverage 30 E (2 / 5)) /\
  IsAverage 30 (fun l => (INR (CountIn (map (fun t => 0 + (30 - 0) * t) l) (13 - 6 / 2) (13 + 6 / 2)) - INR 30 / (30 - 0) * 6) ^ 2) (24 / 5).
Proof.
  assert (E30 : INR 30 = 30) by (rewrite INR_IZR_INZ; reflexivity).
  split.
  - destruct (C131_rigidity 0 0 30 13 6 30) as (E & H1 & H2); [lra..|]. exists E. split; [exact H1|]. unfold rigidity_at in H2. rewrite E30 in H2. replace (2 / 5) with (30 / (30 - 0) * 6 / 15) by field. exact H2.
  - destruct (C131_level_variance 0 0 30 13 6 30) as (_ & H); [lra..|lia|]. unfold levelvar_at in H. rewrite E30 in *. replace (24 / 5) with (30 / (30 - 0) * 6 - (30 / (30 - 0) * 6) ^ 2 / 30) by field. exact H.
Qed.
