(** The exact rigidity of a window in closed form. *)
From Coq Require Import List ZArith Bool Arith Lia Reals Lra.
From Coquelicot Require Import Coquelicot.
From Verif Require Import Base S_Order S_EigVals S_Trim S_Rigidity S_RigidityForm P_Order P_EigVals P_TrimStat P_Quad P_Ols P_Loops P_RigidityFit.
Import ListNotations.
Local Open Scope R_scope.
Local Notation length := List.length.

Definition ind (e x : R) : R := if Rle_dec e x then 1 else 0.
Definition clip (lo hi e : R) : R := Rmax lo (Rmin hi e).
Lemma stair_sum u x : stair u x = Rsum (map (fun e => ind e x) u).
Proof.
  unfold stair. induction u as [|e u IH]; [reflexivity|]. cbn [map CountLe]. rewrite Rsum_cons, <- IH, plus_IZR. unfold ind. cbn. destruct (Rle_dec e x); reflexivity.
Qed.
Lemma ind_mul e f x : ind e x * ind f x = ind (Rmax e f) x.
Proof. unfold ind, Rmax. destruct (Rle_dec e f), (Rle_dec e x), (Rle_dec f x); lra. Qed.
Lemma clip_max lo hi e f : clip lo hi (Rmax e f) = Rmax (clip lo hi e) (clip lo hi f).
Proof. unfold clip, Rmax, Rmin. repeat destruct (Rle_dec _ _); lra. Qed.

Lemma int_ind (p P : R -> R) lo hi e : lo <= hi -> (forall x, is_derive P x (p x)) -> (forall x, continuous p x) ->
  is_RInt (fun x => ind e x * p x) lo hi (P hi - P (clip lo hi e)).
Proof.
  intros Hlh HP Hp. set (r := clip lo hi e). assert (Hr : lo <= r <= hi) by (unfold r, clip, Rmax, Rmin; repeat destruct (Rle_dec _ _); lra).
  assert (J1 : is_RInt (fun x => ind e x * p x) lo r 0).
  { apply (is_RInt_ext (fun _ => 0)).
    - rewrite Rmin_left, Rmax_right by lra. intros x Hx. unfold ind. destruct (Rle_dec e x); [|match goal with |- ?a = ?b => change (@eq R a b) end; ring].
      exfalso. unfold r, clip, Rmax, Rmin in Hx. repeat destruct (Rle_dec _ _); lra.
    - pose proof (is_RInt_const (V := R_NormedModule) lo r 0) as K. match type of K with is_RInt _ _ _ ?v => assert (E : v = 0) by exact (Rmult_0_r _); rewrite E in K end. exact K. }
  assert (J2 : is_RInt (fun x => ind e x * p x) r hi (P hi - P r)).
  { apply (is_RInt_ext p).
    - rewrite Rmin_left, Rmax_right by lra. intros x Hx. unfold ind. destruct (Rle_dec e x); [match goal with |- ?a = ?b => change (@eq R a b) end; ring|].
      exfalso. unfold r, clip, Rmax, Rmin in Hx. repeat destruct (Rle_dec _ _); lra.
    - apply (is_RInt_derive (V := R_CompleteNormedModule) P); intros; auto. }
  pose proof (is_RInt_Chasles (V := R_NormedModule) _ _ _ _ _ _ J1 J2) as J. match type of J with is_RInt _ _ _ ?v => assert (E : v = P hi - P r) by exact (Rplus_0_l _); rewrite E in J end. exact J.
Qed.
Lemma int_sum (A : Type) (f : A -> R -> R) (v : A -> R) lo hi l : (forall a, is_RInt (f a) lo hi (v a)) -> is_RInt (fun x => Rsum (map (fun a => f a x) l)) lo hi (Rsum (map v l)).
Proof.
  intros H. induction l as [|a l IH].
  - cbn. pose proof (is_RInt_const (V := R_NormedModule) lo hi 0) as K. match type of K with is_RInt _ _ _ ?v => assert (E : v = 0) by exact (Rmult_0_r _); rewrite E in K end. exact K.
  - cbn [map]. rewrite Rsum_cons. apply (is_RInt_ext (fun x => f a x + Rsum (map (fun a => f a x) l))); [intros x _; now rewrite Rsum_cons|].
    exact (is_RInt_plus (V := R_NormedModule) _ _ _ _ _ _ (H a) IH).
Qed.
Lemma Rsum_mul_l (A : Type) (f : A -> R) l k : k * Rsum (map f l) = Rsum (map (fun a => k * f a) l).
Proof. induction l as [|a l IH]; [cbn; ring|]. cbn [map]. rewrite !Rsum_cons, <- IH. ring. Qed.
Lemma Rsum_mul_r (A : Type) (f : A -> R) l k : Rsum (map f l) * k = Rsum (map (fun a => f a * k) l).
Proof. induction l as [|a l IH]; [cbn; ring|]. cbn [map]. rewrite !Rsum_cons, <- IH. ring. Qed.
Lemma Rsum_map_ext (A : Type) (f g : A -> R) l : (forall a, f a = g a) -> Rsum (map f l) = Rsum (map g l).
Proof. intros H. f_equal. apply map_ext. exact H. Qed.

Section Window.
Variables (u : list R) (c L : R).
Hypothesis HL : 0 < L.
Let lo := c - L / 2. Let hi := c + L / 2.
Let y := map (Share c L) u.
Lemma clip_share e : clip lo hi e = hi - L * Share c L e.
Proof.
  unfold clip, Share. fold hi. assert (E : e = hi - L * ((hi - e) / L)) by (field; lra). set (q := (hi - e) / L) in *. rewrite E at 1. clearbody q. clear E.
  assert (E : lo = hi - L * 1) by (unfold lo, hi; field). rewrite E.
  unfold Rmax, Rmin. repeat destruct (Rle_dec _ _); try nra.
Qed.
Lemma int_stair : is_RInt (stair u) lo hi (L * Rsum y).
Proof.
  unfold y. rewrite Rsum_mul_l. apply (is_RInt_ext (fun x => Rsum (map (fun e => ind e x) u))); [intros x _; now rewrite stair_sum|].
  apply (int_sum R (fun e x => ind e x) (fun e => L * Share c L e)). intro e.
  pose proof (int_ind (fun _ => 1) (fun x => x) lo hi e ltac:(unfold lo, hi; lra)) as J. rewrite clip_share in J. replace (hi - (hi - L * Share c L e)) with (L * Share c L e) in J by ring.
  eapply is_RInt_ext; [|apply J]; [intros x _; match goal with |- ?a = ?b => change (@eq R a b) end; cbv beta; ring|intro; auto_derive; trivial|intro; apply continuous_const].
Qed.
Lemma int_stair1 : is_RInt (fun x => stair u x * (x - c)) lo hi (L * L / 2 * Rsum (map (fun a => a * (1 - a)) y)).
Proof.
  unfold y. rewrite map_map, Rsum_mul_l. apply (is_RInt_ext (fun x => Rsum (map (fun e => ind e x * (x - c)) u))); [intros x _; now rewrite stair_sum, Rsum_mul_r|].
  apply (int_sum R (fun e x => ind e x * (x - c)) (fun e => L * L / 2 * (Share c L e * (1 - Share c L e)))). intro e.
  pose proof (int_ind (fun x => x - c) (fun x => (x - c) * (x - c) / 2) lo hi e ltac:(unfold lo, hi; lra)) as J. rewrite clip_share in J.
  match type of J with _ -> _ -> is_RInt _ _ _ ?v => replace v with (L * L / 2 * (Share c L e * (1 - Share c L e))) in J by (unfold hi; field) end.
  apply J; [intro; auto_derive; [trivial|field]|intro; apply cont_of; auto_derive; trivial].
Qed.
Lemma share_max e f : Share c L (Rmax e f) = Rmin (Share c L e) (Share c L f).
Proof.
  pose proof (clip_share (Rmax e f)) as H. rewrite clip_max, !clip_share in H. set (a := Share c L e) in *. set (b := Share c L f) in *.
  assert (K : Rmax (hi - L * a) (hi - L * b) = hi - L * Rmin a b) by (unfold Rmax, Rmin; repeat destruct (Rle_dec _ _); nra). nra.
Qed.
Lemma int_stair2 : is_RInt (fun x => stair u x * stair u x) lo hi (L * Rsum (map (fun a => Rsum (map (Rmin a) y)) y)).
Proof.
  unfold y. rewrite map_map, Rsum_mul_l.
  apply (is_RInt_ext (fun x => Rsum (map (fun e => Rsum (map (fun f => ind (Rmax e f) x) u)) u))).
  - intros x _. rewrite stair_sum, Rsum_mul_r. apply Rsum_map_ext. intro e. rewrite Rsum_mul_l. apply Rsum_map_ext. intro f. symmetry. apply ind_mul.
  - apply (int_sum R (fun e x => Rsum (map (fun f => ind (Rmax e f) x) u)) (fun e => L * Rsum (map (Rmin (Share c L e)) (map (Share c L) u)))). intro e. rewrite map_map, Rsum_mul_l.
    apply (int_sum R (fun f x => ind (Rmax e f) x) (fun f => L * Rmin (Share c L e) (Share c L f))). intro f.
    pose proof (int_ind (fun _ => 1) (fun x => x) lo hi (Rmax e f) ltac:(unfold lo, hi; lra)) as J. rewrite clip_share, share_max in J.
    match type of J with _ -> _ -> is_RInt _ _ _ ?v => replace v with (L * Rmin (Share c L e) (Share c L f)) in J by ring end.
    eapply is_RInt_ext; [|apply J]; [intros x _; match goal with |- ?a = ?b => change (@eq R a b) end; cbv beta; ring|intro; auto_derive; trivial|intro; apply continuous_const].
Qed.
Lemma form_split (v : list R) : RigidityForm v = Rsum (map (fun a => Rsum (map (Rmin a) v)) v) - (Rsum v) ^ 2 - 3 * (Rsum (map (fun a => a * (1 - a)) v)) ^ 2.
Proof.
  unfold RigidityForm. assert (G : forall w : list R, Rsum (map (fun a => Rsum (map (PairTerm a) v)) w) =
    Rsum (map (fun a => Rsum (map (Rmin a) v)) w) - Rsum w * Rsum v - 3 * Rsum (map (fun a => a * (1 - a)) w) * Rsum (map (fun a => a * (1 - a)) v)).
  { induction w as [|a w IH]; [cbn; ring|]. cbn [map]. rewrite !Rsum_cons, IH.
    assert (E : Rsum (map (PairTerm a) v) = Rsum (map (Rmin a) v) - a * Rsum v - 3 * (a * (1 - a)) * Rsum (map (fun a => a * (1 - a)) v)).
    { clear. induction v as [|b v IH]; [cbn; ring|]. cbn [map]. rewrite !Rsum_cons, IH. unfold PairTerm. ring. }
    rewrite E. ring. }
  rewrite G. ring.
Qed.
Lemma dev_form A B : MeanSqDev u c L A B (RigidityForm y + L * L / 12 * (A - 6 / L * Rsum (map (fun a => a * (1 - a)) y)) ^ 2 + (A * c + B - Rsum y) ^ 2).
Proof.
  unfold MeanSqDev. fold lo hi. rewrite form_split. pose proof int_stair as J0. pose proof int_stair1 as J1. pose proof int_stair2 as J2.
  set (s0 := Rsum y) in *. set (s1 := Rsum (map (fun a => a * (1 - a)) y)) in *. set (s2 := Rsum (map (fun a => Rsum (map (Rmin a) y)) y)) in *.
  pose proof (int_quadratic (A * A) (2 * A * B) (B * B) lo hi) as JP.
  pose proof (is_RInt_scal (V := R_NormedModule) _ _ _ (- 2 * A) _ J1) as K1. pose proof (is_RInt_scal (V := R_NormedModule) _ _ _ (- 2 * (A * c + B)) _ J0) as K0.
  pose proof (is_RInt_plus (V := R_NormedModule) _ _ _ _ _ _ (is_RInt_plus (V := R_NormedModule) _ _ _ _ _ _ J2 K1) (is_RInt_plus (V := R_NormedModule) _ _ _ _ _ _ K0 JP)) as J.
  match type of J with is_RInt _ _ _ ?v => replace v with (L * (s2 - s0 ^ 2 - 3 * s1 ^ 2 + L * L / 12 * (A - 6 / L * s1) ^ 2 + (A * c + B - s0) ^ 2)) in J end.
  - eapply is_RInt_ext; [|exact J]. intros x _. unfold plus, scal. cbn. unfold mult. cbn. fold (stair u x). ring.
  - unfold plus, scal. cbn. unfold mult. cbn. unfold lo, hi. field. lra.
Qed.
Lemma exact_form : ExactRigidity u c L (RigidityForm y).
Proof.
  split.
  - exists (6 / L * Rsum (map (fun a => a * (1 - a)) y)), (Rsum y - 6 / L * Rsum (map (fun a => a * (1 - a)) y) * c).
    match goal with |- MeanSqDev _ _ _ ?a ?b _ => pose proof (dev_form a b) as H end. match type of H with MeanSqDev _ _ _ _ _ ?v => replace v with (RigidityForm y) in H by ring end. exact H.
  - intros A B d H. pose proof (dev_form A B) as H'. unfold MeanSqDev in H, H'. apply (is_RInt_unique (V := R_CompleteNormedModule)) in H, H'. rewrite H in H'.
    apply Rmult_eq_reg_l in H'; [|lra]. rewrite H'. pose proof (pow2_ge_0 (A * c + B - Rsum y)). pose proof (pow2_ge_0 (A - 6 / L * Rsum (map (fun a => a * (1 - a)) y))). assert (0 < L * L) by nra. nra.
Qed.
End Window.
