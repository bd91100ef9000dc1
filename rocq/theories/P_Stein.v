(** Integration by parts for polynomials of independent standard normal numbers: the average of a linear form times f is the average of
    the derivative of f in the direction of the form. *)
From Coq Require Import List ZArith Bool Arith Lia Reals Lra.
From Coquelicot Require Import Coquelicot.
From Verif Require Import Base S_Generate S_Normal S_Rotate S_CCharPoly P_Generate P_Surmise P_Rotate T_Rotate P_Moments P_Wishart P_Fourth P_CDet P_CCharPoly.
Import ListNotations.
Local Open Scope R_scope.
Local Notation length := List.length.

(** ** Partial derivatives of monomials *)
Fixpoint dec (p : nat) (es : list nat) : list nat :=
  match es, p with [], _ => [] | e :: t, O => pred e :: t | e :: t, S q => e :: dec q t end.
Definition dmono (p : nat) (es : list nat) (l : list R) : R := INR (nth p es O) * mono (dec p es) l.
Lemma dpow a b x : INR (a + b) * x ^ pred (a + b) = INR a * x ^ pred a * x ^ b + INR b * x ^ pred b * x ^ a.
Proof.
  rewrite plus_INR. destruct a as [|a]; [cbn [pred Nat.add pow INR]; ring|]. destruct b as [|b]; [rewrite Nat.add_0_r; cbn [pred pow INR]; ring|].
  replace (pred (S a + S b)) with (a + S b)%nat by lia. cbn [pred]. rewrite pow_add. cbn [pow]. ring.
Qed.
Lemma dmono_mul p : forall a b l, dmono p (mul_exp a b) l = dmono p a l * mono b l + mono a l * dmono p b l.
Proof.
  unfold dmono. induction p as [|p IH]; intros [|x a] [|y b] l; cbn [mul_exp nth dec].
  - cbn. ring.
  - cbn [nth INR]. destruct l as [|z l]; cbn [mono]; ring.
  - cbn [nth INR]. destruct l as [|z l]; cbn [mono]; ring.
  - destruct l as [|z l]; cbn [mono]; [rewrite plus_INR; ring|].
    rewrite mono_mul. replace (INR (x + y) * (z ^ pred (x + y) * (mono a l * mono b l))) with (INR (x + y) * z ^ pred (x + y) * (mono a l * mono b l)) by ring. rewrite dpow. ring.
  - cbn. ring.
  - cbn [nth INR]. destruct l as [|z l]; cbn [mono]; ring.
  - cbn [nth INR]. destruct l as [|z l]; cbn [mono]; ring.
  - destruct l as [|z l]; cbn [mono].
    + specialize (IH a b []). replace (mono (dec p (mul_exp a b)) []) with 1 in IH by (destruct (dec p (mul_exp a b)); reflexivity).
      replace (mono (dec p a) []) with 1 in IH by (destruct (dec p a); reflexivity). replace (mono (dec p b) []) with 1 in IH by (destruct (dec p b); reflexivity).
      replace (mono a []) with 1 in IH by (destruct a; reflexivity). replace (mono b []) with 1 in IH by (destruct b; reflexivity). exact IH.
    + replace (INR (nth p (mul_exp a b) O) * (z ^ (x + y) * mono (dec p (mul_exp a b)) l)) with (z ^ (x + y) * (INR (nth p (mul_exp a b) O) * mono (dec p (mul_exp a b)) l)) by ring.
      rewrite IH, pow_add. ring.
Qed.
Lemma moment_S e : moment (S e) = INR e * moment (pred e).
Proof. destruct e as [|e]; [cbn; ring|]. reflexivity. Qed.
Lemma first_power k e (f : list R -> R) v : NormalAverage k f v -> NormalAverage (S k) (fun l => match l with x :: t => x ^ e * f t | [] => 0 end) (moment e * v).
Proof.
  intro H. apply (navg_first k _ (fun x => x ^ e * v)); [intro x; now apply navg_scale|].
  pose proof (whole_lin _ _ _ _ v 0 (moments e) (moments e)) as W. rewrite Rmult_0_l, Rplus_0_r, (Rmult_comm v) in W. revert W. apply whole_ext. intro x. ring.
Qed.
Lemma mono_stein k : forall p es, (p < k)%nat -> exists v, NormalAverage k (fun l => nth p l 0 * mono es l) v /\ NormalAverage k (dmono p es) v.
Proof.
  induction k as [|k IH]; intros p es Hp; [lia|]. destruct es as [|e es].
  - exists 0. split.
    + refine (navg_ext _ _ _ _ _ (navg_coord (S k) p Hp)). intros l _. cbn. destruct l; ring.
    + refine (navg_ext _ _ _ _ _ (navg_const (S k) 0)). intros l _. unfold dmono. destruct p; cbn; ring.
  - destruct p as [|p].
    + destruct (mono_avg k es) as (w & Hw). exists (moment (S e) * w). split.
      * refine (navg_ext _ _ _ _ _ (first_power k (S e) _ _ Hw)). intros [|x l] Hl; [discriminate|]. cbn. ring.
      * apply (navg_value _ _ (INR e * (moment (pred e) * w))); [rewrite moment_S; ring|].
        refine (navg_ext _ _ _ _ _ (navg_scale (S k) _ _ (INR e) (first_power k (pred e) _ _ Hw))). intros [|x l] Hl; [discriminate|]. reflexivity.
    + destruct (IH p es ltac:(lia)) as (w & W1 & W2). exists (moment e * w). split.
      * refine (navg_ext _ _ _ _ _ (first_power k e _ _ W1)). intros [|x l] Hl; [discriminate|]. cbn. ring.
      * refine (navg_ext _ _ _ _ _ (first_power k e _ _ W2)). intros [|x l] Hl; [discriminate|]. unfold dmono. cbn [nth dec mono]. ring.
Qed.

(** ** Partial derivatives of polynomials *)
Definition dvalue (p : nat) (P : list (R * list nat)) (l : list R) : R := fold_right (fun ce s => fst ce * dmono p (snd ce) l + s) 0 P.
Definition Partial (k p : nat) (f f' : list R -> R) : Prop :=
  exists P, (forall l, length l = k -> f l = value P l) /\ forall l, length l = k -> f' l = dvalue p P l.
Lemma partial_ext k p f f' g g' : (forall l, length l = k -> f l = g l) -> (forall l, length l = k -> f' l = g' l) -> Partial k p f f' -> Partial k p g g'.
Proof. intros E E' (P & H & H'). exists P. split; intros l Hl; [rewrite <- E by exact Hl|rewrite <- E' by exact Hl]; auto. Qed.
Lemma partial_const k p c : Partial k p (fun _ => c) (fun _ => 0).
Proof. exists [(c, [])]. split; intros l _; cbn; [ring|]. unfold dmono. destruct p; cbn; ring. Qed.
Lemma partial_coord k p q : (q < k)%nat -> Partial k p (fun l => nth q l 0) (fun _ => kron p q).
Proof.
  intro Hq. exists [(1, repeat O q ++ [1%nat])]. split; intros l Hl; unfold value, dvalue; cbn [fold_right fst snd]; rewrite Rmult_1_l, Rplus_0_r; subst k.
  - revert q Hq. induction l as [|x l IH]; intros q Hq; [cbn in Hq; lia|]. destruct q as [|q]; [cbn; ring|]. cbn [nth repeat app mono pow]. rewrite Rmult_1_l. apply IH. cbn in Hq. lia.
  - revert l p Hq. unfold dmono, kron. induction q as [|q IH]; intros l p Hq.
    + destruct l as [|x l]; [cbn in Hq; lia|]. destruct p as [|p]; [cbn; ring|]. cbn. destruct p; cbn; ring.
    + destruct l as [|x l]; [cbn in Hq; lia|]. destruct p as [|p]; [cbn; ring|]. cbn [repeat app nth dec mono pow Nat.eqb]. rewrite Rmult_1_l. apply IH. cbn in Hq. lia.
Qed.
Lemma dvalue_app p P Q l : dvalue p (P ++ Q) l = dvalue p P l + dvalue p Q l.
Proof. unfold dvalue. induction P as [|c P IH]; cbn [app fold_right]; [ring|]. rewrite IH. ring. Qed.
Lemma partial_add k p f f' g g' : Partial k p f f' -> Partial k p g g' -> Partial k p (fun l => f l + g l) (fun l => f' l + g' l).
Proof. intros (P & H & H') (Q & G & G'). exists (P ++ Q). split; intros l Hl; [rewrite value_app, H, G|rewrite dvalue_app, H', G']; auto. Qed.
Lemma dvalue_term p c es Q l : dvalue p (map (fun ce => (c * fst ce, mul_exp es (snd ce))) Q) l = c * dmono p es l * value Q l + c * mono es l * dvalue p Q l.
Proof. unfold dvalue, value. induction Q as [|d Q IH]; cbn [map fold_right fst snd]; [ring|]. rewrite IH, dmono_mul. ring. Qed.
Lemma partial_mul k p f f' g g' : Partial k p f f' -> Partial k p g g' -> Partial k p (fun l => f l * g l) (fun l => f' l * g l + f l * g' l).
Proof.
  intros (P & H & H') (Q & G & G'). exists (flat_map (fun ce => map (fun de => (fst ce * fst de, mul_exp (snd ce) (snd de))) Q) P).
  split; intros l Hl; [rewrite H, G by exact Hl|rewrite H', H, G', G by exact Hl]; clear H H' G G'; induction P as [|c P IH]; cbn [flat_map]; try (cbn; ring).
  - rewrite value_app, <- IH, value_term. cbn [value fold_right]. fold (value P l). ring.
  - rewrite dvalue_app, <- IH, dvalue_term. cbn [value dvalue fold_right]. fold (value P l). fold (dvalue p P l). ring.
Qed.
Lemma partial_scale k p c f f' : Partial k p f f' -> Partial k p (fun l => c * f l) (fun l => c * f' l).
Proof. intro H. refine (partial_ext _ _ _ _ _ _ _ _ (partial_mul k p _ _ f f' (partial_const k p c) H)); intros; ring. Qed.
Lemma partial_stein k p f f' : (p < k)%nat -> Partial k p f f' -> exists v, NormalAverage k (fun l => nth p l 0 * f l) v /\ NormalAverage k f' v.
Proof.
  intros Hp (P & H & H'). assert (exists v, NormalAverage k (fun l => nth p l 0 * value P l) v /\ NormalAverage k (dvalue p P) v) as (v & V1 & V2).
  { clear H H'. induction P as [|[c es] P (v & V1 & V2)].
    - exists 0. split; [|exact (navg_const k 0)]. refine (navg_ext _ _ _ _ _ (navg_const k 0)). intros l _. cbn. ring.
    - destruct (mono_stein k p es Hp) as (w & W1 & W2). exists (c * w + 1 * v). split.
      + refine (navg_ext _ _ _ _ _ (navg_lin k _ _ w v c 1 W1 V1)). intros l _. cbn [value fold_right fst snd]. fold (value P l). ring.
      + refine (navg_ext _ _ _ _ _ (navg_lin k _ _ w v c 1 W2 V2)). intros l _. cbn [dvalue fold_right fst snd]. fold (dvalue p P l). ring. }
  exists v. split; [refine (navg_ext _ _ _ _ _ V1)|refine (navg_ext _ _ _ _ _ V2)]; intros l Hl; [rewrite H|rewrite H']; auto.
Qed.

(** ** Complex values *)
Local Open Scope C_scope.
Lemma cavg_unique k f u v : CNormalAverage k f u -> CNormalAverage k f v -> u = v.
Proof. intros (U1 & U2) (V1 & V2). destruct u, v. cbn [fst snd] in *. f_equal; eapply navg_unique; eassumption. Qed.
Definition clin (k : nat) (u : nat -> C) (l : list R) : C := CSumTo k (fun p => u p * RtoC (nth p l 0%R)).
Definition cdot (k : nat) (u w : nat -> C) : C := CSumTo k (fun p => u p * w p).
Definition CPartial (k p : nat) (f f' : list R -> C) : Prop := Partial k p (fun l => fst (f l)) (fun l => fst (f' l)) /\ Partial k p (fun l => snd (f l)) (fun l => snd (f' l)).
(** The derivative of [f] in the direction of [u]. *)
Definition Along (k : nat) (u : nat -> C) (f f' : list R -> C) : Prop :=
  exists g : nat -> list R -> C, (forall p, (p < k)%nat -> CPartial k p f (g p)) /\ forall l, length l = k -> f' l = CSumTo k (fun p => u p * g p l).
Lemma along_ext k u f f' g g' : (forall l, length l = k -> f l = g l) -> (forall l, length l = k -> f' l = g' l) -> Along k u f f' -> Along k u g g'.
Proof.
  intros E E' (d & H & H'). exists d. split; [|intros l Hl; rewrite <- E' by exact Hl; auto]. intros p Hp. destruct (H p Hp) as [A B].
  split; [refine (partial_ext _ _ _ _ _ _ _ _ A)|refine (partial_ext _ _ _ _ _ _ _ _ B)]; intros l Hl; auto; now rewrite E.
Qed.
Lemma along_const k u c : Along k u (fun _ => c) (fun _ => 0).
Proof. exists (fun _ _ => 0). split; [intros p _; split; apply partial_const|]. intros l _. rewrite CSumTo_0; [reflexivity|]. intros; ring. Qed.
Lemma along_add k u f f' g g' : Along k u f f' -> Along k u g g' -> Along k u (fun l => f l + g l) (fun l => f' l + g' l).
Proof.
  intros (d & H & H') (e & G & G'). exists (fun p l => d p l + e p l). split.
  - intros p Hp. destruct (H p Hp), (G p Hp). split; [apply (partial_add k p (fun l => fst (f l)) _ (fun l => fst (g l)))|apply (partial_add k p (fun l => snd (f l)) _ (fun l => snd (g l)))]; assumption.
  - intros l Hl. rewrite H', G' by exact Hl. rewrite <- CSumTo_add. apply CSumTo_ext. intros; ring.
Qed.
Lemma along_mul k u f f' g g' : Along k u f f' -> Along k u g g' -> Along k u (fun l => f l * g l) (fun l => f' l * g l + f l * g' l).
Proof.
  intros (d & H & H') (e & G & G'). exists (fun p l => d p l * g l + f l * e p l). split.
  - intros p Hp. destruct (H p Hp) as [H1 H2], (G p Hp) as [G1 G2].
    pose proof (partial_mul _ _ _ _ _ _ H1 G1) as P11. pose proof (partial_scale _ _ (-1) _ _ (partial_mul _ _ _ _ _ _ H2 G2)) as P22.
    pose proof (partial_mul _ _ _ _ _ _ H1 G2) as P12. pose proof (partial_mul _ _ _ _ _ _ H2 G1) as P21.
    split; [refine (partial_ext _ _ _ _ _ _ _ _ (partial_add _ _ _ _ _ _ P11 P22))|refine (partial_ext _ _ _ _ _ _ _ _ (partial_add _ _ _ _ _ _ P12 P21))]; intros l _; cbn; ring.
  - intros l Hl. rewrite H', G' by exact Hl. rewrite (Cmult_comm _ (g l)), <- !CSumTo_scale, <- CSumTo_add. apply CSumTo_ext. intros; ring.
Qed.
Lemma along_scale k u c f f' : Along k u f f' -> Along k u (fun l => c * f l) (fun l => c * f' l).
Proof. intro H. refine (along_ext _ _ _ _ _ _ _ _ (along_mul k u _ _ f f' (along_const k u c) H)); intros; ring. Qed.
Lemma along_SumTo k u n (f f' : nat -> list R -> C) : (forall i, (i < n)%nat -> Along k u (f i) (f' i)) -> Along k u (fun l => CSumTo n (fun i => f i l)) (fun l => CSumTo n (fun i => f' i l)).
Proof.
  induction n as [|n IH]; intro H; cbn [CSumTo]; [apply along_const|]. apply (along_add k u (fun l => CSumTo n (fun i => f i l)) _ (f n)); [apply IH; auto|apply H; lia].
Qed.
Lemma along_coord k u q : (q < k)%nat -> Along k u (fun l => RtoC (nth q l 0%R)) (fun _ => u q).
Proof.
  intro Hq. exists (fun p _ => RtoC (kron p q)). split.
  - intros p Hp. split; cbn; [now apply partial_coord|apply partial_const].
  - intros l _. induction k as [|k IH]; [lia|]. cbn [CSumTo]. unfold kron at 2. destruct (Nat.eqb_spec k q) as [->|N].
    + rewrite CSumTo_0; [ring|]. intros i Hi. unfold kron. destruct (Nat.eqb_spec i q); [lia|]. ring.
    + rewrite <- IH by lia. ring.
Qed.
Lemma along_lin k u w : Along k u (clin k w) (fun _ => cdot k u w).
Proof.
  refine (along_ext _ _ _ _ _ _ _ _ (along_SumTo k u k (fun p l => w p * RtoC (nth p l 0%R)) (fun p _ => w p * u p) _)).
  - intros; reflexivity.
  - intros l _. apply CSumTo_ext. intros; ring.
  - intros p Hp. apply along_scale. now apply along_coord.
Qed.
Lemma along_stein k u f f' : Along k u f f' -> exists v, CNormalAverage k (fun l => clin k u l * f l) v /\ CNormalAverage k f' v.
Proof.
  intros (d & H & H').
  assert (forall m, (m <= k)%nat -> exists w, CNormalAverage k (fun l => CSumTo m (fun p => u p * RtoC (nth p l 0%R)) * f l) w /\ CNormalAverage k (fun l => CSumTo m (fun p => u p * d p l)) w) as A.
  { induction m as [|m IH]; intro Hm.
    - exists 0. split; [|exact (cavg_const k 0)]. refine (cavg_ext _ _ _ _ _ (cavg_const k 0)). intros l _. cbn [CSumTo]. ring.
    - destruct (IH ltac:(lia)) as (w & W1 & W2). destruct (H m ltac:(lia)) as [H1 H2].
      destruct (partial_stein k m _ _ ltac:(lia) H1) as (x & X1 & X2). destruct (partial_stein k m _ _ ltac:(lia) H2) as (y & Y1 & Y2).
      assert (CNormalAverage k (fun l => RtoC (nth m l 0%R) * f l) (x, y)) as Q1.
      { split; [refine (navg_ext _ _ _ _ _ X1)|refine (navg_ext _ _ _ _ _ Y1)]; intros l _; cbn; ring. }
      assert (CNormalAverage k (d m) (x, y)) as Q2 by (split; assumption).
      exists (w + u m * (x, y)). split.
      + refine (cavg_ext _ _ _ _ _ (cavg_add _ _ _ _ _ W1 (cavg_scale _ _ (u m) _ Q1))). intros l _. cbn [CSumTo]. ring.
      + refine (cavg_ext _ _ _ _ _ (cavg_add _ _ _ _ _ W2 (cavg_scale _ _ (u m) _ Q2))). intros l _. cbn [CSumTo]. ring. }
  destruct (A k (Nat.le_refl k)) as (w & W1 & W2). exists w. split; [exact W1|]. refine (cavg_ext _ _ _ _ _ W2). intros l Hl. symmetry. auto.
Qed.
