(** Property C152: when the warning about small spectra is given. *)
From Coq Require Import List ZArith Bool Lia Arith.
From Verif Require Import Base M_EigVals M_Warn.
Import ListNotations.

Section C152.
Context {F : Type} {N : Num F} (eigvalsh eigvals : ndarray F -> result (list F)).
Context {C : Type} (same : C -> C -> bool) (mro : C -> list C) (base : C).
Context (same_spec : forall a b, same a b = true <-> a = b).
(** What Python guarantees of method resolution orders, for the classes derived from [base]. *)
Definition Derived (c : C) : Prop := In c (mro c) /\ In base (mro c) /\ forall d, In d (mro c) -> incl (mro d) (mro c).
Definition NothingBehind (c : C) : Prop := exists l, mro c = l ++ [base] /\ ~ In base l.
(** The construction at position [i] succeeds, with fewer than fifty values. *)
Definition SmallAt (l : list (C * ctor_arg (F := F))) (i : nat) (c : C) : Prop :=
  exists v o, nth_error l i = Some (c, v) /\ eigvals_init eigvalsh eigvals v = Ok o /\ (length (o_vals o) < 50)%nat.
Local Notation run := (constructs eigvalsh eigvals same mro).
Definition warnings (rs : list (result bool)) : nat := length (filter (fun r => match r with Ok true => true | _ => false end) rs).

(** Flags in force: every entry in front of the initial one is [true]. *)
Definition Good (s : flags) (W : C -> Prop) : Prop :=
  exists t, s = map (fun c => (c, true)) t ++ [(base, false)] /\ forall c, In c t <-> W c.

Lemma own_good s W c : Good s W -> (W c -> own same s c = Some true) /\ (~ W c -> own same s c = if same base c then Some false else None).
Proof.
  intros (t & -> & H). rewrite <- H. clear H W. unfold own. induction t as [|a t IH].
  - cbn. split; [tauto|]. intros _. destruct (same base c); reflexivity.
  - cbn. destruct (same a c) eqn:E.
    + apply same_spec in E. subst. split; [reflexivity|]. intro H. exfalso. apply H. now left.
    + assert (a <> c) by (intro Q; apply same_spec in Q; congruence). split.
      * intros [Q|Q]; [contradiction|]. now apply IH.
      * intro Q. apply IH. tauto.
Qed.
Lemma read_good s W order : Good s W -> (exists l, order = l ++ [base] /\ ~ In base l) -> (forall c, W c \/ ~ W c) ->
  (read_flag same s order = Some true /\ exists c, In c order /\ W c) \/ (read_flag same s order = Some false /\ forall c, In c order -> ~ W c).
Proof.
  intros G (l & -> & Hb) D. induction l as [|a l IH].
  - cbn. destruct (own_good s W base G) as [H1 H2]. destruct (D base) as [d|d].
    + rewrite (H1 d). left. split; [reflexivity|]. exists base. split; [now left|exact d].
    + rewrite (H2 d). assert (same base base = true) as -> by now apply same_spec. right. split; [reflexivity|]. intros c [<-|[]]. exact d.
  - cbn [app read_flag]. destruct (own_good s W a G) as [H1 H2]. destruct (D a) as [d|d].
    + rewrite (H1 d). left. split; [reflexivity|]. exists a. split; [now left|exact d].
    + rewrite (H2 d). destruct (same base a) eqn:E; [exfalso; apply same_spec in E; subst; apply Hb; now left|].
      destruct IH as [(E1 & c & Hc & Wc)|(E1 & Hn)].
      * intro Q. apply Hb. now right.
      * left. split; [exact E1|]. exists c. split; [now right|exact Wc].
      * right. split; [exact E1|]. intros c [<-|Hc]; [exact d|now apply Hn].
Qed.

(** The classes set so far and the small constructions so far: the flags of [mro c] say whether [c] or an ancestor has had a small one. *)
Definition Reached (W S : C -> Prop) : Prop := (forall c, W c -> S c) /\ (forall c, S c -> exists d, In d (mro c) /\ W d).

Lemma constructs_warn l : forall s W S, Good s W -> (forall c, W c \/ ~ W c) -> Reached W S ->
  Forall (fun p => Derived (fst p) /\ NothingBehind (fst p)) l ->
  length (run s l) = length l /\
  forall i c v, nth_error l i = Some (c, v) ->
    match eigvals_init eigvalsh eigvals v with
    | Raise e => nth_error (run s l) i = Some (Raise e)
    | Ok o => exists w, nth_error (run s l) i = Some (Ok w) /\
        (w = true <-> (length (o_vals o) < 50)%nat /\ (forall d, In d (mro c) -> ~ S d) /\ forall j d, (j < i)%nat -> SmallAt l j d -> ~ In d (mro c))
    end.
Proof.
  induction l as [|[c0 v0] l IH]; intros s W S G D R HF.
  - split; [reflexivity|]. intros [|i]; discriminate.
  - inversion HF as [|? ? [Hd Hm] HF']; subst. cbn [fst] in Hd, Hm. cbn [constructs].
    destruct (construct eigvalsh eigvals same mro s c0 v0) as [r s'] eqn:E. unfold construct in E.
    assert (Same : forall j d, SmallAt ((c0, v0) :: l) (Datatypes.S j) d <-> SmallAt l j d) by (intros; reflexivity).
    assert (Go : forall W' S', Good s' W' -> (forall c, W' c \/ ~ W' c) -> Reached W' S' ->
       (forall d, S' d <-> S d \/ SmallAt ((c0, v0) :: l) 0 d) ->
       match eigvals_init eigvalsh eigvals v0 with
       | Raise e => r = Raise e
       | Ok o => exists w, r = Ok w /\ (w = true <-> (length (o_vals o) < 50)%nat /\ (forall d, In d (mro c0) -> ~ S d)) end ->
       length (r :: run s' l) = length ((c0, v0) :: l) /\ forall i c v, nth_error ((c0, v0) :: l) i = Some (c, v) ->
         match eigvals_init eigvalsh eigvals v with
         | Raise e => nth_error (r :: run s' l) i = Some (Raise e)
         | Ok o => exists w, nth_error (r :: run s' l) i = Some (Ok w) /\
             (w = true <-> (length (o_vals o) < 50)%nat /\ (forall d, In d (mro c) -> ~ S d) /\ forall j d, (j < i)%nat -> SmallAt ((c0, v0) :: l) j d -> ~ In d (mro c))
         end).
    { intros W' S' G' D' R' HS Hr. destruct (IH s' W' S' G' D' R' HF') as [Hl Hi]. split; [cbn; now rewrite Hl|].
      intros [|i] c v Hn.
      - cbn in Hn. injection Hn as <- <-. cbn [nth_error]. destruct (eigvals_init eigvalsh eigvals v0) as [o|e]; [|now rewrite Hr].
        destruct Hr as (w & -> & Hw). exists w. split; [reflexivity|]. rewrite Hw. split; [intros [A B]; repeat split; auto; intros; lia|tauto].
      - cbn [nth_error] in Hn |- *. specialize (Hi i c v Hn). destruct (eigvals_init eigvalsh eigvals v) as [o|e]; [|exact Hi].
        destruct Hi as (w & Hw & Hiff). exists w. split; [exact Hw|]. rewrite Hiff. split.
        + intros (A & B & K). split; [exact A|]. split; [intros d Hin Q; apply (B d Hin), HS; now left|].
          intros [|j] d Hj Hs Hin; [apply (B d Hin), HS; now right|]. apply Same in Hs. apply (K j d); [lia|exact Hs|exact Hin].
        + intros (A & B & K). split; [exact A|]. split.
          * intros d Hin Q. apply HS in Q. destruct Q as [Q|Q]; [now apply (B d)|]. apply (K 0%nat d); [lia|exact Q|exact Hin].
          * intros j d Hj Hs. apply (K (Datatypes.S j) d); [lia|]. now apply Same. }
    assert (None0 : (forall o, eigvals_init eigvalsh eigvals v0 = Ok o -> ~ (length (o_vals o) < 50)%nat) -> forall d, S d <-> S d \/ SmallAt ((c0, v0) :: l) 0 d).
    { intros H d. split; [tauto|]. intros [Q|(v & o & Q & Qo & Ql)]; [exact Q|]. cbn in Q. injection Q as <- <-. exfalso. now apply (H o). }
    destruct (eigvals_init eigvalsh eigvals v0) as [o|e] eqn:Ei.
    2:{ injection E as <- <-. apply (Go W S G D R); [apply None0; discriminate|reflexivity]. }
    destruct (Z.of_nat (length (o_vals o)) <? 50)%Z eqn:El.
    2:{ apply Z.ltb_ge in El. injection E as <- <-. apply (Go W S G D R).
        - apply None0. intros o' Q. injection Q as <-. lia.
        - exists false. split; [reflexivity|]. split; [discriminate|]. intros [Q _]. lia. }
    apply Z.ltb_lt in El. destruct R as [R1 R2].
    assert (Yes : forall d, SmallAt ((c0, v0) :: l) 0 d <-> d = c0).
    { intro d. split; [intros (v & o' & Q & _); cbn in Q; now injection Q|]. intros ->. exists v0, o. split; [reflexivity|]. split; [exact Ei|lia]. }
    destruct (read_good s W (mro c0) G Hm D) as [(Er & d & Hdin & Wd)|(Er & Hno)]; rewrite Er in E; injection E as <- <-.
    + apply (Go W (fun x => S x \/ x = c0) G D).
      * split; [intros x Wx; left; now apply R1|]. intros x [Sx|Sx]; [now apply R2|]. subst x. now exists d.
      * intro x. rewrite Yes. reflexivity.
      * exists false. split; [reflexivity|]. split; [discriminate|]. intros [_ Q]. exfalso. apply (Q d Hdin). now apply R1.
    + apply (Go (fun x => W x \/ x = c0) (fun x => S x \/ x = c0)).
      * destruct G as (t & -> & Ht). exists (c0 :: t). split; [reflexivity|]. intro x. cbn. rewrite Ht. split; intros [Q|Q]; auto.
      * intro x. destruct (D x) as [d|d]; [left; now left|]. destruct (same x c0) eqn:Q.
        -- left. right. now apply same_spec.
        -- right. intros [Q'|Q']; [now apply d|]. apply same_spec in Q'. congruence.
      * split; [intros x [Wx|Wx]; [left; now apply R1|now right]|]. intros x [Sx|Sx]; [|subst x].
        -- destruct (R2 x Sx) as (d & A & B). exists d. split; [exact A|now left].
        -- exists c0. split; [apply Hd|now right].
      * intro x. rewrite Yes. reflexivity.
      * exists true. split; [reflexivity|]. split; [|reflexivity]. intros _. split; [lia|]. intros d Hin Sd.
        destruct (R2 d Sd) as (d' & A & B). apply (Hno d'); [|exact B]. destruct Hd as (_ & _ & Hinc). now apply (Hinc d Hin).
Qed.

(** C152. The warning is given exactly by a construction that succeeds with fewer than fifty values, when no object of its class or
    of an ancestor class was so constructed before; a construction fails exactly when [EigVals.__init__] does, and then without effect
    on later warnings. *)
Theorem C152_when : forall l i c v, Forall (fun p => Derived (fst p) /\ NothingBehind (fst p)) l -> nth_error l i = Some (c, v) ->
  match eigvals_init eigvalsh eigvals v with
  | Raise e => nth_error (run (flags_at_import base) l) i = Some (Raise e)
  | Ok o => exists w, nth_error (run (flags_at_import base) l) i = Some (Ok w) /\
      (w = true <-> (length (o_vals o) < 50)%nat /\ forall j d, (j < i)%nat -> SmallAt l j d -> ~ In d (mro c))
  end.
Proof.
  intros l i c v HF Hn.
  destruct (constructs_warn l (flags_at_import base) (fun _ => False) (fun _ => False)) as [_ H]; auto.
  - exists []. split; [reflexivity|]. intro; reflexivity.
  - split; [tauto|]. intros ? [].
  - specialize (H i c v Hn). destruct (eigvals_init eigvalsh eigvals v) as [o|e]; [|exact H].
    destruct H as (w & A & B). exists w. split; [exact A|]. rewrite B. split; [intros (P & _ & Q); auto|intros (P & Q); auto].
Qed.

Lemma warnings_at rs n : (forall i, nth_error rs i = Some (Ok true) -> i = n) -> (warnings rs <= 1)%nat.
Proof.
  unfold warnings. revert n. induction rs as [|r rs IH]; intros n H; [cbn; lia|]. cbn [filter].
  destruct r as [[|]|e]; try (apply (IH (n - 1)%nat); intros i Hi; specialize (H (Datatypes.S i) Hi); lia).
  assert (n = 0)%nat by (symmetry; now apply (H 0%nat)). subst n.
  destruct (filter _ rs) as [|x t] eqn:E; [cbn; lia|]. exfalso.
  assert (Hx : In x (x :: t)) by now left. rewrite <- E in Hx. apply filter_In in Hx. destruct Hx as [Hx Hy]. destruct x as [[|]|]; try discriminate.
  apply In_nth_error in Hx. destruct Hx as [k Hk]. specialize (H (Datatypes.S k) Hk). lia.
Qed.
Lemma warnings_pos rs : (0 < warnings rs)%nat <-> exists i, nth_error rs i = Some (Ok true).
Proof.
  unfold warnings. split.
  - intro H. destruct (filter _ rs) as [|x t] eqn:E; [cbn in H; lia|].
    assert (Hx : In x (x :: t)) by now left. rewrite <- E in Hx. apply filter_In in Hx. destruct Hx as [Hx Hy]. destruct x as [[|]|]; try discriminate.
    now apply In_nth_error in Hx.
  - intros [i Hi]. apply nth_error_In in Hi.
    assert (In (Ok true) (filter (fun r : result bool => match r with Ok true => true | _ => false end) rs)) as Q by (apply filter_In; now split).
    destruct (filter _ rs); [destruct Q|cbn; lia].
Qed.

(** C152, programs that derive no class from [Eigenvalues]: one warning if some construction has fewer than fifty values, else none. *)
Theorem C152_once : forall l, mro base = [base] -> Forall (fun p => fst p = base) l ->
  ((exists i, SmallAt l i base) -> warnings (run (flags_at_import base) l) = 1%nat) /\
  ((forall i, ~ SmallAt l i base) -> warnings (run (flags_at_import base) l) = 0%nat).
Proof.
  intros l Hb HF.
  assert (HF' : Forall (fun p => Derived (fst p) /\ NothingBehind (fst p)) l).
  { eapply Forall_impl; [|exact HF]. intros [c v]. cbn. intros ->. split.
    - unfold Derived. rewrite Hb. split; [now left|]. split; [now left|]. intros d [<-|[]]. rewrite Hb. apply incl_refl.
    - exists []. rewrite Hb. split; [reflexivity|]. intros []. }
  assert (Len : length (run (flags_at_import base) l) = length l).
  { destruct (constructs_warn l (flags_at_import base) (fun _ => False) (fun _ => False)) as [H _]; auto.
    - exists []. split; [reflexivity|]. intro; reflexivity.
    - split; [tauto|]. intros ? []. }
  assert (At : forall i, nth_error (run (flags_at_import base) l) i = Some (Ok true) <-> SmallAt l i base /\ forall j, (j < i)%nat -> ~ SmallAt l j base).
  { intro i. destruct (nth_error l i) as [[c v]|] eqn:E.
    - assert (c = base) by (rewrite Forall_forall in HF; apply nth_error_In in E; exact (HF _ E)). subst c.
      pose proof (C152_when l i base v HF' E) as K. destruct (eigvals_init eigvalsh eigvals v) as [o|e] eqn:Ei.
      + destruct K as (w & A & B). rewrite A. split.
        * intro Q. injection Q as ->. destruct B as [B _]. destruct (B eq_refl) as [B1 B2]. split; [now exists v, o|].
          intros j Hj Hs. apply (B2 j base Hj Hs). rewrite Hb. now left.
        * intros ((v' & o' & Q1 & Q2 & Q3) & Q). rewrite E in Q1. injection Q1 as <-. rewrite Ei in Q2. injection Q2 as <-.
          do 2 f_equal. apply B. split; [exact Q3|]. intros j d Hj Hs Hin. rewrite Hb in Hin. destruct Hin as [<-|[]]. now apply (Q j).
      + rewrite K. split; [discriminate|]. intros ((v' & o' & Q1 & Q2 & _) & _). rewrite E in Q1. injection Q1 as <-. congruence.
    - split.
      + intro Q. apply nth_error_None in E. assert (nth_error (run (flags_at_import base) l) i <> None) as Q' by congruence. apply nth_error_Some in Q'. lia.
      + intros ((v' & o' & Q1 & _) & _). congruence. }
  split.
  - intros [i Hi].
    assert (Dec : forall k, (exists j, (j < k)%nat /\ SmallAt l j base /\ forall j', (j' < j)%nat -> ~ SmallAt l j' base) \/ forall j, (j < k)%nat -> ~ SmallAt l j base).
    { induction k as [|k [IH|IH]]; [right; intros; lia|left; destruct IH as (j & ? & ?); exists j; split; [lia|assumption]|].
      destruct (nth_error (run (flags_at_import base) l) k) as [[[|]|]|] eqn:Ek.
      1:{ left. exists k. split; [lia|]. now apply At. }
      all: right; intros j Hj Hs; destruct (Nat.eq_dec j k) as [->|]; [|now apply (IH j); [lia|]];
           assert (nth_error (run (flags_at_import base) l) k = Some (Ok true)) by (apply At; auto); congruence. }
    destruct (Dec (Datatypes.S i)) as [(j & _ & Hj1 & Hj2)|No]; [|exfalso; apply (No i); [lia|exact Hi]].
    assert (warnings (run (flags_at_import base) l) <= 1)%nat.
    { apply (warnings_at _ j). intros k Hk. apply At in Hk. destruct Hk as [Hk1 Hk2].
      destruct (Nat.lt_trichotomy k j) as [Q|[Q|Q]]; [exfalso; now apply (Hj2 k)|exact Q|exfalso; now apply (Hk2 j)]. }
    assert (0 < warnings (run (flags_at_import base) l))%nat by (apply warnings_pos; exists j; now apply At). lia.
  - intro No. destruct (warnings (run (flags_at_import base) l)) as [|n] eqn:E; [reflexivity|]. exfalso.
    assert (0 < warnings (run (flags_at_import base) l))%nat as Q by lia. apply warnings_pos in Q. destruct Q as [i Hi]. apply At in Hi. now apply (No i).
Qed.
End C152.

(** Classes numbered, 0 being [Eigenvalues] and the others derived directly from it. *)
Definition ex_mro (c : nat) : list nat := match c with O => [0]%nat | _ => [c; 0]%nat end.
Definition ex_small : ctor_arg (F := b64) := AArr (mkarr [3%nat] (map b64_ofZ [5; 1; 2]%Z)).
Definition ex_large : ctor_arg (F := b64) := AArr (mkarr [60%nat] (map (fun i => b64_ofZ (Z.of_nat i)) (seq 0 60))).
Definition ex_bad : ctor_arg (F := b64) := AArr (mkarr [1; 1; 1]%nat [b64_ofZ 0]).
Definition ex_solver : ndarray b64 -> result (list b64) := fun _ => Raise LinAlgError.
Definition ex_run := constructs ex_solver ex_solver Nat.eqb ex_mro (flags_at_import 0%nat).

(** C152 (refuted for programs that derive classes from [Eigenvalues]): "don't warn more than once per execution" (eigenvalues.py:55)
    fails, because the flag set is that of the derived class.  With n derived classes there can be n + 1 warnings. *)
Theorem C152_subclasses_refuted : forall n : nat, exists l,
  Forall (fun p => Derived ex_mro 0%nat (fst p) /\ NothingBehind ex_mro 0%nat (fst p)) l /\ length l = S n /\ warnings (ex_run l) = S n.
Proof.
  intro n. exists (map (fun c => (c, ex_small)) (seq 1 n ++ [0%nat])).
  assert (Good1 : forall c, Derived ex_mro 0%nat c /\ NothingBehind ex_mro 0%nat c).
  { intros [|c]; (split; [split; [now left|]; split|]).
    - now left.
    - intros d [<-|[]]. apply incl_refl.
    - exists []. split; [reflexivity|]. intros [].
    - right. now left.
    - intros d [<-|[<-|[]]]; [apply incl_refl|]. intros x [<-|[]]. right. now left.
    - exists [S c]. split; [reflexivity|]. intros [Q|[]]. discriminate. }
  assert (HF : Forall (fun p : nat * ctor_arg => Derived ex_mro 0%nat (fst p) /\ NothingBehind ex_mro 0%nat (fst p)) (map (fun c => (c, ex_small)) (seq 1 n ++ [0%nat])))
    by (apply Forall_forall; intros; apply Good1).
  split; [exact HF|]. rewrite map_length, app_length, seq_length. cbn [length]. split; [lia|].
  assert (Len : length (ex_run (map (fun c => (c, ex_small)) (seq 1 n ++ [0%nat]))) = S n).
  { destruct (constructs_warn ex_solver ex_solver Nat.eqb ex_mro 0%nat Nat.eqb_eq _ (flags_at_import 0%nat) (fun _ => False) (fun _ => False) ltac:(exists []; split; [reflexivity|reflexivity])
      ltac:(now right) ltac:(split; [tauto|intros ? []]) HF) as [H _].
    unfold ex_run. rewrite H, map_length, app_length, seq_length. cbn. lia. }
  assert (All : forall i, (i < S n)%nat -> nth_error (ex_run (map (fun c => (c, ex_small)) (seq 1 n ++ [0%nat]))) i = Some (Ok true)).
  { intros i Hi.
    assert (Cls : exists c, nth_error (seq 1 n ++ [0%nat]) i = Some c /\ (c = S i /\ (i < n)%nat \/ c = 0%nat /\ i = n)).
    { destruct (Nat.eq_dec i n) as [->|].
      - exists 0%nat. rewrite nth_error_app2 by (rewrite seq_length; lia). rewrite seq_length, Nat.sub_diag. split; [reflexivity|]. right. auto.
      - exists (S i). rewrite nth_error_app1 by (rewrite seq_length; lia). split; [|left; split; [reflexivity|lia]].
        rewrite (nth_error_nth' _ 0%nat) by (rewrite seq_length; lia). rewrite seq_nth by lia. reflexivity. }
    destruct Cls as (c & Hc & Hcase).
    pose proof (C152_when ex_solver ex_solver Nat.eqb ex_mro 0%nat Nat.eqb_eq _ i c ex_small HF (map_nth_error (fun c => (c, ex_small)) i _ Hc)) as K.
    cbn [eigvals_init ex_small shape] in K. fold ex_small in K. fold ex_run in K. destruct K as (w & A & B). rewrite A. do 2 f_equal. apply B.
    split; [cbn; lia|]. intros j d Hj (v & o & Q & _) Hin.
    rewrite nth_error_map in Q. destruct (nth_error (seq 1 n ++ [0%nat]) j) as [d'|] eqn:Ej; [|discriminate]. cbn in Q. injection Q as -> _.
    assert (d = S j).
    { rewrite nth_error_app1 in Ej by (rewrite seq_length; lia). rewrite (nth_error_nth' _ 0%nat) in Ej by (rewrite seq_length; lia).
      rewrite seq_nth in Ej by lia. injection Ej. lia. }
    subst d. destruct Hcase as [[-> _]|[-> _]]; cbn in Hin; intuition lia. }
  unfold warnings. rewrite <- Len. f_equal.
  assert (Each : forall r, In r (ex_run (map (fun c => (c, ex_small)) (seq 1 n ++ [0%nat]))) -> r = Ok true).
  { intros r Hr. apply In_nth_error in Hr. destruct Hr as [k Hk].
    assert (k < S n)%nat by (rewrite <- Len; apply nth_error_Some; congruence). rewrite All in Hk by assumption. now injection Hk. }
  revert Each. generalize (ex_run (map (fun c => (c, ex_small)) (seq 1 n ++ [0%nat]))). clear. intros rs.
  induction rs as [|r rs IH]; intro H; [reflexivity|]. cbn [filter]. rewrite (H r (or_introl eq_refl)). f_equal. apply IH. intros; apply H; now right.
Qed.
Print Assumptions C152_when.
Print Assumptions C152_once.
Print Assumptions C152_subclasses_refuted.

(** A large spectrum, a failed construction and two small ones: one warning, at the first small one. *)
Example C152_ex : ex_run [(0%nat, ex_large); (0%nat, ex_bad); (0%nat, ex_small); (0%nat, ex_small); (3%nat, ex_small)]
  = [Ok false; Raise ValueError; Ok true; Ok false; Ok false].
Proof. vm_compute. reflexivity. Qed.
Example C152_once_ex : exists i, SmallAt ex_solver ex_solver [(0%nat, ex_large); (0%nat, ex_small); (0%nat, ex_small)] i 0%nat.
Proof. exists 1%nat, ex_small. eexists. split; [reflexivity|]. split; [vm_compute; reflexivity|]. cbn. lia. Qed.
(** The derived class first: it and its parent both warn. *)
Example C152_subclasses_ex : ex_run [(1%nat, ex_small); (1%nat, ex_small); (0%nat, ex_small); (2%nat, ex_small)] = [Ok true; Ok false; Ok true; Ok false].
Proof. vm_compute. reflexivity. Qed.
