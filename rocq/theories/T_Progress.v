(** Properties C147 and C148: which modules can be imported on which platform, and what the progress messages show. *)
From Coq Require Import String List ZArith Bool Arith Lia Reals Lra QArith Permutation Sorted.
From Coq Require Import Floats.SpecFloat.
From Flocq Require Import Core BinarySingleNaN.
From Verif Require Import Base S_Order S_EigVals M_EigVals M_Step M_Quad M_Loops M_Trim M_Smooth M_Report M_Progress P_Step P_Loops P_Delta P_Float P_FloatGrid P_Order P_EigVals P_Trim P_TrimStat P_TrimFull P_Report T_Loops T_Report.
Import ListNotations.
Local Open Scope Z_scope.
Local Notation length := List.length.

(** ** C147: imports *)
(** A module can be imported when all the constants it asks for are there and all the modules it imports can be imported. *)
Inductive Imports (p : platform) : string -> Prop :=
| Imports_intro m : In m package -> (forall c, In c (m_constants m) -> In c (constants p)) -> (forall i, In i (m_imports m) -> Imports p i) ->
    Imports p (m_name m).

Lemma existsb_eqb c l : existsb (String.eqb c) l = true <-> In c l.
Proof.
  rewrite existsb_exists. split.
  - intros (x & H & E). apply String.eqb_eq in E. now subst.
  - intro H. exists c. split; [exact H|apply String.eqb_refl].
Qed.
Theorem C147_imports : forall p name, import_module p name = true <-> Imports p name.
Proof.
  intros p name. split.
  - unfold import_module. generalize (length package). intro fuel. revert name. induction fuel as [|fuel IH]; intros name H; [discriminate|].
    cbn [loads] in H. destruct (find (fun m => String.eqb (m_name m) name) package) as [m|] eqn:E; [|discriminate].
    apply find_some in E as (Hin & E). apply String.eqb_eq in E. subst name. apply andb_true_iff in H as (H1 & H2). rewrite forallb_forall in H1, H2.
    constructor; [exact Hin| |].
    + intros c Hc. now apply existsb_eqb, H1.
    + intros i Hi. now apply IH, H2.
  - assert (forallb (fun m => implb (forallb (fun c => existsb (String.eqb c) (constants p)) (m_constants m) && forallb (import_module p) (m_imports m))
              (import_module p (m_name m))) package = true) as T by (destruct p; vm_compute; reflexivity).
    rewrite forallb_forall in T. induction 1 as [m Hin Hc Hi IH]. specialize (T m Hin).
    replace (forallb (fun c => existsb (String.eqb c) (constants p)) (m_constants m)) with true in T
      by (symmetry; apply forallb_forall; intros c H; apply existsb_eqb; auto).
    replace (forallb (import_module p) (m_imports m)) with true in T by (symmetry; apply forallb_forall; exact IH). exact T.
Qed.
Print Assumptions C147_imports.
(** Everywhere but on Windows all 22 modules can be imported. *)
Theorem C147_elsewhere : forall m, In m package -> Imports OtherSystem (m_name m).
Proof.
  intros m H. apply C147_imports. revert m H. apply (proj1 (forallb_forall (fun m => import_module OtherSystem (m_name m)) package)). vm_compute. reflexivity.
Qed.
Print Assumptions C147_elsewhere.
(** FALSE on Windows, where _constants.py does not define ITER_COUNT: the two observables, everything built on them and with it the
    main module [eigenvalues] cannot be imported; the others can. *)
Theorem C147_windows_refuted : forall m, In m package ->
  (~ Imports Windows (m_name m) <-> In (m_name m) ["observables.levelvariance"; "observables.rigidity"; "unfold"; "construct"; "trim"; "eigenvalues"]%string).
Proof.
  intros m H. rewrite <- C147_imports, <- existsb_eqb.
  assert (forall m, In m package -> Bool.eqb (negb (import_module Windows (m_name m)))
    (existsb (String.eqb (m_name m)) ["observables.levelvariance"; "observables.rigidity"; "unfold"; "construct"; "trim"; "eigenvalues"]%string) = true) as T
    by (apply forallb_forall; vm_compute; reflexivity).
  specialize (T m H). apply eqb_prop in T. rewrite <- T. destruct (import_module Windows (m_name m)); cbn; intuition congruence.
Qed.
Print Assumptions C147_windows_refuted.
(** ITER_COUNT is the whole difference between the two platforms. *)
Theorem C147_difference : forall c, In c (constants OtherSystem) <-> In c (constants Windows) \/ c = "ITER_COUNT"%string.
Proof. intro c. unfold constants. cbn [In app]. intuition. Qed.
Print Assumptions C147_difference.
Example C147_ex : length package = 22%nat /\ Imports OtherSystem "eigenvalues" /\ ~ Imports Windows "eigenvalues" /\ Imports Windows "plot" /\
  In "ITER_COUNT"%string (constants OtherSystem) /\ ~ In "ITER_COUNT"%string (constants Windows).
Proof. rewrite <- !C147_imports, <- !existsb_eqb. repeat split; try reflexivity; vm_compute; discriminate. Qed.

(** ** C148: counting iterations *)
(** Messages while a counter goes from [a + 1] to [a + n]: twice its value at the multiples of [I]. *)
Definition ticks (I a : Z) (n : nat) : list shown :=
  flat_map (fun k => if (a + Z.of_nat k) mod I =? 0 then [Number ((a + Z.of_nat k) * 2)] else []) (seq 1 n).
Lemma ticks_S I a n : ticks I a (S n) = (if (a + 1) mod I =? 0 then [Number ((a + 1) * 2)] else []) ++ ticks I (a + 1) n.
Proof.
  unfold ticks. change (seq 1 (S n)) with (1%nat :: seq 2 n). cbn [flat_map]. f_equal. rewrite <- (seq_shift n 1).
  rewrite !flat_map_concat_map, map_map. f_equal. apply map_ext. intro k. replace (a + 1 + Z.of_nat k) with (a + Z.of_nat (S k)) by lia. reflexivity.
Qed.
Lemma ticks_multiples I n : 0 < I -> ticks I 0 n = map (fun j => Number (2 * (Z.of_nat j * I))) (seq 1 (Z.to_nat (Z.of_nat n / I))).
Proof.
  intro HI. induction n as [|n IH].
  - cbn [Z.of_nat]. rewrite Z.div_0_l by lia. reflexivity.
  - unfold ticks in *. rewrite seq_S, flat_map_app, IH. cbn [flat_map Nat.add]. rewrite app_nil_r. rewrite Z.add_0_l.
    assert (0 <= Z.of_nat n / I) as Hq by (apply Z.div_pos; lia). pose proof (Z.div_mod (Z.of_nat n) I ltac:(lia)) as D. pose proof (Z.mod_pos_bound (Z.of_nat n) I HI) as B.
    destruct (Z.eqb_spec (Z.of_nat (S n) mod I) 0) as [E|E].
    + pose proof (Z.div_mod (Z.of_nat (S n)) I ltac:(lia)) as D'. rewrite E in D'.
      assert (Z.of_nat (S n) / I = Z.of_nat n / I + 1) as E1 by nia. rewrite E1, Z2Nat.inj_add by lia. change (Z.to_nat 1) with 1%nat.
      rewrite seq_app, map_app. cbn [seq map]. do 2 f_equal. rewrite Nat2Z.inj_add, Z2Nat.id by lia. f_equal. nia.
    + rewrite app_nil_r. do 3 f_equal. apply Z.div_unique with (Z.of_nat n mod I + 1); [|lia].
      pose proof (Z.div_mod (Z.of_nat (S n)) I ltac:(lia)) as D'. pose proof (Z.mod_pos_bound (Z.of_nat (S n)) I HI) as B'. left. split; [lia|].
      destruct (Z.eq_dec (Z.of_nat n mod I + 1) I) as [E2|E2]; [|lia]. exfalso. apply E. replace (Z.of_nat (S n)) with ((Z.of_nat n / I + 1) * I) by lia. apply Z.mod_mul. lia.
Qed.

(** How often the loops print, by platform and L. *)
Definition interval_of {F} {N : Num F} (p : platform) (L : F) : Z :=
  match p with Windows => 20 | OtherSystem => 2000 end * (if ngt L (nofZ 100) then 10 else 1).
Lemma interval_eq {F} {N : Num F} p (L : F) : prog_interval p L = interval_of p L /\ 20 <= interval_of p L.
Proof. unfold prog_interval, interval_of. destruct p, (ngt L (nofZ 100)); cbn; split; (reflexivity || lia). Qed.

Lemma sigma_loop_eq {F} {N : Num F} size (u : list F) lo hi L mx mn tol I show draws fuel : forall pos st,
  let '(out, r) := sigma_loop_shown fuel size u lo hi L mx mn tol I show draws pos st in
  r = sigma_loop fuel size u lo hi L mx mn tol draws pos st /\ (show = false -> out = []) /\
  (forall s, r = Done s -> show = true -> s_k st <= s_k s /\ out = ticks I (s_k st) (Z.to_nat (s_k s - s_k st))).
Proof.
  induction fuel as [|fuel IH]; intros pos st; cbn [sigma_loop_shown sigma_loop]; [repeat split; auto; discriminate|].
  set (st' := sigma_pass size u L (uniform lo hi (draws pos)) st). assert (s_k st' = s_k st + 1) as Hk by reflexivity.
  destruct (sigma_stop mx mn tol st').
  - split; [reflexivity|]. split; [intros ->; reflexivity|]. intros s [= <-] ->. rewrite Hk. split; [lia|]. replace (Z.to_nat (s_k st + 1 - s_k st)) with 1%nat by lia.
    rewrite ticks_S. cbn [andb]. unfold ticks. cbn. now rewrite app_nil_r.
  - specialize (IH (S pos) st'). destruct (sigma_loop_shown fuel size u lo hi L mx mn tol I show draws (S pos) st') as [out r]. destruct IH as (E1 & E2 & E3).
    split; [exact E1|]. split; [intros ->; cbn [andb app]; now apply E2|]. intros s Hs Hshow. destruct (E3 s Hs Hshow) as (A & B). rewrite Hk in A, B. split; [lia|].
    rewrite Hshow, Hk. cbn [andb]. replace (Z.to_nat (s_k s - s_k st)) with (S (Z.to_nat (s_k s - (s_k st + 1)))) by lia. rewrite ticks_S, B. reflexivity.
Qed.
Lemma delta_loop_eq {F} {N : Num F} size (sample : nat -> outcome F) mx mn tol I show fuel : forall pos st,
  let '(out, r) := delta_loop_shown fuel size sample mx mn tol I show pos st in
  r = delta_loop fuel size sample mx mn tol pos st /\ (show = false -> out = []) /\
  (forall s, r = Done s -> show = true -> d_k st <= d_k s /\ out = ticks I (d_k st) (Z.to_nat (d_k s - d_k st))).
Proof.
  induction fuel as [|fuel IH]; intros pos st; cbn [delta_loop_shown delta_loop]; [repeat split; auto; discriminate|].
  destruct (sample pos) as [d3| |]; [|repeat split; auto; discriminate..].
  set (st' := delta_pass size d3 st). assert (d_k st' = d_k st + 1) as Hk by reflexivity.
  destruct (delta_stop size mx mn tol st').
  - split; [reflexivity|]. split; [intros ->; reflexivity|]. intros s [= <-] ->. rewrite Hk. split; [lia|]. replace (Z.to_nat (d_k st + 1 - d_k st)) with 1%nat by lia.
    rewrite ticks_S. cbn [andb]. unfold ticks. cbn. now rewrite app_nil_r.
  - specialize (IH (S pos) st'). destruct (delta_loop_shown fuel size sample mx mn tol I show (S pos) st') as [out r]. destruct IH as (E1 & E2 & E3).
    split; [exact E1|]. split; [intros ->; cbn [andb app]; now apply E2|]. intros s Hs Hshow. destruct (E3 s Hs Hshow) as (A & B). rewrite Hk in A, B. split; [lia|].
    rewrite Hshow, Hk. cbn [andb]. replace (Z.to_nat (d_k s - d_k st)) with (S (Z.to_nat (d_k s - (d_k st + 1)))) by lia. rewrite ticks_S, B. reflexivity.
Qed.

(** What a run of K iterations shows: 0, then twice the counter at each multiple of the interval, then K itself. *)
Definition Countdown (I K : Z) : list shown :=
  Number 0 :: map (fun j => Number (2 * (Z.of_nat j * I))) (seq 1 (Z.to_nat (K / I))) ++ [Number K].

(** C148. Asking for progress changes no result; without it nothing is printed; with it the level variance shows [Countdown] and an empty line. *)
Theorem C148_levelvariance : forall {F} {N : Num F} p (u : list F) L mx tol mn show draws, u <> [] ->
  exists out s c K, sigma_L_shown p u L mx tol mn show draws = Ok (out, Done (s, c, K)) /\ sigma_L u L mx tol mn draws = Ok (Done (s, c, K)) /\
    out = if show then Countdown (interval_of p L) K ++ [Blank] else [].
Proof.
  intros F N p u L mx tol mn show draws Hu. destruct (C36_iterations u L mx tol mn draws Hu) as (s & c & K & E & HK & _).
  destruct u as [|h t]; [congruence|]. cbn [sigma_L_shown]. unfold sigma_L in E. cbv zeta in E |- *. injection E as E.
  destruct (interval_eq p L) as (EI & HI). rewrite EI.
  pose proof (sigma_loop_eq BUFFER (h :: t) (nmin h t) (nmax h t) L mx mn tol (interval_of p L) show draws (Z.to_nat (Z.max 1 mx)) 1
    (sigma_init BUFFER (h :: t) L (uniform (nmin h t) (nmax h t) (draws 0%nat)))) as Q.
  destruct (sigma_loop_shown _ _ _ _ _ _ _ _ _ _ _ _ _ _) as [out r]. destruct Q as (Q1 & Q2 & Q3). rewrite <- Q1 in E.
  destruct r as [st| |]; try discriminate. injection E as <- <- <-. eexists. exists (s_sigma st), (spread_below (s_buf st) tol), (s_k st).
  split; [reflexivity|]. split; [unfold sigma_L; cbv zeta; rewrite <- Q1; reflexivity|]. destruct show.
  - destruct (Q3 st eq_refl eq_refl) as (A & B). cbn [sigma_init s_k] in A, B. rewrite Z.sub_0_r in B. rewrite B, ticks_multiples by lia. rewrite Z2Nat.id by lia.
    unfold Countdown. cbn [app]. f_equal. rewrite <- app_assoc. reflexivity.
  - now rewrite (Q2 eq_refl).
Qed.
Print Assumptions C148_levelvariance.
(** C148. The rigidity shows [Countdown]. *)
Theorem C148_rigidity : forall {F} {N : Num F} p (u : list F) L grid mx mn tol simpson show draws s c K,
  delta_L u L grid mx mn tol simpson draws = Done (s, c, K) ->
  delta_L_shown p u L grid mx mn tol simpson show draws = (if show then Countdown (interval_of p L) K else [], Done (s, c, K)).
Proof.
  intros F N p u L grid mx mn tol simpson show draws s c K E. unfold delta_L, delta_run in E. unfold delta_L_shown. cbv zeta.
  destruct (delta_sample simpson grid L u draws 0) as [d3| |] eqn:Ed; try discriminate.
  destruct (interval_eq p L) as (EI & HI). rewrite EI.
  pose proof (delta_loop_eq BUFFER (delta_sample simpson grid L u draws) mx mn tol (interval_of p L) show (Z.to_nat (Z.max 1 (mx - 1))) 1 (delta_init BUFFER d3)) as Q.
  destruct (delta_loop_shown _ _ _ _ _ _ _ _ _ _) as [out r]. destruct Q as (Q1 & Q2 & Q3). rewrite <- Q1 in E.
  destruct r as [st| |]; try discriminate. injection E as <- <- <-. f_equal. destruct show.
  - destruct (Q3 st eq_refl eq_refl) as (A & B). cbn [delta_init d_k] in A, B. unfold Countdown. cbn [app]. do 2 f_equal. rewrite B.
    transitivity (ticks (interval_of p L) 0 (Z.to_nat (d_k st))).
    + replace (Z.to_nat (d_k st)) with (S (Z.to_nat (d_k st - 1))) by lia. rewrite ticks_S. rewrite Z.add_0_l, (Z.mod_small 1) by lia. reflexivity.
    + rewrite ticks_multiples, Z2Nat.id by lia. reflexivity.
  - now rewrite (Q2 eq_refl).
Qed.
Print Assumptions C148_rigidity.
(** FALSE: that the number shown never goes down and ends at the limit that will be used (which is 2K, C45).  It ends at K, below the number
    shown before, in every run as long as the interval. *)
Theorem C148_counter_refuted : forall {F} {N : Num F} p (u : list F) L mx tol mn draws s c K, sigma_L u L mx tol mn draws = Ok (Done (s, c, K)) ->
  interval_of p L <= K -> exists before q, sigma_L_shown p u L mx tol mn true draws = Ok (before ++ [Number q; Number K; Blank], Done (s, c, K)) /\ K < q.
Proof.
  intros F N p u L mx tol mn draws s c K E HK. assert (u <> []) as Hu by (intros ->; discriminate).
  destruct (C148_levelvariance p u L mx tol mn true draws Hu) as (out & s' & c' & K' & E1 & E2 & ->). rewrite E in E2. injection E2 as <- <- <-. rewrite E1.
  set (I := interval_of p L) in *. assert (20 <= I) as HI by apply interval_eq. unfold Countdown.
  assert (1 <= K / I) as Hq by (apply Z.div_le_lower_bound; lia). pose proof (Z.div_mod K I ltac:(lia)) as D. pose proof (Z.mod_pos_bound K I ltac:(lia)) as B.
  replace (Z.to_nat (K / I)) with (S (Z.to_nat (K / I - 1))) by lia. rewrite seq_S, map_app. cbn [map].
  exists (Number 0 :: map (fun j => Number (2 * (Z.of_nat j * I))) (seq 1 (Z.to_nat (K / I - 1)))). eexists. split; [cbn [app]; rewrite <- !app_assoc; reflexivity|].
  rewrite Nat2Z.inj_add, Z2Nat.id by lia. nia.
Qed.
Print Assumptions C148_counter_refuted.
Example C148_ex_sigma :
  sigma_L_shown Windows [0; 1; 3]%Q 2%Q 45 (1 # 10)%Q 10 true (fun i => (Z.of_nat (i mod 4) # 4)%Q)
    = Ok ([Number 0; Number 40; Number 80; Number 45; Blank], match sigma_L [0; 1; 3]%Q 2%Q 45 (1 # 10)%Q 10 (fun i => (Z.of_nat (i mod 4) # 4)%Q) with Ok r => r | _ => Running end) /\
  sigma_L_shown OtherSystem [0]%Q 2%Q 45 (1 # 10)%Q 10 true (fun i => 0%Q) = Ok ([Number 0; Number 45; Blank], Done (0%Q, true, 45)) /\
  sigma_L_shown OtherSystem [0]%Q 2%Q 45 (1 # 10)%Q 10 false (fun i => 0%Q) = Ok ([], Done (0%Q, true, 45)) /\
  interval_of OtherSystem (101 # 1)%Q = 20000 /\ interval_of OtherSystem (100 # 1)%Q = 2000 /\ interval_of Windows (101 # 1)%Q = 200.
Proof. vm_compute. repeat split. Qed.
Example C148_ex_rigidity : exists s c, delta_L [0; 1; 3]%Q 2%Q 4 21 2 (1 # 10)%Q true (fun i => (Z.of_nat (i mod 2) # 2)%Q) = Done (s, c, 21) /\
  delta_L_shown Windows [0; 1; 3]%Q 2%Q 4 21 2 (1 # 10)%Q true true (fun i => (Z.of_nat (i mod 2) # 2)%Q)
    = ([Number 0; Number 40; Number 21], Done (s, c, 21)).
Proof. do 2 eexists. split; vm_compute; reflexivity. Qed.

(** ** C148: percentages of the parallel loops *)
(** For each message of a schedule, how many of the values stored before it count. *)
Fixpoint stored_before {F} (counted : F -> bool) (c : Z) (schedule : list (@event F)) : list Z :=
  match schedule with
  | [] => []
  | EShow :: r => c :: stored_before counted c r
  | EStore (StoreV _ x) :: r => stored_before counted (if counted x then c + 1 else c) r
  | EStore _ :: r => stored_before counted c r
  end.
(** The stores among the events. *)
Definition stores {F} (l : list (@event F)) : list (@store F) := flat_map (fun e => match e with EStore s => [s] | EShow => [] end) l.
Definition shows {F} (l : list (@event F)) : nat := length (filter (fun e => match e with EShow => true | _ => false end) l).

Lemma stores_app {F} (a b : list (@event F)) : stores (a ++ b) = stores a ++ stores b.
Proof. apply flat_map_app. Qed.
Lemma stores_perm_ev {F} (a b : list (@event F)) : Permutation a b -> Permutation (stores a) (stores b).
Proof. intro H. unfold stores. now apply Permutation_flat_map. Qed.
Lemma stores_all {F} {N : Num F} I show n (f : nat -> F * bool * Z) : stores (all_events I show n f) = all_stores n f.
Proof.
  unfold all_events, all_stores. induction (seq 0 n) as [|i l IH]; [reflexivity|]. cbn [flat_map]. rewrite stores_app, IH. f_equal.
  unfold events_of. rewrite stores_app. assert (stores (map EStore (stores_of i (f i))) = stores_of i (f i)) as -> by (destruct (f i) as [[? ?] ?]; reflexivity).
  destruct (show && _); cbn; now rewrite app_nil_r.
Qed.
Lemma shows_perm {F} (a b : list (@event F)) : Permutation a b -> shows a = shows b.
Proof. intro H. unfold shows. induction H as [|x l l' H IH|x y l|]; cbn; repeat (match goal with e : event |- _ => destruct e end); cbn; congruence. Qed.

Section Percent.
Context {F : Type} {N : Num F}.
Variable counted : F -> bool.
Hypothesis zero_uncounted : counted n0 = false.
Definition count (v : list F) : Z := Z.of_nat (length (filter counted v)).
Lemma count_set v i x : nth_error v i = Some n0 -> count (set_nth v i x) = if counted x then count v + 1 else count v.
Proof.
  revert i. induction v as [|a v IH]; intros [|i] H; try discriminate.
  - injection H as ->. unfold count. cbn [set_nth filter]. rewrite zero_uncounted. destruct (counted x); cbn [length]; lia.
  - cbn [nth_error] in H. specialize (IH i H). unfold count in *. cbn [set_nth filter]. destruct (counted a), (counted x); cbn [length]; lia.
Qed.
Lemma nth_set_other {A} (v : list A) i j x : i <> j -> nth_error (set_nth v i x) j = nth_error v j.
Proof. revert i j. induction v as [|a v IH]; intros [|i] [|j] H; try reflexivity; try congruence. cbn. apply IH. congruence. Qed.
Lemma set_nth_len {A} (v : list A) i x : length (set_nth v i x) = length v.
Proof. revert i. induction v as [|a v IH]; intros [|i]; cbn; auto. Qed.

Lemma run_shares n : forall schedule v b k out,
  length v = n -> NoDup (map loc (stores schedule)) -> (forall i x, In (StoreV i x) (stores schedule) -> nth_error v i = Some n0) ->
  fold_left (do_event counted) schedule ((v, b, k), out)
  = (fold_left do_store (stores schedule) (v, b, k), out ++ map (fun c => Number (100 * c / Z.of_nat n)) (stored_before counted (count v) schedule)).
Proof.
  induction schedule as [|e l IH]; intros v b k out Hn HD Hz; cbn [fold_left stored_before map]; [now rewrite app_nil_r|].
  destruct e as [s|].
  - cbn [stores flat_map app map] in HD, Hz. fold (stores l) in HD, Hz. apply NoDup_cons_iff in HD as (Hnot & HD).
    change (stores (EStore s :: l)) with (s :: stores l). cbn [fold_left do_event fst snd].
    destruct s as [i x|i x|i x]; cbn [do_store].
    + rewrite IH; [now rewrite count_set by (apply (Hz i x); now left)|now rewrite set_nth_len|exact HD|].
      intros j y Hj. rewrite nth_set_other; [apply (Hz j y); now right|]. intros ->. apply Hnot. change (loc (StoreV j x)) with (loc (StoreV j y)). now apply in_map.
    + apply IH; auto. intros j y Hj. apply (Hz j y). now right.
    + apply IH; auto. intros j y Hj. apply (Hz j y). now right.
  - change (stores (EShow :: l)) with (stores l) in *. cbn [do_event fst snd]. rewrite IH by auto. cbn [map]. rewrite <- app_assoc. cbn [app].
    unfold percentage. rewrite Hn. reflexivity.
Qed.
Lemma stored_range : forall schedule c, let s := stored_before counted c schedule in
  length s = shows schedule /\ Forall (fun x => c <= x) s /\ StronglySorted Z.le s /\
  Forall (fun x => x <= c + Z.of_nat (length (filter (fun st => match st with StoreV _ x => counted x | _ => false end) (stores schedule)))) s.
Proof.
  induction schedule as [|e l IH]; intro c; cbn [stored_before]; [repeat split; constructor|]. destruct e as [[i x|i x|i x]|].
  - specialize (IH (if counted x then c + 1 else c)). cbv zeta in IH |- *. destruct IH as (A & B & C & D). split; [exact A|]. split.
    + eapply Forall_impl; [|exact B]. cbn. intros y. destruct (counted x); lia.
    + split; [exact C|]. eapply Forall_impl; [|exact D]. change (stores (EStore (StoreV i x) :: l)) with (StoreV i x :: stores l). cbn [filter].
      intro y. destruct (counted x); cbn [length]; lia.
  - exact (IH c).
  - exact (IH c).
  - specialize (IH c). cbv zeta in IH |- *. destruct IH as (A & B & C & D). split; [cbn [length]; rewrite A; reflexivity|].
    split; [constructor; [lia|exact B]|]. split; [constructor; [exact C|exact B]|]. constructor; [lia|exact D].
Qed.
End Percent.

Lemma filter_perm {A} (p : A -> bool) a b : Permutation a b -> length (filter p a) = length (filter p b).
Proof. induction 1 as [|x l l' H IH|x y l|]; cbn; try (destruct (p x)); try (destruct (p y)); cbn; congruence. Qed.
Lemma shows_app {F} (a b : list (@event F)) : shows (a ++ b) = (shows a + shows b)%nat.
Proof. unfold shows. now rewrite filter_app, app_length. Qed.

(** Rounded-up quotient: how many multiples of [I] lie in 0 .. n - 1. *)
Definition ceil_div (n I : Z) : Z := (n + I - 1) / I.
Lemma ceil_S n I : 0 < I -> 0 <= n -> ceil_div (n + 1) I = ceil_div n I + (if n mod I =? 0 then 1 else 0).
Proof.
  intros HI Hn. unfold ceil_div. pose proof (Z.div_mod n I ltac:(lia)) as D. pose proof (Z.mod_pos_bound n I HI) as B.
  set (q := n / I) in *. set (r := n mod I) in *. clearbody q r.
  assert ((n + 1 + I - 1) / I = q + 1) as -> by (symmetry; apply Z.div_unique with r; [left; lia|rewrite D; ring]).
  destruct (Z.eqb_spec r 0) as [E|E].
  - assert ((n + I - 1) / I = q) as -> by (symmetry; apply Z.div_unique with (I - 1); [left; lia|rewrite D, E; ring]). reflexivity.
  - assert ((n + I - 1) / I = q + 1) as -> by (symmetry; apply Z.div_unique with (r - 1); [left; lia|rewrite D; ring]). lia.
Qed.
Lemma shows_all {F} {N : Num F} I n (f : nat -> F * bool * Z) : 0 < I -> Z.of_nat (shows (all_events I true n f)) = ceil_div (Z.of_nat n) I.
Proof.
  intro HI. unfold all_events. induction n as [|n IH]; [unfold ceil_div; cbn; symmetry; apply Z.div_small; lia|].
  rewrite seq_S, flat_map_app, shows_app, Nat2Z.inj_add, IH. cbn [flat_map Nat.add]. rewrite app_nil_r. replace (Z.of_nat (S n)) with (Z.of_nat n + 1) by lia.
  rewrite ceil_S by lia. f_equal. unfold events_of. rewrite shows_app. destruct (f n) as [[? ?] ?]. cbn [stores_of map andb].
  destruct (Z.of_nat n mod I =? 0); reflexivity.
Qed.
Lemma interval_pos frequency n : 0 < frequency -> 0 < show_interval frequency n.
Proof.
  intro H. unfold show_interval. destruct (Z.eqb_spec (Z.of_nat n / frequency) 0); [lia|]. pose proof (Z.div_pos (Z.of_nat n) frequency). lia.
Qed.

(** C148. In whatever order the threads store and print: the arrays end as without messages; a zero comes first, then as many percentages as there are
    multiples of the interval below n; each is the whole part of 100 c / n, c being the number of counted values stored before it; they never go down and
    stay between 0 and 100. *)
Theorem C148_percentages : forall {F} {N : Num F} (counted : F -> bool) blank frequency n f junk schedule, counted n0 = false -> 0 < frequency ->
  length junk = n -> Permutation schedule (all_events (show_interval frequency n) true n f) ->
  exists cs, run_events counted true blank n junk schedule
      = (run_stores n junk (all_stores n f), Number 0 :: map (fun c => Number (100 * c / Z.of_nat n)) cs ++ (if blank then [Blank] else [])) /\
    cs = stored_before counted 0 schedule /\ Z.of_nat (length cs) = ceil_div (Z.of_nat n) (show_interval frequency n) /\
    StronglySorted Z.le cs /\ Forall (fun c => 0 <= c <= Z.of_nat (length (filter (fun i => counted (fst (fst (f i)))) (seq 0 n)))) cs /\
    Forall (fun c => 0 <= 100 * c / Z.of_nat n <= 100) cs.
Proof.
  intros F N counted blank frequency n f junk schedule Hz Hf Hj HP. pose proof (interval_pos frequency n Hf) as HI. set (I := show_interval frequency n) in *.
  pose proof (stores_perm_ev _ _ HP) as HS. rewrite stores_all in HS.
  assert (NoDup (map loc (stores schedule))) as HD by (eapply Permutation_NoDup; [apply Permutation_map, Permutation_sym, HS|apply all_stores_NoDup]).
  exists (stored_before counted 0 schedule). destruct (stored_range counted schedule 0) as (A & B & C & D).
  assert (length (filter (fun st => match st with StoreV _ x => counted x | _ => false end) (stores schedule)) = length (filter (fun i => counted (fst (fst (f i)))) (seq 0 n))) as EC.
  { rewrite (filter_perm _ _ _ HS). unfold all_stores. induction (seq 0 n) as [|i l IH]; [reflexivity|]. cbn [flat_map]. rewrite filter_app, app_length, IH.
    unfold stores_of. destruct (f i) as [[x y] z] eqn:E. cbn [filter fst snd]. rewrite E. cbn [fst]. destruct (counted x); reflexivity. }
  rewrite EC in D. cbn [Z.add] in D.
  assert (Forall (fun c => 0 <= c <= Z.of_nat (length (filter (fun i => counted (fst (fst (f i)))) (seq 0 n)))) (stored_before counted 0 schedule)) as R.
  { rewrite Forall_forall in *. intros c Hc. split; [now apply B|now apply D]. }
  split; [|repeat split; [rewrite A, (shows_perm _ _ HP); apply shows_all, HI|exact C|exact R|]].
  - unfold run_events. cbn [andb]. rewrite (run_shares counted Hz n schedule); [|apply repeat_length|exact HD|].
    + cbn [fst snd]. assert (count counted (repeat n0 n) = 0) as ->.
      { unfold count. replace (filter counted (repeat n0 n)) with (@nil F); [reflexivity|]. clear - Hz. induction n as [|n IH]; [reflexivity|]. cbn. now rewrite Hz. }
      f_equal. unfold run_stores. now apply stores_perm.
    + intros i x Hi. apply (Permutation_in _ HS) in Hi. unfold all_stores in Hi. apply in_flat_map in Hi as (j & Hj' & Hi). apply in_seq in Hj'.
      unfold stores_of in Hi. destruct (f j) as [[a b] c]. destruct Hi as [[= <- _]|[?|[?|[]]]]; try discriminate.
      clear - Hj'. destruct Hj' as (_ & Hj'). cbn in Hj'. revert j Hj'. induction n as [|n IH]; intros [|j] H; try lia; cbn; [reflexivity|]. apply IH. lia.
  - rewrite Forall_forall in R |- *. intros c Hc. destruct (R c Hc) as (R1 & R2).
    assert (length (filter (fun i => counted (fst (fst (f i)))) (seq 0 n)) <= n)%nat as R3.
    { transitivity (length (seq 0 n)); [|now rewrite seq_length]. clear. induction (seq 0 n) as [|i l IH]; cbn; [lia|]. destruct (counted _); cbn; lia. }
    destruct (Nat.eq_dec n 0) as [Hn0|Hn0]; [subst n; rewrite Hn0; cbn [Z.of_nat]; rewrite Zdiv_0_r; lia|]. split; [apply Z.div_pos; lia|]. apply Z.div_le_upper_bound; nia.
Qed.
Print Assumptions C148_percentages.
(** How many messages that is: n for a short list, otherwise between the frequency (20 or 50) and twice it. *)
Theorem C148_messages : forall frequency n, 0 < frequency -> let m := ceil_div (Z.of_nat n) (show_interval frequency n) in
  (Z.of_nat n < frequency -> m = Z.of_nat n) /\ (frequency <= Z.of_nat n -> frequency <= m < 2 * frequency).
Proof.
  intros fr n Hf. cbv zeta. unfold show_interval. pose proof (Z.div_mod (Z.of_nat n) fr ltac:(lia)) as D. pose proof (Z.mod_pos_bound (Z.of_nat n) fr Hf) as B. split; intro H.
  - rewrite Z.div_small by lia. cbn. unfold ceil_div. rewrite Z.div_1_r. lia.
  - assert (1 <= Z.of_nat n / fr) as Hq by (apply Z.div_le_lower_bound; lia). destruct (Z.eqb_spec (Z.of_nat n / fr) 0); [lia|]. set (q := Z.of_nat n / fr) in *.
    unfold ceil_div. assert (0 <= (fr - 1) * (q - 1)) as P by (apply Z.mul_nonneg_nonneg; lia).
    split; [apply Z.div_le_lower_bound; lia|]. apply Z.div_lt_upper_bound; lia.
Qed.
Print Assumptions C148_messages.
(** What that means for the level variance, whose frequency depends on the platform: one message per value of L below 20 of them on
    Windows and below 50 elsewhere, and from then on at least that many messages and fewer than twice as many. *)
Theorem C148_platform : forall p n, let many := match p with Windows => 20 | OtherSystem => 50 end in
  let m := ceil_div (Z.of_nat n) (show_interval (PROG_FREQUENCY p) n) in
  (Z.of_nat n < many -> m = Z.of_nat n) /\ (many <= Z.of_nat n -> many <= m < 2 * many).
Proof. intros p n. cbv zeta. destruct p; apply C148_messages; reflexivity. Qed.
Print Assumptions C148_platform.

(** C148. One thread going through the list: the message of position i counts the values up to i. *)
Theorem C148_in_order : forall {F} {N : Num F} (counted : F -> bool) I n (f : nat -> F * bool * Z), 0 < I ->
  stored_before counted 0 (all_events I true n f)
  = map (fun j => Z.of_nat (length (filter (fun i => counted (fst (fst (f i)))) (seq 0 (S (j * Z.to_nat I)))))) (seq 0 (Z.to_nat (ceil_div (Z.of_nat n) I))).
Proof.
  intros F N counted I n f HI.
  assert (forall a b c, stored_before counted c (a ++ b)
    = stored_before counted c a ++ stored_before counted (c + Z.of_nat (length (filter (fun st => match st with StoreV _ x => counted x | _ => false end) (stores a)))) b) as APP.
  { induction a as [|e a IH]; intros b c; cbn [app stored_before]; [cbn; now rewrite Z.add_0_r|]. destruct e as [[i x|i x|i x]|].
    - rewrite IH. change (stores (EStore (StoreV i x) :: a)) with (StoreV i x :: stores a). cbn [filter]. do 2 f_equal. destruct (counted x); cbn [length]; lia.
    - apply IH.
    - apply IH.
    - rewrite IH. reflexivity. }
  assert (forall n, length (filter (fun st => match st with StoreV _ x => counted x | _ => false end) (stores (all_events I true n f)))
    = length (filter (fun i => counted (fst (fst (f i)))) (seq 0 n))) as CNT.
  { intro m. rewrite stores_all. unfold all_stores. induction (seq 0 m) as [|i l IH]; [reflexivity|]. cbn [flat_map]. rewrite filter_app, app_length, IH.
    unfold stores_of. destruct (f i) as [[x y] z] eqn:E. cbn [filter fst snd]. rewrite E. cbn [fst]. destruct (counted x); reflexivity. }
  induction n as [|n IH].
  - cbn [Z.of_nat]. unfold ceil_div. rewrite Z.div_small by lia. reflexivity.
  - assert (all_events I true (S n) f = all_events I true n f ++ events_of I true n (f n)) as ->
      by (unfold all_events; rewrite seq_S, flat_map_app; cbn [flat_map Nat.add]; now rewrite app_nil_r).
    rewrite APP, IH, CNT. replace (Z.of_nat (S n)) with (Z.of_nat n + 1) by lia. rewrite ceil_S by lia.
    assert (0 <= ceil_div (Z.of_nat n) I) as P by (apply Z.div_pos; lia). unfold events_of. cbn [andb].
    pose proof (Z.div_mod (Z.of_nat n) I ltac:(lia)) as D. destruct (Z.eqb_spec (Z.of_nat n mod I) 0) as [E|E].
    + rewrite Z2Nat.inj_add by lia. change (Z.to_nat 1) with 1%nat. rewrite seq_app, map_app. f_equal. cbn [seq map Nat.add].
      assert (ceil_div (Z.of_nat n) I = Z.of_nat n / I) as EQ by (unfold ceil_div; symmetry; apply Z.div_unique with (I - 1); [left; lia|rewrite D at 1; rewrite E; ring]).
      assert (Z.to_nat (ceil_div (Z.of_nat n) I) * Z.to_nat I = n)%nat as ->
        by (rewrite EQ, <- Z2Nat.inj_mul; [rewrite E in D; replace (Z.of_nat n / I * I) with (Z.of_nat n) by lia; apply Nat2Z.id|rewrite <- EQ; lia|lia]).
      change (0%nat :: seq 1 n) with (seq 0 (S n)). rewrite (seq_S n 0). rewrite filter_app, app_length. cbn [filter Nat.add].
      unfold stores_of. destruct (f n) as [[x y] z] eqn:Ef. cbn [map app stored_before fst]. destruct (counted x); cbn [length]; f_equal; lia.
    + rewrite app_nil_r, Z.add_0_r. unfold stores_of. destruct (f n) as [[x y] z]. cbn [map stored_before]. now rewrite app_nil_r.
Qed.
Print Assumptions C148_in_order.
(** FALSE: that the last percentage is 100 when every L is done.  For 100 values of L, all counted, on one thread it is 99. *)
Theorem C148_last_refuted : forall {F} {N : Num F} (counted : F -> bool) (f : nat -> F * bool * Z) junk, counted n0 = false ->
  (forall i, counted (fst (fst (f i))) = true) -> length junk = 100%nat ->
  exists before, run_events counted true true 100 junk (all_events (show_interval 50 100) true 100 f)
    = (run_stores 100 junk (all_stores 100 f), before ++ [Number 99; Blank]).
Proof.
  intros F N counted f junk Hz Hc Hj. destruct (C148_percentages counted true 50 100 f junk _ Hz ltac:(lia) Hj (Permutation_refl _)) as (cs & E & Ecs & _).
  rewrite C148_in_order in Ecs by reflexivity. rewrite E, Ecs.
  assert (forall l, filter (fun i => counted (fst (fst (f i)))) l = l) as Fl by (induction l as [|i l IH]; [reflexivity|]; cbn; now rewrite Hc, IH).
  rewrite map_ext with (g := fun j => Z.of_nat (S (j * Z.to_nat (show_interval 50 100)))) by (intro j; now rewrite Fl, seq_length).
  exists (Number 0 :: map (fun j => Number (100 * (2 * Z.of_nat j + 1) / 100)) (seq 0 49)). vm_compute. reflexivity.
Qed.
Print Assumptions C148_last_refuted.
(** FALSE: that the percentage is the share of finished L.  Values that are not counted, such as a variance of exactly zero, leave it at 0
    however many are finished. *)
Theorem C148_zeros_refuted : forall {F} {N : Num F} (counted : F -> bool) blank frequency n (f : nat -> F * bool * Z) junk schedule, counted n0 = false -> 0 < frequency ->
  (forall i, (i < n)%nat -> counted (fst (fst (f i))) = false) ->
  length junk = n -> Permutation schedule (all_events (show_interval frequency n) true n f) ->
  snd (run_events counted true blank n junk schedule)
  = repeat (Number 0) (S (Z.to_nat (ceil_div (Z.of_nat n) (show_interval frequency n)))) ++ (if blank then [Blank] else []).
Proof.
  intros F N counted blank frequency n f junk schedule Hz Hf Hc Hj HP.
  destruct (C148_percentages counted blank frequency n f junk schedule Hz Hf Hj HP) as (cs & -> & _ & Hl & _ & HB & _). cbn [snd repeat app]. f_equal. f_equal.
  rewrite <- Hl, Nat2Z.id. clear Hl. replace (filter _ (seq 0 n)) with (@nil nat) in HB.
  - induction HB as [|c cs Hcc HB IH]; [reflexivity|]. cbn [map length repeat]. cbn in Hcc. replace c with 0 by lia. now rewrite IH, Z.mul_0_r, Zdiv_0_l.
  - symmetry. assert (forall l, (forall i, In i l -> (i < n)%nat) -> filter (fun i => counted (fst (fst (f i)))) l = []) as Q.
    { induction l as [|i l IH]; intro Hl; [reflexivity|]. cbn. rewrite Hc by (apply Hl; now left). apply IH. intros j Hj'. apply Hl. now right. }
    apply Q. intros i Hi. apply in_seq in Hi. lia.
Qed.
Print Assumptions C148_zeros_refuted.
Example C148_ex_percent : let f := fun i => ((Z.of_nat i # 1)%Q, true, 7) in
  positive (F := Q) n0 = false /\ nonzero (F := Q) n0 = false /\
  show_interval 50 3 = 1 /\ show_interval 20 45 = 2 /\ show_interval 50 1000 = 20 /\
  run_events positive true true 3 [9; 9; 9] (all_events 1 true 3 f) = (([0; 1; 2]%Q, [true; true; true], [7; 7; 7]), [Number 0; Number 0; Number 33; Number 66; Blank]) /\
  (* two threads, the second one first *)
  run_events nonzero true false 3 [0; 0; 0] (events_of 1 true 2 (f 2%nat) ++ events_of 1 true 0 (f 0%nat) ++ events_of 1 true 1 (f 1%nat))
    = (([0; 1; 2]%Q, [true; true; true], [7; 7; 7]), [Number 0; Number 33; Number 33; Number 66]) /\
  (* one level: the variance is zero for every L *)
  sigma_L [0]%Q 2%Q 45 (1 # 10)%Q 10 (fun _ => (1 # 2)%Q) = Ok (Done (0%Q, true, 45)).
Proof. vm_compute. repeat split. Qed.
(** C148. Which results count: in the level variance the positive numbers (not a zero of either sign, not a NaN), in the rigidity everything
    but the two zeros, so that a NaN counts as computed there. *)
Theorem C148_counted :
  (forall v : R, (positive v = true <-> (0 < v)%R) /\ (nonzero v = true <-> v <> 0%R)) /\
  (forall v : b64, (positive v = true <-> v = S754_infinity false \/ exists m e, v = S754_finite false m e) /\ (nonzero v = false <-> exists s, v = S754_zero s)).
Proof.
  split.
  - intro v. unfold positive, nonzero. split.
    + cbn. destruct (Rlt_dec 0 v); split; intro; (assumption || discriminate || contradiction || reflexivity).
    + cbn. destruct (Req_EM_T v 0); cbn; split; intro; (assumption || discriminate || contradiction || reflexivity || congruence).
  - intro v. unfold positive, nonzero. split; destruct v as [s|s| |s m e]; cbn; try destruct s; cbn; split; intro H; try discriminate; try reflexivity; eauto; repeat match goal with H : _ \/ _ |- _ => destruct H | H : exists _, _ |- _ => destruct H end; discriminate.
Qed.
Print Assumptions C148_counted.
(** C148. The quotient is computed in double precision and then cut to an integer; up to 2^46 values of L that gives the exact whole part. *)
Theorem C148_percent_double : forall c n, 0 <= c <= n -> 0 < n <= 2 ^ 46 ->
  let q := ndiv (b64_ofZ (100 * c)) (b64_ofZ n) : b64 in Fin q /\ Ztrunc (val q) = 100 * c / n.
Proof.
  intros c n Hc Hn. cbv zeta. destruct (ofZ_spec (100 * c) ltac:(lia)) as (V1 & F1 & E1). destruct (ofZ_spec n ltac:(lia)) as (V2 & F2 & E2).
  assert (0 < IZR n)%R as Pn by (apply IZR_lt; lia). assert (0 <= IZR c <= IZR n)%R as Pc by (split; apply IZR_le; lia).
  set (x := (IZR (100 * c) / IZR n)%R). assert (IZR (100 * c) = 100 * IZR c)%R as E100 by (rewrite mult_IZR; reflexivity).
  assert (0 <= x <= 100)%R as Hx.
  { unfold x. rewrite E100. split; [apply Rmult_le_pos; [lra|left; now apply Rinv_0_lt_compat]|]. apply Rmult_le_reg_r with (IZR n); [exact Pn|]. unfold Rdiv. rewrite Rmult_assoc, Rinv_l by lra. lra. }
  destruct (div_spec (b64_ofZ (100 * c)) (b64_ofZ n) V1 V2 F1) as (V & Fq & Eq); rewrite ?E1, ?E2 in *; [lra| |].
  { apply (lt_big _ 7); [lia|]. fold x. rewrite Rabs_pos_eq by lra. cbn. lra. }
  split; [exact Fq|]. change (ndiv (b64_ofZ (100 * c)) (b64_ofZ n)) with (SFdiv b64_prec b64_emax (b64_ofZ (100 * c)) (b64_ofZ n)). rewrite Eq. fold x.
  set (k := 100 * c / n). pose proof (Z.div_mod (100 * c) n ltac:(lia)) as D. fold k in D. pose proof (Z.mod_pos_bound (100 * c) n ltac:(lia)) as B.
  assert (0 <= k <= 100) as Hk by (split; [apply Z.div_pos; lia|apply Z.div_le_upper_bound; lia]).
  assert (forall z, 0 <= z <= 101 -> rnd (IZR z) = IZR z) as RZ.
  { intros z Hz. destruct (ofZ_spec z ltac:(lia)) as (Vz & Fz & Ez). rewrite <- Ez. apply rnd_fmt. now apply valid_fmt. }
  assert (x * IZR n = IZR (100 * c))%R as Ex by (unfold x; field; lra).
  assert (IZR k <= x)%R as L1.
  { apply Rmult_le_reg_r with (IZR n); [exact Pn|]. rewrite Ex, <- mult_IZR. apply IZR_le. lia. }
  assert (rnd x < IZR (k + 1))%R as L2.
  { destruct (Req_dec x 0) as [E0|E0].
    - rewrite E0. replace (rnd 0) with 0%R by (symmetry; apply round_0; apply valid_rnd_N). apply IZR_lt. lia.
    - assert (1 / IZR n <= x)%R as Lx.
      { unfold x. assert (1 <= IZR (100 * c))%R by (apply IZR_le; assert (c <> 0) by (intros ->; apply E0; unfold x; cbn; unfold Rdiv; ring); lia).
        apply Rmult_le_compat_r; [left; now apply Rinv_0_lt_compat|lra]. }
      assert (IZR n <= bpow radix2 46)%R as Nb by (change (bpow radix2 46) with (IZR (2 ^ 46)); apply IZR_le; lia).
      destruct (rnd_rel x) as (_ & R).
      { apply Rle_trans with (1 / IZR n)%R; [|exact Lx]. apply Rle_trans with (bpow radix2 (- 46)); [apply bpow_le; lia|].
        replace (bpow radix2 (- 46)) with (/ bpow radix2 46)%R by (rewrite <- bpow_opp; reflexivity). unfold Rdiv. rewrite Rmult_1_l. apply Rinv_le; lra. }
      apply Rle_lt_trans with (1 := R). apply Rmult_lt_reg_r with (IZR n); [exact Pn|].
      replace (x * (1 + bpow radix2 (-53)) * IZR n)%R with (IZR (100 * c) * (1 + bpow radix2 (-53)))%R by (rewrite <- Ex; ring).
      assert (IZR (100 * c) + 1 <= IZR (k + 1) * IZR n)%R as S1 by (rewrite <- mult_IZR, <- (plus_IZR _ 1); apply IZR_le; lia).
      assert (IZR (100 * c) * bpow radix2 (-53) < 1)%R; [|lra].
      replace 1%R with (bpow radix2 53 * bpow radix2 (-53))%R by (rewrite <- bpow_plus; reflexivity). apply Rmult_lt_compat_r; [apply bpow_gt_0|].
      change (bpow radix2 53) with (IZR (2 ^ 53)). apply IZR_lt. lia. }
  assert (IZR k <= rnd x)%R as L3 by (rewrite <- (RZ k) by lia; now apply rnd_le).
  rewrite Ztrunc_floor by (apply Rle_trans with (2 := L3); apply IZR_le; lia). apply Zfloor_imp. split; assumption.
Qed.
Print Assumptions C148_percent_double.
Example C148_ex_double : Ztrunc (val (ndiv (b64_ofZ (100 * 29)) (b64_ofZ 50) : b64)) = 58 /\ 100 * 29 / 50 = 58 /\ 100 * 2 / 3 = 66.
Proof. split; [|split; reflexivity]. apply (C148_percent_double 29 50); lia. Qed.

(** ** C148: trimming *)
Section Trim.
Context {F : Type} {N : Num F} {U : Type}.
Variable hbos : nat -> list F -> result (list bool).
Variable fit_all : list F -> result U.
Lemma trim_loop_shown_eq show k : forall i mt (cur : trimiter F U),
  let '(out, r) := trim_loop_shown hbos fit_all show i k mt cur in
  r = trim_loop hbos fit_all k mt cur /\
  exists m, out = (if show then seq i m else []) /\ (m <= k)%nat /\ (forall rest, r = Ok rest -> (length rest <= m <= S (length rest))%nat).
Proof.
  induction k as [|k IH]; intros i mt cur; cbn [trim_loop_shown trim_loop].
  - split; [reflexivity|]. exists 0%nat. split; [now destruct show|]. split; [lia|]. intros rest [= <-]. cbn. lia.
  - destruct (next_iter hbos fit_all cur) as [t|e]; cbn [bind].
    + destruct (ngt (proportion_removed t) mt).
      * split; [reflexivity|]. exists 1%nat. split; [now destruct show|]. split; [lia|]. intros rest [= <-]. cbn. lia.
      * destruct (is_all_inliers t).
        -- split; [reflexivity|]. exists 1%nat. split; [now destruct show|]. split; [lia|]. intros rest [= <-]. cbn. lia.
        -- specialize (IH (S i) mt t). destruct (trim_loop_shown hbos fit_all show (S i) k mt t) as [out r]. destruct IH as (E & m & Eo & Hm & Hr). split; [now rewrite E|].
           exists (S m). split; [rewrite Eo; destruct show; reflexivity|]. split; [lia|]. intros rest H. destruct r as [l|]; [|discriminate]. cbn [bind] in H. injection H as <-.
           specialize (Hr l eq_refl). cbn [length]. lia.
    + split; [reflexivity|]. exists 1%nat. split; [now destruct show|]. split; [lia|]. discriminate.
Qed.
End Trim.
(** C148. The messages of the trimming change no result, and their numbers count up from 0 without a gap; when the trimming succeeds each of them is
    the number of an iteration that is kept, and at most the last iteration has no message. *)
Theorem C148_trim : forall {F} {N : Num F} {U} hbos (fit_all : list F -> result U) show vals mt mi,
  snd (trim_iters_shown hbos fit_all show vals mt mi) = trim_iters hbos fit_all vals mt mi /\
  exists m, fst (trim_iters_shown hbos fit_all show vals mt mi) = (if show then seq 0 m else []) /\ (m <= Z.to_nat mi)%nat /\
    (forall its, trim_iters hbos fit_all vals mt mi = Ok its -> (length its - 1 <= m <= length its)%nat).
Proof.
  intros F N U hbos fit_all show vals mt mi. unfold trim_iters_shown, trim_iters. destruct (new_iter hbos fit_all 0 (np_sort vals) (np_sort vals)) as [t0|e]; cbn [bind].
  - pose proof (trim_loop_shown_eq hbos fit_all show (Z.to_nat mi) 0 mt t0) as Q. destruct (trim_loop_shown hbos fit_all show 0 (Z.to_nat mi) mt t0) as [out r].
    destruct Q as (E & m & Eo & Hm & Hr). cbn [fst snd]. split; [now rewrite E|]. exists m. split; [exact Eo|]. split; [exact Hm|].
    intros its H. rewrite <- E in H. destruct r as [l|]; [|discriminate]. injection H as <-. specialize (Hr l eq_refl). cbn [length]. lia.
  - split; [reflexivity|]. exists 0%nat. split; [now destruct show|]. split; [lia|discriminate].
Qed.
Print Assumptions C148_trim.

(** Rounding to one decimal, ties to the even last digit (np.round(., 1) of the exact number). *)
Definition round1 (x : R) : R := (IZR (ZnearestE (10 * x)) / 10)%R.
Lemma near_sub n x : Z.even n = true -> ZnearestE (IZR n - x) = n - ZnearestE x.
Proof.
  intro He. unfold Rminus. set (y := (- x)%R). assert (ZnearestE (IZR n + y) = n + ZnearestE y) as ->.
  { unfold Znearest. rewrite (Zfloor_imp (n + Zfloor y) (IZR n + y)).
    2:{ rewrite !plus_IZR. pose proof (Zfloor_lb y). pose proof (Zfloor_ub y). lra. }
    rewrite (Zceil_imp (n + Zceil y) (IZR n + y)).
    2:{ replace (n + Zceil y - 1) with (n + (Zceil y - 1)) by lia. rewrite !plus_IZR. pose proof (Zceil_ub y). pose proof (Zceil_lb y) as Q. rewrite minus_IZR. lra. }
    rewrite plus_IZR. replace (IZR n + y - (IZR n + IZR (Zfloor y)))%R with (y - IZR (Zfloor y))%R by ring.
    rewrite Z.even_add, He. destruct (Rcompare (y - IZR (Zfloor y)) (/ 2)); [|lia..]. destruct (Z.even (Zfloor y)); cbn; lia. }
  unfold y. rewrite Znearest_opp.
  replace (Znearest (fun t : Z => negb (negb (Z.even (- (t + 1))))) x) with (ZnearestE x); [lia|].
  unfold Znearest. destruct (Rcompare _ _); [|reflexivity..]. rewrite Z.even_opp, Z.even_add. destruct (Z.even (Zfloor x)); reflexivity.
Qed.
(** C148. The percentage printed by trim_unfold_auto leaves its result alone, and it and the percentage removed of the selected iteration make 100. *)
Theorem C148_kept : forall store hbos (fit : list R -> result (list column)) names vals mt mi,
  (let! r := trim_unfold_auto_shown round1 store hbos fit names vals mt mi in Ok (snd r)) = trim_unfold_auto round1 store hbos fit names vals mt mi /\
  forall p u, (forall id l lab, hbos id l = Ok lab -> length lab = length l) -> trim_unfold_auto_shown round1 store hbos fit names vals mt mi = Ok (p, u) ->
    exists its t, trim_iters hbos fit vals mt mi = Ok its /\ In t its /\ u_originals u = ti_eigs t /\
      p = round1 (100 * INR (length (u_originals u)) / INR (length vals)) /\ (p + percent_removed round1 t)%R = 100%R.
Proof.
  intros store hbos fit names vals mt mi. split.
  - unfold trim_unfold_auto_shown, trim_unfold_auto. destruct (trim_iters _ _ _ _ _) as [its|]; [|reflexivity]. cbn [bind]. destruct (summary _ _ _ _) as [f|]; [|reflexivity].
    cbn [bind]. destruct (autounfold_vals f its) as [[o v]|]; reflexivity.
  - intros p u Hh H. unfold trim_unfold_auto_shown in H. destruct (trim_iters _ _ _ _ _) as [its|] eqn:Ei; [|discriminate]. cbn [bind] in H.
    destruct (summary _ _ _ _) as [f|]; [|discriminate]. cbn [bind] in H. destruct (autounfold_vals f its) as [[o v]|] eqn:Ea; [|discriminate]. cbn [bind] in H. injection H as <- <-.
    apply (auto_from_fits round1 store) in Ea. destruct Ea as (id & t & c & Ht & Hc & -> & ->). exists its, t. split; [reflexivity|]. split; [eapply nth_error_In; exact Ht|].
    destruct (row_ok hbos fit Hh _ _ _ _ Ei id t Ht) as (_ & HO & (_ & _ & Hne) & Hcont & _).
    assert (np_sort (ti_eigs t) = ti_eigs t) as Es.
    { destruct Hcont as (p & q & E). apply np_sort_id. pose proof (np_sort_sorted vals) as Hs. rewrite E in Hs.
      apply (SS_skipn _ _ (length p)) in Hs. rewrite skipn_app, skipn_all, Nat.sub_diag in Hs. cbn [app skipn] in Hs.
      apply (SS_firstn _ _ (length (ti_eigs t))) in Hs. rewrite firstn_app, firstn_all, Nat.sub_diag in Hs. cbn [firstn] in Hs. rewrite app_nil_r in Hs. exact Hs. }
    cbn [unfolded_init u_originals]. rewrite Es. split; [reflexivity|].
    rewrite <- !INR_IZR_INZ. split; [reflexivity|]. unfold percent_removed, nlen. rewrite HO, np_sort_length. cbn [nofZ ndiv nmul nsub Num_R]. rewrite <- !INR_IZR_INZ. unfold round1.
    set (y := (100 * INR (length (ti_eigs t)) / INR (length vals))%R).
    replace (10 * (100 - y))%R with (IZR 1000 - 10 * y)%R by ring. rewrite near_sub by reflexivity. rewrite minus_IZR. lra.
Qed.
Print Assumptions C148_kept.
Example C148_ex_trim :
  let hbos := fun (_ : nat) (l : list Q) => Ok (map (fun x => match Qcompare x 50%Q with Gt => true | _ => false end) l) in
  exists t0 t1, trim_iters_shown hbos (fun l => Ok (length l)) true [3; 100; 1; 2]%Q (1 # 2)%Q 5 = ([0]%nat, Ok [t0; t1]) /\ ti_eigs t1 = [1; 2; 3]%Q /\
    trim_iters_shown hbos (fun l => Ok (length l)) true [3; 100; 1; 2]%Q (1 # 8)%Q 5 = ([0]%nat, Ok [t0]).
Proof. do 2 eexists. repeat split; vm_compute; reflexivity. Qed.
Example C148_ex_round : round1 (100 * 7 / 8) = (875 / 10)%R /\ round1 (1 / 4) = (2 / 10)%R /\ round1 (3 / 4) = (8 / 10)%R.
Proof.
  unfold round1. repeat split; [replace (10 * (100 * 7 / 8))%R with (IZR 875) by lra; rewrite Znearest_imp with (n := 875); [lra|rewrite Rminus_diag_eq, Rabs_R0 by reflexivity; lra]| |].
  - assert (ZnearestE (10 * (1 / 4)) = 2) as ->; [|lra]. unfold Znearest. rewrite (Zfloor_imp 2) by (cbn; lra). rewrite Rcompare_Eq by lra. reflexivity.
  - assert (ZnearestE (10 * (3 / 4)) = 8) as ->; [|lra]. unfold Znearest. rewrite (Zfloor_imp 7), (Zceil_imp 8) by (cbn; lra). rewrite Rcompare_Eq by lra. reflexivity.
Qed.
Example C148_ex_kept : exists u, trim_unfold_auto_shown rp_id rp_id rp_hbos (rp_fit [3%Z] (SList [1#2]%Q)) (rp_names [3%Z] (SList [1#2]%Q)) rp_vals (1#2)%Q 3 = Ok (75, u)%Q /\
  u_originals u = [1; 2; 4]%Q /\ length rp_vals = 4%nat.
Proof. eexists. vm_compute. repeat split. Qed.
