(** Property theorems about the forwarding plot methods, the legend stripes, the sorted-eigenvalue figure and Smoother's constructor. *)
From Coq Require Import String List ZArith QArith Bool Arith Lia Reals Lra Permutation.
From Verif Require Import Base S_Order S_EigVals S_Call M_EigVals M_Plot M_Call P_Order P_Step P_EigVals.
Import ListNotations.
Local Open Scope string_scope.
Local Notation length := List.length.

(** ** C103: the forwarding plot methods *)
Section Bind.
Context {V : Type}.
Implicit Types (kw : list (string * V)) (f : string -> option V).
Definition held f (ps : list string) : list (string * option V) := map (fun p => (p, f p)) ps.

Lemma fill_positional_none ps : fill_positional (V := V) ps [] = Ok (held (fun _ => None) (map fst ps)).
Proof. induction ps as [|[p d] ps IH]; [reflexivity|]. cbn [fill_positional]. rewrite IH. reflexivity. Qed.
Lemma fill_positional_head p d ps (v : V) vs :
  fill_positional ((p, d) :: ps) (v :: vs) = Raise TypeError \/
  exists r, fill_positional ((p, d) :: ps) (v :: vs) = Ok ((p, Some v) :: r).
Proof.
  cbn [fill_positional].
  assert (H : forall qs (ws : list V), fill_positional qs ws = Raise TypeError \/ exists r, fill_positional qs ws = Ok r).
  { induction qs as [|[q e] qs IH]; intros [|w ws]; cbn [fill_positional]; eauto.
    - destruct (IH []) as [E|(r & E)]; rewrite E; cbn [bind]; eauto.
    - destruct (IH ws) as [E|(r & E)]; rewrite E; cbn [bind]; eauto. }
  destruct (H ps vs) as [E|(r & E)]; rewrite E; cbn [bind]; eauto.
Qed.
Lemma held_ext f g ps : (forall p, In p ps -> f p = g p) -> held f ps = held g ps.
Proof. intro H. apply map_ext_in. intros p Hp. now rewrite H. Qed.
Lemma fill_keyword_held f ps k v : NoDup ps ->
  fill_keyword (held f ps) k v =
    if in_dec string_dec k ps then match f k with None => Ok (held (fun p => if string_dec k p then Some v else f p) ps) | Some _ => Raise TypeError end
    else Raise TypeError.
Proof.
  induction 1 as [|p ps Hn Hd IH]; [reflexivity|]. cbn [held map fill_keyword]. fold (held f ps).
  destruct (String.eqb_spec p k) as [->|Hne].
  - destruct (in_dec string_dec k (k :: ps)) as [_|H]; [|exfalso; apply H; now left].
    destruct (f k); auto. cbn [held map]. destruct (string_dec k k); [|congruence]. do 2 f_equal.
    apply held_ext. intros q Hq. destruct (string_dec k q); congruence.
  - rewrite IH. destruct (in_dec string_dec k ps) as [Hi|Hi].
    + destruct (in_dec string_dec k (p :: ps)) as [_|H]; [|exfalso; apply H; now right].
      destruct (f k); [reflexivity|]. cbn [bind held map]. destruct (string_dec k p); [congruence|]. reflexivity.
    + destruct (in_dec string_dec k (p :: ps)) as [[H|H]|_]; [congruence|contradiction|reflexivity].
Qed.
Lemma fill_keywords_held ps : NoDup ps -> forall kw f,
  (NoDup (map fst kw) /\ incl (map fst kw) ps /\ (forall k, In k (map fst kw) -> f k = None) ->
    fill_keywords (held f ps) kw = Ok (held (fun p => match Passed kw p with Some v => Some v | None => f p end) ps)) /\
  (~ (NoDup (map fst kw) /\ incl (map fst kw) ps /\ (forall k, In k (map fst kw) -> f k = None)) ->
    fill_keywords (held f ps) kw = Raise TypeError).
Proof.
  intro Hps. induction kw as [|[k v] kw IH]; intro f.
  - split; [reflexivity|]. intro H. exfalso. apply H. split; [constructor|]. split; [intros x []|intros x []].
  - cbn [fill_keywords map fst]. rewrite fill_keyword_held; auto.
    specialize (IH (fun p => if string_dec k p then Some v else f p)) as [IH1 IH2]. split.
    + intros (H1 & H2 & H3). inversion_clear H1 as [|? ? Hk Hkw].
      destruct (in_dec string_dec k ps) as [_|H]; [|exfalso; apply H, H2; now left].
      rewrite H3; [|now left]. cbn [bind]. rewrite IH1.
      * f_equal. apply held_ext. intros p _. cbn [Passed]. destruct (string_dec k p) as [->|]; auto.
        destruct (Passed kw p) eqn:E; auto. exfalso. apply Hk. clear -E.
        induction kw as [|[q w] kw IH]; [discriminate|]. cbn [Passed] in E. cbn [map fst In]. destruct (string_dec q p); [now left|right; auto].
      * split; auto. split; [intros x Hx; apply H2; now right|]. intros q Hq. destruct (string_dec k q) as [->|]; [contradiction|].
        apply H3. now right.
    + intro H. destruct (in_dec string_dec k ps) as [Hi|_]; [|reflexivity].
      destruct (f k) eqn:Ef; [reflexivity|]. cbn [bind]. apply IH2. intros (H1 & H2 & H3). apply H. split.
      * constructor; auto. intro Hk. specialize (H3 k Hk). destruct (string_dec k k); congruence.
      * split; [intros x [->|Hx]; auto|]. intros q [<-|Hq]; auto. specialize (H3 q Hq). destruct (string_dec k q); congruence.
Qed.
Lemma all_given_optional ps f : all_given (optional ps) (held f ps) = true.
Proof. induction ps as [|p ps IH]; [reflexivity|]. cbn. exact IH. Qed.

Lemma forward_positional p ps values (v : V) vs kw :
  call_binds ((p, false) :: optional ps) (v :: vs) ((p, values) :: kw) = Raise TypeError.
Proof.
  unfold call_binds. destruct (fill_positional_head p false (optional ps) v vs) as [E|(r & E)]; rewrite E; [reflexivity|].
  cbn [bind fill_keywords fill_keyword]. rewrite String.eqb_refl. reflexivity.
Qed.
Lemma forward_keywords p ps values kw : NoDup (p :: ps) ->
  (NoDup (map fst kw) /\ incl (map fst kw) ps ->
    call_binds ((p, false) :: optional ps) [] ((p, values) :: kw) = Ok ((p, Some values) :: map (fun q => (q, Passed kw q)) ps)) /\
  (~ (NoDup (map fst kw) /\ incl (map fst kw) ps) ->
    call_binds ((p, false) :: optional ps) [] ((p, values) :: kw) = Raise TypeError).
Proof.
  intro Hnd. inversion_clear Hnd as [|? ? Hp Hps]. unfold call_binds. rewrite fill_positional_none.
  assert (E : map fst ((p, false) :: optional ps) = p :: ps).
  { cbn [map fst]. f_equal. unfold optional. rewrite map_map. cbn [fst]. apply map_id. }
  rewrite E. cbn [bind]. destruct (fill_keywords_held (p :: ps) ltac:(now constructor) ((p, values) :: kw) (fun _ => None)) as [H1 H2].
  split; intro H.
  - destruct H as [Ha Hb]. rewrite H1.
    + cbn [bind held map all_given Passed]. destruct (string_dec p p); [|congruence]. cbn [orb andb].
      assert (G : all_given (optional ps) (held (fun q => match (if string_dec p q then Some values else Passed kw q) with Some v => Some v | None => None end) ps) = true)
        by apply all_given_optional.
      unfold held in G. rewrite G. do 2 f_equal. apply map_ext_in. intros q Hq. destruct (string_dec p q) as [->|]; [contradiction|].
      destruct (Passed kw q); reflexivity.
    + cbn [map fst]. split; [constructor; auto|]. split; auto. intros x [->|Hx]; [now left|right; auto].
  - rewrite H2; [reflexivity|]. cbn [map fst]. intros (Ha & Hb & _). apply H. inversion_clear Ha as [|? ? Hk Hkw]. split; auto.
    intros x Hx. destruct (Hb x ltac:(now right)) as [->|]; auto. contradiction.
Qed.
End Bind.

Definition sorted_options := ["title"; "mode"; "outfile"; "kind"; "fig"; "axes"].
Definition distribution_options := ["bins"; "kde"; "title"; "mode"; "outfile"; "fig"; "axes"].
Definition steps_options := ["gridsize"; "title"; "mode"; "outfile"; "fig"; "axes"].
Definition spacings_options :=
  ["bins"; "kde"; "trim"; "trim_kde"; "kde_bw"; "brody"; "brody_fit"; "title"; "mode"; "outfile"; "ensembles"; "fig"; "axes"].

(** A single positional argument is always refused, whatever it is and whatever else is passed. *)
Theorem C103_positional_refuted : forall (V : Type) (values v : V) vs kw,
  plot_sorted values (v :: vs) kw = Raise TypeError /\
  plot_distribution values (v :: vs) kw = Raise TypeError /\
  plot_steps values (v :: vs) kw = Raise TypeError /\
  plot_spacings values (v :: vs) kw = Raise TypeError.
Proof. intros. splits; apply forward_positional. Qed.
Print Assumptions C103_positional_refuted.

(** By keyword every option reaches the drawing function under its own name, the object's own values are drawn, and any other name
    (in particular the data itself) is refused. *)
Theorem C103_keywords : forall (V : Type) (values : V) kw,
  let forwards (method : V -> list V -> list (string * V) -> result (list (string * option V))) data options :=
    (NoDup (map fst kw) /\ incl (map fst kw) options ->
      method values [] kw = Ok ((data, Some values) :: map (fun p => (p, Passed kw p)) options)) /\
    (~ (NoDup (map fst kw) /\ incl (map fst kw) options) -> method values [] kw = Raise TypeError) in
  forwards plot_sorted "eigs" sorted_options /\
  forwards plot_distribution "eigs" distribution_options /\
  forwards plot_steps "eigs" steps_options /\
  forwards plot_spacings "unfolded" spacings_options.
Proof.
  intros V values kw. cbv zeta.
  splits; apply forward_keywords; unfold sorted_options, distribution_options, steps_options, spacings_options;
    repeat (constructor; [cbn [In]; intuition discriminate|]); constructor.
Qed.
Print Assumptions C103_keywords.
(** A call that cannot be bound raises TypeError, whatever the parameters and the arguments are, and a call is bound only if every
    parameter without a default received a value. *)
Theorem C103_errors : forall (V : Type) params (pos : list V) kw,
  (forall e, call_binds params pos kw = Raise e -> e = TypeError) /\
  (forall b, call_binds params pos kw = Ok b -> map fst b = map fst params /\
     forall i p, nth_error params i = Some (p, false) -> exists v, nth_error b i = Some (p, Some v)).
Proof.
  intros V params pos kw.
  assert (P : forall ps (vs : list V), match fill_positional ps vs with Ok b => map fst b = map fst ps | Raise e => e = TypeError end).
  { clear. induction ps as [|[p d] ps IH]; intros [|v vs]; cbn; try easy; [specialize (IH (@nil V))|specialize (IH vs)]; destruct (fill_positional ps _) as [b|e]; cbn; congruence. }
  assert (K : forall (k : string) (v : V) b, match fill_keyword b k v with Ok b' => map fst b' = map fst b | Raise e => e = TypeError end).
  { clear. intros k v. induction b as [|[p o] b IH]; cbn; [easy|]. destruct (String.eqb p k); [now destruct o|]. destruct (fill_keyword b k v); cbn; congruence. }
  assert (KS : forall (l : list (string * V)) b, match fill_keywords b l with Ok b' => map fst b' = map fst b | Raise e => e = TypeError end).
  { clear - K. induction l as [|[k v] l IH]; intros b; cbn; [easy|]. specialize (K k v b). destruct (fill_keyword b k v) as [b'|e]; cbn; [|exact K].
    specialize (IH b'). destruct (fill_keywords b' l); [congruence|exact IH]. }
  unfold call_binds. specialize (P params pos). destruct (fill_positional params pos) as [b|e]; cbn [bind]; [|split; [intros e' [= <-]; exact P|discriminate]].
  specialize (KS kw b). destruct (fill_keywords b kw) as [b'|e]; cbn [bind]; [|split; [intros e' [= <-]; exact KS|discriminate]].
  destruct (all_given params b') eqn:G; [|split; [now intros e [= <-]|discriminate]]. split; [discriminate|]. intros b0 [= <-].
  assert (M : map fst b' = map fst params) by congruence. split; [exact M|]. clear - M G. revert b' M G.
  induction params as [|[p d] ps IH]; intros [|[q o] b] M G i r H; try discriminate; [now destruct i|]. cbn in M, G. injection M as -> M. apply andb_true_iff in G. destruct G as [G1 G2].
  destruct i as [|i]; cbn in H |- *; [|exact (IH b M G2 i r H)]. injection H as -> ->. destruct o as [v|]; [|discriminate]. eauto.
Qed.
Print Assumptions C103_errors.
Example C103_errors_case : call_binds spacings_params [1; 2]%nat [("unfolded", 3)]%nat = Raise TypeError /\ call_binds spacings_params [] [("bins", 3)]%nat = Raise TypeError /\
  call_binds [("eigs", false); ("title", true)] [1]%nat [] = Ok [("eigs", Some 1); ("title", None)]%nat.
Proof. splits; reflexivity. Qed.
Example C103_case :
  plot_sorted 10 [] [("kind", 1); ("title", 2)] =
    Ok [("eigs", Some 10); ("title", Some 2); ("mode", None); ("outfile", None); ("kind", Some 1); ("fig", None); ("axes", None)] /\
  plot_sorted 10 [2] [] = Raise TypeError /\ plot_sorted 10 [] [("bins", 3)] = Raise TypeError /\
  plot_distribution 10 [] [("bins", 3)] <> Raise TypeError /\ plot_steps 10 [] [("eigs", 3)] = Raise TypeError.
Proof. splits; try reflexivity. discriminate. Qed.

(** ** C104: the constructor of Smoother *)
Theorem C104_constructor : forall (F : Type) (N : Num F) (L : OrdLaws F N) (a : ndarray F), wf_array a ->
  (OneDimensional (shape a) ->
    exists v, smoother_init a = Ok v /\ Permutation (data a) v /\ AscendingNaNLast v /\
      forall b w, wf_array b -> Permutation (data a) (data b) -> smoother_init b = Ok w -> Forall2 SameValue v w) /\
  (~ OneDimensional (shape a) -> shape a <> [] -> smoother_init a = Raise ValueError) /\
  (shape a = [] -> smoother_init a = Raise TypeError).
Proof.
  intros F N L a Hwf. destruct (make_1d_ok a Hwf) as (H1 & H2 & H3).
  assert (G : forall b, smoother_init b = let! d := make_1d_array b in Ok (np_sort d)).
  { intro b. unfold smoother_init, make_1d_array. destruct (py_len b) as [n|e]; [|reflexivity]. cbn [bind].
    rewrite (Nat.eqb_sym n). destruct (Nat.eqb (length (data b)) n); reflexivity. }
  rewrite G. splits.
  - intro Ho. rewrite (H1 Ho). cbn [bind]. exists (np_sort (data a)). splits; auto.
    + apply np_sort_spec.
    + apply np_sort_spec.
    + intros b w Hb Hp. rewrite G. unfold make_1d_array. destruct (py_len b) as [n|e]; [|discriminate]. cbn [bind].
      destruct (Nat.eqb (length (data b)) n); [|discriminate]. cbn [bind]. intros [= <-]. now apply np_sort_order_irrelevant.
  - intros Ho Hs. now rewrite (H2 Ho Hs).
  - intro Hs. now rewrite (H3 Hs).
Qed.
Print Assumptions C104_constructor.
Example C104_case : smoother_init (mkarr [3; 1]%nat [3; 1; 2]%Q) = Ok [1; 2; 3]%Q /\
  smoother_init (mkarr [1; 3]%nat [3; 1; 2]%Q) = Raise ValueError /\ smoother_init (mkarr [] [3]%Q) = Raise TypeError.
Proof. splits; reflexivity. Qed.

(** ** C105: the striped legend entry *)
Local Open Scope R_scope.
Lemma tiles_seq (x w n : R) : n <> 0 -> forall m a, INR (a + m) = n ->
  Tiles (x + INR a * w / n) (x + w) (map (fun i => (x + INR i * w / n, w / n)) (seq a m)).
Proof.
  intros Hn. induction m as [|m IH]; intros a Ha; cbn [seq map Tiles].
  - rewrite Nat.add_0_r in Ha. rewrite Ha. field. auto.
  - split; [reflexivity|]. replace (x + INR a * w / n + w / n) with (x + INR (S a) * w / n) by (rewrite S_INR; field; auto).
    apply IH. rewrite <- Ha. f_equal. lia.
Qed.
Theorem C105_stripes : forall n (x y w h : R), (0 < n)%nat ->
  let stripes := create_artists n x y w h in
  length stripes = n /\
  Tiles x (x + w) (map (fun s => (s_left s, s_width s)) stripes) /\
  (forall s, In s stripes -> s_bottom s = y /\ s_height s = h /\ s_width s = w / INR n /\
     0 < s_color s < 1 /\ s_left s + s_width s / 2 = x + s_color s * w) /\
  (forall i j s s', (i < j)%nat -> nth_error stripes i = Some s -> nth_error stripes j = Some s' -> s_color s < s_color s').
Proof.
  intros n x y w h Hn stripes. unfold stripes, create_artists. change nofZ with IZR. rewrite <- !INR_IZR_INZ.
  assert (Hp : 0 < INR n) by now apply lt_0_INR.
  splits.
  - now rewrite map_length, seq_length.
  - rewrite map_map. cbn [s_left s_width].
    erewrite map_ext; [|intro i; cbn; rewrite <- INR_IZR_INZ; reflexivity].
    replace x with (x + INR 0 * w / INR n) at 1 by (cbn [INR]; field; lra). apply tiles_seq; [lra|reflexivity].
  - intros s Hs. apply in_map_iff in Hs as (i & <- & Hi). apply in_seq in Hi.
    cbn -[IZR INR]. rewrite <- INR_IZR_INZ.
    assert (Hi0 : 0 <= INR i) by apply pos_INR. assert (Hi1 : INR i + 1 <= INR n) by (rewrite <- S_INR; apply le_INR; lia).
    splits; auto.
    + apply Rdiv_lt_0_compat; lra.
    + apply (Rmult_lt_reg_r (2 * INR n)); [lra|]. unfold Rdiv. rewrite Rmult_assoc, Rinv_l by lra. lra.
    + field. lra.
  - intros i j s s' Hij Hs Hs'. rewrite nth_error_map in Hs, Hs'.
    assert (Hi : (i < n)%nat). { destruct (nth_error (seq 0 n) i) eqn:E; [|discriminate]. rewrite <- (seq_length n 0). apply nth_error_Some. congruence. }
    assert (Hj : (j < n)%nat). { destruct (nth_error (seq 0 n) j) eqn:E; [|discriminate]. rewrite <- (seq_length n 0). apply nth_error_Some. congruence. }
    assert (Es : forall k, (k < n)%nat -> nth_error (seq 0 n) k = Some k).
    { intros k Hk. rewrite (nth_error_nth' _ 0%nat) by now rewrite seq_length. now rewrite seq_nth. }
    rewrite Es in Hs, Hs' by auto. injection Hs as <-. injection Hs' as <-. cbn -[IZR INR]. rewrite <- !INR_IZR_INZ.
    apply lt_INR in Hij. unfold Rdiv. apply Rmult_lt_compat_r; [apply Rinv_0_lt_compat; lra|lra].
Qed.
Print Assumptions C105_stripes.
Example C105_case : map (fun s => (Qred (s_left s), Qred (s_color s))) (create_artists 4 (1#1)%Q 0%Q (8#1)%Q (2#1)%Q) =
  [(1, 1#8); (3, 3#8); (5, 5#8); (7, 7#8)]%Q.
Proof. reflexivity. Qed.

(** ** C106: the figure of the sorted eigenvalues *)
Theorem C106_sorted_figure : forall (F P Fig Axes : Type) makes saves (fresh : Fig * Axes) (eigs : list F) mode (outfile : option P) kind fig axes,
  let drawn := fst (raw_eig_sorted makes saves fresh eigs mode outfile kind fig axes) in
  let after := snd (raw_eig_sorted makes saves fresh eigs mode outfile kind fig axes) in
  (kind <> "scatter" /\ kind <> "line" -> drawn = None /\ after = ([], Raise ValueError)) /\
  (kind = "scatter" \/ kind = "line" ->
    exists f a pts, drawn = Some (a, (if string_dec kind "scatter" then Scattered else Joined), pts) /\
      (forall i v, In (i, v) pts <-> nth_error eigs i = Some v) /\ NoDup (map fst pts) /\
      after = handle_plot_mode makes saves mode f a outfile None /\
      (forall f' a', snd after = Ok (f', a') -> f' = f /\ a' = a) /\
      ((fig = Some f /\ axes = Some a) \/ ((fig = None \/ axes = None) /\ fresh = (f, a)))).
Proof.
  intros F P Fig Axes makes saves fresh eigs mode outfile kind fig axes. cbv zeta. unfold raw_eig_sorted.
  assert (Hs : exists f a, setup_plotting fresh fig axes = (f, a) /\
    ((fig = Some f /\ axes = Some a) \/ ((fig = None \/ axes = None) /\ fresh = (f, a)))).
  { destruct fig as [f|], axes as [a|]; cbn [setup_plotting]; destruct fresh as [f0 a0]; eauto 10. }
  destruct Hs as (f & a & Es & Hs). rewrite Es. split.
  - intros [H1 H2]. apply String.eqb_neq in H1, H2. rewrite H1, H2. now split.
  - intro Hk.
    assert (Hh : forall f' a', snd (handle_plot_mode makes saves mode f a outfile None) = Ok (f', a') -> f' = f /\ a' = a).
    { intros f' a'. destruct mode as [[| | | |]|]; cbn [handle_plot_mode snd]; try congruence; try (intros [= <- <-]; now split).
      destruct outfile as [p|]; [|discriminate]. destruct (makes p); [|discriminate]. destruct (saves p None); [|discriminate].
      cbn [snd]. intros [= <- <-]. now split. }
    exists f, a, (combine (seq 0 (length eigs)) eigs). splits; auto.
    + destruct Hk as [-> | ->]; reflexivity.
    + intros i v. clear.
      enough (G : forall k, In (i, v) (combine (seq k (length eigs)) eigs) <-> (k <= i)%nat /\ nth_error eigs (i - k) = Some v).
      { rewrite G, Nat.sub_0_r. split; [tauto|]. intro H. split; [lia|auto]. }
      induction eigs as [|e eigs IH]; intro k; cbn [length seq combine In].
      * split; [tauto|]. intros [_ H]. now destruct (i - k)%nat.
      * rewrite IH. split.
        -- intros [[= -> ->]|[H1 H2]]; [rewrite Nat.sub_diag; now split|]. split; [lia|].
           replace (i - k)%nat with (S (i - S k)) by lia. exact H2.
        -- intros [H1 H2]. destruct (Nat.eq_dec k i) as [->|Hne].
           ++ rewrite Nat.sub_diag in H2. injection H2 as ->. now left.
           ++ right. split; [lia|]. replace (i - k)%nat with (S (i - S k)) in H2 by lia. exact H2.
    + replace (map fst (combine (seq 0 (length eigs)) eigs)) with (seq 0 (length eigs)); [apply seq_NoDup|].
      generalize 0%nat. clear. induction eigs as [|e eigs IH]; intro k; [reflexivity|]. cbn [length seq combine map fst]. now rewrite <- IH.
    + destruct Hk as [-> | ->]; reflexivity.
    + destruct Hk as [-> | ->]; cbn [snd String.eqb]; exact Hh.
Qed.
Print Assumptions C106_sorted_figure.
Example C106_case : let ok := fun _ : string => Ok tt in let sv := fun (_ : string) (_ : option Z) => Ok tt in
  raw_eig_sorted ok sv (0%Z, true) [5; 7; 7]%Z (Mode Return) None "line" (Some 9%Z) None =
    (Some (true, Joined, [(0%nat, 5%Z); (1%nat, 7%Z); (2%nat, 7%Z)]), ([], Ok (0%Z, true))).
Proof. reflexivity. Qed.
