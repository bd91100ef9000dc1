(** Property C150: names and members of the enumerations are interchangeable, and the kind of a spectrum is carried along. *)
From Coq Require Import String List ZArith QArith Bool Arith Lia.
From Verif Require Import Base M_Enum M_Trim M_Generate M_Signal M_Smooth M_Kind P_Step.
Import ListNotations.
Local Open Scope Z_scope.
Local Notation length := List.length.

(** [s] is the value of the member [m] of the enumeration [e]: the first name that was given this value. *)
Inductive NameOf : enum -> string -> string -> Prop :=
| Name_here e m s : NameOf ((m, s) :: e) s m
| Name_later e m s m' s' : s' <> s -> NameOf e s m -> NameOf ((m', s') :: e) s m.
Lemma name_canonical e s m : NameOf e s m -> canonical e s = Some m.
Proof. induction 1 as [|e m s m' s' H _ IH]; cbn; [now rewrite String.eqb_refl|]. apply String.eqb_neq in H. now rewrite H. Qed.
Lemma name_validate e s m : NameOf e s m -> validate e (PStr s) = validate e (PMember m).
Proof. intros H. cbn. now rewrite (name_canonical _ _ _ H). Qed.

(** C150. [generate]: the value of a kind and the kind itself give the same object and leave the same random state. *)
Theorem C150_generate : forall F (N : Num F) nsqrt St seed_with (os : St) sn nn cs ev size seed tri st s m, NameOf MatrixKind s m ->
  generate_object nsqrt St seed_with os sn nn cs ev size (PStr s) seed tri st = generate_object nsqrt St seed_with os sn nn cs ev size (PMember m) seed tri st.
Proof.
  intros F N nsqrt St sw os sn nn cs ev size seed tri st s m H. apply name_validate in H. unfold generate_object, generate. now rewrite H.
Qed.
Print Assumptions C150_generate.
(** C150. [Eigenvalues.unfold] and [detrend]: likewise. *)
Theorem C150_unfold : forall F (N : Num F) emd nexp polyfit uspline fit_exp fit_gompertz g p o degree ss det s m, NameOf SmoothMethod s m ->
  let unf a := unfold_object (F := F) emd nexp polyfit uspline fit_exp fit_gompertz g p o (Some a) degree ss det in unf (SName s) = unf (SMember m).
Proof.
  intros F N emd nexp polyfit uspline fe fg g p o degree ss det s m H unf. subst unf. unfold unfold_object, eig_unfold. cbn [smoother_enum_arg].
  rewrite (name_validate _ _ _ H). reflexivity.
Qed.
Print Assumptions C150_unfold.
Theorem C150_detrend : forall F (N : Num F) stats emd polyfit2 (o : eobj F) s m, NameOf DetrendMethod s m ->
  detrend_object stats emd polyfit2 o (PStr s) = detrend_object stats emd polyfit2 o (PMember m).
Proof. intros F N stats emd pf o s m H. unfold detrend_object, detrend. now rewrite (name_validate _ _ _ H). Qed.
Print Assumptions C150_detrend.

(** C150 is false of [Trimmed.unfold]: no string at all is accepted, the three its documentation lists included. *)
Theorem C150_trimmed_refuted : forall F (N : Num F) emd nexp polyfit uspline fit_exp fit_gompertz (eigs : list F) s degree ss det,
  exists e, trimmed_unfold emd nexp polyfit uspline fit_exp fit_gompertz eigs (SName s) degree ss det = Raise e.
Proof.
  intros F N emd nexp polyfit uspline fe fg eigs s degree ss det. unfold trimmed_unfold, fit. destruct (validate_args (SName s) degree ss); cbn; eauto.
Qed.
Print Assumptions C150_trimmed_refuted.

(** C150. Only three kinds, in two spellings, yield an object, and [unfold] without a smoother treats it accordingly: the semicircle
    law for "goe", the Poisson law for "poisson", the polynomial for "gue"; and this is what it prints. *)
Theorem C150_generated : forall F (N : Num F) nsqrt St seed_with (os : St) sn nn cs ev size kind seed tri st o
    emd nexp polyfit uspline fit_exp fit_gompertz g p degree ss det,
  fst (generate_object nsqrt St seed_with os sn nn cs ev size kind seed tri st) = Ok o ->
  let unf sm := unfold_object (F := F) emd nexp polyfit uspline fit_exp fit_gompertz g p o sm degree ss det in
  let says := unfold_prints (o_kind o) None in
  (In kind [PStr "goe"; PMember "GOE"] /\ unf None = unf (Some (SName "goe")) /\ says = Some SaysSemicircle) \/
  (In kind [PStr "poisson"; PMember "GDE"] /\ unf None = unf (Some (SName "poisson")) /\ says = Some SaysExponential) \/
  (In kind [PStr "gue"; PMember "GUE"] /\ unf None = unf (Some (SName "poly")) /\ exists d, says = Some (SaysPolynomial d)).
Proof.
  intros F N nsqrt St sw os sn nn cs ev size kind seed tri st o emd nexp polyfit uspline fe fg g p degree ss det H unf says.
  assert (exists k v, validate MatrixKind kind = Ok k /\ o = mkobj v (Some k) /\ fst (generate nsqrt St sw os sn nn cs ev size kind seed tri st) = Ok v) as (k & v & Hk & -> & Hg).
  { unfold generate_object in H. destruct (generate _ _ _ _ _ _ _ _ _ _ _ _ _) as [r st']. cbn [fst] in *. destruct (validate MatrixKind kind) as [k|]; [|discriminate].
    cbn [bind] in H. destruct r as [v|]; [|discriminate]. cbn [bind] in H. exists k, v. splits; congruence. }
  clear H. subst unf says. unfold generate in Hg. rewrite Hk in Hg.
  assert (In kind [PStr "goe"; PMember "GOE"] /\ k = PMember "GOE" \/ In kind [PStr "poisson"; PMember "GDE"] /\ k = PMember "GDE" \/
          In kind [PStr "gue"; PMember "GUE"] /\ k = PMember "GUE") as [[Hi ->]|[[Hi ->]|[Hi ->]]].
  { destruct k as [s|m|]; [now destruct kind as [x| |]; cbn in Hk; try discriminate; destruct (canonical MatrixKind x)| |discriminate].
    cbn [member value_of MatrixKind canonical String.eqb Ascii.eqb Bool.eqb] in Hg.
    assert (m = "GOE" \/ m = "GDE" \/ m = "GUE")%string as Hm.
    { destruct (String.eqb m "GDE") eqn:E1; [apply String.eqb_eq in E1; tauto|]. destruct (String.eqb m "Uniform"); [discriminate|].
      destruct (String.eqb m "GUE") eqn:E2; [apply String.eqb_eq in E2; tauto|]. destruct (String.eqb m "GOE") eqn:E3; [apply String.eqb_eq in E3; tauto|]. discriminate. }
    clear Hg. destruct kind as [x|x|]; cbn [validate] in Hk; [|injection Hk as ->; cbn [In]; intuition congruence|discriminate].
    cbn [canonical MatrixKind] in Hk. cbn [In].
    repeat match type of Hk with context [String.eqb ?a x] => let E := fresh in destruct (String.eqb a x) eqn:E;
      [apply String.eqb_eq in E; subst x; assert (Em : m = _) by (symmetry; injection Hk as Hk; exact Hk); subst m; intuition congruence|] end. discriminate. }
  - left. splits; [exact Hi|reflexivity|reflexivity].
  - right. left. splits; [exact Hi|reflexivity|reflexivity].
  - right. right. splits; [exact Hi|reflexivity|eexists; reflexivity].
Qed.
Print Assumptions C150_generated.

(** C150 is false of the constructor, which does not look at [kind]: with the name of a kind in place of the kind, [unfold] without a
    smoother fits a polynomial and says so.  For the levels -1, 0, 1 and the kind "goe" the two differ. *)
Theorem C150_constructed_refuted :
  (forall F (N : Num F) emd nexp polyfit uspline fit_exp fit_gompertz g p vals s degree ss det,
     let o := eigenvalues_new vals (Some (PStr s)) in
     let unf sm := unfold_object (F := F) emd nexp polyfit uspline fit_exp fit_gompertz g p o sm degree ss det in
     unf None = unf (Some (SName "poly")) /\ exists d, unfold_prints (o_kind o) None = Some (SaysPolynomial d)) /\
  (exists (vals : list Q) emd nexp polyfit uspline fit_exp fit_gompertz g p,
     let unf kind := unfold_object emd nexp polyfit uspline fit_exp fit_gompertz g p (eigenvalues_new vals (Some kind)) None (DInt 7) (AFloat 1%Q) false in
     NameOf MatrixKind "goe" "GOE" /\ (let! u := unf (PStr "goe") in Ok (u_values u)) = Ok [1; 1; 1]%Q /\ (let! u := unf (PMember "GOE") in Ok (u_values u)) = Ok [0; 3 # 2; 3]%Q).
Proof.
  split; [intros; split; [reflexivity|eexists; reflexivity]|].
  exists [-1; 0; 1]%Q, (fun _ => Raise ValueError), (fun x => x), (fun _ _ _ => Ok [1]%Q), (fun _ _ _ _ => Raise ValueError), (fun _ _ _ => Raise ValueError),
    (fun _ _ _ => Raise ValueError), (fun _ x => Qred ((3 # 2) * (x + 1))%Q), (fun _ x => x). cbv zeta. splits; [constructor|vm_compute; reflexivity|vm_compute; reflexivity].
Qed.
Print Assumptions C150_constructed_refuted.

(** C150. Detrending forgets the kind: whatever it was, the detrended spectrum is unfolded by the polynomial. *)
Theorem C150_detrended : forall F (N : Num F) stats emd polyfit2 (o o' : eobj F) method emd' nexp polyfit uspline fit_exp fit_gompertz g p degree ss det,
  detrend_object stats emd polyfit2 o method = Ok o' ->
  unfold_object emd' nexp polyfit uspline fit_exp fit_gompertz g p o' None degree ss det =
  unfold_object emd' nexp polyfit uspline fit_exp fit_gompertz g p o' (Some (SName "poly")) degree ss det.
Proof.
  intros F N stats emd pf o o' method emd' nexp polyfit uspline fe fg g p degree ss det H. unfold detrend_object in H.
  destruct (detrend stats emd pf (o_vals o) method) as [d|]; [|discriminate]. cbn [bind] in H. injection H as <-. reflexivity.
Qed.
Print Assumptions C150_detrended.

(** C150. A smoother silences the message.  The message about the polynomial names degree 7 whatever degree is fitted: with degree 3, the
    fitting routine is asked for degree 3. *)
Theorem C150_message_refuted :
  (forall kind sm, unfold_prints kind (Some sm) = None) /\
  (forall F (N : Num F) emd nexp polyfit uspline fit_exp fit_gompertz g p (vals : list F) d ss det r, 3 <= d ->
     unfold_object emd nexp polyfit uspline fit_exp fit_gompertz g p (eigenvalues_new vals None) None (DInt d) ss det = Ok r ->
     unfold_prints None None = Some (SaysPolynomial 7) /\ exists steps coef, polyfit (np_sort (np_sort vals)) steps d = Ok coef).
Proof.
  split; [reflexivity|]. intros F N emd nexp polyfit uspline fe fg g p vals d ss det r Hd H. split; [reflexivity|].
  unfold unfold_object, eig_unfold in H. cbn [o_kind o_vals eigenvalues_new smoother_enum_arg validate bind is_member String.eqb Ascii.eqb Bool.eqb] in H.
  unfold fit in H. destruct (validate_args _ _ _); [|discriminate]. cbn [bind is_member String.eqb Ascii.eqb Bool.eqb] in H.
  destruct (polyfit (np_sort (np_sort vals)) (fit_steps (np_sort (np_sort vals))) d) as [c|] eqn:E; [|discriminate]. eauto.
Qed.
Print Assumptions C150_message_refuted.

(** A generator that answers every question with small integers; the object generated as "goe" and as GOE; its default unfolding; the
    same values detrended; a trimmed spectrum that refuses "poly". *)
Example C150_ex :
  let gen kind := generate_object (fun x : Q => x) Z (fun z => Ok z) 0 (fun k s => (repeat (inject_Z s) k, s + 1)) (fun k s => (repeat (inject_Z s) k, s + 1))
    (fun l s => (map inject_Z l, s + 1)) (fun _ _ _ => Ok [2; -1; 1]%Q) 3 kind (Some 5) true 0 in
  let unf o sm d := let! u := unfold_object (fun _ => Raise ValueError) (fun x : Q => x) (fun _ _ d => Ok [inject_Z d]%Q) (fun _ _ _ _ => Raise ValueError)
    (fun _ _ _ => Raise ValueError) (fun _ _ _ => Raise ValueError) (fun n x => Qred (x + inject_Z (Z.of_nat n))%Q) (fun _ x => x) o sm (DInt d) (AFloat 1%Q) false in Ok (u_values u) in
  let o := mkobj [-1; 1; 2]%Q (Some (PMember "GOE")) in
  gen (PStr "goe") = (Ok o, 6) /\ gen (PMember "GOE") = (Ok o, 6) /\ unf o None 3 = Ok [2; 4; 5]%Q /\ unf o (Some (SName "poly")) 3 = Ok [3; 3; 3]%Q /\
  unfold_prints None None = Some (SaysPolynomial 7) /\
  (exists o', detrend_object (fun _ _ => (0, 0, 0)%Q) (fun l => Ok [map (fun _ => 1%Q) l]) (fun _ _ => Raise ValueError) o (PStr "emd") = Ok o' /\
     o' = mkobj [-2; 0; 1]%Q None /\ unf o' None 3 = Ok [3; 3; 3]%Q) /\
  trimmed_unfold (fun _ => Raise ValueError) (fun x : Q => x) (fun _ _ d => Ok [inject_Z d]%Q) (fun _ _ _ _ => Raise ValueError)
    (fun _ _ _ => Raise ValueError) (fun _ _ _ => Raise ValueError) [1; 2]%Q (SName "poly") (DInt 3) ANoneS false = Raise RuntimeError /\
  NameOf SmoothMethod "poly" "Polynomial" /\ NameOf DetrendMethod "linear" "Linear" /\ NameOf MatrixKind "poisson" "GDE".
Proof.
  cbv zeta. splits; try (vm_compute; reflexivity).
  - eexists. splits; [vm_compute; reflexivity|reflexivity|vm_compute; reflexivity].
  - constructor.
  - constructor; [discriminate|constructor].
  - do 2 (constructor; [discriminate|]). constructor.
Qed.
