(** Model of the [kind] attribute of Eigenvalues objects: who sets it, who forgets it, and what [unfold] without a smoother does
    and prints because of it. *)
From Coq Require Import String List ZArith Bool.
From Verif Require Import Base M_Enum M_Trim M_Generate M_Signal M_Smooth.
Import ListNotations.
Local Open Scope Z_scope.

Section Kind.
Context {F : Type} {N : Num F}.
(** The stored eigenvalues and the [kind] attribute. *)
Record eobj := mkobj { o_vals : list F; o_kind : option enum_arg }.
(** eigenvalues.py:32-58 [Eigenvalues.__init__] for one-dimensional values: the values are sorted, [kind] is stored as given. *)
Definition eigenvalues_new (vals : list F) (kind : option enum_arg) : eobj := mkobj (np_sort vals) kind.

(** eigenvalues.py:105-132: the object [generate] returns carries the validated kind (lines 109 and 132). *)
Section Generate.
Variable nsqrt : F -> F.
Variable St : Type.
Variable seed_with : Z -> result St.
Variable os_state : St.
Variable standard_normal normal_sqrt2 : nat -> St -> list F * St.
Variable chisquare : list Z -> St -> list F * St.
Variable eigvalsh : nat -> (nat -> nat -> F) -> (nat -> nat -> F) -> result (list F).
Definition generate_object (matsize : nat) (kind : enum_arg) (seed : option Z) (use_tridiagonal : bool) (st : St) : result eobj * St :=
  let '(r, st') := generate nsqrt St seed_with os_state standard_normal normal_sqrt2 chisquare eigvalsh matsize kind seed use_tridiagonal st in
  (let! k := validate MatrixKind kind in let! v := r in Ok (mkobj v (Some k)), st').
End Generate.

(** eigenvalues.py:308-313 [Eigenvalues.detrend] of an object that was not detrended before: the new object gets no kind. *)
Section Detrend.
Variable stats : list F -> list F -> F * F * F.
Variable emd : list F -> result (list (list F)).
Variable polyfit2 : list F -> list F -> result (F -> F).
Definition detrend_object (o : eobj) (method : enum_arg) : result eobj :=
  let! d := detrend stats emd polyfit2 (o_vals o) method in Ok (eigenvalues_new d None).
End Detrend.

(** eigenvalues.py:766-787: what [unfold] prints; _constants.py:8 [DEFAULT_POLY_DEGREE]. *)
Inductive unfold_message := SaysSemicircle | SaysExponential | SaysPolynomial (degree : Z).
Definition DEFAULT_POLY_DEGREE : Z := 7.
Definition unfold_prints (kind : option enum_arg) (smoother : option smoother_arg) : option unfold_message :=
  match smoother with
  | Some _ => None
  | None =>
      let is name := match kind, member MatrixKind name with Some (PMember m), Some m' => String.eqb m m' | _, _ => false end in
      if is "GOE"%string then Some SaysSemicircle
      else if is "GDE"%string || is "Poisson"%string then Some SaysExponential
      else Some (SaysPolynomial DEFAULT_POLY_DEGREE)
  end.

(** eigenvalues.py:720-808 [Eigenvalues.unfold] on the object. *)
Section Unfold.
Variable emd : list F -> result (list (list F)).
Variable nexp : F -> F.
Variable polyfit : list F -> list F -> Z -> result (list F).
Variable uspline : list F -> list F -> Z -> F -> result (F -> F).
Variable fit_exp : list F -> list F -> F * F -> result (F * F).
Variable fit_gompertz : list F -> list F -> F * F * F -> result (F * F * F).
Variable smooth_g smooth_p : nat -> F -> F.
Definition unfold_object (o : eobj) (smoother : option smoother_arg) (degree : degree_arg) (ss : spline_arg F) (detrend : bool) : result unfolded :=
  eig_unfold emd nexp polyfit uspline fit_exp fit_gompertz smooth_g smooth_p (o_vals o) (o_kind o) smoother degree ss detrend.
End Unfold.
End Kind.
Arguments eobj F : clear implicits.
