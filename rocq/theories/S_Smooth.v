(** Specification vocabulary for smoothing and unfolding: what the arguments of [Smoother.fit] must be. *)
From Coq Require Import String List ZArith Bool QArith DecimalString.
From Verif Require Import Base M_Smooth.
Import ListNotations.
Local Open Scope Z_scope.

(** The six methods, their Python member names and their string values. *)
Inductive method := MPoly | MSpline | MExp | MGomp | MGoe | MPois.
Definition MemberName (m : method) : string :=
  match m with MPoly => "Polynomial" | MSpline => "Spline" | MExp => "Exponential" | MGomp => "Gompertz" | MGoe => "GOE"
  | MPois => "Poisson" end.
Definition StringName (m : method) : string :=
  match m with MPoly => "poly" | MSpline => "spline" | MExp => "exp" | MGomp => "gompertz" | MGoe => "goe"
  | MPois => "poisson" end.
(** The argument denotes method [m], as a member or as a string. *)
Definition Denotes (a : smoother_arg) (m : method) : Prop := a = SMember (MemberName m) \/ a = SName (StringName m).

(** Acceptable degrees: an int >= 3 for polynomials, an int <= 5 for splines, anything otherwise. *)
Definition GoodDegree (m : method) (d : degree_arg) : Prop :=
  match m with
  | MPoly => exists z, d = DInt z /\ 3 <= z
  | MSpline => exists z, d = DInt z /\ z <= 5
  | _ => True
  end.

(** Why [fit] refuses its arguments, and the exception class. *)
Inductive BadArgs {F : Type} : smoother_arg -> degree_arg -> spline_arg F -> exn -> Prop :=
| bad_name s d ss : (forall m, s <> StringName m) -> BadArgs (SName s) d ss ValueError
| bad_callable d ss : BadArgs SCallable d ss NotImplementedErr
| bad_object d ss : BadArgs SObject d ss ValueError
| bad_degree a m d ss : Denotes a m -> ~ GoodDegree m d -> BadArgs a d ss ValueError
| bad_smoothing_value a d e : Denotes a MSpline -> GoodDegree MSpline d -> BadArgs a d (AInconvertible e) e
| bad_smoothing_none d : GoodDegree MSpline d -> BadArgs (SMember "Spline") d ANoneS ValueError
| bad_smoothing_type d : GoodDegree MSpline d -> BadArgs (SMember "Spline") d AConvertible ValueError
| bad_string m d ss : GoodDegree m d -> (m = MSpline -> forall e, ss <> AInconvertible e) ->
    BadArgs (SName (StringName m)) d ss RuntimeError
| bad_analytic m d ss : m = MGoe \/ m = MPois -> BadArgs (SMember (MemberName m)) d ss RuntimeError.

(** A smoother argument that Python can build: a string, one of the six members, another object. *)
Definition ProperArg (a : smoother_arg) : Prop := forall s, a = SMember s -> exists m, s = MemberName m.

(** Two rationals further apart than one thousandth. *)
Definition FarApart (p q : Q) : Prop := (1 # 1000 < Qabs.Qabs (p - q))%Q.

(** The word a spline's degree is given in column names, as a table. *)
Inductive SplineWord : Z -> string -> Prop :=
| word_3 : SplineWord 3 "cubic"
| word_4 : SplineWord 4 "quartic"
| word_5 : SplineWord 5 "quintic"
| word_other d : d <> 3 -> d <> 4 -> d <> 5 -> SplineWord d ("deg" ++ NilZero.string_of_int (Z.to_int d)).
