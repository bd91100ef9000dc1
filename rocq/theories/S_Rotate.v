(** Specification vocabulary for orthogonal and unitary changes of basis, spectra, and maps of independent normal numbers;
    independent of the model. *)
From Coq Require Import List Arith Reals.
From Coquelicot Require Import Complex.
From Verif Require Import S_Generate S_Normal.
Import ListNotations.
Local Open Scope R_scope.

(** f(0) + ... + f(n-1) for complex numbers; [SumTo] is the real one. *)
Fixpoint CSumTo (n : nat) (f : nat -> C) : C := match n with O => RtoC 0 | S m => Cplus (CSumTo m f) (f m) end.

(** The n columns are orthonormal. *)
Definition Orthogonal (n : nat) (q : nat -> nat -> R) : Prop :=
  forall k l, (k < n)%nat -> (l < n)%nat -> SumTo n (fun i => q i k * q i l) = if Nat.eqb k l then 1 else 0.
Definition Unitary (n : nat) (u : nat -> nat -> C) : Prop :=
  forall k l, (k < n)%nat -> (l < n)%nat -> CSumTo n (fun i => Cmult (u i k) (Cconj (u i l))) = RtoC (if Nat.eqb k l then 1 else 0).

(** The entries of q m q^T and of u m u^H. *)
Definition turn (n : nat) (q m : nat -> nat -> R) (i j : nat) : R :=
  SumTo n (fun k => q i k * SumTo n (fun l => m k l * q j l)).
Definition cturn (n : nat) (u m : nat -> nat -> C) (i j : nat) : C :=
  CSumTo n (fun k => Cmult (u i k) (CSumTo n (fun l => Cmult (m k l) (Cconj (u j l))))).

(** [lam] are the eigenvalues, with multiplicity, of the real symmetric matrix [m]: m = q diag(lam) q^T for an orthogonal q. *)
Definition diagonal (lam : list R) (i j : nat) : R := if Nat.eqb i j then nth i lam 0 else 0.
Definition Spectrum (n : nat) (m : nat -> nat -> R) (lam : list R) : Prop :=
  length lam = n /\ exists q, Orthogonal n q /\ forall i j, (i < n)%nat -> (j < n)%nat -> m i j = turn n q (diagonal lam) i j.
(** The same for the Hermitian matrix with real parts [re] and imaginary parts [im]. *)
Definition CSpectrum (n : nat) (re im : nat -> nat -> R) (lam : list R) : Prop :=
  length lam = n /\ exists u, Unitary n u /\
    forall i j, (i < n)%nat -> (j < n)%nat -> (re i j, im i j) = cturn n u (fun k l => RtoC (diagonal lam k l)) i j.

(** Sums over a list. *)
Definition total (l : list R) : R := fold_right Rplus 0 l.
Definition squares (l : list R) : R := total (map (fun x => x * x) l).
(** The joint density of independent standard normal numbers. *)
Definition joint_density (l : list R) : R := fold_right Rmult 1 (map normal_density l).

(** a x + b y for vectors of k numbers; the linear maps of such vectors that keep lengths. *)
Definition combination (k : nat) (a : R) (x : list R) (b : R) (y : list R) : list R :=
  map (fun i => a * nth i x 0 + b * nth i y 0) (seq 0 k).
Record Isometry (k : nat) (t : list R -> list R) : Prop := {
  iso_length : forall x, length x = k -> length (t x) = k;
  iso_linear : forall a x b y, length x = k -> length y = k -> t (combination k a x b y) = combination k a (t x) b (t y);
  iso_norm : forall x, length x = k -> squares (t x) = squares x
}.

(** Chi-square numbers with the given degrees of freedom, from standard normal numbers: sums of that many squares. *)
Fixpoint chi_squares (dofs : list nat) (z : list R) : list R :=
  match dofs with [] => [] | k :: t => squares (firstn k z) :: chi_squares t (skipn k z) end.
(** The entries of a square matrix, row by row. *)
Definition entries (n : nat) (m : nat -> nat -> R) : list R := map (fun p => m (Nat.div p n) (Nat.modulo p n)) (seq 0 (n * n)).
