(** Specification vocabulary for characteristic polynomials; independent of the model. *)
From Coq Require Import List Arith Reals.
From Verif Require Import S_Generate.
Local Open Scope R_scope.

(** The matrix without its first row and without column [j]. *)
Definition minor (j : nat) (m : nat -> nat -> R) : nat -> nat -> R := fun r c => m (S r) (if Nat.ltb c j then c else S c).
(** The determinant, by expansion along the first row. *)
Fixpoint Det (n : nat) (m : nat -> nat -> R) : R :=
  match n with O => 1 | S k => SumTo (S k) (fun j => (-1) ^ j * m O j * Det k (minor j m)) end.
(** The characteristic polynomial det(x I - m). *)
Definition CharPoly (n : nat) (m : nat -> nat -> R) (x : R) : R := Det n (fun i j => (if Nat.eqb i j then x else 0) - m i j).

(** The monic polynomial with the roots [lam]. *)
Definition FromRoots (lam : list R) (x : R) : R := fold_right Rmult 1 (map (fun l => x - l) lam).

(** The monic polynomials orthogonal for the weight exp(-x^2/(2v)): p(n+1) = x p(n) - v n p(n-1).  With v = 1/2 they are the
    Hermite polynomials H_n divided by 2^n, with v = 1 the probabilists' ones. *)
Fixpoint HermitePair (v : R) (n : nat) (x : R) : R * R :=
  match n with
  | O => (1, 0)
  | S k => let '(p, q) := HermitePair v k x in (x * p - v * INR k * q, p)
  end.
Definition Hermite (v : R) (n : nat) (x : R) : R := fst (HermitePair v n x).
