(** Specification vocabulary for characteristic polynomials of complex matrices; independent of the model. *)
From Coq Require Import List Arith Reals.
From Coquelicot Require Import Complex.
From Verif Require Import S_Rotate S_Normal.
Local Open Scope R_scope.

(** (-1)^j. *)
Fixpoint csign (j : nat) : C := match j with O => RtoC 1 | S k => Copp (csign k) end.
(** The matrix without its first row and without column [j]; the determinant by expansion along the first row; det(x I - m). *)
Definition cminor (j : nat) (m : nat -> nat -> C) : nat -> nat -> C := fun r c => m (S r) (if Nat.ltb c j then c else S c).
Fixpoint CDet (n : nat) (m : nat -> nat -> C) : C :=
  match n with O => RtoC 1 | S k => CSumTo (S k) (fun j => Cmult (Cmult (csign j) (m O j)) (CDet k (cminor j m))) end.
Definition CCharPoly (n : nat) (m : nat -> nat -> C) (x : R) : C := CDet n (fun i j => Cminus (RtoC (if Nat.eqb i j then x else 0)) (m i j)).

(** [v] is the average of a complex function of k independent standard normal numbers. *)
Definition CNormalAverage (k : nat) (f : list R -> C) (v : C) : Prop := NormalAverage k (fun l => fst (f l)) (fst v) /\ NormalAverage k (fun l => snd (f l)) (snd v).
