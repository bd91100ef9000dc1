(** Specification vocabulary for sums of powers of eigenvalues and their averages; independent of the model. *)
From Coq Require Import List Arith Reals.
From Verif Require Import S_Generate S_Rotate.
Import ListNotations.
Local Open Scope R_scope.

(** The sum of the k-th powers of the eigenvalues; the product of such sums, one for every element of [ks]. *)
Definition power_sum (k : nat) (lam : list R) : R := total (map (fun x => x ^ k) lam).
Definition power_sums (ks : list nat) (lam : list R) : R := fold_right Rmult 1 (map (fun k => power_sum k lam) ks).

(** All the ways of taking one element out of a list. *)
Fixpoint picks (ks : list nat) : list (nat * list nat) :=
  match ks with [] => [] | k :: t => (k, t) :: map (fun p => (fst p, k :: snd p)) (picks t) end.
(** The numbers determined by the loop equations of the Gaussian ensembles (b = 1: orthogonal, b = 0: unitary) of order [n]:
      <p_(k+1) P> = sum over r + s = k - 1 of <p_r p_s P>  +  b k <p_(k-1) P>  +  (1 + b) sum over the factors p_m of P of m <p_(k+m-1) P/p_m>. *)
Fixpoint loop_average (fuel : nat) (b n : R) (ks : list nat) : R :=
  match fuel with
  | O => 0
  | S f =>
      match ks with
      | [] => 1
      | O :: rest => n * loop_average f b n rest
      | S k :: rest =>
          SumTo k (fun r => loop_average f b n (r :: (k - 1 - r)%nat :: rest)) + b * INR k * loop_average f b n ((k - 1)%nat :: rest)
          + (1 + b) * total (map (fun p => INR (fst p) * loop_average f b n ((k + fst p - 1)%nat :: snd p)) (picks rest))
      end
  end.
(** Enough fuel: every step makes this number smaller. *)
Definition weight (ks : list nat) : nat := fold_right Nat.add O ks + length ks.
Definition gaussian_average (b : R) (n : nat) (ks : list nat) : R := loop_average (S (weight ks)) b (INR n) ks.

(** Catalan numbers: 1, 1, 2, 5, 14, ...; the moments 1, 0, 1, 0, 2, 0, 5, ... of the semicircle law of radius two. *)
Definition catalan (m : nat) : R := INR (fact (2 * m)) / (INR (fact m) * INR (fact (S m))).
Definition semicircle_moment (k : nat) : R := if Nat.even k then catalan (Nat.div2 k) else 0.
