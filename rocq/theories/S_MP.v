(** Specification vocabulary for the eigenvalues of the covariances of pure noise; independent of the model. *)
From Coq Require Import List Arith Reals.
From Verif Require Import S_Generate S_Rotate S_Moments.
Import ListNotations.
Local Open Scope R_scope.

(** The numbers determined by the loop equations of a sum of squares of [n] independent normal vectors with [d] degrees of freedom:
      <p_(k+1) P> = (d + k) <p_k P>  +  sum over r + s = k - 1 of <p_(r+1) p_s P>  +  2 sum over the factors p_m of P of m <p_(k+m) P/p_m>. *)
Fixpoint noise_average (fuel : nat) (n d : R) (ks : list nat) : R :=
  match fuel with
  | O => 0
  | S f =>
      match ks with
      | [] => 1
      | O :: rest => n * noise_average f n d rest
      | S k :: rest =>
          (d + INR k) * noise_average f n d (k :: rest) + SumTo k (fun r => noise_average f n d (S r :: (k - 1 - r)%nat :: rest))
          + 2 * total (map (fun p => INR (fst p) * noise_average f n d ((k + fst p)%nat :: snd p)) (picks rest))
      end
  end.
(** Enough fuel: every step makes this number smaller. *)
Definition burden (ks : list nat) : nat := 2 * fold_right Nat.add O ks + length ks.
