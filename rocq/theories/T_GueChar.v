(** Property C141, the third generator: the average characteristic polynomial of the generated GUE matrices. *)
From Coq Require Import List ZArith Bool Arith Lia Reals Lra.
From Coquelicot Require Import Coquelicot.
From Verif Require Import Base M_Generate S_Generate S_Normal S_Rotate S_CharPoly S_CCharPoly P_Generate P_Surmise P_Rotate T_Rotate P_CharPoly P_CCharPoly T_CharPoly.
Import ListNotations.
Local Open Scope R_scope.

(** C141. Over the 2 n^2 normal numbers behind a GUE matrix, and for every eigenvalue routine, the product of x - lambda over the
    eigenvalues averages to the polynomial of the full GOE matrix of the same order: on average the two ensembles, generated on
    this scale, cannot be told apart by their characteristic polynomials. *)
Theorem C141_gue : forall n (eig : (nat -> nat -> R) -> (nat -> nat -> R) -> list R),
  (forall re im, Symmetric n re -> Antisymmetric n im -> CSpectrum n re im (eig re im)) ->
  forall x, NormalAverage (2 * (n * n)) (fun draws => FromRoots (eig (fun i j => fst (gue n draws i j)) (fun i j => snd (gue n draws i j))) x) (Hermite 1 n x).
Proof.
  intros n eig He x. pose proof (proj1 (gue_avg n x n) (fun i => i) (conj (fun i H => H) (fun i j _ _ E => E))) as [H _]. revert H. apply navg_ext. intros l _. cbv beta.
  assert (Symmetric n (fun i j => fst (gue n l i j))) as Hs by (intros i j Hi Hj; cbv beta; rewrite !gue_draws by assumption; unfold Cplus, Cmult, RtoC, Cconj; cbn [fst snd]; ring).
  assert (Antisymmetric n (fun i j => snd (gue n l i j))) as Ha by (intros i j Hi Hj; cbv beta; rewrite !gue_draws by assumption; unfold Cplus, Cmult, RtoC, Cconj; cbn [fst snd]; ring).
  pose proof (ccharpoly_spectrum n _ _ _ x (He _ _ Hs Ha)) as E.
  assert (CCharPoly n (fun i j => gue n l i j) x = CCharPoly n (fun i j => (fst (gue n l i j), snd (gue n l i j))) x) as ->; [|now rewrite E].
  unfold CCharPoly. apply P_CDet.CDet_ext. intros i j _ _. f_equal.
Qed.
Print Assumptions C141_gue.

(** The hypothesis is met for order two: the phase of the entry beside the diagonal is turned away, which leaves a real symmetric
    matrix with the same eigenvalues. *)
Definition ex_ceig (re im : nat -> nat -> R) : list R :=
  ex_eig (fun i j => if Nat.eqb i j then re i i else sqrt (re 0%nat 1%nat * re 0%nat 1%nat + im 0%nat 1%nat * im 0%nat 1%nat)).
Lemma ex_ceig_ok re im : Symmetric 2 re -> Antisymmetric 2 im -> CSpectrum 2 re im (ex_ceig re im).
Proof.
  intros Hr Hi. unfold ex_ceig. set (b := re 0%nat 1%nat). set (c := im 0%nat 1%nat). set (r := sqrt _).
  assert (r * r = b * b + c * c) as Er by (apply sqrt_sqrt; pose proof (Rle_0_sqr b); pose proof (Rle_0_sqr c); unfold Rsqr in *; lra).
  destruct (ex_eig_ok (fun i j => if Nat.eqb i j then re i i else r)) as (Hl & q & Hq & E); [intros [|[|i]] [|[|j]] ? ?; try lia; reflexivity|].
  split; [exact Hl|].
  assert (exists u v, u * u + v * v = 1 /\ b = r * u /\ c = r * v) as (u & v & E1 & E2 & E3).
  { destruct (Req_dec r 0) as [Hz|Hz].
    - exists 1, 0. rewrite Hz in Er |- *. pose proof (Rle_0_sqr b). pose proof (Rle_0_sqr c). assert (b = 0) by (apply Rsqr_0_uniq; unfold Rsqr in *; lra). assert (c = 0) by (apply Rsqr_0_uniq; unfold Rsqr in *; lra). repeat split; lra.
    - exists (b / r), (c / r). split; [|split; field; exact Hz]. transitivity ((b * b + c * c) / (r * r)); [field; exact Hz|]. rewrite <- Er. field. exact Hz. }
  exists (fun i k => match i with O => RtoC (q 0%nat k) | _ => Cmult (u, - v) (RtoC (q 1%nat k)) end).
  pose proof (E 0%nat 0%nat ltac:(lia) ltac:(lia)) as E00. pose proof (E 0%nat 1%nat ltac:(lia) ltac:(lia)) as E01. pose proof (E 1%nat 1%nat ltac:(lia) ltac:(lia)) as E11.
  set (lam := ex_eig _) in *. unfold turn, diagonal in E00, E01, E11. cbn [SumTo Nat.eqb] in E00, E01, E11.
  split.
  - intros k l Hk Hl'. pose proof (Hq k l Hk Hl') as H. cbn in H. unfold CSumTo, Cplus, Cmult, Cconj, RtoC. cbn [fst snd]. apply f_equal2; [|ring].
    rewrite <- H. transitivity (0 + q 0%nat k * q 0%nat l + (u * u + v * v) * (q 1%nat k * q 1%nat l)); [ring|rewrite E1; ring].
  - assert (im 0%nat 0%nat = 0 /\ im 1%nat 1%nat = 0) as [I0 I1] by (pose proof (Hi 0%nat 0%nat ltac:(lia) ltac:(lia)); pose proof (Hi 1%nat 1%nat ltac:(lia) ltac:(lia)); split; lra).
    assert (re 1%nat 0%nat = b) as R10 by (apply Hr; lia). assert (im 1%nat 0%nat = - c) as I10 by (rewrite (Hi 1%nat 0%nat) by lia; reflexivity).
    intros [|[|i]] [|[|j]] Hi' Hj'; try lia; unfold cturn, CSumTo, diagonal, Cplus, Cmult, Cconj, RtoC; cbn [fst snd Nat.eqb nth].
    + rewrite I0. apply f_equal2; [rewrite E00; ring|ring].
    + fold b c. rewrite E2, E3. apply f_equal2; rewrite E01; ring.
    + rewrite R10, I10, E2, E3. apply f_equal2; rewrite E01; ring.
    + rewrite I1. apply f_equal2; [|ring]. rewrite E11. match goal with |- ?L = ?R => transitivity ((u * u + v * v) * L); [rewrite E1; ring|ring] end.
Qed.
(** On average (x - l1)(x - l2) is x^2 - 1, and l1^2 + l2^2 is four. *)
Example C141_gue_ex :
  NormalAverage 8 (fun draws => FromRoots (ex_ceig (fun i j => fst (gue 2 draws i j)) (fun i j => snd (gue 2 draws i j))) 3) 8 /\
  NormalAverage 8 (fun draws => squares (ex_ceig (fun i j => fst (gue 2 draws i j)) (fun i j => snd (gue 2 draws i j)))) 4.
Proof.
  split.
  - apply (navg_value _ _ (Hermite 1 2 3)); [unfold Hermite; cbn; ring|]. exact (C141_gue 2 ex_ceig ex_ceig_ok 3).
  - apply (navg_value _ _ (INR 2 * INR 2)); [cbn; ring|]. exact (C139_gue 2 ex_ceig ex_ceig_ok).
Qed.
