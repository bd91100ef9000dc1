(** Model of empyricalRMT/ensemble.py over exact reals. *)
From Coq Require Import List ZArith Reals.
From Verif Require Import Base M_Quad.
Import ListNotations.
Local Open Scope R_scope.

(** The four ensemble classes; ensemble.py:595 makes GDE a second name of Poisson. *)
Inductive ensemble := Poisson | GOE | GUE | GSE.

(** [s ** b] of NumPy for s >= 0 (negative bases are outside the model). *)
Definition npow (s b : R) : R := if Rlt_dec 0 s then Rpower s b else if Req_EM_T b 0 then 1 else 0.

Section Ensembles.
(** scipy.special.gamma. *)
Variable gamma : R -> R.
(** np.euler_gamma; no theorem depends on its value. *)
Variable euler_gamma : R.

(** brody.py:16-17 and ensemble.py:148-149: alpha. *)
Definition brody_alpha (beta : R) : R := npow (gamma ((beta + 2) / (beta + 1))) (beta + 1).
(** brody.py:10-18 and ensemble.py:142-150, one spacing. *)
Definition brody_dist (beta s : R) : R :=
  let b1 := beta + 1 in let alpha := brody_alpha beta in
  b1 * alpha * npow s beta * exp (- alpha * npow s b1).
(** brody.py:21-25, one spacing. *)
Definition brody_cdf (beta s : R) : R :=
  let b1 := beta + 1 in let alpha := brody_alpha beta in 1 - exp (- alpha * npow s b1).

(** ensemble.py:83, 242-243, 395-396, 505-508: the density formulas, one spacing. *)
Definition nnsd_at (e : ensemble) (s : R) : R :=
  match e with
  | Poisson => exp (- s)
  | GOE => (PI * s) / 2 * exp (- (PI / 4) * s * s)
  | GUE => 32 / PI ^ 2 * (s * s) * exp (- (4 * s * s) / PI)
  | GSE => 262144 / (729 * PI ^ 3) * s ^ 4 * exp (- (64 / (9 * PI) * (s * s)))
  end.
(** ensemble.py:78-82, 237-241, 390-394, 499-504: the spacings used; GUE and GSE ignore [n_points], GSE also the upper end. *)
Definition nnsd_grid (e : ensemble) (lo hi : R) (n_points : nat) (spacings : option (list R)) : list R :=
  match spacings with
  | Some s => s
  | None =>
      match e with
      | Poisson | GOE => linspace lo hi n_points
      | GUE => linspace lo hi (Z.to_nat 10000)
      | GSE => linspace lo lo (Z.to_nat 10000)
      end
  end.
(** ensemble.py:57-83, 216-243, 369-396, 481-509 [nnsd]. *)
Definition nnsd (e : ensemble) (lo hi : R) (n_points : nat) (spacings : option (list R)) : list R :=
  map (nnsd_at e) (nnsd_grid e lo hi n_points spacings).

(** ensemble.py:111-112, 271-273, one spacing; np.clip(s, 0, None) is the maximum with zero. *)
Definition nnsd_cdf_at (e : ensemble) (s : R) : R :=
  let s := Rmax s 0 in
  match e with
  | Poisson => 1 - exp (- s)
  | _ => 1 - exp (- PI / 4 * s * s)
  end.
(** ensemble.py:85-112, 245-273 [nnsd_cdf]; GUE and GSE have no such method. *)
Definition nnsd_cdf (e : ensemble) (lo hi : R) (n_points : nat) (spacings : option (list R)) : result (list R) :=
  match e with
  | Poisson | GOE => Ok (map (nnsd_cdf_at e) (nnsd_grid e lo hi n_points spacings))
  | _ => Raise AttributeError
  end.

(** ensemble.py:312, one spacing. *)
Definition goe_nnnsd_at (s : R) : R := 2 ^ 18 / (3 ^ 6 * PI ^ 3) * s ^ 4 * exp (- (64 / (9 * PI) * (s * s))).
(** ensemble.py:114-161, 275-313, 398-425, 511-539 [nnnsd]; only the default GOE grid is halved (308). *)
Definition nnnsd (e : ensemble) (lo hi : R) (n_points : nat) (spacings : option (list R)) : result (list R) :=
  match e with
  | Poisson => Ok (map (brody_dist (6 / 10)) (match spacings with Some s => s | None => linspace lo hi n_points end))
  | GOE => Ok (map goe_nnnsd_at (match spacings with Some s => s | None => map (fun x => x / 2) (linspace lo hi n_points) end))
  | _ => Raise NotImplementedErr
  end.

(** ensemble.py:186, 339, 451, 566: expected spectral rigidity at one L > 0. *)
Definition rigidity_at (e : ensemble) (s : R) : R :=
  match e with
  | Poisson => s / 15
  | GOE => 1 / PI ^ 2 * (ln (2 * PI * s) + euler_gamma - 5 / 4 - PI ^ 2 / 8)
  | GUE => 1 / (2 * PI ^ 2) * (ln (2 * PI * s) + euler_gamma - 5 / 4)
  | GSE => 1 / (4 * PI ^ 2) * (ln (4 * PI * s) + euler_gamma - 5 / 4 + PI ^ 2 / 8)
  end.
(** ensemble.py:212, 365, 477, 592: expected level number variance at one L > 0. *)
Definition levelvar_at (e : ensemble) (s : R) : R :=
  match e with
  | Poisson => s
  | GOE => 2 / PI ^ 2 * (ln (2 * PI * s) + euler_gamma + 1 - PI ^ 2 / 8)
  | GUE => 1 / PI ^ 2 * (ln (2 * PI * s) + euler_gamma + 1)
  | GSE => 1 / (2 * PI ^ 2) * (ln (4 * PI * s) + euler_gamma + 1 + PI ^ 2 / 8)
  end.
(** ensemble.py:163-186, 315-339, 427-451, 541-566 [spectral_rigidity] and 188-212, 341-365, 453-477, 568-592 [level_variance]. *)
Definition L_grid (min_L max_L : R) (size : nat) (L : option (list R)) : list R :=
  match L with Some l => l | None => linspace min_L max_L size end.
Definition spectral_rigidity (e : ensemble) (min_L max_L : R) (size : nat) (L : option (list R)) : list R :=
  map (rigidity_at e) (L_grid min_L max_L size L).
Definition level_variance (e : ensemble) (min_L max_L : R) (size : nat) (L : option (list R)) : list R :=
  map (levelvar_at e) (L_grid min_L max_L size L).
End Ensembles.
