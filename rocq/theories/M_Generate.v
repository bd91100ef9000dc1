(** Model of empyricalRMT/construct.py (matrix generation) and [Eigenvalues.generate]. *)
From Coq Require Import List ZArith Bool String.
From Verif Require Import Base M_Enum.
Import ListNotations.
Local Open Scope Z_scope.

(** ** Matrices as functions of row and column *)
Section Matrices.
Context {F : Type} {N : Num F}.
Variable nsqrt : F -> F.
Definition n2 : F := nofZ 2.

(** [np.random.standard_normal([size, size])]: the draws in row-major order. *)
Definition square (size : nat) (draws : list F) (i j : nat) : F := nth (i * size + j) draws n0.

(** construct.py:162-166 [_generate_GOE_matrix], after seeding: [(M + M.T) / np.sqrt(2)]. *)
Definition goe_matrix (size : nat) (draws : list F) (i j : nat) : F :=
  ndiv (nadd (square size draws i j) (square size draws j i)) (nsqrt n2).

(** eigenvalues.py:117 (GUE): [A = N1 + 1j N2], [M = (A + A^H) / 2]; real and imaginary part. *)
Definition gue_re (size : nat) (re im : list F) (i j : nat) : F :=
  ndiv (nadd (square size re i j) (square size re j i)) n2.
Definition gue_im (size : nat) (re im : list F) (i j : nat) : F :=
  ndiv (nadd (square size im i j) (nopp (square size im j i))) n2.

(** construct.py:176 [chi_range = size - 1 - np.arange(size - 1)]. *)
Definition chi_range (size : nat) : list Z := map (fun k => Z.of_nat size - 1 - Z.of_nat k) (seq 0 (size - 1)).

(** [scipy.sparse.diags(diagonals, offsets).toarray()]: element number [p] of a diagonal with offset [k] sits at
    [(p, p+k)] when [k >= 0] and at [(p-k, p)] otherwise; 0 elsewhere.  The offsets are distinct. *)
Fixpoint diags (ds : list (list F)) (offs : list Z) (i j : nat) : F :=
  match ds, offs with
  | d :: ds', k :: offs' =>
      if Z.of_nat j - Z.of_nat i =? k then nth (Nat.min i j) d n0 else diags ds' offs' i j
  | _, _ => n0
  end.

(** construct.py:169-184 [_generate_GOE_tridiagonal], after seeding; [chisq] are the chi-square draws for
    [chi_range], [normals] the draws of [np.random.normal(0, sqrt 2, size)]. *)
Definition goe_tridiagonal (chisq normals : list F) : nat -> nat -> F :=
  let chi := map nsqrt chisq in
  diags [map (fun x => ndiv x (nsqrt n2)) normals; map (fun x => ndiv x (nsqrt n2)) chi; map (fun x => ndiv x (nsqrt n2)) chi]
        [0; -1; 1].
End Matrices.

(** ** Random state *)
Section Generate.
Context {F : Type} {N : Num F}.
Variable nsqrt : F -> F.
(** The global NumPy random state and the operations on it: seeding with an integer (may raise ValueError),
    the state obtained by seeding from the operating system, and the three kinds of draws. *)
Variable St : Type.
Variable seed_with : Z -> result St.
Variable os_state : St.
Variable standard_normal : nat -> St -> list F * St.
Variable normal_sqrt2 : nat -> St -> list F * St.
Variable chisquare : list Z -> St -> list F * St.
(** [np.linalg.eigvalsh] on a size x size matrix given by real and imaginary parts. *)
Variable eigvalsh : nat -> (nat -> nat -> F) -> (nat -> nat -> F) -> result (list F).

(** [np.random.seed(seed)]: reseeds from the operating system when [seed] is None. *)
Definition np_seed (seed : option Z) (st : St) : result St :=
  match seed with Some z => seed_with z | None => Ok os_state end.
(** [if seed is not None: np.random.seed(seed)] (construct.py:163-164, 174-175; eigenvalues.py:114-115). *)
Definition seed_if_given (seed : option Z) (st : St) : result St :=
  match seed with Some _ => np_seed seed st | None => Ok st end.

(** eigenvalues.py:66-132 [Eigenvalues.generate] up to the printing; the result and the random state left behind.
    [Eigenvalues(..)] sorts. *)
Definition generate (matsize : nat) (kind : enum_arg) (seed : option Z) (use_tridiagonal : bool) (st : St)
  : result (list F) * St :=
  match validate MatrixKind kind with
  | Raise e => (Raise e, st)
  | Ok k =>
      let is name := match k, member MatrixKind name with PMember m, Some m' => String.eqb m m' | _, _ => false end in
      if is "Poisson"%string then
        match np_seed seed st with
        | Raise e => (Raise e, st)
        | Ok st1 => let '(d, st2) := standard_normal matsize st1 in (Ok (np_sort (np_sort d)), st2)
        end
      else if is "Uniform"%string then (Raise NotImplementedErr, st)
      else if is "GUE"%string then
        match seed_if_given seed st with
        | Raise e => (Raise e, st)
        | Ok st1 =>
            let '(re, st2) := standard_normal (matsize * matsize) st1 in
            let '(im, st3) := standard_normal (matsize * matsize) st2 in
            (let! e := eigvalsh matsize (gue_re matsize re im) (gue_im matsize re im) in Ok (np_sort e), st3)
        end
      else if is "GOE"%string then
        match seed_if_given seed st with
        | Raise e => (Raise e, st)
        | Ok st1 =>
            if Z.ltb 500 (Z.of_nat matsize) && use_tridiagonal then
              let '(chi, st2) := chisquare (chi_range matsize) st1 in
              let '(d, st3) := normal_sqrt2 matsize st2 in
              (let! e := eigvalsh matsize (goe_tridiagonal nsqrt chi d) (fun _ _ => n0) in Ok (np_sort e), st3)
            else
              let '(d, st2) := standard_normal (matsize * matsize) st1 in
              (let! e := eigvalsh matsize (goe_matrix nsqrt matsize d) (fun _ _ => n0) in Ok (np_sort e), st2)
        end
      else (Raise ValueError, st)
  end.
End Generate.
