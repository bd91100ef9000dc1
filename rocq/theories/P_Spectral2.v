(** Every Hermitian matrix has a spectrum: the sequence of rotations. *)
From Coq Require Import List ZArith Bool Arith Lia Reals Lra.
From Coquelicot Require Import Coquelicot.
From Verif Require Import Base S_Generate S_Normal S_Rotate S_Moments P_Generate P_Rotate P_Wishart P_Fourth P_CDet P_Loop P_Semi P_Spectral.
Import ListNotations.
Local Open Scope C_scope.
Local Notation length := List.length.

Fixpoint argmax {A : Type} (f : A -> R) (l : list A) : option A :=
  match l with [] => None | a :: t => match argmax f t with None => Some a | Some b => if Rle_dec (f a) (f b) then Some b else Some a end end.
Lemma argmax_spec {A} (f : A -> R) l a : In a l -> exists b, argmax f l = Some b /\ In b l /\ (f a <= f b)%R.
Proof.
  induction l as [|x t IH]; [intros []|]. intros [<-|H]; cbn [argmax].
  - destruct (argmax f t) as [b|] eqn:E; [|exists x; repeat split; [now left|lra]]. destruct (Rle_dec (f x) (f b)) as [L|L]; [|exists x; repeat split; [now left|lra]].
    exists b. repeat split; [|exact L]. right. clear - E. revert b E. induction t as [|y t IH]; intros b E; [discriminate|]. cbn in E. destruct (argmax f t) as [c|]; [destruct (Rle_dec (f y) (f c))|]; injection E as <-; auto using in_eq. right. auto.
  - destruct (IH H) as (b & -> & Hb & L). destruct (Rle_dec (f x) (f b)) as [M|M]; [exists b|exists x]; repeat split; auto using in_eq; [now right|lra].
Qed.
Lemma argmax_in {A} (f : A -> R) l b : argmax f l = Some b -> In b l.
Proof. revert b. induction l as [|y t IH]; intros b E; [discriminate|]. cbn in E. destruct (argmax f t) as [c|]; [destruct (Rle_dec (f y) (f c))|]; injection E as <-; auto using in_eq. right. auto. Qed.

(** The angle. *)
Definition radius (a b g : R) : R := sqrt ((a - b) * (a - b) + 4 * (g * g)).
Definition cosine (a b g : R) : R := sqrt ((1 + (a - b) / radius a b g) / 2).
Definition sine (a b g : R) : R := sqrt ((1 - (a - b) / radius a b g) / 2).
Lemma angle a b g : (0 < g)%R -> let c := cosine a b g in let s := sine a b g in
  (c * c + s * s = 1 /\ (c * c * a + s * s * b + 2 * c * s * g) ^ 2 + (s * s * a + c * c * b - 2 * c * s * g) ^ 2 = a ^ 2 + b ^ 2 + 2 * g ^ 2)%R.
Proof.
  intro Hg. cbv zeta. pose proof (Rle_0_sqr (a - b)) as Q1. unfold Rsqr in Q1. pose proof (Rmult_lt_0_compat g g Hg Hg) as Q2. set (r := radius a b g). assert (r * r = (a - b) * (a - b) + 4 * (g * g))%R as Hr by (apply sqrt_sqrt; lra).
  assert (0 < r)%R as Hp by (apply sqrt_lt_R0; lra). set (x := ((a - b) / r)%R). assert (x * r = a - b)%R as Hx by (unfold x; field; lra).
  assert (x * x <= 1)%R as X2 by (apply (Rmult_le_reg_r (r * r)); [nra|]; replace (x * x * (r * r))%R with ((x * r) * (x * r))%R by ring; rewrite Hx, Hr; nra). assert (-1 <= x <= 1)%R as X1 by nra.
  assert (cosine a b g * cosine a b g = (1 + x) / 2)%R as C2 by (unfold cosine; fold r; fold x; apply sqrt_sqrt; lra).
  assert (sine a b g * sine a b g = (1 - x) / 2)%R as S2 by (unfold sine; fold r; fold x; apply sqrt_sqrt; lra).
  assert (cosine a b g * sine a b g = g / r)%R as CS.
  { unfold cosine, sine. fold r. fold x. rewrite <- sqrt_mult by lra. replace ((1 + x) / 2 * ((1 - x) / 2))%R with ((g / r) * (g / r))%R; [apply sqrt_square; apply Rlt_le, Rdiv_lt_0_compat; assumption|].
    apply (Rmult_eq_reg_r (r * r)); [|nra]. replace (g / r * (g / r) * (r * r))%R with (g * g)%R by (field; lra). replace ((1 + x) / 2 * ((1 - x) / 2) * (r * r))%R with ((r * r - (x * r) * (x * r)) / 4)%R by field. rewrite Hx, Hr. field. }
  split; [rewrite C2, S2; field|]. replace (2 * cosine a b g * sine a b g * g)%R with (2 * (cosine a b g * sine a b g) * g)%R by ring. rewrite C2, S2, CS.
  assert ((1 + x) / 2 * a + (1 - x) / 2 * b + 2 * (g / r) * g = (a + b) / 2 + r / 2)%R as ->.
  { apply (Rmult_eq_reg_r (2 * r)); [|lra]. replace (((1 + x) / 2 * a + (1 - x) / 2 * b + 2 * (g / r) * g) * (2 * r))%R with ((a + b) * r + (x * r) * (a - b) + 4 * (g * g))%R by (field; lra). rewrite Hx. replace (((a + b) / 2 + r / 2) * (2 * r))%R with ((a + b) * r + r * r)%R by field. rewrite Hr. ring. }
  assert ((1 - x) / 2 * a + (1 + x) / 2 * b - 2 * (g / r) * g = (a + b) / 2 - r / 2)%R as ->.
  { apply (Rmult_eq_reg_r (2 * r)); [|lra]. replace (((1 - x) / 2 * a + (1 + x) / 2 * b - 2 * (g / r) * g) * (2 * r))%R with ((a + b) * r - (x * r) * (a - b) - 4 * (g * g))%R by (field; lra). rewrite Hx. replace (((a + b) / 2 - r / 2) * (2 * r))%R with ((a + b) * r - r * r)%R by field. rewrite Hr. ring. }
  replace (((a + b) / 2 + r / 2) ^ 2 + ((a + b) / 2 - r / 2) ^ 2)%R with (((a + b) * (a + b) + r * r) / 2)%R by field. rewrite Hr. field.
Qed.
Lemma Cmod_sq z : (Cmod z * Cmod z = fst z * fst z + snd z * snd z)%R.
Proof. unfold Cmod. rewrite sqrt_sqrt; [ring|]. pose proof (pow2_ge_0 (fst z)). pose proof (pow2_ge_0 (snd z)). lra. Qed.
(** The phase that turns [z] to the positive axis. *)
Definition phase (z : C) : C := ((fst z / Cmod z)%R, (- snd z / Cmod z)%R).
Lemma phase_spec z : (0 < Cmod z)%R -> phase z * Cconj (phase z) = 1 /\ phase z * z = RtoC (Cmod z).
Proof.
  intro H. pose proof (Cmod_sq z) as E. unfold phase, Cconj, RtoC, Cmult. set (m := Cmod z) in *. clearbody m. destruct z as [a b]. cbn in *. split; f_equal.
  - replace (a / m * (a / m) - - b / m * - (- b / m))%R with ((a * a + b * b) / (m * m))%R by (field; lra). rewrite E. field. nra.
  - field. lra.
  - replace (a / m * a - - b / m * b)%R with ((a * a + b * b) / m)%R by (field; lra). rewrite <- E. field. lra.
  - field. lra.
Qed.

Lemma SumTo_up N f D : (forall k, (k < N)%nat -> f k <= D)%R -> (SumTo N f <= INR N * D)%R.
Proof. induction N as [|N IH]; intro G; [cbn; lra|]. cbn [SumTo]. rewrite S_INR. specialize (IH ltac:(intros; apply G; lia)). specialize (G N ltac:(lia)). lra. Qed.
Section Sequence.
Variable n : nat.
Variable h : nat -> nat -> C.
Hypothesis Hh : Hermitian n h.
Local Notation form := (form n h).
Definition pairs : list (nat * nat) := filter (fun pq => Nat.ltb (fst pq) (snd pq)) (list_prod (seq 0 n) (seq 0 n)).
Lemma pairs_spec p q : In (p, q) pairs <-> (p < q < n)%nat.
Proof. unfold pairs. rewrite filter_In, in_prod_iff, !in_seq. cbn [fst snd]. rewrite Nat.ltb_lt. lia. Qed.
Definition off (u : nat -> nat -> C) (pq : nat * nat) : R := Cmod (form (col u (fst pq)) (col u (snd pq))).
Definition step (u : nat -> nat -> C) : nat -> nat -> C :=
  match argmax (off u) pairs with
  | None => u
  | Some (p, q) => let z := form (col u p) (col u q) in if Rlt_dec 0 (Cmod z) then
      let a := fst (form (col u p) (col u p)) in let b := fst (form (col u q) (col u q)) in rotate p q (cosine a b (Cmod z)) (sine a b (Cmod z)) (phase z) u else u
  end.
Definition diag2 (u : nat -> nat -> C) : R := SumTo n (fun k => (fst (form (col u k) (col u k)) ^ 2)%R).
Lemma SumTo_two N p q (f g : nat -> R) : (p < N)%nat -> (q < N)%nat -> p <> q -> (forall k, k <> p -> k <> q -> f k = g k) -> (SumTo N f = SumTo N g + (f p - g p) + (f q - g q))%R.
Proof.
  intros Hp Hq Hpq H. pose proof (SumTo_delta N p (fun k => f k - g k)%R Hp) as E1. pose proof (SumTo_delta N q (fun k => f k - g k)%R Hq) as E2. cbv beta in E1, E2. rewrite <- E1, <- E2, <- !SumTo_add. clear E1 E2.
  apply SumTo_ext. intros k _. destruct (Nat.eq_dec k p) as [->|K1]; [|destruct (Nat.eq_dec k q) as [->|K2]].
  - rewrite Nat.eqb_refl. apply Nat.eqb_neq in Hpq. rewrite Hpq. ring.
  - rewrite Nat.eqb_refl. apply Nat.eqb_neq in K1. rewrite K1. ring.
  - rewrite H by assumption. apply Nat.eqb_neq in K1, K2. rewrite K1, K2. ring.
Qed.
Lemma step_diag u p q : (p < q < n)%nat -> (diag2 u + 2 * off u (p, q) ^ 2 <= diag2 (step u))%R.
Proof.
  intro H. apply pairs_spec in H. destruct (argmax_spec (off u) pairs (p, q) H) as ([p' q'] & E & Hin & L). unfold step. rewrite E. apply pairs_spec in Hin. clear H E.
  assert (0 <= off u (p, q))%R as O by apply Cmod_ge_0. set (z := form (col u p') (col u q')). change (off u (p', q')) with (Cmod z) in L. cbv zeta. destruct (Rlt_dec 0 (Cmod z)) as [G|G].
  - set (a := fst (form (col u p') (col u p'))). set (b := fst (form (col u q') (col u q'))). destruct (angle a b (Cmod z) G) as [CS AN]. destruct (phase_spec z G) as [P1 P2]. set (u' := rotate _ _ _ _ _ _).
    destruct (rotate_diagonal n p' q' (cosine a b (Cmod z)) (sine a b (Cmod z)) (phase z) u ltac:(lia) P1 h (Cmod z) Hh P2) as [D1 D2]. fold u' in D1, D2. fold a in D1, D2. fold b in D1, D2.
    unfold diag2. rewrite (SumTo_two n p' q' (fun k => (fst (form (col u' k) (col u' k)) ^ 2)%R) (fun k => (fst (form (col u k) (col u k)) ^ 2)%R)); [|lia|lia|lia|].
    + cbv beta. fold a. fold b. rewrite D1, D2. assert (off u (p, q) ^ 2 <= Cmod z ^ 2)%R by (apply pow_incr; split; assumption). lra.
    + intros k K1 K2. unfold u'. rewrite rotate_k', rotate_k by assumption. reflexivity.
  - assert (off u (p, q) = 0)%R as -> by lra. cbn [pow]. lra.
Qed.
Lemma step_keeps u : Columns n u -> Rows n u -> Columns n (step u) /\ Rows n (step u).
Proof.
  intros H1 H2. unfold step. destruct (argmax (off u) pairs) as [[p q]|] eqn:E; [|now split]. apply argmax_in, pairs_spec in E. cbv zeta. set (z := form (col u p) (col u q)).
  destruct (Rlt_dec 0 (Cmod z)) as [G|G]; [|now split]. set (a := fst (form (col u p) (col u p))). set (b := fst (form (col u q) (col u q))). destruct (angle a b (Cmod z) G) as [CS _]. destruct (phase_spec z G) as [P1 _].
  split; [apply rotate_columns|apply rotate_rows]; auto; lia.
Qed.
Lemma snd_sum N f : (forall i, (i < N)%nat -> snd (f i) = 0%R) -> snd (CSumTo N f) = 0%R.
Proof. induction N as [|N IH]; intro H; cbn; [reflexivity|]. rewrite IH, H by auto. ring. Qed.
Lemma step_real u : (forall i j, (i < n)%nat -> (j < n)%nat -> snd (h i j) = 0%R) -> (forall i k, snd (u i k) = 0%R) -> forall i k, snd (step u i k) = 0%R.
Proof.
  intros R1 R2. unfold step. destruct (argmax (off u) pairs) as [[p q]|] eqn:E; [|exact R2]. cbv zeta. set (z := form (col u p) (col u q)).
  assert (snd z = 0)%R as Z. { unfold z, P_Spectral.form. apply snd_sum. intros i Hi. cbn. unfold col. rewrite (R2 i p), snd_sum; [ring|]. intros j Hj. cbn. rewrite (R2 j q), R1 by assumption. ring. }
  destruct (Rlt_dec 0 (Cmod z)); [|exact R2]. intros i k. unfold rotate, phase. rewrite Z. destruct (Nat.eqb k p); [|destruct (Nat.eqb k q); [|apply R2]]; cbn; rewrite (R2 i p), (R2 i q); unfold Rdiv; ring.
Qed.
Fixpoint orbit (k : nat) : nat -> nat -> C := match k with O => ck | S k' => step (orbit k') end.
Lemma form_ck i y : (i < n)%nat -> CSumTo n (fun j => ck i j * y j) = y i.
Proof. intro Hi. now apply ck_pick. Qed.
Lemma orbit_keeps k : Columns n (orbit k) /\ Rows n (orbit k).
Proof.
  induction k as [|k [IH1 IH2]]; [|now apply step_keeps]. split.
  - intros a b Ha Hb. unfold P_Spectral.form, col. cbn [orbit]. rewrite (CSumTo_ext n _ (fun i => ck a i * ck i b)); [now rewrite (ck_pick n a (fun i => ck i b))|]. intros i Hi. rewrite Cconj_ck, (ck_sym i a). f_equal. now rewrite (ck_pick n i (fun j => ck j b)).
  - intros a b Ha Hb. cbn [orbit]. rewrite (CSumTo_ext n _ (fun k => ck a k * ck b k)) by (intros; now rewrite Cconj_ck). rewrite (ck_pick n a (fun k => ck b k)) by exact Ha. apply ck_sym.
Qed.
(** Entries of matrices with orthonormal rows are at most one. *)
Lemma rows_bound u i k : Rows n u -> (i < n)%nat -> (k < n)%nat -> (fst (u i k) * fst (u i k) + snd (u i k) * snd (u i k) <= 1)%R.
Proof.
  intros H Hi Hk. specialize (H i i Hi Hi). apply (f_equal fst) in H. rewrite CSumTo_fst in H. unfold ck in H. rewrite kron_refl in H. cbn [fst RtoC] in H.
  rewrite (SumTo_ext n _ (fun k => (fst (u i k) * fst (u i k) + snd (u i k) * snd (u i k))%R)) in H by (intros; cbn; ring). rewrite <- H.
  clear - Hk. induction n as [|N IH]; [lia|]. cbn [SumTo]. assert (forall N, 0 <= SumTo N (fun k => fst (u i k) * fst (u i k) + snd (u i k) * snd (u i k)))%R as P by (intro M; induction M as [|M IM]; cbn; [lra|nra]).
  destruct (Nat.eq_dec k N) as [->|]; [specialize (P N); lra|]. specialize (IH ltac:(lia)). pose proof (Rle_0_sqr (fst (u i N))) as Q1. pose proof (Rle_0_sqr (snd (u i N))) as Q2. unfold Rsqr in Q1, Q2. lra.
Qed.
Lemma rows_abs u i k : Rows n u -> (i < n)%nat -> (k < n)%nat -> (Rabs (fst (u i k)) <= 1 /\ Rabs (snd (u i k)) <= 1)%R.
Proof. intros H Hi Hk. pose proof (rows_bound u i k H Hi Hk). split; apply Rabs_le; nra. Qed.
Lemma Cmod_SumTo N f (B : R) : (forall i, (i < N)%nat -> Cmod (f i) <= B)%R -> (Cmod (CSumTo N f) <= INR N * B)%R.
Proof.
  induction N as [|N IH]; intro H; [cbn [CSumTo INR]; rewrite Cmod_0; lra|]. cbn [CSumTo]. rewrite S_INR. apply (Rle_trans _ _ _ (Cmod_triangle _ _)). specialize (IH ltac:(intros; apply H; lia)). specialize (H N ltac:(lia)). lra.
Qed.
Lemma rows_mod u i k : Rows n u -> (i < n)%nat -> (k < n)%nat -> (Cmod (u i k) <= 1)%R.
Proof. intros H Hi Hk. pose proof (rows_bound u i k H Hi Hk) as B. pose proof (Cmod_sq (u i k)) as E. pose proof (Cmod_ge_0 (u i k)). nra. Qed.
Lemma Cmod_conj z : Cmod (Cconj z) = Cmod z.
Proof. unfold Cmod, Cconj. cbn. f_equal. ring. Qed.
Lemma entries_bound : exists B, (0 <= B)%R /\ forall i j, (i < n)%nat -> (j < n)%nat -> (Cmod (h i j) <= B)%R.
Proof.
  assert (forall m, exists B, (0 <= B)%R /\ forall i j, (i < m)%nat -> (j < n)%nat -> (Cmod (h i j) <= B)%R) as G; [|apply G].
  induction m as [|m (B & B0 & HB)]; [exists 0%R; split; [lra|lia]|].
  assert (forall r, exists B, (0 <= B)%R /\ forall j, (j < r)%nat -> (Cmod (h m j) <= B)%R) as G.
  { induction r as [|r (D & D0 & HD)]; [exists 0%R; split; [lra|lia]|]. exists (Rmax D (Cmod (h m r))). split; [apply (Rle_trans _ _ _ D0), Rmax_l|]. intros j Hj. destruct (Nat.eq_dec j r) as [->|]; [apply Rmax_r|]. apply Rle_trans with D; [apply HD; lia|apply Rmax_l]. }
  destruct (G n) as (D & D0 & HD). exists (Rmax B D). split; [apply (Rle_trans _ _ _ B0), Rmax_l|]. intros i j Hi Hj. destruct (Nat.eq_dec i m) as [->|]; [apply Rle_trans with D; [auto|apply Rmax_r]|]. apply Rle_trans with B; [apply HB; lia|apply Rmax_l].
Qed.
Lemma diag2_bound : exists B, forall u, Rows n u -> (diag2 u <= B)%R.
Proof.
  destruct entries_bound as (B & B0 & HB). exists (INR n * (INR n * (INR n * B)) ^ 2)%R. intros u Hu. unfold diag2.
  assert (forall k, (k < n)%nat -> fst (form (col u k) (col u k)) ^ 2 <= (INR n * (INR n * B)) ^ 2)%R as G.
  { intros k Hk. rewrite <- !(Rsqr_pow2). apply Rsqr_le_abs_1. pose proof (pos_INR n) as Hn. rewrite (Rabs_pos_eq (INR n * (INR n * B))) by (apply Rmult_le_pos; [|apply Rmult_le_pos]; assumption).
    apply (Rle_trans _ (Cmod (form (col u k) (col u k)))).
    - apply (Rle_trans _ _ _ (Rmax_l _ _) (Rmax_Cmod _)).
    - unfold P_Spectral.form. apply Cmod_SumTo. intros i Hi. rewrite Cmod_mult, Cmod_conj. pose proof (rows_mod u i k Hu Hi Hk) as M. pose proof (Cmod_ge_0 (u i k)) as M0.
      assert (Cmod (CSumTo n (fun j => Cmult (h i j) (col u k j))) <= INR n * B)%R as Q.
      { apply Cmod_SumTo. intros j Hj. rewrite Cmod_mult. pose proof (rows_mod u j k Hu Hj Hk) as M'. pose proof (Cmod_ge_0 (u j k)). specialize (HB i j Hi Hj). pose proof (Cmod_ge_0 (h i j)). unfold col. nra. }
      pose proof (Cmod_ge_0 (CSumTo n (fun j => Cmult (h i j) (col u k j)))). unfold col in *. nra. }
  now apply SumTo_up.
Qed.
(** The limit of a subsequence. *)
Lemma increase : (2 <= n)%nat -> forall k, (diag2 (orbit k) <= diag2 (orbit (S k)))%R.
Proof. intros Hn k. pose proof (step_diag (orbit k) 0 1 ltac:(lia)) as H. cbn [orbit]. pose proof (pow2_ge_0 (off (orbit k) (0, 1)%nat)). lra. Qed.
Lemma off_limit p q : (p < q < n)%nat -> is_lim_seq (fun k => (off (orbit k) (p, q) ^ 2)%R) 0.
Proof.
  intro H. destruct diag2_bound as (B & HB). destruct (ex_finite_lim_seq_incr (fun k => diag2 (orbit k)) B (increase ltac:(lia)) (fun k => HB _ (proj2 (orbit_keeps k)))) as (l & Hl).
  pose proof (proj1 (is_lim_seq_incr_1 _ _) Hl) as Hl'. pose proof (is_lim_seq_minus' _ _ _ _ Hl' Hl) as M. rewrite Rminus_eq_0 in M.
  refine (is_lim_seq_le_le (fun _ => 0%R) _ _ 0 _ (is_lim_seq_const 0) M). intro k. split; [apply pow2_ge_0|]. pose proof (step_diag (orbit k) p q H) as S. cbn [orbit]. pose proof (pow2_ge_0 (off (orbit k) (p, q))). lra.
Qed.
Lemma limit_matrix : exists (f : nat -> nat) (v : nat -> nat -> C), (forall k, (k <= f k)%nat) /\ (forall i j, (i < n)%nat -> (j < n)%nat -> CLim (fun k => orbit (f k) i j) (v i j)) /\
  ((forall i j, (i < n)%nat -> (j < n)%nat -> snd (h i j) = 0%R) -> forall i j, (i < n)%nat -> (j < n)%nat -> snd (v i j) = 0%R).
Proof.
  destruct (subseq_many (n * n + n * n) (fun x k => if Nat.ltb x (n * n) then fst (orbit k (x / n) (x mod n)) else snd (orbit k ((x - n * n) / n) ((x - n * n) mod n))) 1) as (f & l & Hf & Hl).
  - intros x k Hx. assert (n <> 0)%nat as Hn by lia. destruct (Nat.ltb x (n * n)) eqn:E.
    + apply Nat.ltb_lt in E. apply (rows_abs (orbit k)); [apply orbit_keeps|apply Nat.div_lt_upper_bound; lia|apply Nat.mod_upper_bound; exact Hn].
    + apply Nat.ltb_ge in E. apply (rows_abs (orbit k)); [apply orbit_keeps|apply Nat.div_lt_upper_bound; lia|apply Nat.mod_upper_bound; exact Hn].
  - exists f, (fun i j => (l (i * n + j), l (n * n + (i * n + j)))%nat). split; [exact Hf|].
    assert (forall i j, (i < n)%nat -> (j < n)%nat -> CLim (fun k => orbit (f k) i j) (l (i * n + j), l (n * n + (i * n + j)))%nat) as G.
    { intros i j Hi Hj. assert (i * n + j < n * n)%nat as Hb by nia. assert ((i * n + j) / n = i /\ (i * n + j) mod n = j)%nat as [E1 E2].
      { split; [symmetry; apply (Nat.div_unique _ _ i j); lia|symmetry; apply (Nat.mod_unique _ _ i j); lia]. }
      split; cbn [fst snd].
      - pose proof (Hl (i * n + j)%nat ltac:(lia)) as L. apply Nat.ltb_lt in Hb. rewrite Hb, E1, E2 in L. exact L.
      - pose proof (Hl (n * n + (i * n + j))%nat ltac:(lia)) as L. assert (Nat.ltb (n * n + (i * n + j)) (n * n) = false) as F by (apply Nat.ltb_ge; lia). rewrite F in L. replace (n * n + (i * n + j) - n * n)%nat with (i * n + j)%nat in L by lia. rewrite E1, E2 in L. exact L. }
    split; [exact G|]. intros R1 i j Hi Hj. destruct (G i j Hi Hj) as [_ L]. apply is_lim_seq_unique in L. rewrite (Lim_seq_ext _ (fun _ => 0%R)), Lim_seq_const in L; [injection L as L; now rewrite L|].
    intro k. generalize (f k). clear - R1 Hh. intro k. revert i j. induction k as [|k IH]; intros i j; [reflexivity|]. cbn [orbit]. now apply step_real.
Qed.
Theorem jacobi : exists v, Columns n v /\ Rows n v /\ (forall k l, (k < n)%nat -> (l < n)%nat -> k <> l -> form (col v k) (col v l) = 0) /\
  ((forall i j, (i < n)%nat -> (j < n)%nat -> snd (h i j) = 0%R) -> forall i j, (i < n)%nat -> (j < n)%nat -> snd (v i j) = 0%R).
Proof.
  destruct limit_matrix as (f & v & Hf & Hv & Hr). exists v.
  assert (forall g p q, (p < n)%nat -> (q < n)%nat -> CLim (fun k => P_Spectral.form n g (col (orbit (f k)) p) (col (orbit (f k)) q)) (P_Spectral.form n g (col v p) (col v q))) as F.
  { intros g p q Hp Hq. unfold P_Spectral.form, col. apply (clim_SumTo n (fun i k => Cconj (orbit (f k) i p) * CSumTo n (fun j => g i j * orbit (f k) j q))). intros i Hi. apply clim_mul; [apply clim_conj; auto|].
    apply (clim_SumTo n (fun j k => g i j * orbit (f k) j q)). intros j Hj. apply clim_mul; [apply clim_const|auto]. }
  split; [|split; [|split; [|exact Hr]]].
  - intros k l Hk Hl. apply (clim_unique _ _ _ (F ck k l Hk Hl)). apply (clim_ext (fun _ => ck k l)); [|apply clim_const]. intro m. symmetry. now apply orbit_keeps.
  - intros i j Hi Hj. refine (clim_unique (fun k => CSumTo n (fun p => orbit (f k) i p * Cconj (orbit (f k) j p))) _ _ _ _).
    + apply (clim_SumTo n (fun p k => orbit (f k) i p * Cconj (orbit (f k) j p))). intros p Hp. apply clim_mul; [auto|apply clim_conj; auto].
    + apply (clim_ext (fun _ => ck i j)); [|apply clim_const]. intro m. symmetry. now apply orbit_keeps.
  - assert (forall p q, (p < q < n)%nat -> form (col v p) (col v q) = 0) as Z.
    { intros p q H. destruct (F h p q ltac:(lia) ltac:(lia)) as [F1 F2]. pose proof (subseq_lim _ _ f Hf (off_limit p q H)) as O. set (z := form (col v p) (col v q)) in *.
      assert (is_lim_seq (fun k => (off (orbit (f k)) (p, q) ^ 2)%R) (fst z * fst z + snd z * snd z)%R) as O'.
      { refine (is_lim_seq_ext _ _ _ _ (is_lim_seq_plus' _ _ _ _ (is_lim_seq_mult' _ _ _ _ F1 F1) (is_lim_seq_mult' _ _ _ _ F2 F2))). intro k. unfold off. cbn [fst snd pow]. now rewrite Rmult_1_r, Cmod_sq. }
      apply is_lim_seq_unique in O. apply is_lim_seq_unique in O'. rewrite O in O'. injection O' as O'. pose proof (Rle_0_sqr (fst z)) as Q1. pose proof (Rle_0_sqr (snd z)) as Q2. unfold Rsqr in Q1, Q2.
      rewrite (surjective_pairing z). unfold RtoC. f_equal; apply Rsqr_0_uniq; unfold Rsqr; lra. }
    intros k l Hk Hl Hkl. destruct (Nat.lt_ge_cases k l) as [L|L]; [apply Z; lia|]. rewrite (form_conj n h (col v l)) by exact Hh. rewrite Z by lia. apply Cconj_RtoC.
Qed.
End Sequence.
