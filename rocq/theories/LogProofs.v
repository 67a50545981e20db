From Coq Require Import ZArith List Reals Lra Lia Bool.
From Verif Require Import NnModel RealArith CdSpec CdProofs LogModel LogSpec.
Import ListNotations.
Local Open Scope R_scope.

(** ** sums *)
Lemma fold_sum_seq (f : nat -> R) : forall l a, fold_left (fun s i => s + f i) l a = a + fold_right Rplus 0 (map f l).
Proof. induction l as [|x l IH]; intros a; cbn; [ring|]. rewrite IH. ring. Qed.
Lemma fold_sum_R (f : nat -> R) n a : fold_left (fun s i => add arithR s (f i)) (seq 0 n) a = a + Sigma n f.
Proof. cbn. rewrite fold_sum_seq. reflexivity. Qed.
Lemma msum_R n f : msum arithR n f = Sigma n f.
Proof. unfold msum. rewrite fold_sum_R. cbn. ring. Qed.
Lemma fold_sub_R (f : nat -> R) : forall l a, fold_left (fun s i => sub arithR s (f i)) l a = a - fold_right Rplus 0 (map f l).
Proof. induction l as [|x l IH]; intros a; cbn; [ring|]. cbn in IH. rewrite IH. ring. Qed.
Lemma Sigma_opp n f : Sigma n (fun i => - f i) = - Sigma n f.
Proof. rewrite <- (Rmult_1_l (Sigma n f)), Ropp_mult_distr_l, <- Sigma_mul. apply Sigma_ext. intros. ring. Qed.
Lemma Sigma_mulr n f a : Sigma n (fun i => f i * a) = Sigma n f * a.
Proof. rewrite Rmult_comm, <- Sigma_mul. apply Sigma_ext. intros. ring. Qed.
Lemma Sigma_last n f : Sigma (S n) f = Sigma n f + f n.
Proof.
  unfold Sigma. rewrite seq_S, map_app. cbn. induction (map f (seq 0 n)); cbn; [ring|]. rewrite IHl. ring.
Qed.
Lemma Sigma_app a b f : Sigma (a + b) f = Sigma a f + Sigma b (fun i => f (a + i)%nat).
Proof.
  induction b as [|b IH]; [rewrite Nat.add_0_r, Sigma_0; ring|].
  rewrite Nat.add_succ_r, !Sigma_last, IH. ring.
Qed.
(** rows of length [b] *)
Lemma Sigma_rows a b f : Sigma (a * b) f = Sigma a (fun k => Sigma b (fun j => f (k * b + j)%nat)).
Proof.
  induction a as [|a IH]; [reflexivity|].
  cbn [Nat.mul]. rewrite Nat.add_comm, Sigma_app, IH, Sigma_last. reflexivity.
Qed.
Lemma Sigma_pos n f : (0 < n)%nat -> (forall i, (i < n)%nat -> 0 < f i) -> 0 < Sigma n f.
Proof.
  intros Hn H. destruct n as [|n]; [lia|]. rewrite Sigma_first.
  apply Rplus_lt_le_0_compat; [apply H; lia|]. apply Sigma_nonneg. intros. apply Rlt_le, H. lia.
Qed.
Lemma Sigma_pick n k f : (k < n)%nat -> Sigma n (fun l => if Nat.eqb l k then f l else 0) = f k.
Proof.
  intros H. rewrite (Sigma_one n k _ (fun _ => 0)); auto.
  - rewrite Sigma_zero, Nat.eqb_refl. ring.
  - intros i _ Hi. apply Nat.eqb_neq in Hi. rewrite Hi. reflexivity.
Qed.
Lemma Sigma_split0 n f : (0 < n)%nat -> Sigma n f = f 0%nat + Sigma (n - 1) (fun i => f (S i)).
Proof. intros H. destruct n; [lia|]. rewrite Sigma_first. cbn. rewrite Nat.sub_0_r. reflexivity. Qed.
Lemma Sigma_split_last n f : (0 < n)%nat -> Sigma n f = Sigma (n - 1) f + f (n - 1)%nat.
Proof. intros H. destruct n; [lia|]. rewrite Sigma_last. cbn. rewrite Nat.sub_0_r. reflexivity. Qed.

(** ** the logarithm of a sum of exponentials *)
Lemma exp_ge u : 1 + u <= exp u.
Proof. destruct (Req_dec u 0) as [->|H]; [rewrite exp_0; lra|]. apply Rlt_le, exp_ineq1; auto. Qed.
Lemma ln_ge a b : 0 < a -> a <= b -> ln a <= ln b.
Proof. intros Ha [H| ->]; [apply Rlt_le, ln_increasing; auto|lra]. Qed.
Definition lse (K : nat) (s : nat -> R) : R := ln (Sigma K (fun l => exp (s l))).
Section Lse.
Context (K : nat) (HK : (0 < K)%nat).
Lemma sum_exp_pos s : 0 < Sigma K (fun l => exp (s l)).
Proof. apply Sigma_pos; auto. intros. apply exp_pos. Qed.
Lemma lse_shift s m : m + ln (Sigma K (fun l => exp (s l - m))) = lse K s.
Proof.
  unfold lse. rewrite (Sigma_ext K (fun l => exp (s l - m)) (fun l => exp (- m) * exp (s l))).
  - rewrite Sigma_mul, ln_mult; [|apply exp_pos|apply sum_exp_pos]. rewrite ln_exp. ring.
  - intros. rewrite <- exp_plus. f_equal. ring.
Qed.
Lemma log_probability s k : - ln (probability K s k) = lse K s - s k.
Proof.
  unfold probability, lse. unfold Rdiv. rewrite ln_mult; [|apply exp_pos|apply Rinv_0_lt_compat, sum_exp_pos].
  rewrite ln_exp, ln_Rinv; [ring|apply sum_exp_pos].
Qed.
Lemma probability_sum s : Sigma K (probability K s) = 1.
Proof. unfold probability, Rdiv. rewrite Sigma_mulr. pose proof (sum_exp_pos s). field. lra. Qed.
Lemma probability_pos s k : 0 < probability K s k.
Proof. unfold probability. apply Rdiv_lt_0_compat; [apply exp_pos|apply sum_exp_pos]. Qed.
Lemma probability_lse s k : probability K s k = exp (s k - lse K s).
Proof.
  unfold probability, lse. pose proof (sum_exp_pos s). unfold Rminus. rewrite exp_plus, exp_Ropp, exp_ln; auto.
Qed.
(** the tangent lies below *)
Lemma lse_tangent s s' : lse K s + Sigma K (fun k => probability K s k * (s' k - s k)) <= lse K s'.
Proof.
  set (m := Sigma K (fun k => probability K s k * (s' k - s k))).
  assert (E : Sigma K (fun l => exp (s' l)) =
              exp (lse K s + m) * Sigma K (fun k => probability K s k * exp (s' k - s k - m))).
  { rewrite <- Sigma_mul. apply Sigma_ext. intros k _. rewrite probability_lse, <- !exp_plus. f_equal. ring. }
  assert (G : 1 <= Sigma K (fun k => probability K s k * exp (s' k - s k - m))).
  { apply Rle_trans with (Sigma K (fun k => probability K s k * (1 + (s' k - s k - m)))).
    - right. rewrite (Sigma_ext K _ (fun k => probability K s k * (s' k - s k) + (1 - m) * probability K s k)) by (intros; ring).
      rewrite Sigma_add, Sigma_mul, probability_sum. fold m. ring.
    - apply Sigma_le. intros k _. apply Rmult_le_compat_l; [apply Rlt_le, probability_pos|apply exp_ge]. }
  unfold lse at 2. rewrite E. rewrite ln_mult; [|apply exp_pos|lra]. rewrite ln_exp.
  assert (0 <= ln (Sigma K (fun k => probability K s k * exp (s' k - s k - m)))).
  { rewrite <- ln_1. apply ln_ge; lra. }
  lra.
Qed.
End Lse.

(** ** the penalty *)
Definition pen_slope (l1 l2 b : R) : R := (if Rltb b 0 then - l1 else if Rltb 0 b then l1 else 0) + 2 * l2 * b.
Lemma pen_tangent l1 l2 b b' : 0 <= l1 -> 0 <= l2 ->
  l1 * Rabs b + l2 * b ^ 2 + pen_slope l1 l2 b * (b' - b) <= l1 * Rabs b' + l2 * b' ^ 2.
Proof.
  intros H1 H2. unfold pen_slope.
  assert (Q : l2 * b ^ 2 + 2 * l2 * b * (b' - b) <= l2 * b' ^ 2).
  { assert (0 <= l2 * (b' - b) ^ 2) by (apply Rmult_le_pos; auto; apply pow2_ge_0). nra. }
  assert (A : l1 * Rabs b + (if Rltb b 0 then - l1 else if Rltb 0 b then l1 else 0) * (b' - b) <= l1 * Rabs b').
  { destruct (Rltb b 0) eqn:E1.
    - apply Rltb_true in E1. rewrite (Rabs_left b) by auto.
      replace (l1 * - b + - l1 * (b' - b)) with (l1 * - b') by ring.
      apply Rmult_le_compat_l; auto. rewrite <- Rabs_Ropp. apply Rle_abs.
    - apply Rltb_false in E1. destruct (Rltb 0 b) eqn:E2.
      + apply Rltb_true in E2. rewrite (Rabs_right b) by lra.
        replace (l1 * b + l1 * (b' - b)) with (l1 * b') by ring. apply Rmult_le_compat_l; auto. apply Rle_abs.
      + apply Rltb_false in E2. assert (b = 0) as -> by lra. rewrite Rabs_R0.
        pose proof (Rabs_pos b'). assert (0 <= l1 * Rabs b') by (apply Rmult_le_pos; auto). lra. }
  lra.
Qed.

Section Convex.
Context (P : problem (T := R)) (c : lconstraint) (WF : well_formed P).
Let K := nclass P.
Let r := nrow_coef P c.
Let two : bool := Nat.eqb (nclass P) 2.
Definition row_class (k : nat) : nat := if Nat.eqb (nclass P) 2 then 1%nat else k.
Definition ext (j i : nat) : R := if Nat.ltb j (nfeat P) then entryX P j i else 1.
Lemma K_pos : (0 < nclass P)%nat. Proof. destruct WF as [H _]. lia. Qed.

Lemma score_ext b i : score P b i = Sigma (nmod P) (fun j => b j * ext j i).
Proof.
  unfold score, nmod, ext. destruct (icept P).
  - rewrite Sigma_app. f_equal.
    + apply Sigma_ext. intros j Hj. apply Nat.ltb_lt in Hj. rewrite Hj. reflexivity.
    + rewrite Sigma_first, Sigma_0, Nat.add_0_r. rewrite Nat.ltb_irrefl. ring.
  - rewrite Nat.add_0_r, Rplus_0_r. apply Sigma_ext. intros j Hj. apply Nat.ltb_lt in Hj. rewrite Hj. reflexivity.
Qed.
Lemma class_score_row B i k : (k < r)%nat -> class_score P c B i (row_class k) = score P (B k) i.
Proof.
  unfold r, nrow_coef, LogModel.two, class_score, row_class. destruct (Nat.eqb (nclass P) 2) eqn:E.
  - intros H. apply Nat.eqb_eq in E. assert (k = 0)%nat as ->. { destruct c; rewrite E in H; cbn in H; lia. } reflexivity.
  - destruct c; intros H; [apply Nat.ltb_lt in H; rewrite H|]; reflexivity.
Qed.
(** a sum over the classes where the reference category adds nothing is a sum over the rows *)
Lemma classes_rows (h : nat -> R) : (forall l, (forall B i, class_score P c B i l = 0) -> h l = 0) ->
  Sigma K h = Sigma r (fun k => h (row_class k)).
Proof.
  intros H0. assert (K_ := K_pos). unfold r, nrow_coef, LogModel.two, K, row_class.
  destruct (Nat.eqb (nclass P) 2) eqn:E.
  - assert (E2 := E). apply Nat.eqb_eq in E2.
    replace (match c with RSC => (nclass P - 1)%nat | SSC => (nclass P - 1)%nat end) with 1%nat by (destruct c; lia).
    rewrite E2. rewrite !Sigma_first, !Sigma_0. rewrite (H0 0%nat); [ring|].
    intros. unfold class_score. rewrite E. reflexivity.
  - destruct c.
    + rewrite (Sigma_split_last (nclass P)) by auto. rewrite (H0 (nclass P - 1)%nat); [rewrite Rplus_0_r; reflexivity|].
      intros. unfold class_score. rewrite E, Nat.ltb_irrefl. reflexivity.
    + reflexivity.
Qed.

Definition indicator (i l : nat) : R := if Z.eqb (lab P i) (Z.of_nat l) then 1 else 0.
Definition resid (B : nat -> nat -> R) (i l : nat) : R := probability K (class_score P c B i) l - indicator i l.
Lemma indicator_pick i (h : nat -> R) : (i < nsam P)%nat -> Sigma K (fun l => indicator i l * h l) = h (Z.to_nat (lab P i)).
Proof.
  clear r c. intros Hi. destruct WF as (_ & HL & _). specialize (HL i Hi).
  rewrite <- (Sigma_pick K (Z.to_nat (lab P i)) h) by (unfold K; lia).
  apply Sigma_ext. intros l _. unfold indicator. destruct (Z.eqb_spec (lab P i) (Z.of_nat l)) as [E|E].
  - rewrite E, Nat2Z.id, Nat.eqb_refl. ring.
  - destruct (Nat.eqb_spec l (Z.to_nat (lab P i))); [lia|ring].
Qed.
Lemma nll_lse B : neg_log_likelihood P c B = Sigma (nsam P) (fun i => lse K (class_score P c B i) - class_score P c B i (Z.to_nat (lab P i))).
Proof. unfold neg_log_likelihood. apply Sigma_ext. intros i _. apply log_probability, K_pos. Qed.

(** the slope of the likelihood along entry (k, j) *)
Definition row_slope (B : nat -> nat -> R) (k j : nat) : R := Sigma (nsam P) (fun i => resid B i (row_class k) * ext j i).
Lemma nll_tangent B B' :
  neg_log_likelihood P c B + Sigma r (fun k => Sigma (nmod P) (fun j => row_slope B k j * (B' k j - B k j))) <= neg_log_likelihood P c B'.
Proof.
  rewrite !nll_lse.
  replace (Sigma r (fun k => Sigma (nmod P) (fun j => row_slope B k j * (B' k j - B k j))))
    with (Sigma (nsam P) (fun i => Sigma K (fun l => resid B i l * (class_score P c B' i l - class_score P c B i l)))).
  - rewrite <- Sigma_add. apply Sigma_le. intros i Hi.
    pose proof (lse_tangent K K_pos (class_score P c B i) (class_score P c B' i)) as T.
    rewrite (Sigma_ext K _ (fun l => probability K (class_score P c B i) l * (class_score P c B' i l - class_score P c B i l)
                                     - indicator i l * (class_score P c B' i l - class_score P c B i l))) by (intros; unfold resid; ring).
    rewrite Sigma_sub, indicator_pick by auto. lra.
  - rewrite (Sigma_ext (nsam P) _ (fun i => Sigma r (fun k => resid B i (row_class k) * (score P (B' k) i - score P (B k) i)))).
    + rewrite Sigma_swap. apply Sigma_ext. intros k _.
      rewrite (Sigma_ext (nsam P) _ (fun i => Sigma (nmod P) (fun j => resid B i (row_class k) * ext j i * (B' k j - B k j)))).
      * rewrite Sigma_swap. apply Sigma_ext. intros j _. unfold row_slope. rewrite <- Sigma_mulr. reflexivity.
      * intros i _. rewrite !score_ext, <- Sigma_sub, <- Sigma_mul. apply Sigma_ext. intros. ring.
    + intros i _. rewrite classes_rows by (intros l Hl; rewrite !Hl; ring).
      apply Sigma_ext. intros k Hk. rewrite !class_score_row by auto. reflexivity.
Qed.

Definition cell_slope (p : nat) (B : nat -> nat -> R) (k j : nat) : R :=
  row_slope B k j + (if Nat.ltb k p && Nat.ltb j (nfeat P) then pen_slope (l1reg P) (l2reg P) (B k j) else 0).
Lemma Sigma_prefix n m f : (n <= m)%nat -> Sigma m (fun i => if Nat.ltb i n then f i else 0) = Sigma n f.
Proof.
  intros H. replace m with (n + (m - n))%nat by lia. rewrite Sigma_app.
  rewrite (Sigma_ext n _ f), (Sigma_ext (m - n) _ (fun _ => 0)), Sigma_zero; [ring| |].
  - intros i Hi. destruct (Nat.ltb_spec (n + i) n); [lia|reflexivity].
  - intros i Hi. apply Nat.ltb_lt in Hi. rewrite Hi. reflexivity.
Qed.
Lemma nfeat_nmod : (nfeat P <= nmod P)%nat. Proof. unfold nmod. lia. Qed.
Lemma penalty_cells p B : penalty P p B =
  Sigma p (fun k => Sigma (nfeat P) (fun j => l1reg P * Rabs (B k j) + l2reg P * B k j ^ 2)).
Proof.
  unfold penalty. rewrite <- !Sigma_mul, <- Sigma_add. apply Sigma_ext. intros k _.
  rewrite <- !Sigma_mul, <- Sigma_add. reflexivity.
Qed.
Lemma cost_tangent p B B' : (p <= r)%nat ->
  log_cost P c p B + Sigma r (fun k => Sigma (nmod P) (fun j => cell_slope p B k j * (B' k j - B k j))) <= log_cost P c p B'.
Proof.
  intros Hp. unfold log_cost. pose proof (nll_tangent B B') as T. destruct WF as (_ & _ & H1 & H2).
  assert (Q : penalty P p B + Sigma p (fun k => Sigma (nfeat P) (fun j => pen_slope (l1reg P) (l2reg P) (B k j) * (B' k j - B k j))) <= penalty P p B').
  { rewrite !penalty_cells, <- Sigma_add. apply Sigma_le. intros k _. rewrite <- Sigma_add. apply Sigma_le. intros j _.
    apply pen_tangent; auto. }
  rewrite (Sigma_ext r _ (fun k => Sigma (nmod P) (fun j => row_slope B k j * (B' k j - B k j)) +
     (if Nat.ltb k p then Sigma (nfeat P) (fun j => pen_slope (l1reg P) (l2reg P) (B k j) * (B' k j - B k j)) else 0))).
  - rewrite Sigma_add, (Sigma_prefix p r) by auto. lra.
  - intros k _. destruct (Nat.ltb k p) eqn:E.
    + rewrite <- (Sigma_prefix (nfeat P) (nmod P)) by apply nfeat_nmod. rewrite <- Sigma_add. apply Sigma_ext. intros j _.
      unfold cell_slope. rewrite E. cbn [andb]. destruct (Nat.ltb j (nfeat P)); ring.
    + rewrite Rplus_0_r. apply Sigma_ext. intros j _. unfold cell_slope. rewrite E. cbn [andb]. ring.
Qed.
End Convex.
