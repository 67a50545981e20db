From Coq Require Import ZArith List Reals Lra Lia Bool.
From Verif Require Import NnModel RealArith CdSpec CdProofs LogModel LogSpec LogProofs LogCodeProofs.
Import ListNotations.
Local Open Scope R_scope.

Section Main.
Context (P : problem (T := R)) (WF : well_formed P).
Notation grad c xnew x := (gradient arithR exp ln P c xnew (after_objective arithR exp P c x) x).
Notation obj c x := (objective arithR exp ln P c x).
Notation mat c x := (solver_matrix c P x).

Lemma objective_full c x : c = SSC \/ nclass P = 2%nat -> obj c x = log_cost P c (nrow_coef P c) (mat c x).
Proof.
  intros H. unfold objective, LogModel.two, nrow_coef, LogModel.two.
  destruct (Nat.eqb_spec (nclass P) 2) as [E|E].
  - replace (match c with RSC => (nclass P - 1)%nat | SSC => (nclass P - 1)%nat end) with 1%nat by (destruct c; lia).
    apply two_objective_R; auto.
  - destruct H as [->|H]; [|contradiction]. destruct WF as [W _]. apply ssc_objective_R; auto. lia.
Qed.
Lemma objective_rsc x : obj RSC x = log_cost P RSC 1 (mat RSC x).
Proof.
  destruct (Nat.eq_dec (nclass P) 2) as [E|E].
  - rewrite objective_full by auto. unfold nrow_coef. rewrite E. reflexivity.
  - unfold objective, LogModel.two. assert (Nat.eqb (nclass P) 2 = false) as -> by (apply Nat.eqb_neq; auto).
    destruct WF as [W _]. apply rsc_objective_R; auto. lia.
Qed.

Lemma gradient_two c xnew x : nclass P = 2%nat ->
  subgradient (ncoefs P c) (fun x => log_cost P c 1 (mat c x)) x (grad c xnew x).
Proof.
  intros E x'. assert (Er : nrow_coef P c = 1%nat) by (unfold nrow_coef, LogModel.two; rewrite E; destruct c; reflexivity).
  pose proof (cost_tangent P c WF 1 (mat c x) (mat c x')) as T. rewrite Er in T.
  eapply Rle_trans; [|apply T; lia]. right. f_equal.
  unfold ncoefs, ncol_coef. rewrite Er, Nat.mul_1_l, Sigma_first, Sigma_0, Rplus_0_r.
  apply Sigma_ext. intros t Ht. unfold gradient, after_objective, LogModel.two. rewrite E. cbn [Nat.eqb].
  rewrite (two_gradient_R P WF c E xnew x t Ht). rewrite !(two_matrix P c E). reflexivity.
Qed.
Lemma gradient_ssc x : subgradient (ncoefs P SSC) (fun x => log_cost P SSC (nrow_coef P SSC) (mat SSC x)) x (grad SSC false x).
Proof.
  destruct (Nat.eq_dec (nclass P) 2) as [E|E].
  - assert (Er : nrow_coef P SSC = 1%nat) by (unfold nrow_coef, LogModel.two; rewrite E; reflexivity). rewrite Er. apply gradient_two; auto.
  - intros x'. assert (Eb : Nat.eqb (nclass P) 2 = false) by (apply Nat.eqb_neq; auto). destruct WF as [W _].
    assert (H3 : (2 < nclass P)%nat) by lia.
    assert (Er : nrow_coef P SSC = nclass P) by (unfold nrow_coef, LogModel.two; rewrite Eb; reflexivity).
    pose proof (cost_tangent P SSC WF (nrow_coef P SSC) (mat SSC x) (mat SSC x') ltac:(lia)) as T.
    eapply Rle_trans; [|apply T]. right. f_equal. unfold ncoefs, ncol_coef. rewrite Er, Nat.mul_comm, Sigma_rows, Sigma_swap.
    apply Sigma_ext. intros k Hk. apply Sigma_ext. intros j Hj.
    unfold gradient, after_objective, LogModel.two. rewrite Eb. rewrite (ssc_gradient_R P WF H3 x j k Hk Hj).
    unfold solver_matrix. rewrite Eb. reflexivity.
Qed.
Lemma gradient_rsc xnew x : subgradient (ncoefs P RSC) (fun x => log_cost P RSC 1 (mat RSC x)) x (grad RSC xnew x).
Proof.
  destruct (Nat.eq_dec (nclass P) 2) as [E|E]; [apply gradient_two; auto|].
  intros x'. assert (Eb : Nat.eqb (nclass P) 2 = false) by (apply Nat.eqb_neq; auto). destruct WF as [W _].
  assert (H3 : (2 < nclass P)%nat) by lia.
  pose proof (cost_tangent P RSC WF 1 (mat RSC x) (mat RSC x') ltac:(cbn; lia)) as T.
  eapply Rle_trans; [|apply T]. right. f_equal. unfold ncoefs, ncol_coef. rewrite Sigma_rows.
  apply Sigma_ext. intros k Hk. apply Sigma_ext. intros j Hj.
  unfold gradient, after_objective, LogModel.two. rewrite Eb. rewrite (rsc_gradient_R P WF H3 xnew x k j Hk Hj).
  unfold solver_matrix. rewrite Eb. reflexivity.
Qed.
End Main.

Lemma subgradient_zero n f x g : subgradient n f x g -> (forall t, (t < n)%nat -> g t = 0) -> forall x', f x <= f x'.
Proof.
  intros H Z x'. specialize (H x'). rewrite (Sigma_ext n _ (fun _ => 0)) in H; [rewrite Sigma_zero in H; lra|].
  intros t Ht. rewrite Z by auto. ring.
Qed.

(** the gradient summed over the classes, for one column of the coefficients *)
Lemma ssc_column_sum P (WF : well_formed P) (H3 : (2 < nclass P)%nat) x j : (j < nmod P)%nat -> l1reg P = 0 ->
  Sigma (nclass P) (fun k => gradient arithR exp ln P SSC false (after_objective arithR exp P SSC x) x (j * nclass P + k)%nat) =
  (if Nat.ltb j (nfeat P) then 2 * l2reg P * Sigma (nclass P) (fun k => x (j * nclass P + k)%nat) else 0).
Proof.
  intros Hj H1. assert (Eb : Nat.eqb (nclass P) 2 = false) by (apply Nat.eqb_neq; lia).
  rewrite (Sigma_ext (nclass P) _ (fun k => cell_slope P SSC (nclass P) (solver_matrix SSC P x) k j)).
  2:{ intros k Hk. unfold gradient, after_objective, LogModel.two. rewrite Eb. apply ssc_gradient_R; auto. }
  unfold cell_slope. rewrite Sigma_add.
  replace (Sigma (nclass P) (fun k => row_slope P SSC (solver_matrix SSC P x) k j)) with 0.
  - rewrite Rplus_0_l.
    rewrite (Sigma_ext (nclass P) _ (fun k => if Nat.ltb j (nfeat P) then 2 * l2reg P * x (j * nclass P + k)%nat else 0)).
    + destruct (Nat.ltb j (nfeat P)); [apply Sigma_mul|apply Sigma_zero].
    + intros k Hk. apply Nat.ltb_lt in Hk. rewrite Hk. cbn [andb]. destruct (Nat.ltb j (nfeat P)); [|reflexivity].
      unfold pen_slope, solver_matrix. rewrite H1, Eb, Ropp_0. destruct (Rltb _ _); [ring|destruct (Rltb _ _); ring].
  - unfold row_slope. rewrite Sigma_swap. rewrite (Sigma_ext (nsam P) _ (fun _ => 0)); [symmetry; apply Sigma_zero|].
    intros i Hi. rewrite Sigma_mulr. replace (Sigma (nclass P) _) with 0; [ring|].
    assert (I : Sigma (nclass P) (indicator P i) = 1).
    { rewrite <- (indicator_pick P WF i (fun _ => 1) Hi). apply Sigma_ext. intros. ring. }
    unfold resid, row_class. rewrite Eb, Sigma_sub, probability_sum by lia.
    change (Sigma (nclass P) (fun i0 => indicator P i i0)) with (Sigma (nclass P) (indicator P i)). lra.
Qed.

(** ** predictions *)
Lemma best_spec (v : nat -> R) K : exists b m,
  fold_left (fun s k => if lt arithR (snd s) (v k) then (k, v k) else s) (seq 0 K) (0%nat, 0) = (b, m) /\
  (forall k, (k < K)%nat -> v k <= m) /\ 0 <= m /\
  ((b = 0%nat /\ m = 0) \/ ((b < K)%nat /\ m = v b /\ 0 < m /\ forall k, (k < b)%nat -> v k < m)).
Proof.
  induction K as [|K IH]; [exists 0%nat, 0; repeat split; cbn; auto; [intros; lia|lra]|].
  destruct IH as (b & m & E & U & M & C). rewrite seq_S, fold_left_app, E. cbn [fold_left Nat.add snd lt arithR].
  destruct (Rltb m (v K)) eqn:L.
  - apply Rltb_true in L. exists K, (v K). split; [reflexivity|]. split; [|split; [lra|]].
    + intros k Hk. destruct (Nat.eq_dec k K) as [->|N]; [lra|]. specialize (U k ltac:(lia)). lra.
    + right. split; [lia|]. split; [reflexivity|]. split; [lra|]. intros k Hk. specialize (U k Hk). lra.
  - apply Rltb_false in L. exists b, m. split; [reflexivity|]. split; [|split; auto].
    + intros k Hk. destruct (Nat.eq_dec k K) as [->|N]; [lra|]. apply U. lia.
    + destruct C as [C|(C1 & C2)]; [left; auto|right; split; [lia|auto]].
Qed.
Lemma best_first v K : (exists k, (k < K)%nat /\ 0 < v k) -> most_likely K v (best_class arithR K v).
Proof.
  intros (k & Hk & Hv). destruct (best_spec v K) as (b & m & E & U & M & C). unfold best_class.
  replace (zero arithR) with 0 by reflexivity. rewrite E. cbn [fst].
  pose proof (U k Hk). destruct C as [[_ C]|(Hb & Em & Hm & F)]; [lra|]. subst m. split; auto.
Qed.
Lemma most_likely_scores K s k : (0 < K)%nat -> most_likely K s k -> most_likely K (probability K s) k.
Proof.
  intros HK (H1 & H2 & H3). pose proof (sum_exp_pos K HK s) as S. split; auto. unfold probability, Rdiv.
  assert (I : 0 < / Sigma K (fun l => exp (s l))) by (apply Rinv_0_lt_compat; auto).
  split; intros l Hl.
  - apply Rmult_le_compat_r; [lra|]. destruct (H2 l Hl) as [L| ->]; [apply Rlt_le, exp_increasing; auto|lra].
  - apply Rmult_lt_compat_r; auto. apply exp_increasing. auto.
Qed.
Lemma positive_dec K (s : nat -> R) : (exists k, (k < K)%nat /\ 0 < s k) \/ (forall k, (k < K)%nat -> s k <= 0).
Proof.
  induction K as [|K [(k & Hk & H)|IH]]; [right; intros; lia|left; exists k; split; [lia|auto]|].
  destruct (Rlt_dec 0 (s K)); [left; exists K; split; [lia|auto]|]. right. intros k Hk.
  destruct (Nat.eq_dec k K) as [->|N]; [lra|apply IH; lia].
Qed.
Lemma zero_or_positive K (s : nat -> R) : 0 <= Sigma K s -> (exists k, (k < K)%nat /\ 0 < s k) \/ (forall k, (k < K)%nat -> s k = 0).
Proof.
  intros H. destruct (positive_dec K s) as [E|E]; auto. right.
  assert (Z : Sigma K (fun k => - s k) = 0).
  { assert (0 <= Sigma K (fun k => - s k)) by (apply Sigma_nonneg; intros i Hi; specialize (E i Hi); lra). rewrite Sigma_opp in *. lra. }
  intros k Hk. assert (- s k = 0) by (apply (Sigma_elem_zero K (fun k => - s k) k); auto; intros j Hj; specialize (E j Hj); lra). lra.
Qed.

Lemma best_class_ext K v v' : (forall k, (k < K)%nat -> v k = v' k) -> best_class arithR K v = best_class arithR K v'.
Proof.
  intros H. unfold best_class. f_equal. assert (G : forall l a, (forall k, In k l -> v k = v' k) ->
    fold_left (fun s k => if lt arithR (snd s) (v k) then (k, v k) else s) l a = fold_left (fun s k => if lt arithR (snd s) (v' k) then (k, v' k) else s) l a).
  { induction l as [|k l IH]; intros a HL; [reflexivity|]. cbn [fold_left]. rewrite (HL k) by (left; auto). apply IH. intros; apply HL; right; auto. }
  apply G. intros k Hk. apply in_seq in Hk. apply H. lia.
Qed.
Section Predict.
Context (P : problem (T := R)) (HK : (2 <= nclass P)%nat).
Notation scores c x i := (class_score P c (solver_matrix c P x) i).
Lemma predict_two c x i : nclass P = 2%nat -> most_likely 2 (scores c x i) (predict arithR exp P c x i).
Proof.
  intros E. unfold predict, LogModel.two. rewrite E. cbn [Nat.eqb]. unfold two_predict, two_lin. rewrite eval_features_R.
  cbn [lt arithR]. replace (zero arithR) with 0 by reflexivity. destruct (two_scores P c E (solver_matrix c P x) i) as [E0 E1].
  rewrite (two_matrix P c E) in E1.
  destruct (Rltb 0 (score P x i)) eqn:L; [apply Rltb_true in L|apply Rltb_false in L]; (split; [lia|]); split; intros l Hl.
  - assert (l = 0 \/ l = 1)%nat as [-> | ->] by lia; rewrite ?E0, ?E1; lra.
  - assert (l = 0)%nat as -> by lia. rewrite E0, E1. lra.
  - assert (l = 0 \/ l = 1)%nat as [-> | ->] by lia; rewrite ?E0, ?E1; lra.
  - lia.
Qed.
Lemma rsc_prob_R (H3 : (2 < nclass P)%nat) x i k : (k < nclass P)%nat ->
  rsc_prob arithR exp P x i k = probability (nclass P) (scores RSC x i) k.
Proof.
  intros Hk. assert (W : forall l, (l < nclass P)%nat -> rsc_weight arithR exp P x i l = exp (scores RSC x i l)).
  { intros l Hl. unfold rsc_weight. rewrite rsc_score by auto. cbn [of_Z arithR].
    destruct (l <? nclass P - 1)%nat; [reflexivity|rewrite exp_0; reflexivity]. }
  unfold rsc_prob, probability. rewrite W by auto. rewrite msum_R. cbn [div arithR]. f_equal. apply Sigma_ext. intros; apply W; auto.
Qed.
Lemma predict_rsc x i : most_likely (nclass P) (probability (nclass P) (scores RSC x i)) (predict arithR exp P RSC x i).
Proof.
  destruct (Nat.eq_dec (nclass P) 2) as [E|E].
  - apply most_likely_scores; [lia|]. rewrite E at 1. apply predict_two; auto.
  - assert (H3 : (2 < nclass P)%nat) by lia. unfold predict, LogModel.two.
    assert (Nat.eqb (nclass P) 2 = false) as -> by (apply Nat.eqb_neq; auto). unfold rsc_predict.
    rewrite (best_class_ext _ _ (probability (nclass P) (scores RSC x i))) by (intros; apply rsc_prob_R; auto).
    apply best_first. exists 0%nat. split; [lia|]. apply probability_pos. lia.
Qed.
Lemma predict_ssc x i : 0 <= Sigma (nclass P) (scores SSC x i) ->
  most_likely (nclass P) (probability (nclass P) (scores SSC x i)) (predict arithR exp P SSC x i).
Proof.
  intros H. apply most_likely_scores; [lia|]. destruct (Nat.eq_dec (nclass P) 2) as [E|E].
  - rewrite E at 1. apply predict_two; auto.
  - assert (H3 : (2 < nclass P)%nat) by lia. unfold predict, LogModel.two.
    assert (Nat.eqb (nclass P) 2 = false) as -> by (apply Nat.eqb_neq; auto). unfold ssc_predict.
    rewrite (best_class_ext _ _ (scores SSC x i)) by (intros; apply ssc_lin_R; auto).
    destruct (zero_or_positive _ _ H) as [Q|Z]; [apply best_first; auto|].
    destruct (best_spec (scores SSC x i) (nclass P)) as (b & m & Eb & U & M & C). unfold best_class.
    replace (zero arithR) with 0 by reflexivity. rewrite Eb. cbn [fst].
    destruct C as [[-> _]|(C1 & C2 & C3 & _)]; [|rewrite Z in C2 by auto; lra].
    split; [lia|]. split; intros l Hl; [rewrite !Z by lia; lra|lia].
Qed.
End Predict.

(** ** the user's array *)
Section Layout.
Context {T : Type} (P : problem (T := T)) (c : lconstraint).
Lemma div_row k j n : (j < n)%nat -> ((k * n + j) / n = k)%nat /\ ((k * n + j) mod n = j)%nat.
Proof.
  intros H. split; [rewrite Nat.div_add_l by lia; rewrite Nat.div_small by lia; lia|].
  rewrite Nat.add_comm, Nat.mod_add by lia. apply Nat.mod_small. lia.
Qed.
Lemma coefs_out o x k j : c = SSC \/ nclass P = 2%nat -> (k < nrow_coef P c)%nat -> (j < ncol_coef P)%nat ->
  user_matrix c P o (get_coef P c o x) k j = solver_matrix c P x k j.
Proof.
  intros H Hk Hj. unfold user_matrix, get_coef, solver_matrix, nrow_coef, LogModel.two in *.
  destruct (Nat.eqb (nclass P) 2) eqn:E.
  - assert (E2 := E). apply Nat.eqb_eq in E2. assert (k = 0)%nat as -> by (destruct c; lia).
    destruct o; f_equal; destruct c; rewrite E2; cbn; lia.
  - apply Nat.eqb_neq in E. destruct H as [->|H]; [|contradiction]. destruct o; [reflexivity|].
    destruct (div_row k j (ncol_coef P) Hj) as [-> ->]. f_equal. lia.
Qed.
Lemma coefs_in o u k j : c = SSC \/ nclass P = 2%nat -> (k < nrow_coef P c)%nat -> (j < ncol_coef P)%nat ->
  solver_matrix c P (start_coef P c o u) k j = user_matrix c P o u k j.
Proof.
  intros H Hk Hj. unfold user_matrix, start_coef, solver_matrix.
  destruct (Nat.eqb (nclass P) 2) eqn:E.
  - assert (E2 := E). apply Nat.eqb_eq in E2.
    assert (Er : nrow_coef P c = 1%nat) by (unfold nrow_coef, LogModel.two; rewrite E, E2; destruct c; reflexivity).
    rewrite Er in *. assert (k = 0)%nat as -> by lia. destruct o; f_equal; [lia|]. rewrite Nat.mod_1_r, Nat.div_1_r. lia.
  - assert (E' := E). apply Nat.eqb_neq in E'. destruct H as [->|H]; [|contradiction].
    assert (Er : nrow_coef P SSC = nclass P) by (unfold nrow_coef, LogModel.two; rewrite E; reflexivity). rewrite Er in *.
    destruct o; [reflexivity|]. destruct (div_row j k (nclass P) Hk) as [-> ->]. reflexivity.
Qed.
Lemma coefs_round_trip o x t : (t < ncoefs P c)%nat -> start_coef P c o (get_coef P c o x) t = x t.
Proof.
  unfold ncoefs. intros H. unfold start_coef, get_coef, LogModel.two. destruct (Nat.eqb (nclass P) 2) eqn:E.
  - assert (E2 := E). apply Nat.eqb_eq in E2.
    assert (Er : nrow_coef P c = 1%nat) by (unfold nrow_coef, LogModel.two; rewrite E, E2; destruct c; reflexivity).
    rewrite Er. destruct o; [reflexivity|]. rewrite Nat.mod_1_r, Nat.div_1_r. reflexivity.
  - destruct o; [reflexivity|].
    assert (Hr : (0 < nrow_coef P c)%nat) by (destruct (nrow_coef P c); lia).
    assert (Hq : (t / nrow_coef P c < ncol_coef P)%nat) by (apply Nat.div_lt_upper_bound; lia).
    destruct (div_row (t mod nrow_coef P c) (t / nrow_coef P c) (ncol_coef P) Hq) as [-> ->].
    f_equal. rewrite (Nat.div_mod t (nrow_coef P c)) at 3 by lia. lia.
Qed.
End Layout.
