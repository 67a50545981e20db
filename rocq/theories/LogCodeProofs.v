From Coq Require Import ZArith List Reals Lra Lia Bool.
From Verif Require Import NnModel RealArith CdSpec CdProofs LogModel LogSpec LogProofs.
Import ListNotations.
Local Open Scope R_scope.

Section Code.
Context (P : problem (T := R)) (WF : well_formed P).
Let n := nsam P.

Lemma eval_features_R x i : eval_features arithR P x i = score P x i.
Proof.
  clear WF. unfold eval_features, score. rewrite msum_R. cbn [add mul arithR].
  rewrite (Sigma_ext (nfeat P) _ (fun j => x j * entryX P j i)) by (intros; apply Rmult_comm).
  unfold nmod. destruct (icept P); [|ring]. replace (nfeat P + 1 - 1)%nat with (nfeat P) by lia. reflexivity.
Qed.
Lemma regfun_R m x : regfun arithR P m x = l1reg P * Sigma m (fun t => Rabs (x t)) + l2reg P * Sigma m (fun t => x t ^ 2).
Proof.
  destruct WF as (_ & _ & H1 & H2). unfold regfun. cbn [lt arithR zero of_Z add mul abs]. rewrite !msum_R.
  replace (zero arithR) with 0 by reflexivity.
  rewrite (Sigma_ext m (fun t => x t * x t) (fun t => x t ^ 2)) by (intros; ring).
  destruct (Rltb 0 (l1reg P)) eqn:E1; destruct (Rltb 0 (l2reg P)) eqn:E2; try apply Rltb_false in E1; try apply Rltb_false in E2;
    try replace (l1reg P) with 0 by lra; try replace (l2reg P) with 0 by lra; ring.
Qed.
Lemma is_zero_R v : is_zero arithR v = true <-> v = 0.
Proof.
  clear WF. unfold is_zero. cbn [le arithR zero of_Z]. replace (zero arithR) with 0 by reflexivity. unfold Rleb.
  destruct (Rle_dec v 0), (Rle_dec 0 v); cbn; split; intros; try discriminate; try lra; auto.
Qed.
Lemma reggrd_R m x g t : reggrd arithR P m x g t = g t + (if Nat.ltb t m then pen_slope (l1reg P) (l2reg P) (x t) else 0).
Proof.
  destruct WF as (_ & _ & H1 & H2). unfold reggrd. destruct (t <? m)%nat; [|ring]. unfold pen_slope.
  cbn [lt arithR of_Z add mul opp]. replace (zero arithR) with 0 by reflexivity.
  destruct (is_zero arithR (x t)) eqn:Z.
  - apply is_zero_R in Z. rewrite Z. rewrite andb_false_r.
    assert (F : Rltb 0 0 = false) by (apply Rltb_false; lra). rewrite F.
    destruct (Rltb 0 (l2reg P)) eqn:E2; ring.
  - assert (NZ : x t <> 0) by (intros Q; apply is_zero_R in Q; congruence). rewrite andb_true_r.
    destruct (Rltb 0 (l1reg P)) eqn:E1; destruct (Rltb 0 (l2reg P)) eqn:E2; destruct (Rltb (x t) 0) eqn:E3;
      try apply Rltb_false in E1; try apply Rltb_false in E2; try replace (l1reg P) with 0 by lra; try replace (l2reg P) with 0 by lra;
      try (destruct (Rltb 0 (x t)) eqn:E4; [|apply Rltb_false in E3; apply Rltb_false in E4; lra]); try ring;
      destruct (Rltb 0 (x t)); ring.
Qed.
Lemma fold_cond_sub (b : nat -> bool) (g : nat -> R) : forall l a,
  fold_left (fun f i => if b i then sub arithR f (g i) else f) l a = a - fold_right Rplus 0 (map (fun i => if b i then g i else 0) l).
Proof.
  clear WF. induction l as [|v l IH]; intros a; cbn; [ring|]. rewrite IH. destruct (b v); cbn; ring.
Qed.
Lemma fold_cond_nested (b : nat -> nat -> bool) (g : nat -> nat -> R) m : forall l a,
  fold_left (fun f k => fold_left (fun f i => if b i k then sub arithR f (g k i) else f) (seq 0 m) f) l a =
  a - fold_right Rplus 0 (map (fun k => Sigma m (fun i => if b i k then g k i else 0)) l).
Proof.
  clear WF. induction l as [|v l IH]; intros a; [cbn; ring|]. cbn [fold_left map fold_right]. rewrite IH.
  rewrite (fold_cond_sub (fun i => b i v) (g v)). fold (Sigma m (fun i => if b i v then g v i else 0)). ring.
Qed.

(** *** two classes *)
Section Two.
Context (c : lconstraint) (H2 : nclass P = 2%nat).
Lemma two_scores B i : class_score P c B i 0%nat = 0 /\ class_score P c B i 1%nat = score P (B 0%nat) i.
Proof. unfold class_score. rewrite H2. cbn. auto. Qed.
Lemma two_lse B i : lse 2 (class_score P c B i) = ln (1 + exp (score P (B 0%nat) i)).
Proof.
  destruct (two_scores B i) as [E0 E1]. unfold lse. rewrite !Sigma_first, Sigma_0. rewrite E0, E1, exp_0. f_equal. ring.
Qed.
Lemma two_matrix x : solver_matrix c P x 0%nat = x.
Proof. unfold solver_matrix. rewrite H2. reflexivity. Qed.
Lemma softplus s : ln (1 + exp (- s)) + s = ln (1 + exp s).
Proof.
  pose proof (exp_pos s). pose proof (exp_pos (- s)).
  rewrite <- (ln_exp s) at 2. rewrite <- ln_mult by lra. f_equal.
  rewrite Rmult_plus_distr_r, <- exp_plus. replace (- s + s) with 0 by ring. rewrite exp_0. ring.
Qed.
Lemma two_loss_R x i : (i < n)%nat ->
  two_loss arithR exp ln P x i = lse 2 (class_score P c (solver_matrix c P x) i) - class_score P c (solver_matrix c P x) i (Z.to_nat (lab P i)).
Proof.
  intros Hi. rewrite two_lse, two_matrix. destruct WF as (_ & HL & _). specialize (HL i Hi). rewrite H2 in HL.
  unfold two_loss, two_lin, label. rewrite eval_features_R.
  assert (E : class_score P c (solver_matrix c P x) i (Z.to_nat (lab P i)) = IZR (lab P i) * score P x i).
  { destruct (two_scores (solver_matrix c P x) i) as [E0 E1]. rewrite two_matrix in E1.
    assert (lab P i = 0 \/ lab P i = 1)%Z as [L|L] by lia; rewrite L; cbn [Z.to_nat]; [rewrite E0|change (Pos.to_nat 1) with 1%nat; rewrite E1]; ring. }
  rewrite E. cbn [lt arithR add sub mul opp of_Z]. replace (zero arithR) with 0 by reflexivity.
  destruct (Rltb (score P x i) 0); [reflexivity|]. rewrite <- (softplus (score P x i)). ring.
Qed.
Lemma two_objective_R x : two_objective arithR exp ln P x = log_cost P c 1 (solver_matrix c P x).
Proof.
  unfold two_objective, log_cost. rewrite nll_lse by auto. rewrite msum_R, regfun_R. cbn [add arithR]. f_equal.
  - apply Sigma_ext. intros i Hi. rewrite two_loss_R by auto. rewrite H2. reflexivity.
  - unfold penalty. rewrite !Sigma_first, !Sigma_0, two_matrix, !Rplus_0_r. reflexivity.
Qed.
Lemma logistic s : exp s / (1 + exp s) = / (1 + exp (- s)).
Proof.
  pose proof (exp_pos s). pose proof (exp_pos (- s)). rewrite exp_Ropp. field. split; lra.
Qed.
Lemma two_pointwise_R x i : (i < n)%nat -> two_pointwise arithR exp P (two_work arithR P x) i = resid P c (solver_matrix c P x) i 1.
Proof.
  intros Hi. destruct WF as (_ & HL & _). specialize (HL i Hi). rewrite H2 in HL.
  unfold two_pointwise, two_work, two_lin, label, resid, probability. cbn [w_lin]. rewrite eval_features_R.
  rewrite H2. rewrite !Sigma_first, Sigma_0. destruct (two_scores (solver_matrix c P x) i) as [E0 E1]. rewrite E0, E1, two_matrix, exp_0.
  cbn [lt arithR add sub mul div opp of_Z]. replace (zero arithR) with 0 by reflexivity. unfold indicator.
  replace (if (lab P i =? Z.of_nat 1)%Z then 1 else 0) with (IZR (lab P i)).
  2:{ assert (lab P i = 0 \/ lab P i = 1)%Z as [L|L] by lia; rewrite L; reflexivity. }
  f_equal. rewrite Rplus_0_r. destruct (Rltb (score P x i) 0); [reflexivity|].
  rewrite logistic. unfold Rdiv. ring.
Qed.
Lemma two_gradient_R xnew x t : (t < nmod P)%nat ->
  two_gradient arithR exp P xnew (two_work arithR P x) x t = cell_slope P c 1 (solver_matrix c P x) 0 t.
Proof.
  intros Ht. unfold two_gradient. replace (if xnew then two_work arithR P x else two_work arithR P x) with (two_work arithR P x) by (destruct xnew; reflexivity).
  rewrite reggrd_R. unfold cell_slope. rewrite two_matrix. change (Nat.ltb 0 1) with true. cbn [andb]. f_equal.
  unfold row_slope, row_class, ext. rewrite H2. cbn [Nat.eqb]. rewrite !msum_R. cbn [add arithR].
  replace (zero arithR) with 0 by reflexivity. destruct (t <? nfeat P)%nat.
  - rewrite Rplus_0_l. apply Sigma_ext. intros i Hi. rewrite two_pointwise_R by auto. cbn [mul arithR]. ring.
  - apply Sigma_ext. intros i Hi. rewrite two_pointwise_R by auto. ring.
Qed.
End Two.

(** *** reference category *)
Section Rsc.
Context (H3 : (2 < nclass P)%nat).
Let K := nclass P.
Lemma not_two : Nat.eqb (nclass P) 2 = false. Proof. apply Nat.eqb_neq. lia. Qed.
Let B (x : nat -> R) := solver_matrix RSC P x.
Lemma rsc_lin_R x k i : rsc_lin arithR P x k i = score P (B x k) i.
Proof. unfold rsc_lin. rewrite eval_features_R. unfold B, solver_matrix. rewrite not_two. reflexivity. Qed.
Lemma rsc_score x k i : class_score P RSC (B x) i k = if Nat.ltb k (K - 1) then rsc_lin arithR P x k i else 0.
Proof. unfold class_score. rewrite not_two, rsc_lin_R. reflexivity. Qed.
Lemma rsc_sum_exp x i m : Sigma K (fun l => exp (class_score P RSC (B x) i l - m)) =
  exp (- m) + Sigma (K - 1) (fun k => exp (rsc_lin arithR P x k i - m)).
Proof.
  rewrite Sigma_split_last by (unfold K; lia). rewrite rsc_score, Nat.ltb_irrefl. rewrite Rplus_comm. f_equal; [f_equal; ring|].
  apply Sigma_ext. intros k Hk. rewrite rsc_score. apply Nat.ltb_lt in Hk. rewrite Hk. reflexivity.
Qed.
Lemma rsc_lse_R x i : rsc_lse arithR exp ln P (rsc_work arithR P x) i = lse K (class_score P RSC (B x) i).
Proof.
  unfold rsc_lse. cbn [w_lin w_max rsc_work].
  rewrite (fold_sum_R (fun k => exp (sub arithR (rsc_lin arithR P x k i) (max_from_zero arithR (nclass P - 1) (fun k0 => rsc_lin arithR P x k0 i))))).
  set (m := max_from_zero _ _ _). cbn [add sub opp arithR].
  rewrite <- (lse_shift K ltac:(unfold K; lia) _ m). rewrite rsc_sum_exp. reflexivity.
Qed.
Lemma rsc_own x i : (i < n)%nat -> Sigma (K - 1) (fun k => if of_class P i k then rsc_lin arithR P x k i else 0) = class_score P RSC (B x) i (Z.to_nat (lab P i)).
Proof.
  intros Hi. rewrite <- (indicator_pick P WF i (class_score P RSC (B x) i) Hi). fold K.
  rewrite (Sigma_split_last K) by (unfold K; lia). rewrite (rsc_score x (K - 1)), Nat.ltb_irrefl, Rmult_0_r, Rplus_0_r.
  apply Sigma_ext. intros k Hk. rewrite rsc_score. apply Nat.ltb_lt in Hk. rewrite Hk.
  unfold indicator, of_class. destruct (Z.eqb (lab P i) (Z.of_nat k)); ring.
Qed.
Lemma rsc_objective_R x : rsc_objective arithR exp ln P x = log_cost P RSC 1 (solver_matrix RSC P x).
Proof.
  unfold rsc_objective. rewrite (fold_cond_nested (of_class P) (fun k i => w_lin (rsc_work arithR P x) k i)).
  fold (Sigma (nclass P - 1) (fun k => Sigma (nsam P) (fun i => if of_class P i k then w_lin (rsc_work arithR P x) k i else 0))).
  rewrite (fold_sum_R (fun i => rsc_lse arithR exp ln P (rsc_work arithR P x) i)).
  rewrite regfun_R. cbn [add arithR]. replace (zero arithR) with 0 by reflexivity. unfold log_cost. f_equal.
  - rewrite nll_lse by auto. rewrite Sigma_swap, Sigma_sub.
    rewrite (Sigma_ext (nsam P) (fun i => rsc_lse _ _ _ _ _ i) (fun i => lse (nclass P) (class_score P RSC (solver_matrix RSC P x) i))) by (intros; apply rsc_lse_R).
    rewrite (Sigma_ext (nsam P) (fun j => Sigma (nclass P - 1) (fun i => if of_class P j i then w_lin (rsc_work arithR P x) i j else 0))
               (fun i => class_score P RSC (solver_matrix RSC P x) i (Z.to_nat (lab P i)))) by (intros; apply rsc_own; auto).
    ring.
  - unfold penalty. rewrite !Sigma_first, !Sigma_0, !Rplus_0_r. unfold solver_matrix. rewrite not_two. reflexivity.
Qed.
Lemma rsc_pointwise_R x k i : (k < K - 1)%nat -> rsc_pointwise arithR exp ln P (rsc_work arithR P x) k i = - resid P RSC (B x) i k.
Proof.
  intros Hk. unfold rsc_pointwise. rewrite rsc_lse_R. cbn [w_lin rsc_work opp sub add arithR of_Z]. unfold resid.
  rewrite probability_lse by (unfold K in *; lia). fold K. rewrite rsc_score. apply Nat.ltb_lt in Hk. rewrite Hk.
  unfold indicator, of_class. destruct (Z.eqb (lab P i) (Z.of_nat k)); ring.
Qed.
Lemma rsc_gradient_R xnew x k j : (k < K - 1)%nat -> (j < nmod P)%nat ->
  rsc_gradient arithR exp ln P xnew (rsc_work arithR P x) x (k * nmod P + j)%nat = cell_slope P RSC 1 (B x) k j.
Proof.
  intros Hk Hj. unfold rsc_gradient. replace (if xnew then rsc_work arithR P x else rsc_work arithR P x) with (rsc_work arithR P x) by (destruct xnew; reflexivity).
  rewrite reggrd_R.
  assert (Ed : ((k * nmod P + j) / nmod P)%nat = k) by (rewrite Nat.div_add_l by lia; rewrite Nat.div_small by lia; lia).
  assert (Em : ((k * nmod P + j) mod nmod P)%nat = j) by (rewrite Nat.add_comm, Nat.mod_add by lia; apply Nat.mod_small; lia).
  rewrite Ed, Em. unfold cell_slope. f_equal.
  - rewrite (fold_sub_R (fun i => if (j <? nfeat P)%nat then mul arithR (entryX P j i) (rsc_pointwise arithR exp ln P (rsc_work arithR P x) k i)
                                  else rsc_pointwise arithR exp ln P (rsc_work arithR P x) k i)).
    replace (zero arithR) with 0 by reflexivity. unfold Rminus. rewrite Rplus_0_l.
    match goal with |- - fold_right Rplus 0 (map ?f (seq 0 (nsam P))) = _ => change (- Sigma (nsam P) f = row_slope P RSC (B x) k j) end.
    rewrite <- Sigma_opp. unfold row_slope, row_class, ext. rewrite not_two. apply Sigma_ext. intros i Hi.
    rewrite rsc_pointwise_R by auto. cbn [mul arithR]. destruct (j <? nfeat P)%nat; ring.
  - unfold B, solver_matrix. rewrite not_two. assert (Hn : (nfeat P <= nmod P)%nat) by (unfold nmod; lia).
    assert (Hc : k = 0%nat \/ (nmod P <= k * nmod P)%nat) by (destruct k; [left; reflexivity|right; nia]).
    destruct (Nat.ltb_spec (k * nmod P + j) (nfeat P)); destruct (Nat.ltb_spec k 1); destruct (Nat.ltb_spec j (nfeat P)); cbn [andb]; try reflexivity; exfalso; destruct Hc; subst; lia.
Qed.
End Rsc.

(** *** symmetric side *)
Section Ssc.
Context (H3 : (2 < nclass P)%nat).
Let K := nclass P.
Let B (x : nat -> R) := solver_matrix SSC P x.
Lemma ssc_lin_R x k i : (k < K)%nat -> ssc_lin arithR P x k i = class_score P SSC (B x) i k.
Proof.
  intros Hk. unfold ssc_lin, class_score. rewrite (fold_sum_R (fun j => mul arithR (entryX P j i) (x (j * nclass P + k)%nat))).
  rewrite not_two by auto. unfold score, B, solver_matrix. rewrite not_two by auto. cbn [mul arithR].
  rewrite (Sigma_ext (nfeat P) _ (fun j => x (j * nclass P + k)%nat * entryX P j i)) by (intros; apply Rmult_comm).
  rewrite Rplus_comm. f_equal. destruct (icept P) eqn:E; [|reflexivity]. f_equal. unfold ssc_size, nmod. rewrite E. unfold K in *. nia.
Qed.
Lemma ssc_lse_R x i : add arithR (w_max (ssc_work arithR exp P x) i) (ln (w_sum (ssc_work arithR exp P x) i)) = lse K (class_score P SSC (B x) i).
Proof.
  cbn [w_max w_sum ssc_work]. rewrite msum_R. set (m := max_from_zero _ _ _). cbn [add sub arithR].
  rewrite <- (lse_shift K ltac:(unfold K; lia) _ m). f_equal. f_equal. apply Sigma_ext. intros k Hk. rewrite ssc_lin_R by auto. reflexivity.
Qed.
Lemma ssc_objective_R x : ssc_objective arithR exp ln P x = log_cost P SSC (nclass P) (solver_matrix SSC P x).
Proof.
  unfold ssc_objective, log_cost. rewrite regfun_R. cbn [add arithR]. f_equal.
  - rewrite nll_lse by auto.
    assert (G : forall l a, (forall i, In i l -> (i < n)%nat) ->
       fold_left (fun f i => fold_left (fun f0 k => if of_class P i k then sub arithR f0 (w_lin (ssc_work arithR exp P x) k i) else f0) (seq 0 (nclass P)) f
                   + (w_max (ssc_work arithR exp P x) i + ln (w_sum (ssc_work arithR exp P x) i))) l a =
       a + fold_right Rplus 0 (map (fun i => lse K (class_score P SSC (B x) i) - class_score P SSC (B x) i (Z.to_nat (lab P i))) l)).
    { induction l as [|i l IH]; intros a HL; [cbn; ring|]. cbn [fold_left map fold_right]. rewrite IH by (intros; apply HL; right; auto).
      rewrite (fold_cond_sub (of_class P i) (fun k => w_lin (ssc_work arithR exp P x) k i)).
      pose proof (ssc_lse_R x i) as E. cbn [add arithR] in E. rewrite E.
      fold (Sigma (nclass P) (fun k => if of_class P i k then w_lin (ssc_work arithR exp P x) k i else 0)).
      rewrite <- (indicator_pick P WF i (class_score P SSC (B x) i)) by (apply HL; left; auto). fold K.
      rewrite (Sigma_ext K (fun k => if of_class P i k then w_lin (ssc_work arithR exp P x) k i else 0)
                 (fun l => indicator P i l * class_score P SSC (B x) i l)).
      - ring.
      - intros k Hk. cbn [w_lin ssc_work]. rewrite ssc_lin_R by auto. unfold indicator, of_class. destruct (Z.eqb _ _); ring. }
    rewrite G by (intros i Hi; apply in_seq in Hi; unfold n; lia). replace (zero arithR) with 0 by reflexivity. rewrite Rplus_0_l. reflexivity.
  - rewrite !Sigma_rows. unfold penalty, solver_matrix. rewrite not_two by auto. f_equal; f_equal; rewrite Sigma_swap; reflexivity.
Qed.
Lemma ssc_pointwise_R x k i : (k < K)%nat -> ssc_pointwise arithR exp P (ssc_work arithR exp P x) k i = resid P SSC (B x) i k.
Proof.
  intros Hk. unfold ssc_pointwise, resid.
  assert (E : div arithR (exp (sub arithR (w_lin (ssc_work arithR exp P x) k i) (w_max (ssc_work arithR exp P x) i))) (w_sum (ssc_work arithR exp P x) i)
              = probability K (class_score P SSC (B x) i) k).
  { rewrite probability_lse by (unfold K; lia). rewrite <- ssc_lse_R. cbn [w_lin ssc_work w_max]. rewrite ssc_lin_R by auto.
    set (m := max_from_zero _ _ _). cbn [w_sum ssc_work]. fold m. rewrite msum_R. cbn [add sub div arithR].
    set (S := Sigma _ _). assert (0 < S) by (apply Sigma_pos; [unfold K in *; lia|intros; apply exp_pos]).
    replace (class_score P SSC (B x) i k - (m + ln S)) with ((class_score P SSC (B x) i k - m) + - ln S) by ring.
    rewrite exp_plus, exp_Ropp, exp_ln by auto. reflexivity. }
  rewrite E. fold K. unfold indicator, of_class. cbn [sub arithR of_Z]. destruct (Z.eqb _ _); ring.
Qed.
Lemma ssc_gradient_R x j k : (k < K)%nat -> (j < nmod P)%nat ->
  ssc_gradient arithR exp P false (ssc_work arithR exp P x) x (j * K + k)%nat = cell_slope P SSC K (B x) k j.
Proof.
  intros Hk Hj. unfold ssc_gradient. rewrite reggrd_R.
  assert (Ed : ((j * K + k) / nclass P)%nat = j) by (fold K; rewrite Nat.div_add_l by lia; rewrite Nat.div_small by lia; lia).
  assert (Em : ((j * K + k) mod nclass P)%nat = k) by (fold K; rewrite Nat.add_comm, Nat.mod_add by lia; apply Nat.mod_small; lia).
  rewrite Ed, Em. unfold cell_slope. f_equal.
  - rewrite msum_R. unfold row_slope, row_class, ext. rewrite not_two by auto. apply Sigma_ext. intros i Hi.
    rewrite ssc_pointwise_R by auto. cbn [mul arithR]. destruct (j <? nfeat P)%nat; ring.
  - unfold B, solver_matrix. rewrite not_two by auto. fold K. assert (Hk' := Hk). apply Nat.ltb_lt in Hk'. rewrite Hk'. cbn [andb].
    destruct (Nat.ltb_spec (j * K + k) (nfeat P * K)); destruct (Nat.ltb_spec j (nfeat P)); try reflexivity; nia.
Qed.
End Ssc.
End Code.
