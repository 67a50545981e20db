From Coq Require Import ZArith List Reals Lra Lia Bool.
From Verif Require Import NnModel RealArith CdModel CdSpec CdProofs LogProofs LinModel LinSpec LinProofs LinScaleProofs LinMainProofs LinSysProofs.
Import ListNotations.
Local Open Scope R_scope.

Lemma nth_first (l : list R) k j : (j < k)%nat -> nth j (firstn k l) 0 = nth j l 0.
Proof. revert k j. induction l as [|a l IH]; intros [|k] [|j] H; cbn; try lia; try reflexivity. apply IH. lia. Qed.
Section Grad.
Context (X : list (list R)) (y : list R) (icept : bool) (l1 l2 : R).
Context (Sh : shaped X y) (H1 : 0 <= l1) (H2 : 0 <= l2).
Let n := length y.
Let p := length X.
Lemma matvec_spec coef : length coef = ncoef X icept ->
  length (matvec arithR X y icept coef) = n /\ forall i, (i < n)%nat -> nth i (matvec arithR X y icept coef) 0 = fitted X icept coef i.
Proof.
  intros Hc. destruct Sh as [_ F].
  set (v := fold_left (fun v cx => cd_axpy arithR (fst cx) (snd cx) v) (combine coef X) (map (fun _ => zero arithR) y)).
  assert (V : length v = n /\ forall i, (i < n)%nat -> nth i v 0 = Sigma p (fun j => nth j coef 0 * elem X j i)).
  { unfold v. rewrite combine_firstn. fold p.
    destruct (fold_axpy X y (firstn p coef) X (map (fun _ => zero arithR) y)) as [A B].
    - rewrite map_length. exact F.
    - rewrite firstn_length. unfold ncoef in Hc. fold p in Hc |- *. destruct icept; lia.
    - rewrite map_length in A, B. split; [exact A|]. intros i Hi. rewrite B by exact Hi.
      rewrite nth_map_R by exact Hi. unfold zero. cbn. rewrite Rplus_0_l. apply Sigma_ext. intros j Hj.
      rewrite nth_first by exact Hj. reflexivity. }
  destruct V as [V1 V2]. unfold matvec. fold v. unfold fitted. fold p. destruct icept.
  - rewrite map_length. split; [exact V1|]. intros i Hi. rewrite nth_map_R by lia. cbn. rewrite V2 by exact Hi. reflexivity.
  - split; [exact V1|]. intros i Hi. rewrite V2 by exact Hi. lra.
Qed.
Lemma mse_residual_spec coef : length coef = ncoef X icept ->
  length (mse_residual arithR X y icept coef) = n /\
  forall i, (i < n)%nat -> nth i (mse_residual arithR X y icept coef) 0 = - resid X y icept coef i.
Proof.
  intros Hc. destruct (matvec_spec coef Hc) as [M1 M2]. unfold mse_residual. split.
  - rewrite map_length, combine_length, M1. unfold n. lia.
  - intros i Hi. rewrite (map_combine_nth (fun q => add arithR (snd q) (mul arithR (opp arithR (of_Z arithR 1)) (fst q))) 0) by (unfold n in *; lia).
    cbn [fst snd add mul opp of_Z arithR]. rewrite M2 by auto. unfold resid. change (IZR 1) with 1. ring.
Qed.
Lemma regfun_R coef : length coef = ncoef X icept ->
  regfun arithR X l1 l2 coef = l1 * Sigma p (fun j => Rabs (nth j coef 0)) + l2 * Sigma p (fun j => nth j coef 0 ^ 2).
Proof.
  intros Hc. assert (Lw : length (firstn p coef) = p) by (rewrite firstn_length, Hc; unfold ncoef; fold p; lia).
  unfold regfun. change (nmod X) with p. rewrite fold_abs, (cd_dot_R (firstn p coef) (firstn p coef) p) by auto. rewrite Lw.
  cbn [lt mul add arithR]. change (zero arithR) with 0. rewrite Rplus_0_l.
  rewrite (Sigma_ext p (fun j => Rabs (nth j (firstn p coef) 0)) (fun j => Rabs (nth j coef 0))) by (intros; rewrite nth_first; auto).
  rewrite (Sigma_ext p (fun i => nth i (firstn p coef) 0 * nth i (firstn p coef) 0) (fun j => nth j coef 0 ^ 2)) by (intros; rewrite nth_first by auto; ring).
  f_equal.
  - destruct (Rltb 0 l1) eqn:E; [ring|]. apply Rltb_false in E. assert (Z : l1 = 0) by lra. rewrite Z. ring.
  - destruct (Rltb 0 l2) eqn:E; [ring|]. apply Rltb_false in E. assert (Z : l2 = 0) by lra. rewrite Z. ring.
Qed.
Lemma objfun_cost coef : length coef = ncoef X icept ->
  objfun_mse arithR X y l1 l2 icept coef = cost (/ (2 * INR n)) X y icept l1 l2 coef.
Proof.
  intros Hc. destruct (mse_residual_spec coef Hc) as [L E]. unfold objfun_mse. rewrite regfun_R by auto.
  rewrite cd_sum_R, map_length, L.
  rewrite (Sigma_ext n _ (fun i => resid X y icept coef i ^ 2)).
  2:{ intros i Hi. rewrite nth_map_R by lia. rewrite E by auto. cbn [mul arithR]. ring. }
  unfold cost. rewrite sse_resid. fold n p. cbn [add div of_Z arithR]. unfold samples. fold n. rewrite mult_IZR, <- INR_IZR_INZ.
  pose proof (n_pos1 X y Sh) as Hn. fold n in Hn. field. lra.
Qed.
Lemma reg_slope_R b g : reg_slope arithR l1 l2 b g = g + pen_slope l1 l2 b.
Proof.
  unfold reg_slope, pen_slope. cbn [lt add mul opp of_Z arithR]. change (zero arithR) with 0. change (IZR 2) with 2.
  set (h := if Rltb 0 l1 && _ then _ else _).
  assert (Eh : h = g + (if Rltb b 0 then - l1 else if Rltb 0 b then l1 else 0)).
  { unfold h. destruct (eqz_R_dec b) as [[-> Z]|[-> Z]]; cbn [negb].
    - rewrite andb_false_r, Z. destruct (Rltb 0 0) eqn:E; [apply Rltb_true in E; lra|ring].
    - rewrite andb_true_r. destruct (Rltb b 0) eqn:E; destruct (Rltb 0 b) eqn:E'; destruct (Rltb 0 l1) eqn:E1; try apply Rltb_true in E; try apply Rltb_true in E';
        try apply Rltb_true in E1; try apply Rltb_false in E; try apply Rltb_false in E'; try apply Rltb_false in E1; lra. }
  rewrite Eh. destruct (Rltb 0 l2) eqn:E; [lra|]. apply Rltb_false in E. assert (Z : l2 = 0) by lra. rewrite Z. ring.
Qed.
Lemma fold_scaled a (v : list R) : forall s, fold_left (fun s v => add arithR s (mul arithR a v)) v s = s + a * Sigma (length v) (fun i => nth i v 0).
Proof.
  induction v as [|x v IH]; intros s; cbn [fold_left length]; [rewrite Sigma_0; ring|]. rewrite IH, Sigma_first. cbn [add mul arithR nth]. ring.
Qed.
Lemma grad_spec coef : length coef = ncoef X icept ->
  length (objgrd_mse arithR X y l1 l2 icept coef) = ncoef X icept /\
  (forall j, (j < p)%nat -> nth j (objgrd_mse arithR X y l1 l2 icept coef) 0 =
     pen_slope l1 l2 (nth j coef 0) - 2 * / (2 * INR n) * Sigma n (fun i => elem X j i * resid X y icept coef i)) /\
  (icept = true -> nth p (objgrd_mse arithR X y l1 l2 icept coef) 0 = - (2 * / (2 * INR n) * Sigma n (resid X y icept coef))).
Proof.
  intros Hc. destruct (mse_residual_spec coef Hc) as [L E]. pose proof (n_pos1 X y Sh) as Hn. fold n in Hn.
  assert (Ea : div arithR (of_Z arithR 1) (of_Z arithR (samples y)) = 2 * / (2 * INR n)).
  { rewrite samples_R. fold n. cbn [div of_Z arithR]. change (IZR 1) with 1. field. lra. }
  unfold objgrd_mse. rewrite Ea. fold p. set (a := 2 * / (2 * INR n)). split; [|split].
  - rewrite app_length, map_length, seq_length. unfold ncoef. fold p. destruct icept; reflexivity.
  - intros j Hj. rewrite app_nth1 by (rewrite map_length, seq_length; auto).
    rewrite (nth_map_any _ (seq 0 p) 0%nat 0) by (rewrite seq_length; auto). rewrite seq_nth, Nat.add_0_l by auto.
    rewrite reg_slope_R, (cd_dot_R _ _ n) by (auto; apply col_len0; auto). cbn [mul arithR]. change (at_ arithR coef j) with (nth j coef 0).
    rewrite (Sigma_ext n _ (fun i => - (elem X j i * resid X y icept coef i))).
    2:{ intros i Hi. rewrite E by auto. unfold elem. ring. }
    rewrite Sigma_opp. ring.
  - intros Ei. rewrite Ei at 1. rewrite app_last by (rewrite map_length, seq_length; auto).
    rewrite fold_scaled, L. change (zero arithR) with 0.
    rewrite (Sigma_ext n _ (fun i => - resid X y icept coef i)) by (intros; apply E; auto). rewrite Sigma_opp. fold (resid X y icept coef).
    change (Sigma n (fun i => resid X y icept coef i)) with (Sigma n (resid X y icept coef)). ring.
Qed.
Lemma grad_tangent coef coef' : length coef = ncoef X icept -> length coef' = ncoef X icept ->
  cost (/ (2 * INR n)) X y icept l1 l2 coef +
    Sigma (ncoef X icept) (fun t => nth t (objgrd_mse arithR X y l1 l2 icept coef) 0 * (nth t coef' 0 - nth t coef 0))
  <= cost (/ (2 * INR n)) X y icept l1 l2 coef'.
Proof.
  intros Hc Hc'. destruct (grad_spec coef Hc) as (_ & G1 & G2). pose proof (n_pos1 X y Sh) as Hn. fold n in Hn.
  assert (Hi : 0 <= / (2 * INR n)) by (apply Rlt_le, Rinv_0_lt_compat; lra).
  eapply Rle_trans; [|apply (cost_tangent X y icept (/ (2 * INR n)) l1 l2 coef coef'); auto].
  apply Rplus_le_compat_l. right. fold n p.
  assert (E : Sigma (ncoef X icept) (fun t => nth t (objgrd_mse arithR X y l1 l2 icept coef) 0 * (nth t coef' 0 - nth t coef 0)) =
    Sigma p (fun t => nth t (objgrd_mse arithR X y l1 l2 icept coef) 0 * (nth t coef' 0 - nth t coef 0)) +
    (if icept then nth p (objgrd_mse arithR X y l1 l2 icept coef) 0 * (nth p coef' 0 - nth p coef 0) else 0)).
  { unfold ncoef. fold p. generalize (objgrd_mse arithR X y l1 l2 icept coef). intros g. destruct icept.
    - rewrite Nat.add_1_r, Sigma_last. reflexivity.
    - rewrite Nat.add_0_r. ring. }
  rewrite E. match goal with |- ?a + ?b = ?c - ?d => cut (a = c /\ b = - d); [intros [-> ->]; ring|] end. split.
  - apply Sigma_ext. intros j Hj. rewrite G1 by auto. ring.
  - unfold icept_part. fold p. assert (C : icept = true \/ icept = false) by (clear; destruct icept; auto).
    destruct C as [C|C]; [rewrite (G2 C)|]; rewrite C; ring.
Qed.
End Grad.

(** ** predictions and warm starts *)
Section Warm.
Context (m : solver) (sc : scaling) (icept : bool) (X : list (list R)) (y : list R).
Context (Sh : shaped X y) (Sc : scalable sc icept X y).
Let p := length X.
Let P := prep arithR m sc icept X y.
Lemma warm_rescale b : sc <> ScNone -> root sc y = 1 \/ icept = false -> length b = ncoef X icept ->
  scale_warmstart arithR icept (p_scales P) (p_shifts P) p b = rescale sc icept X y b.
Proof.
  intros Hs Hr Hl. pose proof (prep_ok m sc icept X y Sh Sc) as [A _]. unfold arrays_ok in A. fold P p in A.
  assert (A' : nth p (p_scales P) 0 = s_y sc icept y /\ nth p (p_shifts P) 0 = m_y sc icept y /\
    forall j, (j < p)%nat -> nth j (p_scales P) 0 = s_x sc X y j /\ nth j (p_shifts P) 0 = m_x sc icept X y j).
  { revert A. generalize P. clear - Hs. intros P A. destruct sc; [congruence| | |]; destruct A as (_ & _ & A); exact A. }
  destruct A' as (A1 & A2 & A3). destruct (warm_spec (p_scales P) (p_shifts P) p icept b Hl) as (L & W1 & W2).
  rewrite A1 in W1, W2. rewrite A2 in W2. pose proof (sy_pos sc icept X y Sc) as Hsy.
  apply list_ext; [rewrite L, rescale_len; auto|]. intros j Hj. rewrite L, Hl in Hj.
  destruct (Nat.lt_ge_cases j p) as [Hp|Hp].
  - rewrite W1, rescale_nth by auto. rewrite (proj1 (A3 j Hp)). field. lra.
  - destruct (last_index icept X j Hj Hp) as [Ei ->]. fold p. pose proof (rescale_last sc icept X y b Ei) as RL. fold p in RL. rewrite (W2 Ei), RL.
    destruct Hr as [Hr|Hr]; [|congruence]. rewrite Hr, Rmult_1_r. do 2 f_equal. apply Sigma_ext. intros j Hj'. rewrite (proj2 (A3 j Hj')). reflexivity.
Qed.
Lemma warm_round b : sc <> ScNone -> length b = ncoef X icept ->
  revert arithR sc icept (p_scales P) (p_shifts P) p (scale_warmstart arithR icept (p_scales P) (p_shifts P) p b) = b.
Proof.
  intros Hs Hl. pose proof (prep_ok m sc icept X y Sh Sc) as [A _]. unfold arrays_ok in A. fold P p in A.
  assert (A' : nth p (p_scales P) 0 = s_y sc icept y /\ forall j, (j < p)%nat -> nth j (p_scales P) 0 = s_x sc X y j).
  { revert A. generalize P. clear - Hs. intros P A. destruct sc; [congruence| | |]; destruct A as (_ & _ & A1 & _ & A); split; auto; intros j Hj; apply (A j Hj). }
  destruct A' as (A1 & A3). destruct (warm_spec (p_scales P) (p_shifts P) p icept b Hl) as (L & W1 & W2).
  set (w := scale_warmstart _ _ _ _ _ _) in *.
  destruct (revert_spec (p_scales P) (p_shifts P) p sc icept w Hs (eq_trans L Hl)) as (L' & R1 & R2).
  set (r := revert _ _ _ _ _ _ _) in *. pose proof (sy_pos sc icept X y Sc) as Hsy.
  assert (R1' : forall j, (j < p)%nat -> nth j r 0 = nth j b 0).
  { intros j Hj. rewrite R1, W1, A1, (A3 j Hj) by auto. pose proof (sx_ne sc icept X y Sc j Hj). field. split; auto. lra. }
  apply list_ext; [congruence|]. intros j Hj. rewrite L', L, Hl in Hj.
  destruct (Nat.lt_ge_cases j p) as [Hp|Hp]; [auto|].
  destruct (last_index icept X j Hj Hp) as [Ei ->]. fold p. rewrite (R2 Ei), (W2 Ei), A1.
  rewrite (Sigma_ext p (fun j => nth j (p_shifts P) 0 * nth j r 0) (fun j => nth j (p_shifts P) 0 * nth j b 0)) by (intros; rewrite R1'; auto).
  field. lra.
Qed.
Lemma revert_predicted b x : length b = ncoef X icept -> root sc y = 1 \/ icept = false \/ nth p b 0 = 0 ->
  predicted p icept (revert arithR sc icept (p_scales P) (p_shifts P) p b) x =
  m_y sc icept y + s_y sc icept y * root sc y * predicted p icept b (fun j => (x j - m_x sc icept X y j) / (s_x sc X y j * root sc y)).
Proof. intros Hl Hr. unfold P, p. rewrite (revert_unscale m sc icept X y Sh Sc b Hl Hr). apply unscale_predicted; auto. Qed.
Lemma warm_predicted b i : sc <> ScNone -> root sc y = 1 \/ icept = false -> length b = ncoef X icept -> (i < length y)%nat ->
  fitted X icept b i = m_y sc icept y + s_y sc icept y * root sc y * fitted (p_X P) icept (scale_warmstart arithR icept (p_scales P) (p_shifts P) p b) i.
Proof.
  intros Hs Hr Hl Hi. pose proof (prep_ok m sc icept X y Sh Sc) as [_ (_ & Lx & _ & _ & Dx)]. fold P in Lx, Dx.
  rewrite (warm_rescale b Hs Hr Hl). rewrite !fitted_predicted, Lx.
  rewrite <- (unscale_rescale sc icept X y Sh Sc b Hl) at 1.
  rewrite (unscale_predicted sc icept X y Sh Sc). do 2 f_equal. apply predicted_ext. intros j Hj. rewrite Dx by auto. reflexivity.
Qed.
End Warm.
