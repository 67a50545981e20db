From Coq Require Import ZArith List Reals Lra Lia Bool.
From Verif Require Import NnModel RealArith CdModel CdSpec CdProofs LogProofs LinModel LinSpec LinProofs LinScaleProofs.
Import ListNotations.
Local Open Scope R_scope.

Lemma fitted_predicted X icept coef i : fitted X icept coef i = predicted (length X) icept coef (fun j => elem X j i).
Proof. reflexivity. Qed.
Lemma predicted_ext p icept coef x x' : (forall j, (j < p)%nat -> x j = x' j) -> predicted p icept coef x = predicted p icept coef x'.
Proof. intros H. unfold predicted. f_equal. apply Sigma_ext. intros j Hj. rewrite H; auto. Qed.

Section Units.
Context (m : solver) (sc : scaling) (icept : bool) (X : list (list R)) (y : list R).
Context (Sh : shaped X y) (Sc : scalable sc icept X y).
Let n := length y.
Let p := length X.
Let P := prep arithR m sc icept X y.
Let sy := s_y sc icept y.
Let my := m_y sc icept y.
Let sx := s_x sc X y.
Let mx := m_x sc icept X y.
Let rho := root sc y.
Lemma sy_pos : 0 < sy.
Proof.
  clear P. destruct Sc as [H _]. fold sy in H. assert (0 <= sy); [|lra].
  unfold sy, s_y. destruct sc; try lra; destruct icept; apply sqrt_pos.
Qed.
Lemma sx_ne j : (j < p)%nat -> sx j <> 0. Proof. apply Sc. Qed.
Lemma sx_nonneg j : 0 <= sx j. Proof. unfold sx, s_x. destruct sc; try lra. apply sqrt_pos. Qed.
Lemma rho_pos : 0 < rho.
Proof. clear P. pose proof (root_pos X y Sh) as H. unfold rho, root. destruct sc; try lra. Qed.

(** from the units of the scaled problem to those of the user, and back *)
Definition unscale (b : list R) : list R :=
  map (fun j => sy / sx j * nth j b 0) (seq 0 p) ++
  (if icept then [my + sy * rho * nth p b 0 - Sigma p (fun j => mx j * (sy / sx j * nth j b 0))] else []).
Definition rescale (b : list R) : list R :=
  map (fun j => sx j / sy * nth j b 0) (seq 0 p) ++
  (if icept then [(nth p b 0 - my + Sigma p (fun j => mx j * nth j b 0)) / (sy * rho)] else []).
Lemma mapseq_nth (f : nat -> R) l j : (j < p)%nat -> nth j (map f (seq 0 p) ++ l) 0 = f j.
Proof. clear. intros H. rewrite app_nth1 by (rewrite map_length, seq_length; auto).
  rewrite (nth_map_any _ _ 0%nat) by (rewrite seq_length; auto). rewrite seq_nth by auto. reflexivity. Qed.
Lemma mapseq_last (f : nat -> R) v : nth p (map f (seq 0 p) ++ [v]) 0 = v.
Proof. clear. apply app_last. rewrite map_length, seq_length. reflexivity. Qed.
Lemma unscale_len b : length (unscale b) = ncoef X icept.
Proof. clear. unfold unscale, ncoef. rewrite app_length, map_length, seq_length. destruct icept; reflexivity. Qed.
Lemma rescale_len b : length (rescale b) = ncoef X icept.
Proof. clear. unfold rescale, ncoef. rewrite app_length, map_length, seq_length. destruct icept; reflexivity. Qed.
Lemma unscale_nth b j : (j < p)%nat -> nth j (unscale b) 0 = sy / sx j * nth j b 0. Proof. intros H. unfold unscale. rewrite mapseq_nth; auto. Qed.
Lemma rescale_nth b j : (j < p)%nat -> nth j (rescale b) 0 = sx j / sy * nth j b 0. Proof. intros H. unfold rescale. rewrite mapseq_nth; auto. Qed.
Lemma no_icept : icept = false -> my = 0 /\ forall j, mx j = 0.
Proof. clear. intros E. unfold my, mx, m_y, m_x. rewrite E. destruct sc; auto. Qed.

Lemma icept_cases : icept = true \/ icept = false. Proof. clear. destruct icept; auto. Qed.
Lemma unscale_last b : icept = true ->
  nth p (unscale b) 0 = my + sy * rho * nth p b 0 - Sigma p (fun j => mx j * (sy / sx j * nth j b 0)).
Proof. intros E. unfold unscale. rewrite E. apply mapseq_last. Qed.
Lemma rescale_last b : icept = true -> nth p (rescale b) 0 = (nth p b 0 - my + Sigma p (fun j => mx j * nth j b 0)) / (sy * rho).
Proof. intros E. unfold rescale. rewrite E. apply mapseq_last. Qed.
Lemma last_index j : (j < ncoef X icept)%nat -> (p <= j)%nat -> icept = true /\ j = p.
Proof. clear. unfold ncoef. fold p. destruct icept; intros; split; auto; lia. Qed.
Lemma unscale_predicted b (x : nat -> R) :
  predicted p icept (unscale b) x = my + sy * rho * predicted p icept b (fun j => (x j - mx j) / (sx j * rho)).
Proof.
  pose proof rho_pos as Hr. unfold predicted.
  rewrite (Sigma_ext p (fun j => nth j (unscale b) 0 * x j) (fun j => sy / sx j * nth j b 0 * x j)) by (intros; rewrite unscale_nth; auto).
  rewrite Rmult_plus_distr_l, <- Sigma_mul.
  rewrite (Sigma_ext p (fun i => sy * rho * (nth i b 0 * ((x i - mx i) / (sx i * rho))))
             (fun j => sy / sx j * nth j b 0 * x j - mx j * (sy / sx j * nth j b 0))).
  2:{ intros j Hj. pose proof (sx_ne j Hj). field. split; auto. lra. }
  rewrite Sigma_sub.
  destruct icept_cases as [Ei|Ei].
  - rewrite (unscale_last b Ei), Ei. ring.
  - destruct (no_icept Ei) as [E1 E2]. rewrite E1, Ei.
    rewrite (Sigma_ext p (fun i => mx i * (sy / sx i * nth i b 0)) (fun _ => 0)) by (intros; rewrite E2; ring).
    rewrite Sigma_zero. ring.
Qed.
Lemma unscale_rescale b : length b = ncoef X icept -> unscale (rescale b) = b.
Proof.
  intros Hl. apply list_ext; [rewrite unscale_len; auto|]. rewrite unscale_len. intros j Hj.
  pose proof sy_pos as Hs. pose proof rho_pos as Hr.
  destruct (Nat.lt_ge_cases j p) as [Hjp|Hjp].
  - rewrite unscale_nth, rescale_nth by auto. pose proof (sx_ne j Hjp). field. lra.
  - destruct (last_index j Hj Hjp) as [Ei ->]. rewrite (unscale_last _ Ei), (rescale_last _ Ei).
    rewrite (Sigma_ext p (fun j => mx j * (sy / sx j * nth j (rescale b) 0)) (fun j => mx j * nth j b 0)).
    + field. lra.
    + intros j Hj'. rewrite rescale_nth by auto. pose proof (sx_ne j Hj'). field. lra.
Qed.

(** revert_scaling is [unscale], but for the root of n_samples at the intercept *)
Lemma revert_unscale b : length b = ncoef X icept -> rho = 1 \/ icept = false \/ nth p b 0 = 0 ->
  revert arithR sc icept (p_scales P) (p_shifts P) p b = unscale b.
Proof.
  intros Hl Hi. pose proof (prep_ok m sc icept X y Sh Sc) as [A _]. unfold arrays_ok in A. fold P in A.
  destruct (match sc as s return {s = ScNone} + {s <> ScNone} with ScNone => left eq_refl | _ => ltac:(right; discriminate) end) as [Es|Es].
  - assert (E : revert arithR sc icept (p_scales P) (p_shifts P) p b = b) by (unfold revert; rewrite Es; reflexivity). rewrite E.
    apply list_ext; [rewrite unscale_len; auto|]. rewrite Hl. intros j Hj.
    assert (Q : sy = 1 /\ my = 0 /\ rho = 1 /\ (forall k, sx k = 1) /\ (forall k, mx k = 0)).
    { unfold sy, my, sx, mx, rho, s_y, m_y, s_x, m_x, root. rewrite Es. auto. }
    destruct Q as (Q1 & Q2 & Q3 & Q4 & Q5).
    destruct (Nat.lt_ge_cases j p) as [Hjp|Hjp].
    + rewrite unscale_nth by auto. rewrite Q1, Q4. field.
    + destruct (last_index j Hj Hjp) as [Ei ->]. rewrite (unscale_last _ Ei), Q1, Q2, Q3. rewrite (Sigma_ext p _ (fun _ => 0)) by (intros; rewrite Q5; ring).
      rewrite Sigma_zero. ring.
  - assert (A' : length (p_scales P) = (p + 1)%nat /\ length (p_shifts P) = (p + 1)%nat /\
      nth p (p_scales P) 0 = sy /\ nth p (p_shifts P) 0 = my /\
      forall j, (j < p)%nat -> nth j (p_scales P) 0 = sx j /\ nth j (p_shifts P) 0 = mx j).
    { unfold sy, my, sx, mx. destruct sc; [contradiction| | |]; exact A. }
    clear A. destruct A' as (_ & _ & A1 & A2 & A3).
    destruct (revert_spec (p_scales P) (p_shifts P) p sc icept b Es) as (L & Rj & Ri).
    { rewrite Hl. unfold ncoef. fold p. reflexivity. }
    apply list_ext; [rewrite L, unscale_len; auto|]. rewrite L, Hl. intros j Hj.
    assert (Rj' : forall j, (j < p)%nat -> nth j (revert arithR sc icept (p_scales P) (p_shifts P) p b) 0 = nth j (unscale b) 0).
    { intros k Hk. rewrite Rj, unscale_nth by auto. rewrite A1, (proj1 (A3 k Hk)). reflexivity. }
    destruct (Nat.lt_ge_cases j p) as [Hjp|Hjp]; [auto|].
    destruct (last_index j Hj Hjp) as [Ei ->].
    rewrite (Ri Ei). rewrite A1, A2. rewrite (unscale_last _ Ei).
    rewrite (Sigma_ext p (fun j => nth j (p_shifts P) 0 * nth j (revert arithR sc icept (p_scales P) (p_shifts P) p b) 0)
               (fun j => mx j * (sy / sx j * nth j b 0))).
    + destruct Hi as [E|[E|E]]; [rewrite E; ring|congruence|rewrite E; ring].
    + intros k Hk. rewrite Rj' by auto. rewrite unscale_nth by auto. rewrite (proj2 (A3 k Hk)). reflexivity.
Qed.

(** ** costs *)
Lemma sse_units b : sse X y icept (unscale b) = (sy * rho) ^ 2 * sse (p_X P) (p_y P) icept b.
Proof.
  pose proof (prep_ok m sc icept X y Sh Sc) as [_ (Ly & Lx & _ & Dy & Dx)]. fold P in Ly, Lx, Dy, Dx.
  pose proof sy_pos as Hs. pose proof rho_pos as Hr.
  unfold sse. rewrite Ly. rewrite <- Sigma_mul. apply Sigma_ext. intros i Hi.
  rewrite !fitted_predicted, Lx. fold p. rewrite unscale_predicted.
  rewrite (predicted_ext p icept b (fun j => elem (p_X P) j i) (fun j => (elem X j i - mx j) / (sx j * rho))) by (intros; apply Dx; auto).
  rewrite Dy by auto. fold my sy rho. field. lra.
Qed.
Lemma abs_units b : Sigma p (fun j => Rabs (sx j * nth j (unscale b) 0)) = sy * Sigma p (fun j => Rabs (nth j b 0)).
Proof.
  pose proof sy_pos as Hs. rewrite <- Sigma_mul. apply Sigma_ext. intros j Hj. rewrite unscale_nth by auto. pose proof (sx_ne j Hj).
  replace (sx j * (sy / sx j * nth j b 0)) with (sy * nth j b 0) by (field; auto).
  rewrite Rabs_mult, (Rabs_right sy) by lra. reflexivity.
Qed.
Lemma sq_units b : Sigma p (fun j => (sx j * nth j (unscale b) 0) ^ 2) = sy ^ 2 * Sigma p (fun j => nth j b 0 ^ 2).
Proof. rewrite <- Sigma_mul. apply Sigma_ext. intros j Hj. rewrite unscale_nth by auto. pose proof (sx_ne j Hj). field. auto. Qed.
Lemma cost_units c l1 l2 L1 L2 k b : k * ((sy * rho) ^ 2 / (2 * INR n)) = c -> k * L1 * sy = l1 -> k * L2 * sy ^ 2 = l2 ->
  cost c (p_X P) (p_y P) icept l1 l2 b = k * spread_cost sx L1 L2 X y icept (unscale b).
Proof.
  intros E1 E2 E3. pose proof (prep_ok m sc icept X y Sh Sc) as [_ (Ly & Lx & _)]. fold P in Ly, Lx.
  pose proof (n_pos1 X y Sh) as Hn. fold n in Hn.
  unfold cost, spread_cost. rewrite Lx. fold n p. rewrite sse_units, abs_units, sq_units, <- E1, <- E2, <- E3. field. lra.
Qed.
Lemma minimises_units (f g : list R -> R) k : 0 < k -> (forall b, f b = k * g (unscale b)) ->
  forall b, minimises (ncoef X icept) f b -> minimises (ncoef X icept) g (unscale b).
Proof.
  intros Hk E b [Hl Hb]. split; [apply unscale_len|]. intros c Hc. specialize (Hb (rescale c) (rescale_len c)).
  rewrite !E, (unscale_rescale c Hc) in Hb. apply (Rmult_le_reg_l k); auto.
Qed.
Lemma minimises_units_back (f g : list R -> R) k : 0 < k -> (forall b, f b = k * g (unscale b)) ->
  forall b, length b = ncoef X icept -> minimises (ncoef X icept) g (unscale b) -> minimises (ncoef X icept) f b.
Proof.
  intros Hk E b Hl [_ Hb]. split; [exact Hl|]. intros c Hc. rewrite !E. apply Rmult_le_compat_l; [lra|]. apply Hb, unscale_len.
Qed.
End Units.

(** centred data leave nothing to the intercept *)
Lemma centred_intercept c l1 l2 X y b : 0 < c -> shaped X y -> centred X y -> length b = ncoef X true ->
  (forall b', length b' = ncoef X true -> cost c X y true l1 l2 b <= cost c X y true l1 l2 b') -> nth (length X) b 0 = 0.
Proof.
  intros Hc Sh [Cy Cx] Hl Hm. set (p := length X). set (v := nth p b 0).
  assert (Hp : (p < length b)%nat) by (rewrite Hl; unfold ncoef; fold p; lia).
  assert (Hu : forall j, (j < p)%nat -> nth j (upd b p 0) 0 = nth j b 0).
  { intros j Hj. rewrite (upd_nth 0) by auto. destruct (Nat.eqb_spec j p); [lia|reflexivity]. }
  assert (Hup : nth p (upd b p 0) 0 = 0) by (rewrite (upd_nth 0), Nat.eqb_refl by auto; reflexivity).
  specialize (Hm (upd b p 0) ltac:(rewrite upd_len; auto)). unfold cost in Hm. fold p in Hm.
  rewrite (Sigma_ext p (fun j => Rabs (nth j (upd b p 0) 0)) (fun j => Rabs (nth j b 0))) in Hm by (intros; rewrite Hu; auto).
  rewrite (Sigma_ext p (fun j => nth j (upd b p 0) 0 ^ 2) (fun j => nth j b 0 ^ 2)) in Hm by (intros; rewrite Hu; auto).
  assert (S : sse X y true (upd b p 0) <= sse X y true b - INR (length y) * v ^ 2).
  { right. unfold sse.
    set (r := fun i => nth i y 0 - Sigma p (fun j => nth j b 0 * elem X j i)).
    rewrite (Sigma_ext (length y) (fun i => (nth i y 0 - fitted X true (upd b p 0) i) ^ 2) (fun i => r i ^ 2)).
    2:{ intros i Hi. unfold fitted, r. fold p. rewrite Hup. rewrite (Sigma_ext p (fun j => nth j (upd b p 0) 0 * elem X j i) (fun j => nth j b 0 * elem X j i)) by (intros; rewrite Hu; auto). ring. }
    rewrite (Sigma_ext (length y) (fun i => (nth i y 0 - fitted X true b i) ^ 2) (fun i => (r i - v) ^ 2)).
    2:{ intros i Hi. unfold fitted, r, v. fold p. ring. }
    rewrite Sigma_sqr_mean. assert (Er : Sigma (length y) r = 0).
    { unfold r. rewrite Sigma_sub, Cy, Sigma_swap. rewrite (Sigma_ext p _ (fun _ => 0)).
      - rewrite Sigma_zero. ring.
      - intros j Hj. specialize (Cx j Hj). rewrite (Sigma_mul (length y) (fun i => elem X j i)), Cx. ring. }
    rewrite Er. ring. }
  pose proof (n_pos1 X y Sh) as Hn.
  assert (c * (INR (length y) * v ^ 2) <= 0).
  { apply (Rmult_le_compat_l c) in S; [|lra]. rewrite Rmult_minus_distr_l in S. lra. }
  assert (0 <= v ^ 2) by apply pow2_ge_0.
  assert (v ^ 2 = 0).
  { apply Rle_antisym; auto. apply (Rmult_le_reg_l (c * INR (length y))); [apply Rmult_lt_0_compat; auto|]. rewrite Rmult_0_r, Rmult_assoc. auto. }
  fold v. apply Rsqr_0_uniq. unfold Rsqr. rewrite <- H1. ring.
Qed.
