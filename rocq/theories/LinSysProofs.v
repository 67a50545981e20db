From Coq Require Import ZArith List Reals Lra Lia Bool.
From Verif Require Import NnModel RealArith CdModel CdSpec CdProofs LogProofs LinModel LinSpec LinProofs.
Import ListNotations.
Local Open Scope R_scope.

(** ** the cost lies above its tangents *)
Section Tangent.
Context (X : list (list R)) (y : list R) (icept : bool).
Let n := length y.
Let p := length X.
Definition resid (b : list R) (i : nat) : R := nth i y 0 - fitted X icept b i.
Definition icept_part (b : list R) : R := if icept then nth p b 0 else 0.
Lemma fitted_part b i : fitted X icept b i = Sigma p (fun j => nth j b 0 * elem X j i) + icept_part b. Proof. reflexivity. Qed.
Lemma sse_resid b : sse X y icept b = Sigma n (fun i => resid b i ^ 2). Proof. reflexivity. Qed.
Lemma sse_tangent b b' :
  sse X y icept b - 2 * (Sigma p (fun j => (nth j b' 0 - nth j b 0) * Sigma n (fun i => elem X j i * resid b i)) +
                         (icept_part b' - icept_part b) * Sigma n (resid b)) <= sse X y icept b'.
Proof.
  rewrite !sse_resid.
  assert (E : Sigma p (fun j => (nth j b' 0 - nth j b 0) * Sigma n (fun i => elem X j i * resid b i)) + (icept_part b' - icept_part b) * Sigma n (resid b) =
              Sigma n (fun i => (fitted X icept b' i - fitted X icept b i) * resid b i)).
  { rewrite (Sigma_ext p _ (fun j => Sigma n (fun i => (nth j b' 0 - nth j b 0) * (elem X j i * resid b i)))) by (intros; rewrite Sigma_mul; reflexivity).
    rewrite Sigma_swap, <- Sigma_mul, <- Sigma_add. apply Sigma_ext. intros i Hi.
    rewrite !fitted_part.
    replace (Sigma p (fun j => nth j b' 0 * elem X j i) + icept_part b' - (Sigma p (fun j => nth j b 0 * elem X j i) + icept_part b))
      with (Sigma p (fun j => nth j b' 0 * elem X j i) - Sigma p (fun j => nth j b 0 * elem X j i) + (icept_part b' - icept_part b)) by ring.
    rewrite <- Sigma_sub, Rmult_plus_distr_r, <- Sigma_mulr. f_equal. apply Sigma_ext. intros. ring. }
  rewrite E, <- Sigma_mul, <- Sigma_sub. apply Sigma_le. intros i Hi. unfold resid at 3.
  set (f' := fitted X icept b' i). unfold resid. set (f := fitted X icept b i). pose proof (pow2_ge_0 (f' - f)). nra.
Qed.
Lemma cost_tangent c l1 l2 b b' : 0 <= c -> 0 <= l1 -> 0 <= l2 ->
  cost c X y icept l1 l2 b +
    (Sigma p (fun j => (pen_slope l1 l2 (nth j b 0) - 2 * c * Sigma n (fun i => elem X j i * resid b i)) * (nth j b' 0 - nth j b 0)) -
     2 * c * Sigma n (resid b) * (icept_part b' - icept_part b)) <= cost c X y icept l1 l2 b'.
Proof.
  intros Hc H1 H2. unfold cost. fold p. pose proof (sse_tangent b b') as T. apply (Rmult_le_compat_l c) in T; auto.
  assert (Pn : forall d, l1 * Sigma p (fun j => Rabs (nth j d 0)) + l2 * Sigma p (fun j => nth j d 0 ^ 2) = Sigma p (fun j => l1 * Rabs (nth j d 0) + l2 * nth j d 0 ^ 2)).
  { intros d. rewrite Sigma_add, !Sigma_mul. reflexivity. }
  assert (T2 : Sigma p (fun j => l1 * Rabs (nth j b 0) + l2 * nth j b 0 ^ 2) + Sigma p (fun j => pen_slope l1 l2 (nth j b 0) * (nth j b' 0 - nth j b 0)) <=
               Sigma p (fun j => l1 * Rabs (nth j b' 0) + l2 * nth j b' 0 ^ 2)).
  { rewrite <- Sigma_add. apply Sigma_le. intros j Hj. apply pen_tangent; auto. }
  rewrite <- !Pn in T2.
  rewrite (Sigma_ext p (fun j => (pen_slope l1 l2 (nth j b 0) - _) * _)
    (fun j => pen_slope l1 l2 (nth j b 0) * (nth j b' 0 - nth j b 0) - 2 * c * ((nth j b' 0 - nth j b 0) * Sigma n (fun i => elem X j i * resid b i)))) by (intros; ring).
  rewrite Sigma_sub, Sigma_mul. lra.
Qed.
Lemma slope0 l2 b : pen_slope 0 l2 b = 2 * l2 * b.
Proof. unfold pen_slope. destruct (Rltb b 0), (Rltb 0 b); lra. Qed.
Lemma ridge_min c l2 b : 0 <= c -> 0 <= l2 -> length b = ncoef X icept ->
  (forall k, (k < p)%nat -> c * Sigma n (fun i => elem X k i * resid b i) = l2 * nth k b 0) ->
  (icept = true -> Sigma n (resid b) = 0) -> minimises (ncoef X icept) (cost c X y icept 0 l2) b.
Proof.
  intros Hc H2 Hl Hk Hi. split; auto. intros b' Hb'.
  pose proof (cost_tangent c 0 l2 b b' Hc (Rle_refl 0) H2) as T.
  rewrite (Sigma_ext p _ (fun _ => 0)) in T.
  2:{ intros j Hj. rewrite slope0, (Rmult_assoc 2 c), Hk by auto. ring. }
  rewrite Sigma_zero in T.
  assert (E : 2 * c * Sigma n (resid b) * (icept_part b' - icept_part b) = 0).
  { unfold icept_part. destruct icept; [rewrite Hi by auto|]; ring. }
  lra.
Qed.
End Tangent.

(** ** the systems *)
Section Systems.
Context (X : list (list R)) (y : list R) (icept : bool) (lambda : R).
Context (Sh : shaped X y) (Hl : 0 <= lambda).
Let n := length y.
Let p := length X.
Lemma col_n j : (j < p)%nat -> length (nth j X []) = n.
Proof. apply col_len0. exact Sh. Qed.
Lemma xdot k l : (k < p)%nat -> (l < p)%nat -> cd_dot arithR (nth k X []) (nth l X []) = Sigma n (fun i => elem X k i * elem X l i).
Proof. intros. apply cd_dot_R; apply col_n; auto. Qed.
Lemma lam_pos (a : R) (t : bool) : (if t && lt arithR (zero arithR) lambda then add arithR a lambda else a) = a + if t then lambda else 0.
Proof. cbn. destruct t; cbn; [|ring]. destruct (Rltb 0 lambda) eqn:E; [reflexivity|]. apply Rltb_false in E. assert (lambda = 0) by lra. lra. Qed.
Lemma normal_min b : length b = ncoef X icept ->
  solves (ncoef X icept) (xtx arithR icept X y lambda) (xty arithR X y) b -> minimises (ncoef X icept) (cost 1 X y icept 0 lambda) b.
Proof.
  intros Lb Hs.
  assert (Q : forall k, (k < ncoef X icept)%nat ->
    Sigma (ncoef X icept) (fun l => xtx arithR icept X y lambda k l * nth l b 0) =
    Sigma p (fun l => xtx arithR icept X y lambda k l * nth l b 0) + xtx arithR icept X y lambda k p * icept_part X icept b).
  { intros k _. unfold ncoef, icept_part. fold p. destruct icept; [rewrite Nat.add_1_r, Sigma_last; reflexivity|].
    rewrite Nat.add_0_r. ring. }
  apply ridge_min; auto; [lra| |].
  - intros k Hk. fold n. rewrite Rmult_1_l.
    assert (Hk' : (k < ncoef X icept)%nat) by (unfold ncoef; fold p; lia).
    specialize (Hs k Hk'). rewrite (Q k Hk') in Hs.
    unfold xtx, xty in Hs. fold p in Hs. rewrite (proj2 (Nat.ltb_lt k p) Hk), Nat.ltb_irrefl in Hs.
    rewrite (cd_dot_R _ _ n) in Hs by (auto using col_n).
    rewrite (cd_sum_R), col_n in Hs by auto.
    rewrite (Sigma_ext p _ (fun l => Sigma n (fun i => elem X k i * elem X l i) * nth l b 0 + if Nat.eqb l k then lambda * nth l b 0 else 0)) in Hs.
    2:{ intros l Hll. rewrite (proj2 (Nat.ltb_lt l p) Hll), xdot, lam_pos, Nat.eqb_sym by auto. destruct (Nat.eqb l k); ring. }
    rewrite Sigma_add, (Sigma_pick p k (fun l => lambda * nth l b 0)) in Hs by auto.
    rewrite (Sigma_ext p _ (fun l => Sigma n (fun i => elem X k i * elem X l i * nth l b 0))), Sigma_swap in Hs by (intros; rewrite Sigma_mulr; reflexivity).
    rewrite (Sigma_ext n (fun i => elem X k i * resid X y icept b i)
       (fun i => elem X k i * nth i y 0 - (Sigma p (fun l => elem X k i * elem X l i * nth l b 0) + elem X k i * icept_part X icept b))).
    2:{ intros i Hi. unfold resid. rewrite fitted_part. fold p.
        rewrite (Sigma_ext p (fun l => elem X k i * elem X l i * nth l b 0) (fun l => elem X k i * (nth l b 0 * elem X l i))) by (intros; ring).
        rewrite Sigma_mul. ring. }
    rewrite Sigma_sub, Sigma_add, Sigma_mulr. unfold elem in *. lra.
  - intros Ei. fold n.
    assert (Hk' : (p < ncoef X icept)%nat) by (unfold ncoef; fold p; rewrite Ei; lia).
    specialize (Hs p Hk'). rewrite (Q p Hk') in Hs.
    unfold xtx, xty in Hs. fold p in Hs. rewrite !Nat.ltb_irrefl in Hs. rewrite samples_R, cd_sum_R in Hs. fold n in Hs.
    rewrite (Sigma_ext p _ (fun l => Sigma n (fun i => elem X l i * nth l b 0))), Sigma_swap in Hs.
    2:{ intros l Hll. rewrite (proj2 (Nat.ltb_lt l p) Hll), cd_sum_R, col_n, Sigma_mulr by auto. reflexivity. }
    unfold resid. rewrite (Sigma_ext n _ (fun i => nth i y 0 - (Sigma p (fun l => elem X l i * nth l b 0) + icept_part X icept b))).
    2:{ intros i Hi. rewrite fitted_part. fold p. do 2 f_equal. apply Sigma_ext. intros. ring. }
    rewrite Sigma_sub, Sigma_add, Sigma_const. lra.
Qed.

Lemma row_len i : length (row arithR X i) = p. Proof. unfold row. apply map_length. Qed.
Lemma row_nth i j : (j < p)%nat -> nth j (row arithR X i) 0 = elem X j i.
Proof. intros H. unfold row. rewrite (nth_map_any _ X [] 0) by auto. reflexivity. Qed.
Lemma from_dual_nth d k : length d = n -> (k < p)%nat -> nth k (from_dual arithR icept X d) 0 = Sigma n (fun i => elem X k i * nth i d 0).
Proof.
  intros Hd Hk. unfold from_dual. rewrite app_nth1 by (rewrite map_length; auto). rewrite (nth_map_any _ X [] 0) by auto.
  apply cd_dot_R; auto. apply col_n; auto.
Qed.
Lemma from_dual_icept d : icept_part X icept (from_dual arithR icept X d) = 0.
Proof. unfold icept_part, from_dual. destruct icept; auto. rewrite app_last; [reflexivity|apply map_length]. Qed.
Lemma from_dual_len d : length (from_dual arithR icept X d) = ncoef X icept.
Proof. unfold from_dual, ncoef. rewrite app_length, map_length. destruct icept; reflexivity. Qed.
Lemma dual_min d : length d = n -> (icept = true -> centred X y) ->
  solves n (xxt arithR X lambda) (fun i => nth i y 0) d -> minimises (ncoef X icept) (cost 1 X y icept 0 lambda) (from_dual arithR icept X d).
Proof.
  intros Ld Ce Hs. set (b := from_dual arithR icept X d).
  assert (Rs : forall i, (i < n)%nat -> resid X y icept b i = lambda * nth i d 0).
  { intros i Hi. specialize (Hs i Hi). unfold resid. rewrite fitted_part. fold p.
    replace (icept_part X icept b) with 0 by (symmetry; apply from_dual_icept).
    rewrite (Sigma_ext n _ (fun k => Sigma p (fun j => elem X j i * elem X j k * nth k d 0) + if Nat.eqb k i then lambda * nth k d 0 else 0)) in Hs.
    2:{ intros k Hk. unfold xxt. rewrite lam_pos, (cd_dot_R _ _ p), Sigma_mulr, Nat.eqb_sym by (apply row_len).
        rewrite (Sigma_ext p _ (fun j => elem X j i * elem X j k)) by (intros; rewrite !row_nth by auto; reflexivity). destruct (Nat.eqb k i); ring. }
    rewrite Sigma_add, (Sigma_pick n i (fun k => lambda * nth k d 0)), Sigma_swap in Hs by auto.
    rewrite (Sigma_ext p _ (fun j => Sigma n (fun k => elem X j i * elem X j k * nth k d 0))).
    2:{ intros j Hj. unfold b. rewrite from_dual_nth, <- Sigma_mulr by auto. apply Sigma_ext. intros. ring. }
    lra. }
  apply ridge_min; [lra|auto|apply from_dual_len| |].
  - intros k Hk. fold n. unfold b at 2. rewrite from_dual_nth by auto. rewrite Rmult_1_l, <- Sigma_mul. apply Sigma_ext. intros i Hi. rewrite Rs by auto. ring.
  - intros Ei. fold n. destruct (Ce Ei) as [Cy Cx]. unfold resid.
    rewrite Sigma_sub. fold n in Cy. rewrite Cy.
    rewrite (Sigma_ext n (fitted X icept b) (fun i => Sigma p (fun j => nth j b 0 * elem X j i))).
    2:{ intros i Hi. rewrite fitted_part. fold p. unfold b at 2. rewrite from_dual_icept. ring. }
    rewrite Sigma_swap, (Sigma_ext p _ (fun _ => 0)), Sigma_zero; [ring|]. intros j Hj. transitivity (nth j b 0 * Sigma n (elem X j)); [apply Sigma_mul|]. transitivity (nth j b 0 * 0); [f_equal; exact (Cx j Hj)|ring].
Qed.

(** QR factors *)
Lemma app_part (x : list R) : length x = p -> icept_part X icept (qr_coef arithR icept x) = 0.
Proof. intros H. unfold icept_part, qr_coef. destruct icept; auto. rewrite app_last; [reflexivity|exact H]. Qed.
Lemma qr_min Q Rm x : lambda = 0 -> is_qr n p (fun i j => elem X j i) Q Rm -> length x = p -> (icept = true -> centred X y) ->
  solves p Rm (qr_rhs arithR Q y) x -> minimises (ncoef X icept) (cost 1 X y icept 0 lambda) (qr_coef arithR icept x).
Proof.
  intros Hz (LQ & FQ & Or & Xe) Lx Ce Hs. set (b := qr_coef arithR icept x).
  assert (Bn : forall j, (j < p)%nat -> nth j b 0 = nth j x 0) by (intros j Hj; unfold b, qr_coef; apply app_nth1; lia).
  assert (Fit : forall i, (i < n)%nat -> fitted X icept b i = Sigma p (fun a => elem Q a i * Sigma n (fun i' => elem Q a i' * nth i' y 0))).
  { intros i Hi. rewrite fitted_part. unfold b at 2. rewrite app_part, Rplus_0_r by auto. fold p.
    rewrite (Sigma_ext p _ (fun j => Sigma p (fun a => elem Q a i * (Rm a j * nth j x 0)))).
    2:{ intros j Hj. rewrite Bn, (Xe i j Hi Hj), Rmult_comm, <- Sigma_mulr by auto. apply Sigma_ext. intros. ring. }
    rewrite Sigma_swap. apply Sigma_ext. intros a Ha. rewrite Sigma_mul, (Hs a Ha). f_equal. unfold qr_rhs. apply cd_dot_R; auto.
    rewrite Forall_forall in FQ. apply FQ, nth_In. lia. }
  apply ridge_min; [lra|auto|unfold b, qr_coef, ncoef; rewrite app_length, Lx; destruct icept; reflexivity| |].
  - intros k Hk. fold n. rewrite Hz, Rmult_1_l, Rmult_0_l.
    rewrite (Sigma_ext n _ (fun i => Sigma p (fun a => Rm a k * (elem Q a i * nth i y 0)) -
       Sigma p (fun a => Sigma p (fun a' => Rm a k * Sigma n (fun i' => elem Q a' i' * nth i' y 0) * (elem Q a i * elem Q a' i))))).
    2:{ intros i Hi. unfold resid. rewrite Fit, (Xe i k Hi Hk), Rmult_minus_distr_l by auto. f_equal.
        - rewrite <- Sigma_mulr. apply Sigma_ext. intros. ring.
        - rewrite <- Sigma_mulr. apply Sigma_ext. intros a Ha. rewrite <- Sigma_mul. apply Sigma_ext. intros. ring. }
    rewrite Sigma_sub, Sigma_swap, (Sigma_swap n p), <- Sigma_sub, (Sigma_ext p _ (fun _ => 0)), Sigma_zero; [reflexivity|].
    intros a Ha. rewrite Sigma_mul, Sigma_swap.
    rewrite (Sigma_ext p _ (fun a' => if Nat.eqb a' a then Rm a k * Sigma n (fun i' => elem Q a' i' * nth i' y 0) else 0)).
    2:{ intros a' Ha'. rewrite Sigma_mul, (Or a a' Ha Ha'), Nat.eqb_sym. destruct (Nat.eqb a' a); ring. }
    rewrite (Sigma_pick p a (fun a' => Rm a k * Sigma n (fun i' => elem Q a' i' * nth i' y 0))) by auto. ring.
  - intros Ei. fold n. destruct (Ce Ei) as [Cy Cx]. fold n in Cy. unfold resid. rewrite Sigma_sub, Cy.
    rewrite (Sigma_ext n (fitted X icept b) (fun i => Sigma p (fun j => nth j b 0 * elem X j i))).
    2:{ intros i Hi. rewrite fitted_part. fold p. unfold b at 2. rewrite app_part by auto. ring. }
    rewrite Sigma_swap, (Sigma_ext p _ (fun _ => 0)), Sigma_zero; [ring|]. intros j Hj.
    transitivity (nth j b 0 * Sigma n (elem X j)); [apply Sigma_mul|]. transitivity (nth j b 0 * 0); [f_equal; exact (Cx j Hj)|ring].
Qed.
Lemma qr_from_nth rows Q z q j : length Q = q -> length z = q -> (j < rows)%nat -> nth j (qr_from arithR Q z rows) 0 = Sigma q (fun a => elem Q a j * nth a z 0).
Proof.
  intros LQ Lz Hj. unfold qr_from. rewrite (nth_map_any _ (seq 0 rows) 0%nat 0) by (rewrite seq_length; auto). rewrite seq_nth, Nat.add_0_l by auto.
  rewrite (cd_dot_R _ _ q) by (rewrite ?map_length; auto). apply Sigma_ext. intros a Ha. rewrite (nth_map_any _ Q [] 0) by lia. reflexivity.
Qed.
Lemma qr_dual_fit Q Rm z : is_qr p n (fun j i => elem X j i) Q Rm -> length z = n -> icept = false ->
  solves n (fun i a => Rm a i) (fun i => nth i y 0) z ->
  length (qr_from arithR Q z p) = p /\ forall i, (i < n)%nat -> fitted X icept (qr_from arithR Q z p) i = nth i y 0.
Proof.
  intros (LQ & FQ & Or & Xe) Lz Ei Hs. split; [unfold qr_from; rewrite map_length, seq_length; auto|].
  intros i Hi. rewrite fitted_part. unfold icept_part. rewrite Ei, Rplus_0_r. fold p. rewrite <- (Hs i Hi).
  rewrite (Sigma_ext p _ (fun j => Sigma n (fun a => Sigma n (fun a' => Rm a i * nth a' z 0 * (elem Q a j * elem Q a' j))))).
  2:{ intros j Hj. rewrite (qr_from_nth p Q z n), (Xe j i Hj Hi), Rmult_comm, <- Sigma_mulr by auto.
      apply Sigma_ext. intros a Ha. rewrite <- Sigma_mul. apply Sigma_ext. intros. ring. }
  rewrite Sigma_swap. apply Sigma_ext. intros a Ha. rewrite Sigma_swap.
  rewrite (Sigma_ext n _ (fun a' => if Nat.eqb a' a then Rm a i * nth a' z 0 else 0)).
  2:{ intros a' Ha'. rewrite Sigma_mul, (Or a a' Ha Ha'), Nat.eqb_sym. destruct (Nat.eqb a' a); ring. }
  apply (Sigma_pick n a (fun a' => Rm a i * nth a' z 0)); auto.
Qed.
Lemma qr_dual_min Q Rm z : lambda = 0 -> is_qr p n (fun j i => elem X j i) Q Rm -> length z = n -> icept = false ->
  solves n (fun i a => Rm a i) (fun i => nth i y 0) z ->
  minimises (ncoef X icept) (cost 1 X y icept 0 lambda) (qr_from arithR Q z p).
Proof.
  intros Hz Hq Lz Ei Hs. destruct (qr_dual_fit Q Rm z Hq Lz Ei Hs) as [L F].
  assert (R0 : forall i, (i < n)%nat -> resid X y icept (qr_from arithR Q z p) i = 0) by (intros i Hi; unfold resid; rewrite F by auto; ring).
  apply ridge_min; auto; [lra|unfold ncoef; rewrite L, Ei; fold p; lia| |congruence].
  intros k Hk. fold n. rewrite (Sigma_ext n _ (fun _ => 0)), Sigma_zero by (intros i Hi; rewrite R0 by auto; ring). rewrite Hz. ring.
Qed.

(** singular values *)
Context (U : list (list R)) (S : list R) (Vt : list (list R)) (eps : R).
Context (Sv : is_svd X n U S Vt).
Context (Cut : lambda = 0 -> forall a, (a < length S)%nat -> nth a S 0 = 0 \/ 100 * eps * Rmax (nth 0 S 0) 1 < nth a S 0).
Context (Eps : 0 <= eps).
Let r := length S.
Let g (a : nat) := svd_scale arithR eps lambda (nth 0 S 0) (nth a S 0).
Lemma g_ok a : (a < r)%nat -> nth a S 0 * (1 - nth a S 0 * g a) = lambda * g a.
Proof.
  intros Ha. unfold g, svd_scale. destruct (eqz_R_dec lambda) as [[-> Z]|[-> Z]]; cbn [negb].
  - rewrite Z. destruct (Cut Z a Ha) as [C|C].
    + rewrite C. destruct (lt arithR _ 0); ring.
    + rewrite tmax_R. cbn [lt mul of_Z arithR]. change (IZR 1) with 1.
      rewrite (proj2 (Rltb_true _ _) C). cbn [div arithR].
      assert (0 <= 100 * eps * Rmax (nth 0 S 0) 1) by (apply Rmult_le_pos; [lra|]; pose proof (Rmax_r (nth 0 S 0) 1); lra).
      field. lra.
  - cbn [div add mul arithR]. pose proof (Rle_0_sqr (nth a S 0)) as Q. unfold Rsqr in Q. field. lra.
Qed.
Let uy (a : nat) := Sigma n (fun i => elem U a i * nth i y 0).
Lemma svd_nth k : (k < p)%nat -> nth k (svd_coef arithR icept eps lambda U S Vt p y) 0 = Sigma r (fun a => elem Vt a k * (g a * uy a)).
Proof.
  intros Hk. destruct Sv as (LU & LV & FU & FV & _). fold r in LU, LV.
  unfold svd_coef. rewrite app_nth1 by (rewrite map_length, seq_length; auto).
  rewrite (nth_map_any _ (seq 0 p) 0%nat 0) by (rewrite seq_length; auto). rewrite seq_nth, Nat.add_0_l by auto.
  rewrite (cd_dot_R _ _ r); [|rewrite map_length; auto|rewrite map_length, combine_length, LU; unfold r; lia].
  apply Sigma_ext. intros a Ha. rewrite (nth_map_any _ Vt [] 0) by lia. f_equal.
  rewrite (nth_map_any _ (combine U S) ([], 0) 0) by (rewrite combine_length, LU; unfold r in *; lia).
  rewrite nth_combine_any by auto. cbn [fst snd mul arithR]. unfold g. f_equal.
  apply cd_dot_R; auto. rewrite Forall_forall in FU. apply FU, nth_In. lia.
Qed.
Lemma svd_icept : icept_part X icept (svd_coef arithR icept eps lambda U S Vt p y) = 0.
Proof. unfold icept_part, svd_coef. destruct icept; auto. rewrite app_last; [reflexivity|rewrite map_length, seq_length; auto]. Qed.
Lemma svd_len : length (svd_coef arithR icept eps lambda U S Vt p y) = ncoef X icept.
Proof. unfold svd_coef, ncoef. rewrite app_length, map_length, seq_length. destruct icept; reflexivity. Qed.
Lemma svd_min : (icept = true -> centred X y) ->
  minimises (ncoef X icept) (cost 1 X y icept 0 lambda) (svd_coef arithR icept eps lambda U S Vt p y).
Proof.
  intros Ce. set (b := svd_coef _ _ _ _ _ _ _ _ _). destruct Sv as (LU & LV & FU & FV & Or & Xe). fold r in LU, LV, Or, Xe. fold p in FV, Or, Xe.
  assert (Fit : forall i, (i < n)%nat -> fitted X icept b i = Sigma r (fun a => elem U a i * (nth a S 0 * g a * uy a))).
  { intros i Hi. rewrite fitted_part. unfold b at 2. rewrite svd_icept, Rplus_0_r. fold p.
    rewrite (Sigma_ext p _ (fun j => Sigma r (fun a => Sigma r (fun a' => elem U a i * nth a S 0 * (g a' * uy a') * (elem Vt a j * elem Vt a' j))))).
    2:{ intros j Hj. unfold b. rewrite svd_nth, (Xe j i Hj Hi), Rmult_comm, <- Sigma_mulr by auto.
        apply Sigma_ext. intros a Ha. rewrite <- Sigma_mul. apply Sigma_ext. intros. ring. }
    rewrite Sigma_swap. apply Sigma_ext. intros a Ha. rewrite Sigma_swap.
    rewrite (Sigma_ext r _ (fun a' => if Nat.eqb a' a then elem U a i * nth a S 0 * (g a' * uy a') else 0)).
    { rewrite (Sigma_pick r a (fun a' => elem U a i * nth a S 0 * (g a' * uy a'))) by auto. ring. }
    intros a' Ha'. rewrite Sigma_mul, (proj2 (Or a a' Ha Ha')), Nat.eqb_sym. destruct (Nat.eqb a' a); ring. }
  apply ridge_min; [lra|auto|apply svd_len| |].
  - intros k Hk. fold n. rewrite Rmult_1_l. unfold b at 2. rewrite svd_nth by auto.
    rewrite <- Sigma_mul.
    rewrite (Sigma_ext n _ (fun i => Sigma r (fun a => nth a S 0 * elem Vt a k * (elem U a i * nth i y 0)) -
       Sigma r (fun a => Sigma r (fun a' => nth a S 0 * elem Vt a k * (nth a' S 0 * g a' * uy a') * (elem U a i * elem U a' i))))).
    2:{ intros i Hi. unfold resid. rewrite Fit by auto. rewrite (Xe k i Hk Hi), Rmult_minus_distr_l. f_equal.
        - rewrite <- Sigma_mulr. apply Sigma_ext. intros. ring.
        - rewrite <- Sigma_mulr. apply Sigma_ext. intros a Ha. rewrite <- Sigma_mul. apply Sigma_ext. intros. ring. }
    rewrite Sigma_sub, Sigma_swap, (Sigma_swap n r), <- Sigma_sub. apply Sigma_ext. intros a Ha.
    rewrite Sigma_mul. fold (uy a). rewrite Sigma_swap.
    rewrite (Sigma_ext r _ (fun a' => if Nat.eqb a' a then nth a S 0 * elem Vt a k * (nth a' S 0 * g a' * uy a') else 0)).
    2:{ intros a' Ha'. rewrite Sigma_mul, (proj1 (Or a a' Ha Ha')), Nat.eqb_sym. destruct (Nat.eqb a' a); ring. }
    rewrite (Sigma_pick r a (fun a' => nth a S 0 * elem Vt a k * (nth a' S 0 * g a' * uy a'))) by auto.
    replace (nth a S 0 * elem Vt a k * uy a - nth a S 0 * elem Vt a k * (nth a S 0 * g a * uy a))
      with (nth a S 0 * (1 - nth a S 0 * g a) * (elem Vt a k * uy a)) by ring.
    rewrite g_ok by auto. ring.
  - intros Ei. fold n. destruct (Ce Ei) as [Cy Cx]. fold n in Cy. unfold resid.
    rewrite Sigma_sub, Cy.
    rewrite (Sigma_ext n (fitted X icept b) (fun i => Sigma p (fun j => nth j b 0 * elem X j i))).
    2:{ intros i Hi. rewrite fitted_part. fold p. unfold b at 2. rewrite svd_icept. ring. }
    rewrite Sigma_swap, (Sigma_ext p _ (fun _ => 0)), Sigma_zero; [ring|]. intros j Hj. transitivity (nth j b 0 * Sigma n (elem X j)); [apply Sigma_mul|]. transitivity (nth j b 0 * 0); [f_equal; exact (Cx j Hj)|ring].
Qed.
End Systems.
