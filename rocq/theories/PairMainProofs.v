From Coq Require Import ZArith List Bool Lia Reals Lra.
From Flocq Require Import Core BinarySingleNaN.
From Verif Require Import Par F64 TreeSearchModel NnModel PairModel PairSpec PairProofs PairMetricProofs PairFloatProofs.
Import ListNotations.
Local Open Scope Z_scope.

Lemma good_512 : good_sizes avx512_double. Proof. repeat split; try (cbn; lia); [exists 16|exists 128]; reflexivity. Qed.
Lemma good_2 : good_sizes avx2_double. Proof. repeat split; try (cbn; lia); [exists 64|exists 256]; reflexivity. Qed.
Lemma good_512s : good_sizes avx512_single. Proof. repeat split; try (cbn; lia); [exists 16|exists 128]; reflexivity. Qed.
Lemma good_2s : good_sizes avx2_single. Proof. repeat split; try (cbn; lia); [exists 64|exists 128]; reflexivity. Qed.

(** *** one function of the two rows *)
Section Any.
Context {T : Type} (O : ops T).
Definition row_value (b : sizes) (nrm2 : list T -> T) (eps : T) (mt : @pair_metric T) (k : Z) (x y : Z -> T) : T :=
  after (post_of O (resolve O mt) (fun _ => norm_of O nrm2 eps k x) (fun _ => norm_of O nrm2 eps k y) false) 0 0
    (value (o_zero O) (kernel_of O (resolve O mt)) (KC b) k x y).
Lemma resolve_meant mt : resolve O mt = meant O mt.
Proof. destruct mt; try reflexivity. Qed.
Lemma entry_row b nrm2 eps mt same k x y i j : is_cosine (resolve O mt) = false \/ (same = false /\ 0 <= j < NC b) ->
  entry O b nrm2 eps mt same k x y i j = row_value b nrm2 eps mt k (x i) (y j).
Proof.
  intros H. unfold entry, row_value. destruct (resolve O mt); cbn in *; try reflexivity. destruct H as [H|[-> Hj]]; [discriminate|].
  rewrite Z.mod_small by exact Hj. reflexivity.
Qed.
Lemma row_value_ext b nrm2 eps mt k x y x' y' : 0 < KC b -> (forall p, 0 <= p < k -> x p = x' p /\ y p = y' p) ->
  row_value b nrm2 eps mt k x y = row_value b nrm2 eps mt k x' y'.
Proof.
  intros Hkc H. unfold row_value. rewrite (value_ext (o_zero O) _ (KC b) k x y x' y' Hkc H).
  assert (Hn : norm_of O nrm2 eps k x = norm_of O nrm2 eps k x' /\ norm_of O nrm2 eps k y = norm_of O nrm2 eps k y').
  { unfold norm_of. split; f_equal; apply map_ext_in; intros p Hp; apply in_zrange in Hp; apply (H p Hp). }
  destruct Hn as [-> ->]. reflexivity.
Qed.
Lemma proper_k b sched p_ok (mt : @pair_metric T) o m n k X ldx Y ldy D ldd x y n' :
  proper_call b sched p_ok mt o m n k X ldx Y ldy D ldd x y n' -> 1 <= m /\ 1 <= k.
Proof. intros (H & _). unfold accepted in H. rewrite !andb_true_iff in H. destruct H as [[[[H1 H2] _] _] _]. apply Z.leb_le in H1, H2. auto. Qed.
Lemma pairwise_rows b nrm2 eps mt : good_sizes b -> exists f : Z -> (Z -> T) -> (Z -> T) -> T,
  (forall k x y x' y', (forall p, 0 <= p < k -> x p = x' p /\ y p = y' p) -> f k x y = f k x' y') /\
  forall g sched p_ok o m n k X ldx Y ldy D ldd x y n',
    proper_call b sched p_ok mt o m n k X ldx Y ldy D ldd x y n' ->
    is_cosine (resolve O mt) = false \/ (given Y = true /\ n' <= NC b) ->
    gives O b nrm2 eps g sched mt o m n k X ldx Y ldy D ldd n' (fun i j => f k (x i) (y j)).
Proof.
  intros Hb. exists (row_value b nrm2 eps mt). split.
  - intros. apply row_value_ext; [apply Hb|assumption].
  - intros g sched p_ok o m n k X ldx Y ldy D ldd x y n' Hc Hcos.
    destruct (pairwise_ok O b nrm2 eps g sched p_ok mt o m n k X ldx Y ldy D ldd x y n' Hb Hc) as [D' [E W]].
    exists D'. split; auto. eapply written_ext; [|exact W]. intros i j Hi Hj. apply entry_row.
    destruct Hcos as [H|[H1 H2]]; [left; exact H|right; rewrite H1; cbn; split; [reflexivity|lia]].
Qed.
Lemma pairwise_some b nrm2 eps g sched p_ok mt o m n k X ldx Y ldy D ldd x y n' :
  good_sizes b -> proper_call b sched p_ok mt o m n k X ldx Y ldy D ldd x y n' ->
  exists d, gives O b nrm2 eps g sched mt o m n k X ldx Y ldy D ldd n' d.
Proof.
  intros Hb Hc. eexists. exact (pairwise_ok O b nrm2 eps g sched p_ok mt o m n k X ldx Y ldy D ldd x y n' Hb Hc).
Qed.
Lemma gives_ext b nrm2 eps g sched mt o m n k X ldx Y ldy D ldd n' d d' : (forall i j, 0 <= i < m -> 0 <= j < n' -> d i j = d' i j) ->
  gives O b nrm2 eps g sched mt o m n k X ldx Y ldy D ldd n' d -> gives O b nrm2 eps g sched mt o m n k X ldx Y ldy D ldd n' d'.
Proof. intros H [D' [E W]]. exists D'. split; auto. eapply written_ext; eauto. Qed.

(** *** block sizes *)
Lemma entry_cpu b b' nrm2 eps mt same k x y i j : 0 < KC b -> 0 < KC b' -> 0 <= k ->
  one_sum (resolve O mt) = true -> NC b = NC b' ->
  entry O b nrm2 eps mt same k x y i j = entry O b' nrm2 eps mt same k x y i j.
Proof.
  intros H1 H2 Hk Hm HN. unfold entry. rewrite HN.
  destruct (resolve O mt); try discriminate; cbn [kernel_of]; rewrite (value_single _ _ (KC b)), (value_single _ _ (KC b')) by assumption; reflexivity.
Qed.
End Any.

(** *** real numbers *)
Local Notation sqrt := R_sqrt.sqrt.
Local Open Scope R_scope.
Lemma single_real (step : R -> R * R -> R) (t : R * R -> R) : (forall g e, step g e = g + t e) ->
  forall v ps, single step v ps = v + fold_right Rplus 0 (map t ps).
Proof. intros H v ps. revert v. induction ps as [|e ps IH]; intro v; cbn; [ring|]. change (single step (step v e) ps = v + (t e + fold_right Rplus 0 (map t ps))). rewrite IH, H. ring. Qed.
Lemma rsum_ext k f g : (forall p, f p = g p) -> rsum k f = rsum k g.
Proof. intro H. unfold rsum. f_equal. apply map_ext. exact H. Qed.
Definition real_term (pw : R -> R -> R) (mt : @pair_metric R) (e : R * R) : R :=
  match mt with
  | PEuclidean | PSqeuclidean => Rsqr (fst e - snd e)
  | PManhattan => Rabs (fst e - snd e)
  | PCosine => fst e * snd e
  | PMinkowski q => pw (Rabs (fst e - snd e)) q
  end.
Lemma kernel_real pw mt v ps : kernel_of (real_ops pw) mt v ps = v + fold_right Rplus 0 (map (real_term pw mt) ps).
Proof.
  destruct mt; cbn [kernel_of];
    [unfold dual; rewrite (dual_real _ (real_term pw PEuclidean)) with (n := length ps)|unfold dual; rewrite (dual_real _ (real_term pw PSqeuclidean)) with (n := length ps)
     |apply single_real|apply single_real|apply single_real]; try (apply le_n); try (intros; unfold square_step, abs_step, dot_step, pow_step, real_term, Rsqr; cbn; ring).
Qed.
Lemma value_kernel_real pw mt kc k x y : (0 < kc)%Z -> (0 <= k)%Z ->
  value 0 (kernel_of (real_ops pw) mt) kc k x y = rsum k (fun p => real_term pw mt (x p, y p)).
Proof. intros H1 H2. apply value_real; auto. apply kernel_real. Qed.
Lemma norm_real pw nrm2 eps k x : norm_contract nrm2 ->
  norm_of (real_ops pw) nrm2 eps k x = (if Rle_dec (sqrt (rsum k (fun p => Rsqr (x p)))) eps then 1 else sqrt (rsum k (fun p => Rsqr (x p)))).
Proof.
  intro H. unfold norm_of, safe_norm. rewrite H, map_map. cbn. unfold rsum. destruct (Rle_dec _ _); reflexivity.
Qed.
Lemma entry_real b pw nrm2 eps mt same k x y i j : (0 < KC b)%Z -> (0 <= k)%Z -> is_cosine mt = false ->
  entry (real_ops pw) b nrm2 eps mt same k x y i j = true_distance pw (resolve (real_ops pw) mt) k (x i) (y j).
Proof.
  intros H1 H2 Hm. unfold entry.
  assert (Hr : is_cosine (resolve (real_ops pw) mt) = false).
  { destruct mt; try exact Hm. cbn. destruct (Req_EM_T p 2); [reflexivity|]. destruct (Req_EM_T p 1); reflexivity. }
  destruct (resolve (real_ops pw) mt); try discriminate; change (o_zero (real_ops pw)) with 0; rewrite (value_kernel_real pw _ (KC b) k) by assumption; cbn; reflexivity.
Qed.
Lemma entry_cosine_real b pw nrm2 eps same k x y i j : (0 < KC b)%Z -> (0 <= k)%Z -> (0 <= j < NC b)%Z -> norm_contract nrm2 ->
  eps < sqrt (rsum k (fun p => Rsqr (x i p))) -> eps < sqrt (rsum k (fun p => Rsqr (y j p))) ->
  entry (real_ops pw) b nrm2 eps PCosine same k x y i j = if same && (i =? j)%Z then 0 else true_distance pw PCosine k (x i) (y j).
Proof.
  intros H1 H2 Hj HN Hx Hy. unfold entry. cbn [resolve]. change (o_zero (real_ops pw)) with 0. rewrite (value_kernel_real pw _ (KC b) k) by assumption.
  rewrite Z.mod_small by exact Hj. cbn [after post_of]. unfold cosine_post. destruct (same && (i =? j)%Z); [reflexivity|].
  rewrite !norm_real by exact HN. destruct (Rle_dec (sqrt (rsum k (fun p => Rsqr (x i p)))) eps); [lra|]. destruct (Rle_dec (sqrt (rsum k (fun p => Rsqr (y j p)))) eps); [lra|].
  reflexivity.
Qed.

(** *** doubles *)
Section Doubles.
Variable pw : f64 -> f64 -> f64.
Notation O := (f64_ops pw).
Lemma value_nonneg mt kc k (x y : Z -> f64) : (0 < kc)%Z ->
  (forall p, (0 <= p < k)%Z -> is_finite (x p) = true /\ is_finite (y p) = true) ->
  match mt with PEuclidean | PSqeuclidean | PManhattan => True | _ => False end ->
  nonneg (value (o_zero O) (kernel_of O mt) kc k x y).
Proof.
  intros Hkc HF Hm. apply (value_inv _ _ kc k x y nonneg (fun e => is_finite (fst e) = true /\ is_finite (snd e) = true) Hkc zero_nonneg HF).
  intros v ps Hv HE.
  assert (Hsq : forall v e, nonneg v -> is_finite (fst e) = true /\ is_finite (snd e) = true -> nonneg (square_step O v e)).
  { intros v' [a c] Hv' [Ha Hc]. apply square_nonneg; assumption. }
  assert (Hab : forall v e, nonneg v -> is_finite (fst e) = true /\ is_finite (snd e) = true -> nonneg (abs_step O v e)).
  { intros v' [a c] Hv' [Ha Hc]. apply abs_nonneg; assumption. }
  destruct mt; try contradiction; cbn [kernel_of].
  - exact (dual_inv _ _ _ nonneg _ zero_nonneg Hsq nonneg_add v ps Hv HE).
  - exact (dual_inv _ _ _ nonneg _ zero_nonneg Hsq nonneg_add v ps Hv HE).
  - exact (single_inv _ nonneg _ Hab ps v Hv HE).
Qed.
Lemma value_sym mt kc k (x y : Z -> f64) : (0 < kc)%Z -> (forall p, (0 <= p < k)%Z -> is_finite (x p) = true /\ is_finite (y p) = true) ->
  value (o_zero O) (kernel_of O mt) kc k x y = value (o_zero O) (kernel_of O mt) kc k y x.
Proof.
  intros Hkc HF. destruct mt; cbn [kernel_of].
  - apply (value_rel _ _ kc k x y y x (same_step (square_step O)) Hkc); [|intros; apply dual_rel; assumption]. intros q Hq. destruct (HF q Hq). apply square_sym; assumption.
  - apply (value_rel _ _ kc k x y y x (same_step (square_step O)) Hkc); [|intros; apply dual_rel; assumption]. intros q Hq. destruct (HF q Hq). apply square_sym; assumption.
  - apply (value_rel _ _ kc k x y y x (same_step (abs_step O)) Hkc); [|intros; apply single_rel; assumption]. intros q Hq. destruct (HF q Hq). apply abs_sym; assumption.
  - apply (value_rel _ _ kc k x y y x (same_step (dot_step O)) Hkc); [|intros; apply single_rel; assumption]. intros q Hq. apply dot_sym.
  - apply (value_rel _ _ kc k x y y x (same_step (pow_step O p)) Hkc); [|intros; apply single_rel; assumption]. intros q Hq. destruct (HF q Hq). apply pow_sym; assumption.
Qed.
Lemma value_self mt kc k (x : Z -> f64) : (0 < kc)%Z -> (forall p, (0 <= p < k)%Z -> is_finite (x p) = true) ->
  match mt with PEuclidean | PSqeuclidean | PManhattan => True | _ => False end ->
  value (o_zero O) (kernel_of O mt) kc k x x = zero64.
Proof.
  intros Hkc HF Hm. apply (value_inv _ _ kc k x x (fun v => v = zero64) (fun e => is_finite (fst e) = true /\ fst e = snd e) Hkc eq_refl).
  - intros p Hp. split; [apply HF; exact Hp|reflexivity].
  - intros v ps Hv HE.
    assert (Hsq : forall v e, v = zero64 -> is_finite (fst e) = true /\ fst e = snd e -> square_step O v e = zero64).
    { intros v' [a c] -> [Ha Hc]. cbn in Hc. subst c. apply square_self; assumption. }
    assert (Hab : forall v e, v = zero64 -> is_finite (fst e) = true /\ fst e = snd e -> abs_step O v e = zero64).
    { intros v' [a c] -> [Ha Hc]. cbn in Hc. subst c. apply abs_self; assumption. }
    assert (Had : forall a c, a = zero64 -> c = zero64 -> f64_add a c = zero64) by (intros a c -> ->; reflexivity).
    destruct mt; try contradiction; cbn [kernel_of].
    + exact (dual_inv _ _ _ (fun v => v = zero64) _ eq_refl Hsq Had v ps Hv HE).
    + exact (dual_inv _ _ _ (fun v => v = zero64) _ eq_refl Hsq Had v ps Hv HE).
    + exact (single_inv _ (fun v => v = zero64) _ Hab ps v Hv HE).
Qed.
Lemma entry_nonneg b nrm2 eps mt same k x y i j m n : (0 < KC b)%Z -> all_finite m k x -> all_finite n k y -> (0 <= i < m)%Z -> (0 <= j < n)%Z ->
  sum_of_differences (resolve O mt) = true ->
  nonneg (entry O b nrm2 eps mt same k x y i j).
Proof.
  intros Hkc Fx Fy Hi Hj Hm. unfold entry.
  assert (Hv : nonneg (value (o_zero O) (kernel_of O (resolve O mt)) (KC b) k (x i) (y j))) by (apply value_nonneg; auto; destruct (resolve O mt); try discriminate; exact I).
  destruct (resolve O mt); try discriminate; cbn [post_of after]; auto. apply nonneg_sqrt, Hv.
Qed.
Lemma entry_sym b nrm2 eps mt k x i j m : (0 < KC b)%Z -> all_finite m k x -> (0 <= i < m)%Z -> (0 <= j < m)%Z ->
  is_cosine (resolve O mt) = false \/ (m <= NC b)%Z ->
  entry O b nrm2 eps mt true k x x i j = entry O b nrm2 eps mt true k x x j i.
Proof.
  intros Hkc Fx Hi Hj Hm. unfold entry. rewrite (value_sym (resolve O mt) (KC b) k (x i) (x j)) by auto.
  destruct (resolve O mt); cbn [post_of after]; auto. destruct Hm as [Hm|Hm]; [discriminate|].
  rewrite !Z.mod_small by lia. unfold cosine_post. rewrite Z.eqb_sym. destruct (true && (j =? i)%Z); [reflexivity|].
  cbn [o_mul f64_ops]. rewrite mul_comm. reflexivity.
Qed.
Lemma entry_self b nrm2 eps mt k x i m : (0 < KC b)%Z -> (0 < NC b)%Z -> all_finite m k x -> (0 <= i < m)%Z ->
  sum_of_differences (resolve O mt) = true \/ (is_cosine (resolve O mt) = true /\ (m <= NC b)%Z) ->
  entry O b nrm2 eps mt true k x x i i = zero64.
Proof.
  intros Hkc Hnc Fx Hi Hm. unfold entry. destruct (resolve O mt) eqn:E; cbn in Hm; try (exfalso; intuition discriminate); cbn [post_of after].
  - rewrite value_self by auto. reflexivity.
  - rewrite value_self by auto. reflexivity.
  - rewrite value_self by auto. reflexivity.
  - rewrite Z.mod_small by lia. unfold cosine_post. rewrite Z.eqb_refl. reflexivity.
Qed.
End Doubles.

Lemma in_turn_schedule mc m : (0 < mc)%Z -> schedule mc m (in_turn mc m).
Proof. intros H j p. split; [apply starts_nodup; exact H|]. intro i. apply starts_in. exact H. Qed.
Local Open Scope Z_scope.
Lemma alloc_holds {T} o rows cols ld size (gv : Z -> T) x : (forall i j, 0 <= i < rows -> 0 <= j < cols -> 0 <= cell o ld i j < size /\ gv (cell o ld i j) = x i j) ->
  holds o rows cols ld (alloc size gv) x.
Proof. intros H i j Hi Hj. destruct (H i j Hi Hj) as [A B]. rewrite alloc_some by exact A. rewrite B. reflexivity. Qed.
Lemma alloc_room {T} o rows cols ld size (gv : Z -> T) : (forall i j, 0 <= i < rows -> 0 <= j < cols -> 0 <= cell o ld i j < size) ->
  room o rows cols ld (alloc size gv).
Proof. intros H i j Hi Hj. rewrite alloc_some by (apply H; assumption). eauto. Qed.
Lemma gives_entry {T} (O : ops T) b nrm2 eps g sched mt o m n k X ldx Y ldy D ldd n' d d' :
  gives O b nrm2 eps g sched mt o m n k X ldx Y ldy D ldd n' d -> gives O b nrm2 eps g sched mt o m n k X ldx Y ldy D ldd n' d' ->
  forall i j, 0 <= i < m -> 0 <= j < n' -> d i j = d' i j.
Proof.
  intros [D1 [E1 [W1 _]]] [D2 [E2 [W2 _]]] i j Hi Hj. rewrite E1 in E2. inversion E2; subst D2.
  pose proof (W1 i j Hi Hj) as A. pose proof (W2 i j Hi Hj) as B. rewrite A in B. inversion B. reflexivity.
Qed.

(** *** by products of matrices *)
Lemma sq_norm_real pw k x : sq_norm (real_ops pw) k x = rsum k (fun p => Rsqr (x p)).
Proof.
  unfold sq_norm, rsum. cbn. assert (H : forall l s, fold_left (fun s p => s + x p * x p)%R l s = (s + fold_right Rplus 0 (map (fun p => Rsqr (x p)) l))%R).
  { induction l as [|p l IH]; intro t; cbn; [ring|]. rewrite IH. unfold Rsqr. ring. }
  rewrite H. ring.
Qed.
Lemma rsum_square k x y : rsum k (fun p => Rsqr (x p - y p)) = (- 2 * rsum k (fun p => x p * y p) + (rsum k (fun p => Rsqr (x p)) + rsum k (fun p => Rsqr (y p))))%R.
Proof. unfold rsum. induction (zrange k) as [|p l IH]; cbn; [ring|]. rewrite IH. unfold Rsqr. ring. Qed.
Lemma rsum_sym k x y : rsum k (fun p => Rsqr (x p - y p)) = rsum k (fun p => Rsqr (y p - x p)).
Proof. apply rsum_ext. intro p. unfold Rsqr. ring. Qed.
Lemma gemm_entry_real pw gemm square k x y : gemm_contract gemm ->
  gemm_entry (real_ops pw) square (gemm k x y) (sq_norm (real_ops pw) k x) (sq_norm (real_ops pw) k y) = true_distance pw (if square then PSqeuclidean else PEuclidean) k x y.
Proof. intro H. unfold gemm_entry. rewrite !sq_norm_real, H. cbn. rewrite <- rsum_square. destruct square; reflexivity. Qed.
Lemma true_sym pw (square : bool) k x y : true_distance pw (if square then PSqeuclidean else PEuclidean) k x y = true_distance pw (if square then PSqeuclidean else PEuclidean) k y x.
Proof. destruct square; cbn; rewrite rsum_sym; reflexivity. Qed.
Lemma rsum_zero k f : (forall p, f p = 0%R) -> rsum k f = 0%R.
Proof. intro H. unfold rsum. induction (zrange k) as [|p l IH]; cbn; [reflexivity|]. rewrite H, IH. ring. Qed.
Lemma true_self pw (square : bool) k x : true_distance pw (if square then PSqeuclidean else PEuclidean) k x x = 0%R.
Proof.
  assert (H : rsum k (fun p => Rsqr (x p - x p)) = 0%R) by (apply rsum_zero; intro p; unfold Rsqr; ring).
  destruct square; cbn; rewrite H; [reflexivity|apply R_sqrt.sqrt_0].
Qed.
Lemma euclidean_gemm_real pw gemm square same k x y i j : gemm_contract gemm -> (same = true -> y = x) ->
  euclidean_gemm (real_ops pw) gemm square same k x y i j = true_distance pw (if square then PSqeuclidean else PEuclidean) k (x i) (y j).
Proof.
  intros HG Hs. unfold euclidean_gemm. destruct same.
  - rewrite (Hs eq_refl). destruct (Z.eqb_spec i j) as [->|Hij]; [symmetry; apply true_self|]. cbv zeta. rewrite gemm_entry_real by exact HG.
    destruct (Z.min_spec i j) as [[A ->]|[A ->]]; destruct (Z.max_spec i j) as [[B ->]|[B ->]]; try lia; [reflexivity|apply true_sym].
  - apply gemm_entry_real, HG.
Qed.
