(** Training as a whole. *)
From Coq Require Import ZArith List Bool Lia Permutation Reals Lra.
From Flocq Require Import Core IEEE754.BinarySingleNaN.
From Verif Require Import Base Par F64 UtilModel SortModel SortSpec SortProofs SortMoreProofs FloatOrder FloatMid TreeModel TreeSpec TreePartProofs TreeGrowProofs TreeFitProofs TreeSearchModel TreeSearchSpec TreeScanProofs TreeSearchProofs TreeTrainModel TreeTrainSpec.
Import ListNotations.
Local Open Scope Z_scope.

Lemma search_kept c : valid_input c -> valid_data c ->
  search_contract (t_X c) (t_xlen c) (t_ldx c) (t_hist c) (t_binned c) (t_blen c) (t_samples c) (t_nobs c) (t_weight c) (t_min_node c) features
    (search c) (features_ok (t_features c)) (well_separated c) (fun p => t_one_vs_all c = false -> p <> OneVsAll).
Proof.
  intros [] VD. unfold search, t_weight. apply search_keeps; auto; [|lia].
  unfold valid_data in VD. destruct (t_hist c) eqn:H.
  - destruct VD as (PK & BR). intros nd cc j s sp AN J. unfold compute_best_split.
    eapply hist_evaluates; eauto. intros WS. unfold well_separated in WS. now rewrite H in WS.
  - intros nd cc j s sp AN J. unfold compute_best_split. eapply raw_evaluates; eauto.
    intros WS. unfold well_separated in WS. now rewrite H in WS.
Qed.

Lemma train_inv c d0 : valid_input c -> valid_data c -> 0 <= d0 ->
  exists st, train c d0 = Some st /\
    tree_inv (t_nobs c) (t_max_depth c) (nodes st) /\
    samp_inv (t_X c) (t_ldx c) (t_y c) (t_class c) (t_hist c) (t_binned c) (t_nobs c) (t_bootstrap c) (t_weights c) (t_min_node c) (well_separated c) (fun p => t_one_vs_all c = false -> p <> OneVsAll) (nodes st) (t_start c) (samples st) /\
    (0 < t_max_depth c -> n_leaves st = count_leaves (nodes st)) /\
    d0 <= tdepth st /\ (forall i nd, node_at (nodes st) i nd -> ndepth nd <= tdepth st) /\
    (tdepth st = d0 \/ exists i nd, node_at (nodes st) i nd /\ ndepth nd = tdepth st).
Proof.
  intros VI VD D0. pose proof (search_kept c VI VD) as SK. destruct VI as [LB NO ST WT TO FE DE MI NF SC DR]. unfold train, root_score.
  destruct (count_class_ok (t_samples c) (t_y c) (t_class c) (t_nobs c) (t_bootstrap c) (t_weights c) LB (t_start c) 0 (t_nobs c - 1)) as (count & EC & _); auto; try lia.
  rewrite EC. cbn [bind].
  assert (1 <= t_class c) by (pose proof (LB (t_start c 0) (ST 0 ltac:(lia))); lia).
  destruct (fit_inv (t_X c) (t_xlen c) (t_ldx c) (t_samples c) (t_y c) (t_class c) (t_hist c) (t_binned c) (t_blen c) (t_nobs c) (t_bootstrap c) (t_weights c)
    (t_max_depth c) (t_min_node c) (t_min_split c) features (search c) (features_ok (t_features c)) (well_separated c) (fun p => t_one_vs_all c = false -> p <> OneVsAll))
    with (d0 := d0) (sc := t_score c (t_total c) count) (s := t_start c) (total := t_total c) (r := Features (fun j => j) (fun _ => t_features c) 0) as (st & E & R); auto.
  - split; cbn; lia.
  - exists st. split; [exact E|]. exact R.
Qed.

Lemma trained c d0 st : valid_input c -> valid_data c -> 0 <= d0 -> train c d0 = Some st ->
  well_grown (nodes st) (t_nobs c) (t_max_depth c) /\ leaves_partition (nodes st) (t_nobs c) /\
  rearranged 0 (t_nobs c) (t_start c) (samples st) /\
  predicts_majority (t_y c) (t_weight c) (t_class c) (nodes st) (samples st) /\
  has_proportions (t_y c) (t_weight c) (t_class c) (nodes st) (samples st) /\
  (0 < t_max_depth c -> n_leaves st = count_leaves (nodes st)).
Proof.
  intros VI VD D0 E. destruct (train_inv c d0 VI VD D0) as (st' & E' & T & S & NL & _). rewrite E in E'. injection E' as <-.
  split; [apply T|]. split; [eapply inv_partition; eauto|]. split; [apply S|]. split; [|split; auto].
  - intros i nd N. apply (s_desc _ _ _ _ _ _ _ _ _ _ _ _ _ _ _ S i nd N).
  - intros i nd N. destruct (s_desc _ _ _ _ _ _ _ _ _ _ _ _ _ _ _ S i nd N) as (_ & B & C). split; auto.
Qed.

Lemma trained_depth c st : valid_input c -> valid_data c -> train c 0 = Some st -> is_depth (nodes st) (tdepth st).
Proof.
  intros VI VD E. destruct (train_inv c 0 VI VD ltac:(lia)) as (st' & E' & T & S & NL & D0 & DM & DX). rewrite E in E'. injection E' as <-.
  eapply inv_depth; eauto. destruct DX as [D|]; auto. destruct (wg_root _ _ _ (t_grown _ _ _ T)) as (r & N & _ & _ & RD). exists 0, r. split; auto. lia.
Qed.

Lemma trained_minimum c d0 st : valid_input c -> valid_data c -> well_separated c -> 0 <= d0 -> train c d0 = Some st -> has_minimum (t_min_node c) (nodes st).
Proof.
  intros VI VD WS D0 E. destruct (train_inv c d0 VI VD D0) as (st' & E' & T & S & _). rewrite E in E'. injection E' as <-.
  apply (s_min _ _ _ _ _ _ _ _ _ _ _ _ _ _ _ S WS).
Qed.

Lemma nth_error_seq_ok n k : (k < n)%nat -> nth_error (seq 0 n) k = Some k.
Proof. intros H. rewrite (nth_error_nth' _ 0%nat) by (rewrite seq_length; lia). rewrite seq_nth by lia. reflexivity. Qed.

(** *** prediction *)
Lemma trained_routes c d0 st p : valid_input c -> valid_data c -> well_separated c -> 0 <= d0 -> train c d0 = Some st -> 0 <= p < t_nobs c ->
  exists i nd, descend predict_left (length (nodes st)) (nodes st) (row c (samples st p)) 0 = Some i /\
    node_at (nodes st) i nd /\ leaf nd = true /\ has nd p.
Proof.
  intros VI VD WS D0 E P. destruct (train_inv c d0 VI VD D0) as (st' & E' & T & S & _). rewrite E in E'. injection E' as <-.
  destruct (wg_root _ _ _ (t_grown _ _ _ T)) as (r & N & RF & RL & _).
  apply (descend_ok (t_nobs c) (t_max_depth c) predict_left (nodes st) (row c (samples st p)) p T P) with (nd := r); auto.
  - intros i nd a NN LF H NA. pose proof (s_agree _ _ _ _ _ _ _ _ _ _ _ _ _ _ _ S WS i nd NN LF p H) as AG.
    pose proof (s_route _ _ _ _ _ _ _ _ _ _ _ _ _ _ _ S WS i nd a NN LF NA p H) as RT. unfold agrees in AG. unfold row. rewrite AG. now rewrite RT.
  - unfold has. lia.
  - unfold size. lia.
Qed.

Lemma trained_predicts c d0 st p nd : valid_input c -> valid_data c -> well_separated c -> 0 <= d0 -> train c d0 = Some st -> 0 <= p < t_nobs c ->
  leaf_of (nodes st) p nd -> predict (nodes st) (row c (samples st p)) = Some (pred_class nd).
Proof.
  intros VI VD WS D0 E P (i & N & LF & H). destruct (trained_routes c d0 st p VI VD WS D0 E P) as (j & l & ED & NJ & LJ & HJ).
  unfold predict. rewrite ED. cbn [bind]. rewrite NJ. cbn [bind].
  destruct (trained c d0 st VI VD D0 E) as (_ & LP & _). destruct (LP p P) as (k & _ & U).
  assert (k = i) by (apply U; exists nd; auto). assert (k = j) by (apply U; exists l; auto). subst i. subst j. unfold node_at in *. congruence.
Qed.

(** prediction on anything *)
Lemma descend_total side t nobs md x : well_grown t nobs md -> (forall i nd, node_at t i nd -> leaf nd = false -> side nd (x (feature nd)) <> None) ->
  forall fuel i nd, node_at t i nd -> size t - i <= Z.of_nat fuel -> exists j l, descend side fuel t x i = Some j /\ node_at t j l /\ leaf l = true.
Proof.
  intros WG SD. induction fuel as [|fuel IH]; intros i nd N FU.
  - pose proof (node_at_range _ _ _ N). lia.
  - cbn [descend]. rewrite N. cbn [bind]. destruct (leaf nd) eqn:LF; [exists i, nd; auto|].
    destruct (wg_children _ _ _ WG i nd N LF) as (a & b & NA & NB & I1 & I2 & _).
    destruct (side nd (x (feature nd))) as [[|]|] eqn:ES; [| |exact (False_ind _ (SD i nd N LF ES))]; cbn [bind].
    + apply (IH _ a NA). lia.
    + apply (IH _ b NB). lia.
Qed.
Lemma descend_ext side side' t x : (forall i nd, node_at t i nd -> leaf nd = false -> side nd (x (feature nd)) = side' nd (x (feature nd))) ->
  forall fuel i, descend side fuel t x i = descend side' fuel t x i.
Proof.
  intros H. induction fuel as [|fuel IH]; intros i; cbn [descend]; [reflexivity|]. destruct (get_node t i) as [nd|] eqn:N; auto. cbn [bind].
  destruct (leaf nd) eqn:LF; auto. rewrite (H i nd N LF). destruct (side' nd _); cbn [bind]; auto.
Qed.

Lemma ratio_is a n : 0 <= a <= n -> 1 <= n < 2 ^ 53 -> is (f64_div (f64_of_Z a) (f64_of_Z n)) (rnd (IZR a / IZR n)).
Proof.
  intros A N. apply f64_div_is; try (apply f64_of_Z_is; lia).
  - apply not_0_IZR. lia.
  - assert (0 <= IZR a / IZR n <= 1)%R.
    { assert (0 < IZR n)%R by (apply IZR_lt; lia). assert (0 <= IZR a <= IZR n)%R by (split; apply IZR_le; lia). unfold Rdiv. split.
      - apply Rmult_le_pos; [lra|]. apply Rlt_le, Rinv_0_lt_compat. lra.
      - apply Rmult_le_reg_r with (IZR n); auto. rewrite Rmult_assoc, Rinv_l by lra. lra. }
    rewrite Rabs_right by lra. apply Rle_trans with 1%R; [lra|]. change 1%R with (bpow radix2 0). apply bpow_le. lia.
Qed.
Lemma ratio_mono a b n : 0 <= a <= b -> b <= n -> 1 <= n < 2 ^ 53 -> f64_le (f64_div (f64_of_Z a) (f64_of_Z n)) (f64_div (f64_of_Z b) (f64_of_Z n)) = true.
Proof.
  intros A B N. destruct (ratio_is a n ltac:(lia) N) as (F1 & V1). destruct (ratio_is b n ltac:(lia) N) as (F2 & V2).
  apply f64_le_key; try (apply fin_nan; auto). rewrite !key_finite, V1, V2 by auto. apply rnd_mono. 
  apply Rmult_le_compat_r; [apply Rlt_le, Rinv_0_lt_compat, IZR_lt; lia|apply IZR_le; lia].
Qed.

Lemma class_le_total y n_class n_samples nobs w s f l k : (forall p, 0 <= p < nobs -> 0 <= w (s p)) -> (forall i, 0 <= i < n_samples -> 0 <= y i < n_class) ->
  samples_ok n_samples nobs s -> 0 <= f -> l < nobs -> 0 <= class_weight y w s f l k <= total_weight w s f l.
Proof.
  intros WP _ SO F L. unfold class_weight, total_weight.
  assert (H : forall i, In i (slice s f (l - f + 1)) -> 0 <= w i) by (intros i I; apply in_slice in I; destruct I as (p & P & <-); apply WP; lia).
  induction (slice s f (l - f + 1)) as [|i r IH]; cbn [map fold_right]; [lia|].
  specialize (IH ltac:(intros; apply H; now right)). pose proof (H i (or_introl eq_refl)). destruct (y i =? k); lia.
Qed.

Lemma most_probable_class t y w n_class nobs md n_samples s x : well_grown t nobs md -> predicts_majority y w n_class t s -> has_proportions y w n_class t s ->
  (forall i, 0 <= i < n_samples -> 0 <= y i < n_class) -> samples_ok n_samples nobs s -> positive w nobs s ->
  (forall i nd, node_at t i nd -> 0 <= first nd <= last nd /\ last nd < nobs /\ n_node nd < 2 ^ 53) ->
  (forall i nd, node_at t i nd -> leaf nd = false -> prop nd <> OneVsAll) ->
  exists c ps, predict t x = Some c /\ predict_proba t x = Some ps /\ length ps = Z.to_nat n_class /\ 0 <= c < n_class /\ most_probable ps c.
Proof.
  intros WG PM HP LB SO PO RG NOV.
  destruct (wg_root _ _ _ WG) as (r & NR & _).
  destruct (descend_total predict_left t nobs md x WG) with (fuel := length t) (i := 0) (nd := r) as (j & l & ED & NJ & LJ); auto.
  { intros i nd N LF. unfold predict_left. pose proof (NOV i nd N LF). destruct (prop nd); try discriminate. now elim H. }
  { unfold size. lia. }
  exists (pred_class l), (props l). unfold predict, predict_proba. rewrite ED. cbn [bind]. rewrite NJ. cbn [bind]. split; [reflexivity|].
  rewrite <- (descend_ext predict_left proba_left t x).
  2:{ intros i nd N LF. unfold predict_left, proba_left. pose proof (NOV i nd N LF). destruct (prop nd); auto. now elim H. }
  rewrite ED. cbn [bind]. rewrite NJ. cbn [bind]. split; [reflexivity|].
  destruct (HP j l NJ) as (NN & PP). destruct (PM j l NJ) as (CR & MX & _). destruct (RG j l NJ) as (R1 & R2 & R3).
  rewrite PP, map_length, zrange_len. split; [reflexivity|]. split; [exact CR|].
  assert (WP : forall p, 0 <= p < nobs -> 0 <= w (s p)) by (intros p P; specialize (PO p P); lia).
  assert (N1 : 1 <= n_node l).
  { rewrite NN. pose proof (total_weight_count w s (first l) (last l) (fun p P => PO p ltac:(lia)) ltac:(lia)). lia. }
  eexists. split.
  - apply map_nth_error. unfold zrange. apply map_nth_error. apply nth_error_seq_ok. lia.
  - intros q Q. apply in_map_iff in Q. destruct Q as (c' & <- & IC). apply in_zrange in IC. rewrite Z2Nat.id by lia.
    pose proof (class_le_total y n_class n_samples nobs w s (first l) (last l) c' WP LB SO ltac:(lia) ltac:(lia)).
    pose proof (class_le_total y n_class n_samples nobs w s (first l) (last l) (pred_class l) WP LB SO ltac:(lia) ltac:(lia)).
    apply ratio_mono; [|lia|lia]. split; [lia|]. now apply MX.
Qed.

Lemma total_weight_le w s nobs f l : (forall p, 0 <= p < nobs -> 0 <= w (s p)) -> 0 <= f -> l < nobs -> f <= l -> total_weight w s f l <= total_weight w s 0 (nobs - 1).
Proof.
  intros WP F L N. rewrite (total_weight_split w s 0 (nobs - 1) (f - 1)) by lia. rewrite (total_weight_split w s (f - 1 + 1) (nobs - 1) l) by lia.
  assert (P : forall a b, 0 <= a -> b < nobs -> 0 <= total_weight w s a b).
  { intros a b A B. unfold total_weight. assert (H : forall i, In i (slice s a (b - a + 1)) -> 0 <= w i) by (intros i I; apply in_slice in I; destruct I as (p & Q & <-); apply WP; lia).
    induction (slice s a (b - a + 1)) as [|i r IH]; cbn [map fold_right]; [lia|]. pose proof (H i (or_introl eq_refl)).
    specialize (IH ltac:(intros; apply H; now right)). lia. }
  pose proof (P 0 (f - 1)). pose proof (P (l + 1) (nobs - 1)). replace (f - 1 + 1) with f by lia. lia.
Qed.

Lemma trained_most_probable c d0 st x : valid_input c -> valid_data c -> well_separated c -> t_one_vs_all c = false -> t_total c < 2 ^ 53 -> 0 <= d0 ->
  train c d0 = Some st ->
  exists k ps, predict (nodes st) x = Some k /\ predict_proba (nodes st) x = Some ps /\ length ps = Z.to_nat (t_class c) /\ 0 <= k < t_class c /\ most_probable ps k.
Proof.
  intros VI VD WS OV TT D0 E. destruct (train_inv c d0 VI VD D0) as (st' & E' & T & S & _). rewrite E in E'. injection E' as <-.
  destruct (trained c d0 st VI VD D0 E) as (WG & LP & PE & PM & HP & _). pose proof (trained_minimum c d0 st VI VD WS D0 E) as HM.
  destruct VI as [LB NO ST WT TO FE DE MI NF SC DR].
  assert (SO : samples_ok (t_samples c) (t_nobs c) (samples st)).
  { apply (rearranged_samples (t_samples c) (t_nobs c) 0 (t_nobs c - 1) (t_start c)); auto; try lia. replace (t_nobs c - 1 - 0 + 1) with (t_nobs c) by lia. auto. }
  assert (PO : positive (t_weight c) (t_nobs c) (samples st)).
  { apply (rearranged_positive (t_nobs c) (t_bootstrap c) (t_weights c) 0 (t_nobs c - 1) (t_start c)); auto; try lia. replace (t_nobs c - 1 - 0 + 1) with (t_nobs c) by lia. auto. }
  apply (most_probable_class (nodes st) (t_y c) (t_weight c) (t_class c) (t_nobs c) (t_max_depth c) (t_samples c) (samples st)); auto.
  - intros i nd N. destruct (t_range _ _ _ T i nd N) as (R1 & R2 & R3). destruct (HP i nd N) as (NN & _).
    assert (NE : first nd <= last nd).
    { destruct (Z.eq_dec i 0) as [->|NZ].
      - destruct (wg_root _ _ _ WG) as (r & NR & RF & RL & _). unfold node_at in *. assert (nd = r) as -> by congruence. lia.
      - pose proof (HM i nd N NZ). destruct (Z_le_gt_dec (first nd) (last nd)); auto. rewrite NN, total_weight_empty in H by lia. lia. }
    split; [lia|]. split; [lia|]. rewrite NN.
    pose proof (total_weight_le (t_weight c) (samples st) (t_nobs c) (first nd) (last nd) (fun p P => Z.le_trans 0 1 _ ltac:(lia) (PO p P)) R1 R2 NE).
    rewrite TO in TT. rewrite <- (total_weight_rearranged (t_weight c) 0 (t_nobs c - 1) 0 (t_nobs c - 1) (t_start c) (samples st)) in H; [lia| |lia].
    replace (t_nobs c - 1 - 0 + 1) with (t_nobs c) by lia. auto.
  - intros i nd N LF. apply (s_kind _ _ _ _ _ _ _ _ _ _ _ _ _ _ _ S i nd N LF OV).
Qed.

Lemma feature_best c nd count j s sp : node_state c nd count s -> 0 <= j < t_features c -> 1 <= t_min_node c -> score_reads (t_score c) (t_class c) ->
  f64_lt (f64_of_Z 0) (t_feat_thresh c) = true -> t_cat_feat c j <= 0 ->
  raw_data (t_X c) (t_xlen c) (t_ldx c) (t_samples c) (t_features c) (t_one_vs_all c) (t_cat_feat c) (t_max_cat c) ->
  exists const sp' s', compute_raw c nd count j s sp = Some (const, sp', s') /\ rearranged (first nd) (last nd - first nd + 1) s s' /\
    let fv p := row c (s' p) j in
    sorted_values fv (first nd) (last nd) /\
    if const : bool then sp' = sp /\ close const_tol (fv (last nd)) (fv (first nd)) = true
    else few_ties (t_feat_thresh c) fv (first nd) (last nd) (t_min_node c) -> b_feat sp' = j /\ best_cut c nd s' fv sp'.
Proof.
  intros NS J MP SC TH CF RD. destruct NS as [A C W D E].
  set (f := first nd) in *. set (l := last nd) in *. unfold compute_raw, compute_best_split_raw. fold f l.
  assert (forallb (fun p => inside (t_xlen c) (t_ldx c * j + s p)) (positions f l) = true) as ->.
  { apply forallb_forall. intros p P. apply in_positions in P. pose proof (rd_inside _ _ _ _ _ _ _ _ RD j (s p) J ltac:(apply C; lia)).
    unfold inside. lia. }
  cbv zeta. assert (negb (t_one_vs_all c) || (t_cat_feat c j <=? 0) = true) as -> by (apply orb_true_intro; right; lia).
  assert (t_cat_feat c j =? 1 = false) as -> by lia.
  set (a := fun p => (s p, t_X c (t_ldx c * j + s p))).
  destruct (intro_sort_ok f64 f64_lt (t_nobs c) f64_lt_irrefl (Z.to_nat (l - f + 1)) true a f (l - f + 1) (t_depth_limit c (l - f + 1))) as (b & EB & RB & OB); try lia.
  unfold multi_range_intro_sort. rewrite EB. cbn [bind].
  set (s' := fun p => fst (b p)). set (fv := fun p => snd (b p)).
  assert (RS : rearranged f (l - f + 1) s s') by (apply (rearranged_map fst) in RB; exact RB).
  assert (FVa : forall p, fv p = row c (s' p) j).
  { intros p. unfold fv, s'. destruct (Z_le_gt_dec f p) as [I1|I1]; [destruct (Z_le_gt_dec p l) as [I2|I2]|].
    - destruct (rearranged_from _ _ _ _ p RB ltac:(lia)) as (q & Q & ->). reflexivity.
    - rewrite (proj2 RB) by lia. reflexivity.
    - rewrite (proj2 RB) by lia. reflexivity. }
  assert (C' : samples_ok (t_samples c) (t_nobs c) s') by (apply (rearranged_samples (t_samples c) (t_nobs c) f l s); auto; lia).
  assert (W' : positive (t_weight c) (t_nobs c) s') by (apply (rearranged_positive (t_nobs c) (t_bootstrap c) (t_weights c) f l s); auto; lia).
  assert (D' : forall k, count k = class_weight (t_y c) (t_weight c) s' f l k) by (intros k; rewrite D; apply (class_weight_rearranged (t_y c) (t_weight c) f l); auto; lia).
  assert (E' : n_node nd = total_weight (t_weight c) s' f l) by (rewrite E; apply (total_weight_rearranged (t_weight c) f l); auto; lia).
  assert (SV : sorted_values fv f l).
  { split; [intros p P; rewrite FVa; apply (rd_finite _ _ _ _ _ _ _ _ RD); auto; apply C'; lia|].
    intros p q P Q. apply (OB _ f64_orders); try lia. intros i I. cbn. apply fin_nan, (rd_finite _ _ _ _ _ _ _ _ RD); auto. apply C. lia. }
  assert (SVr : sorted_values (fun p => row c (s' p) j) f l).
  { destruct SV as (S1 & S2). split; intros; rewrite <- ?FVa; auto. }
  destruct (f64_lt (f64_abs (f64_sub (snd (b f)) (snd (b l)))) const_tol) eqn:CT.
  - exists true, sp, s'. split; [reflexivity|]. split; [exact RS|]. split; [exact SVr|]. split; [reflexivity|]. unfold close. rewrite <- !FVa. exact CT.
  - set (spj := Best (b_prop sp) j (b_score sp) (b_left sp) (b_right sp) (b_threshold sp) (b_category sp)).
    set (sp0 := Best (b_prop spj) (b_feat spj) (nscore nd) (b_left spj) (b_right spj) (b_threshold spj) (b_category spj)).
    destruct (continuous_basic (t_y c) (t_nobs c) (t_total c) (t_bootstrap c) (t_weights c) (t_score c) (t_min_node c) (t_min_improvement c) (t_feat_thresh c) nd count s' fv spj) as (sp' & E1 & _); auto; try (unfold f, l in *; lia).
    fold s' fv. rewrite E1. cbn [bind]. exists false, sp', s'. split; [reflexivity|]. split; [exact RS|]. split; [exact SVr|]. intros FT.
    assert (FT' : few_ties (t_feat_thresh c) fv f l (t_min_node c)) by (intros p P Q; rewrite !FVa; now apply FT).
    destruct (continuous_exact (t_y c) (t_class c) (t_nobs c) (t_total c) (t_bootstrap c) (t_weights c) (t_score c) (t_min_node c) (t_min_improvement c) (t_feat_thresh c) nd count s' fv
           sp0 ltac:(unfold f, l in *; lia) ltac:(unfold f, l in *; lia) D' E' SC (fun p P => W' p ltac:(unfold f, l in *; lia)) SV TH FT' eq_refl MP spj eq_refl) as (sp2 & E2 & FO & BU).
    rewrite E1 in E2. injection E2 as <-.
    assert (EXT : forall k, fv k = row c (s' k) j) by exact FVa.
    split; [destruct FO as [->|(k & _ & _ & H & _)]; [reflexivity|exact H]|]. split.
    + destruct FO as [->|(k & V & IC & _ & LT)]; [left; reflexivity|]. right. exists k. destruct V as (V1 & V2 & V3 & V4 & V5). destruct IC as (I1 & I2 & I3 & I4 & I5).
      split; [|split; [|exact LT]].
      * split; [exact V1|]. split; [rewrite <- !FVa; exact V2|]. auto.
      * split; [exact I1|]. split; [rewrite <- !FVa; exact I2|]. auto.
    + intros TE k (V1 & V2 & V3 & V4 & V5). apply BU; [|rewrite <- !FVa in V2; split; auto; split; auto|unfold l; lia].
      intros p q P Q. rewrite !FVa. unfold near. rewrite !FVa. intros NR. apply (TE p q P Q). exact NR.
Qed.

(** Whole numbers of moderate size are separated. *)
Lemma half_between u v : Z.abs u <= 2 ^ 51 -> Z.abs v <= 2 ^ 51 -> u < v ->
  exists m, is_finite m = true /\ f64_lt (f64_of_Z u) m = true /\ f64_lt m (f64_of_Z v) = true.
Proof.
  intros U V L. destruct (f64_of_Z_is (2 * u + 1) ltac:(lia)) as (F & E). destruct (f64_half _ F) as (F2 & E2).
  assert (V2 : B2R (f64_div (f64_of_Z (2 * u + 1)) (f64_of_Z 2)) = (IZR u + / 2)%R).
  { rewrite E2, E. rewrite rnd_format; [rewrite plus_IZR, mult_IZR; lra|].
    replace (IZR (2 * u + 1) / 2)%R with (IZR (2 * u + 1) * bpow radix2 (-1))%R by (cbn; lra). apply FLT_form; lia. }
  exists (f64_div (f64_of_Z (2 * u + 1)) (f64_of_Z 2)). split; auto.
  split; (eapply f64_lt_is; [split; [|reflexivity]|split; [|reflexivity]|]); auto; try (apply f64_of_Z_is; lia).
  - rewrite V2. rewrite (proj2 (f64_of_Z_is u ltac:(lia))). lra.
  - rewrite V2. rewrite (proj2 (f64_of_Z_is v ltac:(lia))). assert (IZR (u + 1) <= IZR v)%R by (apply IZR_le; lia). rewrite plus_IZR in H. lra.
Qed.
Lemma whole_separated (z : Z -> Z) ldx n nf : (forall j i, 0 <= j < nf -> 0 <= i < n -> Z.abs (z (ldx * j + i)) <= 2 ^ 51) ->
  separated (fun p => f64_of_Z (z p)) ldx n nf.
Proof.
  intros H j a b J A B u v LT. pose proof (H j a J A) as HA. pose proof (H j b J B) as HB.
  assert (BD : forall k, Z.abs k <= 2 ^ 51 -> (Rabs (B2R (f64_of_Z k)) <= bpow radix2 1022)%R).
  { intros k K. rewrite (proj2 (f64_of_Z_is k ltac:(lia))). rewrite <- abs_IZR. apply Rle_trans with (IZR (2 ^ 51)); [now apply IZR_le|].
    change (IZR (2 ^ 51)) with (bpow radix2 51). apply bpow_le. lia. }
  split; [now apply BD|]. split; [now apply BD|]. apply half_between; auto.
  unfold u, v in LT. apply (f64_lt_is _ _ _ _ (f64_of_Z_is (z (ldx * j + a)) ltac:(lia)) (f64_of_Z_is (z (ldx * j + b)) ltac:(lia))) in LT. now apply lt_IZR.
Qed.
Lemma gini_reads n : score_reads (gini_score n) n.
Proof.
  intros m c c' H. unfold gini_score. do 2 f_equal.
  assert (G : forall l a, (forall k, In k l -> 0 <= k < n) ->
    fold_left (fun a k => f64_add a (f64_mul (f64_of_Z (c k)) (f64_of_Z (c k)))) l a = fold_left (fun a k => f64_add a (f64_mul (f64_of_Z (c' k)) (f64_of_Z (c' k)))) l a).
  { induction l as [|k l IH]; intros a I; cbn; auto. rewrite (H k) by (apply I; now left). apply IH. intros; apply I; now right. }
  apply G. intros k K. now apply in_zrange.
Qed.
