(** The search for a split keeps the contract of search_contract. *)
From Coq Require Import ZArith List Bool Lia Permutation Reals Lra.
From Flocq Require Import Core IEEE754.BinarySingleNaN.
From Verif Require Import Base Par F64 UtilModel SortModel SortSpec SortProofs SortMoreProofs FloatOrder FloatMid TreeModel TreeSpec TreePartProofs TreeGrowProofs TreeFitProofs TreeSearchModel TreeSearchSpec TreeScanProofs.
Import ListNotations.
Local Open Scope Z_scope.

(** The sorted pairs of a range *)
Lemma rearranged_map {A B} (g : A -> B) s n a b : rearranged s n a b -> rearranged s n (fun p => g (a p)) (fun p => g (b p)).
Proof.
  intros (P & O). split.
  - unfold slice in *. assert (M : forall h : Z -> A, map (fun i => g (h (s + i))) (zrange n) = map g (map (fun i => h (s + i)) (zrange n))).
    { intros h. now rewrite map_map. }
    rewrite !M. now apply Permutation_map.
  - intros i I. now rewrite O.
Qed.

Lemma total_ext n (g h : Z -> Z) : (forall c, 0 <= c < n -> g c = h c) -> total n g = total n h.
Proof.
  intros E. unfold total. assert (H : forall l acc, (forall c, In c l -> 0 <= c < n) -> fold_left (fun acc c => acc + g c) l acc = fold_left (fun acc c => acc + h c) l acc).
  { induction l as [|c l IH]; intros acc I; cbn; auto. rewrite E by (apply I; now left). apply IH. intros; apply I; now right. }
  apply H. intros c I. now apply in_zrange in I.
Qed.

(** sums of weights restricted to some samples *)
Definition only (P : Z -> bool) (w : Z -> Z) (i : Z) : Z := if P i then w i else 0.
Lemma class_only y n_class n_samples nobs P w s f l count : (forall i, 0 <= i < n_samples -> 0 <= y i < n_class) ->
  samples_ok n_samples nobs s -> 0 <= f -> l < nobs ->
  (forall c, 0 <= c < n_class -> count c = class_weight y (only P w) s f l c) -> total n_class count = total_weight (only P w) s f l.
Proof.
  intros LB SO F L C. rewrite (total_ext n_class count (class_weight y (only P w) s f l)) by auto.
  apply (total_ok n_samples y n_class nobs true (only P w) LB s f l); auto.
Qed.
Lemma only_split P w s f l : total_weight (only P w) s f l + total_weight (only (fun i => negb (P i)) w) s f l = total_weight w s f l.
Proof. unfold total_weight, only. induction (slice s f (l - f + 1)) as [|i r IH]; cbn [map fold_right]; auto. destruct (P i); cbn [negb]; lia. Qed.

Lemma total_weight_ext w w' s f l : (forall i, w i = w' i) -> total_weight w s f l = total_weight w' s f l.
Proof. intros E. unfold total_weight. f_equal. apply map_ext. auto. Qed.

Section Raw.
Variables (X : Z -> f64) (xlen ldx n_samples n_features : Z) (y : Z -> Z) (n_class : Z).
Variables (nobs n_obs_total : Z) (bootstrap : bool) (weights : Z -> Z).
Variable score : Z -> (Z -> Z) -> f64.
Variables (min_node_sample : Z) (min_improvement feat_thresh : f64).
Variable one_vs_all : bool.
Variables (cat_feat : Z -> Z) (max_cat : Z) (depth_limit : Z -> Z).
Variables (use_hist : bool) (binned : Z -> Z) (blen max_bin : Z) (nbins : Z -> Z) (thresholds : Z -> f64).
Variable sep : Prop.
Let w := weight bootstrap weights.
Hypothesis labels : forall i, 0 <= i < n_samples -> 0 <= y i < n_class.
Hypothesis min_pos : 1 <= min_node_sample.
Hypothesis scores : score_reads score n_class.

(** the split of a candidate *)
Definition split_of (b : best) : split := Split (b_prop b) (b_feat b) (b_threshold b) (b_category b) (b_left b) (b_right b).
Definition cand (nd : node) (s : Z -> Z) (b : best) : Prop :=
  let nd' := apply_split use_hist nd (split_of b) in
  (use_hist = true -> b_prop b <> Continuous) /\
  (one_vs_all = false -> prop nd' <> OneVsAll) /\
  (forall p, first nd <= p <= last nd -> readable X xlen ldx use_hist blen nd' (s p)) /\
  (sep -> f64_lt (b_score b) (nscore nd) = true ->
     (forall left, min_node_sample <= side_weight X ldx use_hist binned w left nd' s (first nd) (last nd)) /\
     (forall p, first nd <= p <= last nd -> agrees X ldx use_hist binned nd' (s p))).

Lemma cand_rearranged nd s s' b : rearranged (first nd) (last nd - first nd + 1) s s' -> cand nd s b -> cand nd s' b.
Proof.
  intros RE (A & KD & B & C). split; [auto|]. split; [exact KD|]. split.
  - intros p P. destruct (rearranged_from _ _ _ _ p RE ltac:(lia)) as (j & J & ->). apply B. lia.
  - intros SEP LT. destruct (C SEP LT) as (C1 & C2). split.
    + intros left. unfold w. rewrite <- (side_weight_rearranged X ldx use_hist binned bootstrap weights left _ _ _ s s' RE). apply C1.
    + intros p P. destruct (rearranged_from _ _ _ _ p RE ltac:(lia)) as (j & J & ->). apply C2. lia.
Qed.

(** the node and its samples *)
Record at_node (nd : node) (cc : Z -> Z) (s : Z -> Z) : Prop := {
  an_range : 0 <= first nd <= last nd;
  an_last : last nd < nobs;
  an_samples : samples_ok n_samples nobs s;
  an_weights : positive w nobs s;
  an_counts : forall c, cc c = class_weight y w s (first nd) (last nd) c;
  an_number : n_node nd = total_weight w s (first nd) (last nd) }.
Lemma at_node_rearranged nd cc s s' : rearranged (first nd) (last nd - first nd + 1) s s' -> at_node nd cc s -> at_node nd cc s'.
Proof.
  intros RE [A B C W D E]. split; auto.
  - apply (rearranged_samples n_samples nobs (first nd) (last nd) s s'); auto; lia.
  - apply (rearranged_positive nobs bootstrap weights (first nd) (last nd) s s'); auto; lia.
  - intros c. rewrite D. apply (class_weight_rearranged y w (first nd) (last nd)); auto. lia.
  - rewrite E. apply (total_weight_rearranged w (first nd) (last nd)); auto. lia.
Qed.

(** what the evaluation of a feature gives *)
Definition evaluates (compute : node -> (Z -> Z) -> Z -> (Z -> Z) -> best -> option (bool * best * (Z -> Z))) : Prop :=
  forall nd cc feat s sp, at_node nd cc s -> 0 <= feat < n_features ->
  exists const sp' s', compute nd cc feat s sp = Some (const, sp', s') /\ rearranged (first nd) (last nd - first nd + 1) s s' /\
    (sp' = sp \/ b_score sp' = nscore nd \/ cand nd s' sp').

Section RawData.
Hypothesis raw : use_hist = false.
Hypothesis data : raw_data X xlen ldx n_samples n_features one_vs_all cat_feat max_cat.
Hypothesis sep_raw : sep -> separated X ldx n_samples n_features /\ f64_lt (f64_of_Z 0) feat_thresh = true /\ min_node_sample <= 2 /\
  (forall j, 0 <= j < n_features -> cat_feat j <> 1 \/ one_vs_all = true) /\ (one_vs_all = true -> bootstrap = false).
Let compute := compute_best_split_raw X xlen ldx y n_class nobs n_obs_total bootstrap weights score min_node_sample min_improvement feat_thresh
                 one_vs_all cat_feat max_cat depth_limit.

Lemma raw_readable nd b j s : 0 <= j < n_features -> samples_ok n_samples nobs s -> 0 <= first nd -> last nd < nobs -> b_feat b = j ->
  (b_prop b = Continuous -> is_nan (b_threshold b) = false) ->
  forall p, first nd <= p <= last nd -> readable X xlen ldx use_hist blen (apply_split use_hist nd (split_of b)) (s p).
Proof.
  intros J SO F L E T p P. unfold readable. rewrite raw. unfold apply_split. cbn [feature prop threshold split_of s_prop s_feature s_threshold].
  rewrite E. pose proof (SO p ltac:(lia)) as SP. split; [apply (rd_inside _ _ _ _ _ _ _ _ data); auto|].
  destruct (b_prop b); auto. split; [|now apply T]. apply fin_nan, (rd_finite _ _ _ _ _ _ _ _ data); auto.
Qed.

Lemma few_ties_2 fv f e : min_node_sample <= 2 -> few_ties feat_thresh fv f e min_node_sample.
Proof. intros M p P. lia. Qed.

Lemma cut_cand nd cc s fv k b j : at_node nd cc s -> 0 <= j < n_features -> b_feat b = j -> (forall p, fv p = X (ldx * j + s p)) ->
  first nd <= k < last nd -> b_prop b = Continuous -> b_threshold b = midpoint (fv k) (fv (k + 1)) ->
  sep -> sorted_values fv (first nd) (last nd) -> f64_lt (fv k) (fv (k + 1)) = true ->
  min_node_sample <= total_weight w s (first nd) k -> min_node_sample <= total_weight w s (k + 1) (last nd) ->
  let nd' := apply_split use_hist nd (split_of b) in
  (forall left, min_node_sample <= side_weight X ldx use_hist binned w left nd' s (first nd) (last nd)) /\
  (forall p, first nd <= p <= last nd -> agrees X ldx use_hist binned nd' (s p)).
Proof.
  intros AN J EJ FV K EP ET SEP SV LT M1 M2 nd'. destruct AN as [A B C W D E].
  assert (FIN : forall p, first nd <= p <= last nd -> is_finite (fv p) = true) by apply SV.
  assert (OL : forall p, on_left X ldx use_hist binned nd' (s p) = f64_le (fv p) (b_threshold b) /\
                         predict_left nd' (X (ldx * feature nd' + s p)) = Some (f64_lt (fv p) (b_threshold b))).
  { intros p. unfold on_left, predict_left, nd', apply_split. rewrite raw. cbn [feature prop threshold split_of s_prop s_feature s_threshold].
    rewrite EP, EJ, FV. auto. }
  assert (SIDES : forall p, first nd <= p <= last nd -> f64_le (fv p) (b_threshold b) = (p <=? k) /\ f64_lt (fv p) (b_threshold b) = (p <=? k)).
  { intros p P. destruct (sep_raw SEP) as (SX & _).
    assert (Fk := FIN k ltac:(lia)). assert (Fk1 := FIN (k + 1) ltac:(lia)).
    destruct (SX j (s k) (s (k + 1)) J ltac:(apply C; lia) ltac:(apply C; lia)) as (B1 & B2 & m & Fm & L1 & L2); [now rewrite <- !FV|].
    rewrite <- !FV in *. assert (NN := fun x (F : is_finite x = true) => fin_nan x F).
    apply f64_lt_key in L1; [|auto..]. apply f64_lt_key in L2; [|auto..]. rewrite !key_finite in L1, L2 by auto.
    destruct (midpoint_between (fv k) (fv (k + 1)) m Fk Fk1 Fm B1 B2 (conj L1 L2)) as (FT & T1 & T2). rewrite ET.
    assert (Fp := FIN p P). assert (Np : is_nan (fv p) = false) by auto. assert (Nt : is_nan (midpoint (fv k) (fv (k + 1))) = false) by auto.
    destruct (Z.leb_spec p k) as [LE|GT].
    - pose proof (fv_le nd fv SV p k ltac:(lia) ltac:(lia)). rewrite f64_le_key, f64_lt_key by auto. rewrite !key_finite by auto. lra.
    - pose proof (fv_le nd fv SV (k + 1) p ltac:(lia) ltac:(lia)). split.
      + destruct (f64_le _ _) eqn:Q; auto. apply f64_le_key in Q; auto. rewrite !key_finite in Q by auto. lra.
      + apply f64_lt_false; auto. rewrite !key_finite by auto. lra. }
  split.
  - intros left. 
    destruct (side_weight_split X ldx use_hist binned bootstrap weights nd' s (first nd) (last nd) k) as (W1 & W2); [lia| |].
    + intros p P. rewrite (proj1 (OL p)). now apply SIDES.
    + unfold w. destruct left; [rewrite W1|rewrite W2]; auto.
  - intros p P. unfold agrees. rewrite (proj2 (OL p)), (proj1 (OL p)). destruct (SIDES p P) as (-> & ->). reflexivity.
Qed.

(** *** categories *)
Lemma fill_ok s fv cat_of : forall ps t0,
  (forall p, In p ps -> f64_round (fv p) = Some (cat_of (s p)) /\ 0 <= cat_of (s p) < max_cat /\ 0 <= y (s p) < n_class) ->
  exists t, fill_table y n_class max_cat s fv ps t0 = Some t /\
    forall c k, 0 <= k < n_class -> t (c * n_class + k) = t0 (c * n_class + k) +
      fold_right Z.add 0 (map (fun i => if y i =? k then only (fun i => cat_of i =? c) (fun _ => 1) i else 0) (map s ps)).
Proof.
  induction ps as [|p ps IH]; intros t0 H; cbn [fill_table].
  - exists t0. split; auto. intros. cbn. lia.
  - destruct (H p (or_introl eq_refl)) as (R & C & Y). rewrite R. cbn [bind]. cbv zeta.
    assert (inside (max_cat * n_class) (cat_of (s p) * n_class + y (s p)) = true) as -> by (unfold inside; nia).
    destruct (IH (store_at t0 (cat_of (s p) * n_class + y (s p)) (t0 (cat_of (s p) * n_class + y (s p)) + 1))) as (t & E & T).
    { intros q Q. apply H. now right. }
    exists t. split; [exact E|]. intros c k K. rewrite T by auto. cbn [map fold_right]. unfold store_at, only.
    destruct (Z.eqb_spec (c * n_class + k) (cat_of (s p) * n_class + y (s p))) as [EQ|NE].
    + assert (c = cat_of (s p)) by nia. assert (k = y (s p)) by nia. subst c k. rewrite !Z.eqb_refl. lia.
    + destruct (Z.eqb_spec (y (s p)) k) as [e|]; [|lia]. destruct (Z.eqb_spec (cat_of (s p)) c) as [e'|]; [|lia].
      exfalso. apply NE. rewrite e, e'. reflexivity.
Qed.

Lemma try_ok nd cc j table (P : best -> Prop) :
  (forall c sp, In c (zrange (cat_feat j)) ->
     let nl := total n_class (fun k => table (c * n_class + k)) in
     min_node_sample <= nl -> min_node_sample <= n_node nd - nl -> 
     forall sc l r, P (Best OneVsAll j sc l r (b_threshold sp) c)) ->
  forall cats sp, (forall c, In c cats -> In c (zrange (cat_feat j))) -> P sp ->
  P (try_categories n_class n_obs_total score min_node_sample min_improvement nd cc j table cats sp).
Proof.
  intros H. induction cats as [|c cats IH]; intros sp I PS; cbn [try_categories]; auto. cbv zeta.
  destruct ((_ <? _) || (_ <? _)) eqn:M; [apply IH; auto; intros; apply I; now right|].
  apply IH; [intros; apply I; now right|]. apply orb_false_elim in M. destruct M as (M1 & M2).
  destruct (TreeSearchModel.accepts _ _ _ _ _); auto. apply (H c sp); [apply I; now left|lia|lia].
Qed.

Lemma raw_evaluates : evaluates compute.
Proof.
  intros nd cc j s sp AN J. pose proof AN as [A B C W D E]. unfold compute, compute_best_split_raw.
  assert (forallb (fun p => inside xlen (ldx * j + s p)) (positions (first nd) (last nd)) = true) as ->.
  { apply forallb_forall. intros p P. apply in_positions in P. pose proof (rd_inside _ _ _ _ _ _ _ _ data j (s p) J ltac:(apply C; lia)).
    unfold inside. lia. }
  cbv zeta. destruct (negb one_vs_all || (cat_feat j <=? 0)) eqn:KIND.
  - (* continuous *)
    set (a := fun p => (s p, X (ldx * j + s p))).
    assert (SORT : exists b, (if cat_feat j =? 1 then Some a
        else multi_range_intro_sort f64 f64_lt nobs a (first nd) (last nd - first nd + 1) (depth_limit (last nd - first nd + 1))) = Some b /\
        rearranged (first nd) (last nd - first nd + 1) a b /\ (cat_feat j <> 1 -> ordered f64_lt (first nd) (last nd - first nd + 1) b)).
    { destruct (Z.eqb_spec (cat_feat j) 1) as [e|NE].
      - exists a. split; auto. split; [apply rearranged_refl|]. intros N. now elim N.
      - destruct (intro_sort_ok f64 f64_lt nobs f64_lt_irrefl (Z.to_nat (last nd - first nd + 1)) true a (first nd) (last nd - first nd + 1) (depth_limit (last nd - first nd + 1))) as (b & EB & RB & OB); try lia.
        exists b. split; [exact EB|]. split; auto. intros _. apply (OB _ f64_orders). intros i I. cbn. apply fin_nan, (rd_finite _ _ _ _ _ _ _ _ data); auto. apply C. lia. }
    destruct SORT as (b & -> & RB & OB). cbn [bind].
    set (s' := fun p => fst (b p)). set (fv := fun p => snd (b p)).
    assert (RS : rearranged (first nd) (last nd - first nd + 1) s s') by (apply (rearranged_map fst) in RB; exact RB).
    assert (FVa : forall p, fv p = X (ldx * j + s' p)).
    { intros p. unfold fv, s'. destruct (Z_le_gt_dec (first nd) p) as [I1|I1]; [destruct (Z_le_gt_dec p (last nd)) as [I2|I2]|].
      - destruct (rearranged_from _ _ _ _ p RB ltac:(lia)) as (q & Q & ->). reflexivity.
      - rewrite (proj2 RB) by lia. reflexivity.
      - rewrite (proj2 RB) by lia. reflexivity. }
    pose proof (at_node_rearranged nd cc s s' RS AN) as AN'. pose proof AN' as [A' B' C' W' D' E'].
    destruct (f64_lt _ const_tol); [exists true, sp, s'; auto|].
    set (spj := Best (b_prop sp) j (b_score sp) (b_left sp) (b_right sp) (b_threshold sp) (b_category sp)).
    destruct (continuous_basic y nobs n_obs_total bootstrap weights score min_node_sample min_improvement feat_thresh nd cc s' fv spj) as (sp' & E1 & SC); auto.
    rewrite E1. cbn [bind]. exists false, sp', s'. split; [reflexivity|]. split; [exact RS|]. right.
    destruct SC as [->|(k & K & EP & EF & ET)]; [left; reflexivity|]. right.
    split; [rewrite raw; discriminate|]. split; [intros _; unfold apply_split; rewrite raw; cbn [prop split_of s_prop]; rewrite EP; discriminate|]. split.
    { apply (raw_readable nd sp' j s' J C' ltac:(lia) B'); auto. intros _. rewrite ET.
      apply midpoint_number; rewrite FVa; apply (rd_finite _ _ _ _ _ _ _ _ data); auto; apply C'; lia. }
    intros SEP LT. destruct (sep_raw SEP) as (SX & TH & M2 & CF & BO).
    assert (NC : cat_feat j <> 1) by (destruct (CF j J) as [|OV]; auto; rewrite OV in KIND; cbn in KIND; lia).
    assert (SV : sorted_values fv (first nd) (last nd)).
    { split; [intros p P; rewrite FVa; apply (rd_finite _ _ _ _ _ _ _ _ data); auto; apply C'; lia|].
      intros p q P Q. apply (OB NC); lia. }
    destruct (continuous_exact y n_class nobs n_obs_total bootstrap weights score min_node_sample min_improvement feat_thresh nd cc s' fv
           (Best (b_prop spj) (b_feat spj) (nscore nd) (b_left spj) (b_right spj) (b_threshold spj) (b_category spj))
           A' B' D' E' scores (fun p P => W' p ltac:(lia)) SV TH (few_ties_2 fv _ _ M2) eq_refl min_pos spj eq_refl) as (sp2 & E2 & FO & _).
    rewrite E1 in E2. injection E2 as <-. destruct FO as [->|(k2 & V & IC & _)].
    { cbn [b_score] in LT. rewrite f64_lt_irrefl in LT. discriminate. }
    destruct V as (K2 & V1 & V2 & V3 & _). destruct IC as (I1 & I2 & _).
    apply (cut_cand nd cc s' fv k2 sp' j); auto.
  - (* one category against the others *)
    assert (OV : one_vs_all = true /\ 0 < cat_feat j) by (destruct one_vs_all; [cbn in KIND; split; auto; lia|discriminate KIND]).
    destruct OV as (OV & CF). unfold split_raw_onevall. cbv zeta.
    set (fv := fun p => X (ldx * j + s p)). set (cat_of := fun i => match f64_round (X (ldx * j + i)) with Some c => c | None => 0 end).
    assert (CAT : forall i, 0 <= i < n_samples -> f64_round (X (ldx * j + i)) = Some (cat_of i) /\ 0 <= cat_of i < max_cat).
    { intros i I. destruct (rd_category _ _ _ _ _ _ _ _ data j i J I OV CF) as (c & EC & RC). unfold cat_of. rewrite EC. auto. }
    destruct (fill_ok s fv cat_of (positions (first nd) (last nd)) (fun _ => 0)) as (t & ET & TT).
    { intros p P. apply in_positions in P. destruct (CAT (s p) ltac:(apply C; lia)). split; [auto|]. split; auto. apply labels, C. lia. }
    rewrite ET. cbn [bind]. set (sp0 := Best _ _ _ _ _ _ _).
    set (P := fun b => b_score b = nscore nd \/ cand nd s b).
    eexists false, _, s. split; [reflexivity|]. split; [apply rearranged_refl|]. right.
    apply (try_ok nd cc j t P); [|auto|left; reflexivity].
    intros c sp1 IC nl N1 N2 sc l r. right. set (b := Best _ _ _ _ _ _ _). 
    split; [rewrite raw; discriminate|]. split; [intros NO; rewrite OV in NO; discriminate|]. split.
    { apply (raw_readable nd b j s J C ltac:(lia) B); auto. discriminate. }
    intros SEP _. destruct (sep_raw SEP) as (_ & _ & _ & _ & BO). specialize (BO OV).
    set (nd' := apply_split use_hist nd (split_of b)).
    assert (OL : forall i, 0 <= i < n_samples -> on_left X ldx use_hist binned nd' i = (cat_of i =? c) /\
                         predict_left nd' (X (ldx * feature nd' + i)) = Some (cat_of i =? c)).
    { intros i I. unfold on_left, predict_left, nd', apply_split. rewrite raw. cbn [feature prop threshold category split_of s_prop s_feature s_threshold s_category b b_prop b_feat b_category].
      unfold is_category. rewrite (proj1 (CAT i I)). auto. }
    assert (ONE : forall i, w i = 1) by (intros i; unfold w, weight; rewrite BO; reflexivity).
    assert (NL : nl = total_weight (only (fun i => cat_of i =? c) w) s (first nd) (last nd)).
    { unfold nl. apply (class_only y n_class n_samples nobs); auto; [lia|]. intros k K. rewrite TT by auto. unfold class_weight.
      rewrite slice_positions, Z.add_0_l. f_equal. apply map_ext. intros i. unfold only. now rewrite ONE. }
    assert (SW : forall left, side_weight X ldx use_hist binned w left nd' s (first nd) (last nd) = total_weight (only (fun i => eqb (cat_of i =? c) left) w) s (first nd) (last nd)).
    { intros left. unfold side_weight, total_weight, only. f_equal. apply map_ext_in. intros i I. apply in_slice in I. destruct I as (p & P1 & <-).
      rewrite (proj1 (OL (s p) ltac:(apply C; lia))). reflexivity. }
    pose proof (only_split (fun i => cat_of i =? c) w s (first nd) (last nd)) as SUM. cbv beta in SUM.
    split.
    + intros left. rewrite SW. destruct left.
      * rewrite <- (total_weight_ext (only (fun i => cat_of i =? c) w)) by (intros i; unfold only; now destruct (cat_of i =? c)). lia.
      * rewrite <- (total_weight_ext (only (fun i => negb (cat_of i =? c)) w)) by (intros i; unfold only; now destruct (cat_of i =? c)). lia.
    + intros p P1. unfold agrees. destruct (OL (s p) ltac:(apply C; lia)) as (-> & ->). reflexivity.
Qed.
End RawData.

(** *** histograms *)
Section Histogram.
Hypothesis hist : use_hist = true.
Hypothesis packed : ldx = n_samples.
Hypothesis bins : binned_right X ldx n_samples n_features binned blen max_bin nbins thresholds.
Hypothesis sep_hist : sep -> one_vs_all = false.
Let bin j i := binned (j * n_samples + i).

Lemma histogram_ok j s : 0 <= j < n_features -> forall ps h0 c0 seen const, (forall p, In p ps -> 0 <= s p < n_samples) ->
  exists h c const', node_histogram n_samples y n_class bootstrap weights binned blen max_bin s j ps h0 c0 seen const = Some (h, c, const') /\
    (forall b k, 0 <= k < n_class -> h (b * n_class + k) = h0 (b * n_class + k) +
       fold_right Z.add 0 (map (fun i => if y i =? k then only (fun i => bin j i =? b) w i else 0) (map s ps))) /\
    (forall b, c0 b <= c b) /\ (forall p, In p ps -> c0 (bin j (s p)) < c (bin j (s p))).
Proof.
  intros J. induction ps as [|p ps IH]; intros h0 c0 seen const R; cbn [node_histogram].
  - exists h0, c0, const. split; auto. split; [intros; cbn; lia|]. split; [lia|intros p []].
  - cbv zeta. pose proof (R p (or_introl eq_refl)) as RP.
    pose proof (br_inside _ _ _ _ _ _ _ _ _ bins j (s p) J RP). pose proof (br_bin _ _ _ _ _ _ _ _ _ bins j (s p) J RP) as BB.
    pose proof (br_max _ _ _ _ _ _ _ _ _ bins j J).
    assert (inside blen (j * n_samples + s p) = true) as -> by (unfold inside; lia).
    replace (n_samples * j) with (j * n_samples) in BB by lia. fold (bin j (s p)) in *.
    assert (inside max_bin (bin j (s p)) = true) as -> by (unfold inside; lia).
    pose proof (labels (s p) RP) as Y.
    edestruct IH as (h & c & const' & E & H1 & H2 & H3); [intros q Q; apply R; now right|]. 
    exists h, c, const'. split; [exact E|]. split; [|split].
    + intros b k K. rewrite H1 by auto. cbn [map fold_right]. unfold store_at, only.
      destruct (Z.eqb_spec (b * n_class + k) (bin j (s p) * n_class + y (s p))) as [EQ|NE].
      * assert (b = bin j (s p)) by nia. assert (k = y (s p)) by nia. subst b k. rewrite !Z.eqb_refl. fold w. lia.
      * destruct (Z.eqb_spec (y (s p)) k) as [e|]; [|lia]. destruct (Z.eqb_spec (bin j (s p)) b) as [e'|]; [|lia].
        exfalso. apply NE. rewrite e, e'. reflexivity.
    + intros b. specialize (H2 b). unfold store_at in H2. destruct (b =? _) eqn:Q; [|lia]. apply Z.eqb_eq in Q. subst b. lia.
    + intros q [->|Q].
      * specialize (H2 (bin j (s q))). unfold store_at in H2. rewrite Z.eqb_refl in H2. lia.
      * specialize (H3 q Q). unfold store_at in H3. destruct (_ =? _) eqn:Z1 in H3; [|lia]. apply Z.eqb_eq in Z1. rewrite Z1 in *. lia.
Qed.

Lemma positions_cons f l : f <= l -> positions f l = f :: positions (f + 1) l.
Proof.
  intros H. unfold positions. replace (l - f + 1) with (Z.succ (l - (f + 1) + 1)) by lia. unfold zrange.
  rewrite Z2Nat.inj_succ by lia. cbn [seq map]. f_equal; [lia|]. rewrite <- seq_shift, !map_map. apply map_ext. intros. lia.
Qed.

Lemma hist_readable nd b j s : 0 <= j < n_features -> samples_ok n_samples nobs s -> 0 <= first nd -> last nd < nobs -> b_feat b = j ->
  forall p, first nd <= p <= last nd -> readable X xlen ldx use_hist blen (apply_split use_hist nd (split_of b)) (s p).
Proof.
  intros J SO F L E p P. unfold readable. rewrite hist. unfold apply_split. cbn [feature split_of s_feature].
  rewrite E, packed. apply (br_inside _ _ _ _ _ _ _ _ _ bins); auto. apply SO. lia.
Qed.

Section Bins.
Variables (nd : node) (cc s : Z -> Z) (j : Z) (h c : Z -> Z).
Hypothesis AN : at_node nd cc s.
Hypothesis J : 0 <= j < n_features.
Hypothesis HH : forall b k, 0 <= k < n_class -> h (b * n_class + k) = class_weight y (only (fun i => bin j i =? b) w) s (first nd) (last nd) k.
Hypothesis HC : forall p, first nd <= p <= last nd -> c (bin j (s p)) <> 0.
Let good sp0 sp := sp = sp0 \/ cand nd s sp.
Let run := try_bins n_features n_class n_obs_total score min_node_sample min_improvement max_bin thresholds nd cc j h c.

Lemma one_vs_all_ok sp0 : one_vs_all = true -> forall bs cl old sp, good sp0 sp -> exists sp', run OneVsAll bs cl old sp = Some sp' /\ good sp0 sp'.
Proof.
  intros OV. induction bs as [|b bs IH]; intros cl old sp G; cbn [run try_bins]; [eauto|].
  destruct (_ =? 0); [apply IH; auto|]. cbv zeta. destruct (_ || _); [apply IH; auto|].
  destruct (_ <? _); [eauto|]. destruct (TreeSearchModel.accepts _ _ _ _ _); [|apply IH; auto].
  apply IH. right. destruct AN as [A B C W D E]. split; [discriminate|]. split; [intros NO; rewrite OV in NO; discriminate|]. split; [apply (hist_readable nd _ j); auto; lia|].
  intros SEP. rewrite (sep_hist SEP) in OV. discriminate.
Qed.

Lemma ordered_ok sp0 : forall n b cl old sp, nbins j - b <= Z.of_nat n -> 0 <= b ->
  (forall k, 0 <= k < n_class -> cl k = class_weight y (only (fun i => bin j i <? b) w) s (first nd) (last nd) k) ->
  good sp0 sp -> exists sp', run Ordered (positions b (nbins j - 1)) cl old sp = Some sp' /\ good sp0 sp'.
Proof.
  pose proof AN as [A B C W D E].
  induction n as [|n IH]; intros b cl old sp N B0 CL G.
  { unfold positions. rewrite zrange_nil by lia. cbn [map run try_bins]. eauto. }
  destruct (Z_le_gt_dec b (nbins j - 1)) as [LE|]; [|unfold positions; rewrite zrange_nil by lia; cbn [map run try_bins]; eauto].
  rewrite positions_cons by lia. cbn [run try_bins].
  assert (NEXT : forall k, 0 <= k < n_class -> cl k + h (b * n_class + k) = class_weight y (only (fun i => bin j i <? b + 1) w) s (first nd) (last nd) k).
  { intros k K. rewrite CL, HH by auto. unfold class_weight. induction (slice s (first nd) (last nd - first nd + 1)) as [|i r IHr]; cbn [map fold_right]; auto.
    rewrite <- IHr. unfold only. destruct (y i =? k); [|lia].
    destruct (Z.ltb_spec (bin j i) b), (Z.eqb_spec (bin j i) b), (Z.ltb_spec (bin j i) (b + 1)); lia. }
  destruct (Z.eqb_spec (c b) 0) as [ZC|NC].
  { apply IH; auto; [lia..|]. intros k K. rewrite <- NEXT by auto.
    enough (h (b * n_class + k) = 0) by lia. rewrite HH by auto. unfold class_weight.
    assert (forall i, In i (slice s (first nd) (last nd - first nd + 1)) -> bin j i <> b) as NB.
    { intros i I. apply in_slice in I. destruct I as (p & P & <-). intros EB. apply (HC p ltac:(lia)). now rewrite EB. }
    induction (slice s (first nd) (last nd - first nd + 1)) as [|i r IHr]; cbn [map fold_right]; auto.
    rewrite IHr by (intros; apply NB; now right). unfold only. destruct (Z.eqb_spec (bin j i) b); [exfalso; apply (NB i); auto; now left|].
    destruct (y i =? k); lia. }
  cbv zeta. set (cl' := fun k => cl k + h (b * n_class + k)) in *.
  assert (NL : total n_class cl' = total_weight (only (fun i => bin j i <? b + 1) w) s (first nd) (last nd)).
  { apply (class_only y n_class n_samples nobs); auto; lia. }
  destruct (_ || _) eqn:Q1; [apply IH; auto; lia|].
  destruct (n_node nd - total n_class cl' <? min_node_sample) eqn:Q2; [eauto|]. apply orb_false_elim in Q1. destruct Q1 as (Q1 & _).
  destruct (TreeSearchModel.accepts _ _ _ _ _); [|apply IH; auto; lia].
  pose proof (only_split (fun i => bin j i <? b + 1) w s (first nd) (last nd)) as SUM. cbv beta in SUM.
  assert (LT : b < nbins j - 1).
  { destruct (Z_lt_le_dec b (nbins j - 1)); auto. exfalso.
    assert (total_weight (only (fun i => negb (bin j i <? b + 1)) w) s (first nd) (last nd) = 0); [|lia].
    unfold total_weight. assert (forall i, In i (slice s (first nd) (last nd - first nd + 1)) -> (bin j i <? b + 1) = true) as NB.
    { intros i I. apply in_slice in I. destruct I as (p & P & <-). pose proof (br_bin _ _ _ _ _ _ _ _ _ bins j (s p) J ltac:(apply C; lia)).
      unfold bin. replace (j * n_samples) with (n_samples * j) by lia. lia. }
    induction (slice s (first nd) (last nd - first nd + 1)) as [|i r IHr]; cbn [map fold_right]; auto.
    rewrite IHr by (intros; apply NB; now right). unfold only. rewrite (NB i) by now left. reflexivity. }
  pose proof (br_max _ _ _ _ _ _ _ _ _ bins j J).
  assert (inside (n_features * (max_bin - 1)) (j * (max_bin - 1) + b) = true) as -> by (unfold inside; nia).
  apply IH; auto; [lia..|]. right. split; [discriminate|]. split; [intros _; unfold apply_split; rewrite hist; discriminate|]. split; [apply (hist_readable nd _ j); auto; lia|]. intros SEP _.
  set (bb := Best _ _ _ _ _ _ _). set (nd' := apply_split use_hist nd (split_of bb)).
  assert (OL : forall i, 0 <= i < n_samples -> on_left X ldx use_hist binned nd' i = (bin j i <? b + 1) /\
                         predict_left nd' (X (ldx * feature nd' + i)) = Some (bin j i <? b + 1)).
  { intros i I. unfold on_left, predict_left, nd', apply_split. rewrite hist. cbn [feature prop threshold category split_of s_prop s_feature s_threshold s_category bb b_prop b_feat b_category b_threshold].
    rewrite <- (br_side _ _ _ _ _ _ _ _ _ bins j i b) by (auto; lia). unfold bin. rewrite packed. replace (j * n_samples) with (n_samples * j) by lia.
    assert (forall z, (z <=? b) = (z <? b + 1)) as -> by (intros; lia). auto. }
  assert (SW : forall left, side_weight X ldx use_hist binned w left nd' s (first nd) (last nd) = total_weight (only (fun i => eqb (bin j i <? b + 1) left) w) s (first nd) (last nd)).
  { intros left. unfold side_weight, total_weight, only. f_equal. apply map_ext_in. intros i I. apply in_slice in I. destruct I as (p & P1 & <-).
    rewrite (proj1 (OL (s p) ltac:(apply C; lia))). reflexivity. }
  split.
  - intros left. rewrite SW. destruct left.
    + rewrite <- (total_weight_ext (only (fun i => bin j i <? b + 1) w)) by (intros i; unfold only; now destruct (bin j i <? b + 1)). lia.
    + rewrite <- (total_weight_ext (only (fun i => negb (bin j i <? b + 1)) w)) by (intros i; unfold only; now destruct (bin j i <? b + 1)). lia.
  - intros p P1. unfold agrees. destruct (OL (s p) ltac:(apply C; lia)) as (-> & ->). reflexivity.
Qed.
End Bins.

Lemma hist_evaluates : evaluates (fun nd cc j s sp =>
  bind (compute_best_split_hist n_samples n_features y n_class n_obs_total bootstrap weights score min_node_sample min_improvement one_vs_all binned blen max_bin nbins thresholds nd cc j s sp)
    (fun '(const, sp) => Some (const, sp, s))).
Proof.
  intros nd cc j s sp AN J. pose proof AN as [A B C W D E]. unfold compute_best_split_hist.
  destruct (histogram_ok j s J (positions (first nd) (last nd)) (fun _ => 0) (fun _ => 0) (-1) true) as (h & c & const & EH & H1 & H2 & H3).
  { intros p P. apply in_positions in P. apply C. lia. }
  rewrite EH. cbn [bind]. destruct const; [exists true, sp, s; split; [reflexivity|split; [apply rearranged_refl|now left]]|].
  assert (HH : forall b k, 0 <= k < n_class -> h (b * n_class + k) = class_weight y (only (fun i => bin j i =? b) w) s (first nd) (last nd) k).
  { intros b k K. rewrite H1, slice_positions, Z.add_0_l by auto. reflexivity. }
  assert (HC : forall p, first nd <= p <= last nd -> c (bin j (s p)) <> 0) by (intros p P; specialize (H3 p ltac:(now apply in_positions)); lia).
  cbv zeta. destruct ((nbins j <? max_bin) && one_vs_all) eqn:KIND.
  - destruct (one_vs_all_ok nd cc s j h c AN J sp) with (bs := zrange (nbins j)) (cl := fun _ : Z => 0) (old := 0) (sp := sp) as (sp' & -> & G); auto.
    { apply andb_prop in KIND. tauto. }
    cbn [bind]. exists false, sp', s. split; [reflexivity|]. split; [apply rearranged_refl|]. destruct G; auto.
  - assert (zrange (nbins j) = positions 0 (nbins j - 1)) as ->.
    { unfold positions. replace (nbins j - 1 - 0 + 1) with (nbins j) by lia. rewrite <- (map_id (zrange (nbins j))) at 1. apply map_ext. auto. }
    destruct (ordered_ok nd cc s j h c AN J HH HC sp (Z.to_nat (nbins j)) 0 (fun _ => 0) 0 sp) as (sp' & -> & G); auto; try lia.
    { intros k K. unfold class_weight. assert (forall i, In i (slice s (first nd) (last nd - first nd + 1)) -> (bin j i <? 0) = false) as NB.
      { intros i I. apply in_slice in I. destruct I as (p & P & <-). pose proof (br_bin _ _ _ _ _ _ _ _ _ bins j (s p) J ltac:(apply C; lia)).
        unfold bin. replace (j * n_samples) with (n_samples * j) by lia. lia. }
      induction (slice s (first nd) (last nd - first nd + 1)) as [|i r IHr]; cbn [map fold_right]; auto.
      rewrite <- IHr by (intros; apply NB; now right). unfold only. rewrite (NB i) by now left. now destruct (y i =? k). }
    cbn [bind]. exists false, sp', s. split; [reflexivity|]. split; [apply rearranged_refl|]. destruct G; auto.
Qed.
End Histogram.

(** *** the loop over the features *)
Section Loop.
Variable nfeat_split : Z.
Variable draw : Z -> Z -> Z -> Z.
Hypothesis draws : forall k a b, a <= b -> a <= draw k a b <= b.
Let compute := compute_best_split X xlen ldx n_samples n_features y n_class nobs n_obs_total bootstrap weights score min_node_sample min_improvement
  feat_thresh one_vs_all cat_feat max_cat depth_limit use_hist binned blen max_bin nbins thresholds.
Hypothesis eval : evaluates compute.
Let loop := feature_loop X xlen ldx n_samples n_features y n_class nobs n_obs_total bootstrap weights score min_node_sample min_improvement
  feat_thresh one_vs_all cat_feat max_cat depth_limit use_hist binned blen max_bin nbins thresholds nfeat_split draw.
Definition in_range (ord : Z -> Z) : Prop := forall j, 0 <= j < n_features -> 0 <= ord j < n_features.
Definition current nd s sp : Prop := b_score sp = nscore nd \/ cand nd s sp.
Definition chosen nd s bs : Prop := (b_feat bs = -1 /\ b_score bs = nscore nd) \/ (cand nd s bs /\ f64_lt (b_score bs) (nscore nd) = true).

Lemma in_range_swap ord a b : in_range ord -> 0 <= a < n_features -> 0 <= b < n_features -> in_range (store_at (store_at ord a (ord b)) b (ord a)).
Proof. intros R A B j J. unfold store_at. destruct (j =? b); [now apply R|]. destruct (j =? a); now apply R. Qed.

Lemma loop_evaluates nd cc : forall fuel s ord const k fvar to_draw sp bs, at_node nd cc s -> in_range ord -> const <= n_features -> 0 <= fvar ->
  current nd s sp -> chosen nd s bs -> Z.max 0 (to_draw - fvar) + Z.max 0 (const - fvar) <= Z.of_nat fuel ->
  exists bs' s' ord' const' k', loop fuel nd cc s ord const k fvar to_draw sp bs = Some (bs', s', ord', const', k') /\
    rearranged (first nd) (last nd - first nd + 1) s s' /\ in_range ord' /\ const' <= const /\ chosen nd s' bs'.
Proof.
  induction fuel as [|fuel IH]; intros s ord const k fvar to_draw sp bs AN OR CN FV CU CH FU.
  - unfold loop. cbn [feature_loop]. destruct ((fvar <? to_draw) && (fvar <? const)) eqn:Q.
    { apply andb_prop in Q. lia. }
    exists bs, s, ord, const, k. split; auto. split; [apply rearranged_refl|]. split; auto. split; [lia|auto].
  - unfold loop. cbn [feature_loop]. destruct ((fvar <? to_draw) && (fvar <? const)) eqn:Q.
    2:{ exists bs, s, ord, const, k. split; auto. split; [apply rearranged_refl|]. split; auto. split; [lia|auto]. }
    apply andb_prop in Q. destruct Q as (Q1 & Q2).
    set (r := if nfeat_split <? n_features then draw k fvar (n_features - 1) else fvar). set (k1 := if nfeat_split <? n_features then k + 1 else k).
    assert (RR : fvar <= r < n_features).
    { unfold r. destruct (nfeat_split <? n_features); [|lia]. pose proof (draws k fvar (n_features - 1) ltac:(lia)). lia. }
    destruct ((nfeat_split <? n_features) && (const <=? r)); [apply IH; auto; lia|].
    assert (inside n_features fvar && inside n_features r = true) as -> by (unfold inside; lia).
    cbv zeta. assert (OR1 := in_range_swap ord fvar r OR ltac:(lia) ltac:(lia)).
    set (ord1 := store_at (store_at ord fvar (ord r)) r (ord fvar)) in *.
    destruct (eval nd cc (ord1 fvar) s sp AN (OR1 fvar ltac:(lia))) as (ic & sp' & s' & EC & RS & SP). unfold compute in EC. rewrite EC. cbn [bind].
    pose proof (at_node_rearranged nd cc s s' RS AN) as AN'.
    assert (CU' : current nd s' sp').
    { destruct SP as [->|SP]; [|exact SP]. destruct CU; [now left|]. right. eapply cand_rearranged; eauto. }
    assert (CH' : chosen nd s' bs).
    { destruct CH as [|(CA & LT)]; [now left|]. right. split; auto. eapply cand_rearranged; eauto. }
    destruct ic.
    + assert (inside n_features (const - 1) = true) as -> by (unfold inside; lia).
      set (ord2 := store_at (store_at ord1 fvar (ord1 (const - 1))) (const - 1) (ord1 fvar)).
      assert (OR2 : in_range ord2) by (apply in_range_swap; auto; lia).
      destruct (IH s' ord2 (const - 1) k1 fvar to_draw sp' bs AN' OR2 ltac:(lia) ltac:(lia) CU' CH' ltac:(lia)) as (bs' & s2 & ord' & c' & k' & E & A1 & A2 & A3 & A4).
      exists bs', s2, ord', c', k'. split; [exact E|]. split; [eapply rearranged_trans; eauto|]. split; auto. split; [lia|auto].
    + assert (CH2 : chosen nd s' (if negb (b_feat sp' =? -1) && f64_lt (b_score sp') (b_score bs) then sp' else bs)).
      { destruct (negb (b_feat sp' =? -1) && f64_lt (b_score sp') (b_score bs)) eqn:Q; auto. apply andb_prop in Q. destruct Q as (_ & Q).
        assert (LT : f64_lt (b_score sp') (nscore nd) = true).
        { destruct CH' as [(_ & E0)|(_ & E0)]; [now rewrite E0 in Q|]. eapply f64_lt_trans; eauto. }
        right. split; auto. destruct CU' as [E0|]; auto. rewrite E0, f64_lt_irrefl in LT. discriminate. }
      destruct (IH s' ord1 const k1 (fvar + 1) to_draw sp' _ AN' OR1 CN ltac:(lia) CU' CH2 ltac:(lia)) as (bs' & s2 & ord' & c' & k' & E & A1 & A2 & A3 & A4).
      exists bs', s2, ord', c', k'. split; [exact E|]. split; [eapply rearranged_trans; eauto|]. auto.
Qed.

Lemma search_keeps : 0 <= nfeat_split -> 0 <= n_features -> 
  search_contract X xlen ldx use_hist binned blen n_samples nobs w min_node_sample features
    (tree_search X xlen ldx n_samples n_features y n_class nobs n_obs_total bootstrap weights score min_node_sample min_improvement
       feat_thresh one_vs_all cat_feat max_cat depth_limit use_hist binned blen max_bin nbins thresholds nfeat_split draw)
    (features_ok n_features) sep (fun p => one_vs_all = false -> p <> OneVsAll).
Proof.
  intros NF N0 r idx nd s (OK1 & OK2) FR FL SO WP NN.
  unfold tree_search. cbv zeta. set (cc := fst (add_counts y bootstrap weights s (positions (first nd) (last nd)) (fun _ => 0, 0))).
  set (none := Best _ _ _ _ _ _ _).
  assert (AN : at_node nd cc s).
  { split; auto. intros c. unfold cc. rewrite (proj1 (count_range y bootstrap weights s (first nd) (last nd) (fun _ => 0) 0)). reflexivity. }
  set (const := if 0 <? idx then const_idx r (parent nd) else n_features).
  assert (CB : const <= n_features) by (unfold const; destruct (_ <? _); [apply OK2|lia]).
  destruct (loop_evaluates nd cc (Z.to_nat (nfeat_split + n_features)) s (order r) const (drawn r) 0 nfeat_split none none AN OK1 CB ltac:(lia))
    as (bs & s' & ord & const' & k & E & RS & OR & CC & CH); [left; reflexivity|left; split; reflexivity|lia|].
  unfold loop in E. rewrite E. cbn [bind]. eexists _, _, s'. split; [reflexivity|]. split; [|split; [exact RS|]].
  - split; [exact OR|]. cbn [const_idx]. intros i. set (ci := store_at (const_idx r) idx const').
    assert (forall i, ci i <= n_features) as CI by (intros j; unfold ci, store_at; destruct (_ =? _); [lia|apply OK2]).
    destruct ((0 <? idx) && (const' <? ci (parent nd))); [|apply CI]. unfold store_at at 1. destruct (_ =? _); [lia|apply CI].
  - destruct (Z.eqb_spec (b_feat bs) (-1)) as [|NE]; [exact I|].
    destruct CH as [(C0 & _)|((C1 & CK & C2 & C3) & LT)]; [now elim NE|].
    split; [exact C1|]. split; [exact CK|]. split; [exact C2|]. split; intros SEP; apply (C3 SEP LT).
Qed.
End Loop.
End Raw.
