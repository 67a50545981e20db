(** The scan of the sorted values of a feature. *)
From Coq Require Import ZArith List Bool Lia Permutation Reals Lra.
From Flocq Require Import Core IEEE754.BinarySingleNaN.
From Verif Require Import Base Par F64 UtilModel SortModel SortSpec SortProofs SortMoreProofs FloatOrder FloatMid TreeModel TreeSpec TreePartProofs TreeGrowProofs TreeSearchModel TreeSearchSpec.
Import ListNotations.
Local Open Scope Z_scope.

Lemma class_weight_split y w s f l k c : f - 1 <= k <= l ->
  class_weight y w s f l c = class_weight y w s f k c + class_weight y w s (k + 1) l c.
Proof.
  intros K. unfold class_weight. replace (l - f + 1) with ((k - f + 1) + (l - (k + 1) + 1)) by lia.
  rewrite slice_app by lia. rewrite map_app, sum_app. now replace (f + (k - f + 1)) with (k + 1) by lia.
Qed.
Lemma total_weight_split w s f l k : f - 1 <= k <= l ->
  total_weight w s f l = total_weight w s f k + total_weight w s (k + 1) l.
Proof.
  intros K. unfold total_weight. replace (l - f + 1) with ((k - f + 1) + (l - (k + 1) + 1)) by lia.
  rewrite slice_app by lia. rewrite map_app, sum_app. now replace (f + (k - f + 1)) with (k + 1) by lia.
Qed.
Lemma zrange_nil n : n <= 0 -> zrange n = [].
Proof. intros. unfold zrange. now replace (Z.to_nat n) with O by lia. Qed.
Lemma total_weight_empty w s f l : l < f -> total_weight w s f l = 0.
Proof. intros. unfold total_weight, slice. now rewrite zrange_nil by lia. Qed.
Lemma class_weight_empty y w s f l c : l < f -> class_weight y w s f l c = 0.
Proof. intros. unfold class_weight, slice. now rewrite zrange_nil by lia. Qed.

(** at least one for each sample *)
Lemma total_weight_count w s f l : (forall p, f <= p <= l -> 1 <= w (s p)) -> f <= l + 1 -> l - f + 1 <= total_weight w s f l.
Proof.
  intros H FL. unfold total_weight. rewrite <- (slice_len s f (l - f + 1)) at 1 by lia.
  assert (A : forall x, In x (slice s f (l - f + 1)) -> 1 <= w x).
  { intros x I. apply in_slice in I. destruct I as (p & P & <-). apply H. lia. }
  induction (slice s f (l - f + 1)) as [|x L IH]; [cbn; lia|]. cbn [length map fold_right].
  pose proof (A x (or_introl eq_refl)). assert (Z.of_nat (length L) <= fold_right Z.add 0 (map w L)) by (apply IH; intros z I; apply A; now right). lia.
Qed.

Section Scan.
Variables (y : Z -> Z) (n_class nobs n_obs_total : Z) (bootstrap : bool) (weights : Z -> Z).
Variable score : Z -> (Z -> Z) -> f64.
Variables (min_node_sample : Z) (min_improvement feat_thresh : f64).
Let w := weight bootstrap weights.
Let add_counts := add_counts y bootstrap weights.
Let end_of_ties := end_of_ties feat_thresh.
Let update := update_split_sorted y bootstrap weights score feat_thresh.
Let accepts := accepts n_obs_total min_improvement.
Let scan_loop := scan_loop y nobs n_obs_total bootstrap weights score min_node_sample min_improvement feat_thresh.

Lemma add_counts_ok s : forall ps c n,
  (forall k, fst (add_counts s ps (c, n)) k = c k + fold_right Z.add 0 (map (fun i => if y i =? k then w i else 0) (map s ps))) /\
  snd (add_counts s ps (c, n)) = n + fold_right Z.add 0 (map w (map s ps)).
Proof.
  induction ps as [|p ps IH]; intros c n; unfold add_counts, TreeSearchModel.add_counts; cbn [fold_left map fold_right].
  - split; [intros k|]; cbn; lia.
  - destruct (IH (store_at c (y (s p)) (c (y (s p)) + w (s p))) (n + w (s p))) as (A & B). split.
    + intros k. change (fold_left _ _ _) with (add_counts s ps (store_at c (y (s p)) (c (y (s p)) + w (s p)), n + w (s p))).
      rewrite A. unfold store_at. destruct (Z.eqb_spec (y (s p)) k) as [e|NE].
      * rewrite e. rewrite Z.eqb_refl. lia.
      * destruct (Z.eqb_spec k (y (s p))); [congruence|lia].
    + change (fold_left _ _ _) with (add_counts s ps (store_at c (y (s p)) (c (y (s p)) + w (s p)), n + w (s p))). rewrite B. lia.
Qed.

Lemma slice_positions {E} (s : Z -> E) f l : map s (positions f l) = slice s f (l - f + 1).
Proof. unfold positions, slice. now rewrite map_map. Qed.

Lemma count_range s f l : forall c n,
  (forall k, fst (add_counts s (positions f l) (c, n)) k = c k + class_weight y w s f l k) /\
  snd (add_counts s (positions f l) (c, n)) = n + total_weight w s f l.
Proof.
  intros c n. destruct (add_counts_ok s (positions f l) c n) as (A & B). rewrite slice_positions in B. split; [|exact B].
  intros k. rewrite A, slice_positions. reflexivity.
Qed.
Lemma count_range_rev s f l : forall c n,
  (forall k, fst (add_counts s (rev (positions f l)) (c, n)) k = c k + class_weight y w s f l k) /\
  snd (add_counts s (rev (positions f l)) (c, n)) = n + total_weight w s f l.
Proof.
  intros c n. destruct (add_counts_ok s (rev (positions f l)) c n) as (A & B).
  assert (P : Permutation (map s (rev (positions f l))) (slice s f (l - f + 1))).
  { rewrite <- slice_positions. apply Permutation_map. symmetry. apply Permutation_rev. }
  split.
  - intros k. rewrite A. f_equal. apply sum_perm, Permutation_map, P.
  - rewrite B. f_equal. apply sum_perm, Permutation_map, P.
Qed.

(** ** Ties *)
Definition near (fv : Z -> f64) (p q : Z) : bool := f64_lt (f64_abs (f64_sub (fv q) (fv p))) feat_thresh.
Lemma ties_ok fv sidx e : forall fuel next, sidx <= next -> next <= Z.max e sidx -> e - next <= Z.of_nat fuel ->
  (forall p, sidx < p <= next -> near fv sidx p = true) ->
  let r := end_of_ties fuel fv sidx e next in
  next <= r <= Z.max e sidx /\ (forall p, sidx < p <= r -> near fv sidx p = true) /\ (r < e -> near fv sidx (r + 1) = false).
Proof.
  induction fuel as [|fuel IH]; intros next S N F T; cbn zeta.
  - cbn. split; [lia|]. split; auto. lia.
  - unfold end_of_ties. cbn [TreeSearchModel.end_of_ties]. fold (near fv sidx (next + 1)).
    destruct (Z.leb_spec (next + 1) e) as [A|A]; cbn [andb]; [|split; [lia|]; split; auto; lia].
    destruct (near fv sidx (next + 1)) eqn:B; [|split; [lia|]; split; auto].
    destruct (IH (next + 1)) as (H1 & H2 & H3); try lia.
    + intros p P. destruct (Z.eq_dec p (next + 1)) as [->|]; auto. apply T. lia.
    + split; [unfold end_of_ties in H1; lia|]. split; auto.
Qed.

(** ** One update *)
(** the counts of the cut after position [k] *)
Definition counts_at (s : Z -> Z) (f e k : Z) (st : scan) : Prop :=
  (forall c, left_count st c = class_weight y w s f k c) /\ (forall c, right_count st c = class_weight y w s (k + 1) e c) /\
  ns_left st = total_weight w s f k /\ ns_right st = total_weight w s (k + 1) e.
Definition scores_at (ns : Z) (st : scan) : Prop :=
  left_score st = score (ns_left st) (left_count st) /\ right_score st = score (ns_right st) (right_count st) /\
  both_score st = split_score (left_score st) (right_score st) (ns_left st) (ns_right st) ns.

Lemma update_ok cc s fv f e ns sidx st : f <= sidx <= e -> (forall c, cc c = class_weight y w s f e c) -> ns = total_weight w s f e ->
  exists next st', update cc s fv e ns sidx st = (next, st') /\ sidx <= next <= e /\
    (forall p, sidx < p <= next -> near fv sidx p = true) /\ (next < e -> near fv sidx (next + 1) = false) /\
    (next = e -> st' = st) /\
    (next < e -> scores_at ns st') /\
    (next < e -> counts_at s f e (sidx - 1) st -> counts_at s f e next st').
Proof.
  intros S C N. unfold update, update_split_sorted.
  destruct (ties_ok fv sidx e (Z.to_nat (e - sidx)) sidx) as (A & B & D); try lia. unfold end_of_ties in *.
  set (next := TreeSearchModel.end_of_ties feat_thresh (Z.to_nat (e - sidx)) fv sidx e sidx) in *. cbv zeta.
  destruct (Z.leb_spec e next) as [LE|GT].
  - exists next, st. split; auto. split; [lia|]. split; auto. split; auto. split; auto. split; intros; lia.
  - destruct (next - sidx + 1 <=? e - next + 1).
    + destruct (TreeSearchModel.add_counts y bootstrap weights s (positions sidx next) (left_count st, ns_left st)) as (cl, nl) eqn:E.
      eexists next, _. split; [reflexivity|]. split; [lia|]. split; auto. split; auto. split; [lia|]. split; [repeat split|].
      intros _ (H1 & H2 & H3 & H4). destruct (count_range s sidx next (left_count st) (ns_left st)) as (K1 & K2).
      unfold add_counts in K1, K2. rewrite E in K1, K2. cbn [fst snd] in K1, K2.
      assert (CL : forall c, cl c = class_weight y w s f next c).
      { intros c. rewrite K1, H1, (class_weight_split y w s f next (sidx - 1) c) by lia. now replace (sidx - 1 + 1) with sidx by lia. }
      assert (NL : nl = total_weight w s f next).
      { rewrite K2, H3, (total_weight_split w s f next (sidx - 1)) by lia. now replace (sidx - 1 + 1) with sidx by lia. }
      split; [|split; [|split]]; cbn [left_count right_count ns_left ns_right]; auto.
      * intros c. rewrite CL, C, (class_weight_split y w s f e next c) by lia. lia.
      * rewrite NL, N, (total_weight_split w s f e next) by lia. lia.
    + destruct (TreeSearchModel.add_counts y bootstrap weights s (rev (positions (next + 1) e)) (fun _ => 0, 0)) as (cr, nr) eqn:E.
      eexists next, _. split; [reflexivity|]. split; [lia|]. split; auto. split; auto. split; [lia|]. split; [repeat split|].
      intros _ _. destruct (count_range_rev s (next + 1) e (fun _ => 0) 0) as (K1 & K2).
      unfold add_counts in K1, K2. rewrite E in K1, K2. cbn [fst snd] in K1, K2.
      split; [|split; [|split]]; cbn [left_count right_count ns_left ns_right].
      * intros c. rewrite K1, C, (class_weight_split y w s f e next c) by lia. lia.
      * intros c. rewrite K1. lia.
      * rewrite K2, N, (total_weight_split w s f e next) by lia. lia.
      * rewrite K2. lia.
Qed.

(** ** The loop: what holds for every order of the values *)
Lemma f64_lt_trans x z t : f64_lt x z = true -> f64_lt z t = true -> f64_lt x t = true.
Proof.
  intros A B. assert (N : forall a b, f64_lt a b = true -> is_nan a = false /\ is_nan b = false) by (intros [] []; try discriminate; auto).
  destruct (N _ _ A), (N _ _ B). apply f64_lt_key in A, B; auto. apply f64_lt_key; auto. lra.
Qed.

Lemma accepts_again nd sc sp t f l r c : b_score t = sc -> accepts nd sc (Best Continuous f sc l r c sp) = false.
Proof. intros _. unfold accepts, TreeSearchModel.accepts. cbn [b_score]. now rewrite f64_lt_irrefl. Qed.

(** the split found is at some position of the node, or none was found *)
Definition some_cut (nd : node) (fv : Z -> f64) (sp0 sp : best) : Prop :=
  sp = sp0 \/ exists k, first nd <= k < last nd /\ b_prop sp = Continuous /\ b_feat sp = b_feat sp0 /\
    b_threshold sp = midpoint (fv k) (fv (k + 1)).

Lemma scan_basic nd cc s fv sp0 : 0 <= first nd <= last nd -> last nd < nobs ->
  (forall c, cc c = class_weight y w s (first nd) (last nd) c) -> n_node nd = total_weight w s (first nd) (last nd) ->
  forall fuel sidx st sp, first nd <= sidx <= last nd + 1 -> last nd - sidx <= Z.of_nat fuel ->
  (ns_left st < min_node_sample \/ accepts nd (both_score st) sp = false) -> some_cut nd fv sp0 sp ->
  exists sp', scan_loop fuel nd cc s fv sidx st sp = Some sp' /\ some_cut nd fv sp0 sp'.
Proof.
  intros F L C N. induction fuel as [|fuel IH]; intros sidx st sp S FU A SC; unfold scan_loop; cbn [TreeSearchModel.scan_loop];
    destruct (Z.leb_spec sidx (last nd - 1)) as [LE|GT]; try (exists sp; auto; fail); [lia|].
  destruct (update_ok cc s fv (first nd) (last nd) (n_node nd) sidx st) as (next & st' & E & RN & _ & _ & EQ & _ & _); auto; [lia|].
  unfold update in E. rewrite E. clear E.
  destruct (Z.ltb_spec (ns_left st') min_node_sample) as [M|M].
  { apply IH; auto; lia. }
  destruct (Z.ltb_spec (ns_right st') min_node_sample) as [M'|M']; [exists sp; auto|].
  fold (accepts nd (both_score st') sp). destruct (accepts nd (both_score st') sp) eqn:AC.
  - assert (next < last nd).
    { destruct (Z.eq_dec next (last nd)) as [e|]; [|lia]. rewrite (EQ e) in *. destruct A; [lia|congruence]. }
    unfold inside at 1 2. destruct (Z.leb_spec 0 next), (Z.leb_spec 0 (next + 1)), (Z.ltb_spec next nobs), (Z.ltb_spec (next + 1) nobs); try lia.
    cbn [andb]. apply IH; try lia.
    + right. now apply (accepts_again nd _ _ (Best Continuous 0 (both_score st') (both_score st') (both_score st') (both_score st') 0)).
    + right. exists next. cbn [b_prop b_feat b_threshold]. split; [lia|]. split; auto. split; auto.
      destruct SC as [->|(? & _ & _ & -> & _)]; auto.
  - apply IH; auto; try lia.
Qed.

(** ** The loop: sorted values *)
Section Exact.
Variables (nd : node) (cc : Z -> Z) (s : Z -> Z) (fv : Z -> f64) (sp0 : best).
Let f := first nd.
Let e := last nd.
Hypothesis RF : 0 <= f <= e.
Hypothesis RL : e < nobs.
Hypothesis CC : forall c, cc c = class_weight y w s f e c.
Hypothesis NN : n_node nd = total_weight w s f e.
Hypothesis SC : score_reads score n_class.
Hypothesis WP : forall p, f <= p <= e -> 1 <= w (s p).
Hypothesis SV : sorted_values fv f e.
Hypothesis TH : f64_lt (f64_of_Z 0) feat_thresh = true.
Hypothesis FT : few_ties feat_thresh fv f e min_node_sample.
Hypothesis S0 : b_score sp0 = nscore nd.
Let valid := valid_cut y w score n_obs_total min_node_sample min_improvement nd s fv.
Let cut_score := cut_score y w score s f e.

Lemma near_close p q : near fv p q = close feat_thresh (fv p) (fv q).
Proof. reflexivity. Qed.
Lemma fv_finite p : f <= p <= e -> is_finite (fv p) = true.
Proof. apply SV. Qed.
Lemma fin_nan (x : f64) : is_finite x = true -> is_nan x = false.
Proof. destruct x; auto; discriminate. Qed.
Lemma fv_le p q : f <= p <= q -> q <= e -> (B2R (fv p) <= B2R (fv q))%R.
Proof.
  intros P Q. pose proof (proj2 SV p q P Q) as H. pose proof (fv_finite p ltac:(lia)). pose proof (fv_finite q ltac:(lia)).
  apply f64_lt_false in H; [|now apply fin_nan..]. now rewrite !key_finite in H by auto.
Qed.
Lemma fv_lt p q : f <= p <= e -> f <= q <= e -> f64_lt (fv p) (fv q) = true <-> (B2R (fv p) < B2R (fv q))%R.
Proof.
  intros P Q. pose proof (fv_finite p P). pose proof (fv_finite q Q).
  rewrite f64_lt_key by (now apply fin_nan). now rewrite !key_finite by auto.
Qed.
Lemma near_mono p q r : f <= p <= q -> q <= r <= e -> near fv p r = true -> near fv q r = true.
Proof.
  intros P Q. unfold near. apply sub_mono; try (apply fv_finite; lia). split; apply fv_le; lia.
Qed.
Lemma near_inner p q r : f <= p <= q -> q <= r <= e -> near fv p r = true -> near fv p q = true.
Proof.
  intros P Q. unfold near. intros H. pose proof (inf_lt_false _ _ H) as FS. destruct (nan_lt _ _ H) as (_ & Nt).
  assert (Fp := fv_finite p ltac:(lia)). assert (Fq := fv_finite q ltac:(lia)). assert (Fr := fv_finite r ltac:(lia)).
  pose proof (f64_sub_finite (fv r) (fv p) Fr Fp) as S. pose proof (f64_sub_finite (fv q) (fv p) Fq Fp) as S'.
  pose proof (fv_le p q ltac:(lia) ltac:(lia)). pose proof (fv_le q r ltac:(lia) ltac:(lia)).
  destruct (Rlt_bool_spec (Rabs (rnd (B2R (fv r) - B2R (fv p)))) (bpow radix2 1024)) as [OV|OV]; [|congruence].
  assert (LE : (Rabs (rnd (B2R (fv q) - B2R (fv p))) <= Rabs (rnd (B2R (fv r) - B2R (fv p))))%R).
  { rewrite <- !rnd_abs. apply rnd_mono. rewrite !Rabs_pos_eq by lra. lra. }
  rewrite Rlt_bool_true in S' by lra. destruct S as (F1 & V1), S' as (F2 & V2).
  assert (A : forall x, is_finite x = true -> is_nan (f64_abs x) = false /\ key (f64_abs x) = Rabs (B2R x)).
  { intros x F. split; [destruct x; auto; discriminate|]. unfold f64_abs. rewrite key_finite by (now rewrite is_finite_Babs). apply B2R_Babs. }
  apply f64_lt_key in H; auto; [|apply A; auto]. apply f64_lt_key; auto; [apply A; auto|].
  rewrite (proj2 (A _ F2)), V2. rewrite (proj2 (A _ F1)), V1 in H. lra.
Qed.

(** the values on the two sides of a cut differ *)
Lemma cut_lt sidx k : f <= sidx <= k -> k < e -> (forall p, sidx < p <= k -> near fv sidx p = true) -> near fv sidx (k + 1) = false ->
  f64_lt (fv k) (fv (k + 1)) = true.
Proof.
  intros S K T N. apply fv_lt; try lia. destruct (Rle_lt_or_eq_dec _ _ (fv_le k (k + 1) ltac:(lia) ltac:(lia))) as [L|E]; auto. exfalso.
  destruct (Z.eq_dec sidx k) as [->|NE].
  - unfold near in N. rewrite (sub_zero_lt (fv k) (fv (k + 1)) feat_thresh) in N; try discriminate; auto; apply fv_finite; lia.
  - pose proof (T k ltac:(lia)) as TK. unfold near in N, TK.
    enough (f64_lt (f64_abs (f64_sub (fv (k + 1)) (fv sidx))) feat_thresh = true) by congruence.
    pose proof (inf_lt_false _ _ TK) as FS. destruct (nan_lt _ _ TK) as (_ & Nt).
    assert (Fs := fv_finite sidx ltac:(lia)). assert (Fk := fv_finite k ltac:(lia)). assert (Fk1 := fv_finite (k + 1) ltac:(lia)).
    pose proof (f64_sub_finite _ _ Fk Fs) as S1. pose proof (f64_sub_finite _ _ Fk1 Fs) as S2. rewrite <- E in S2.
    destruct (Rlt_bool _ _); [|congruence]. destruct S1 as (A1 & A2), S2 as (B1 & B2).
    apply f64_lt_key; auto; [destruct (f64_sub (fv (k + 1)) (fv sidx)); auto; discriminate|].
    apply f64_lt_key in TK; auto; [|destruct (f64_sub (fv k) (fv sidx)); auto; discriminate].
    unfold f64_abs in *. rewrite key_finite in * by (now rewrite is_finite_Babs). rewrite B2R_Babs in *. rewrite B2. now rewrite A2 in TK.
Qed.

Lemma cut_scores k st : f - 1 <= k < e -> counts_at s f e k st -> scores_at (n_node nd) st ->
  both_score st = cut_score k /\ left_score st = part_score y w score s f k /\ right_score st = part_score y w score s (k + 1) e.
Proof.
  intros K (A & B & C & D) (L & R & BS).
  assert (EL : left_score st = part_score y w score s f k) by (rewrite L, C; apply SC; intros c _; apply A).
  assert (ER : right_score st = part_score y w score s (k + 1) e) by (rewrite R, D; apply SC; intros c _; apply B).
  split; auto. rewrite BS, EL, ER, C, D, NN. reflexivity.
Qed.

(** what the split has to be at any time *)
Definition found (sp : best) : Prop :=
  sp = sp0 \/ exists k, valid k /\ is_cut y w score nd s fv k sp /\ b_feat sp = b_feat sp0 /\ f64_lt (b_score sp) (nscore nd) = true.
(** ties are equal values *)
Definition plain : Prop := forall p q, f <= p < q -> q <= e -> near fv p q = true -> f64_lt (fv p) (fv q) = false.
Definition best_upto (i : Z) (sp : best) : Prop := plain -> forall k, valid k -> k < i -> f64_lt (cut_score k) (b_score sp) = false.
(** the state of the counts *)
Definition tail_at (i : Z) : Prop := forall p, i < p <= e -> near fv i p = true.
Definition at_cut (i k : Z) (st : scan) : Prop :=
  f - 1 <= k < e /\ k < i /\ counts_at s f e k st /\ (k = i - 1 \/ tail_at i).

Lemma scan_exact : forall fuel sidx st sp k, f <= sidx <= e + 1 -> e - sidx <= Z.of_nat fuel -> at_cut sidx k st ->
  (ns_left st < min_node_sample \/ accepts nd (both_score st) sp = false) -> found sp -> best_upto sidx sp ->
  exists sp', scan_loop fuel nd cc s fv sidx st sp = Some sp' /\ found sp' /\ best_upto e sp'.
Proof.
  induction fuel as [|fuel IH]; intros sidx st sp k S FU AT ST FO BU; unfold scan_loop; cbn [TreeSearchModel.scan_loop]; fold e;
    destruct (Z.leb_spec sidx (e - 1)) as [LE|GT]; try (exists sp; split; auto; split; auto; intros PL k' V K'; apply BU; auto; lia); [lia|].
  destruct (update_ok cc s fv f e (n_node nd) sidx st) as (next & st' & E & RN & TIES & NTIE & EQ & SCO & CNT); auto; [lia|].
  unfold update in E. rewrite E. clear E.
  destruct AT as (K & KS & CA & CASE).
  assert (NOCUT : forall k', plain -> sidx <= k' < next -> valid k' -> False).
  { intros k' PL K' (V1 & V2 & _). assert (V2' := V2). apply fv_lt in V2'; [|fold f e in V1; lia..].
    assert (NR : near fv sidx (k' + 1) = true) by (apply TIES; lia).
    assert (H := near_mono sidx k' (k' + 1) ltac:(lia) ltac:(lia) NR). apply PL in H; [|lia..]. congruence. }
  destruct (Z.eq_dec next e) as [NE|NE].
  - (* nothing to update: a tail *)
    rewrite (EQ NE) in *. subst next.
    assert (TL : tail_at sidx) by (intros p P; apply TIES; lia).
    assert (BU' : best_upto e sp).
    { intros PL k' V K'. destruct (Z_lt_ge_dec k' sidx); [apply BU; auto|]. elim (NOCUT k' PL ltac:(lia) V). }
    destruct (Z.ltb_spec (ns_left st) min_node_sample) as [M|M].
    { apply (IH (sidx + 1) st sp k); auto; try lia.
      - split; auto. split; [lia|]. split; auto. right. intros p P. apply (near_mono sidx (sidx + 1) p); try lia. apply TL. lia.
      - intros PL k' V K'. apply BU'; auto. destruct V as (V1 & _). fold f e in V1. lia. }
    destruct (Z.ltb_spec (ns_right st) min_node_sample) as [M'|M']; [exists sp; auto|].
    fold (accepts nd (both_score st) sp). destruct (accepts nd (both_score st) sp) eqn:AC; [destruct ST; [lia|discriminate]|].
    apply (IH (e + 1) st sp k); auto; try lia.
    + split; auto. split; [lia|]. split; auto. right. intros p P. lia.
    + intros PL k' V K'. apply BU'; auto. destruct V as (V1 & _). fold f e in V1. lia.
  - assert (NLT : next < e) by lia. clear EQ. specialize (NTIE NLT). specialize (SCO NLT).
    (* the counts were those before this position *)
    assert (CL : k = sidx - 1) by (destruct CASE as [|TL]; auto; exfalso; rewrite TL in NTIE by lia; discriminate).
    subst k. specialize (CNT NLT CA). clear CASE.
    destruct (cut_scores next st' ltac:(lia) CNT SCO) as (B1 & B2 & B3).
    pose proof CNT as (_ & _ & NL & NR).
    destruct (Z.ltb_spec (ns_left st') min_node_sample) as [M|M].
    { (* too few on the left: the run has one value *)
      assert (NXT : next = sidx).
      { pose proof (total_weight_count w s f next) as TWC. rewrite <- NL in TWC.
        assert (next - f + 1 <= ns_left st') by (apply TWC; [intros p P; apply WP; lia|lia]).
        destruct (Z.eq_dec next sidx); auto. exfalso.
        assert (near fv sidx (sidx + 1) = true) as T1 by (apply TIES; lia). rewrite near_close, FT in T1; [discriminate|lia|lia]. }
      subst next. apply (IH (sidx + 1) st' sp sidx); auto; try lia.
      - split; [lia|]. split; [lia|]. split; auto. left. lia.
      - intros PL k' V K'. destruct (Z.eq_dec k' sidx) as [->|]; [|apply BU; auto; lia].
        exfalso. destruct V as (_ & _ & V3 & _). fold f in V3. rewrite <- NL in V3. lia. }
    destruct (Z.ltb_spec (ns_right st') min_node_sample) as [M'|M'].
    { exists sp. split; auto. split; auto. intros PL k' V K'. destruct (Z_lt_ge_dec k' sidx); [apply BU; auto|].
      destruct (Z_lt_ge_dec k' next); [elim (NOCUT k' PL ltac:(lia) V)|]. exfalso.
      destruct V as (V1 & _ & _ & V4 & _). fold f e in V1, V4. rewrite (total_weight_split w s (next + 1) e k') in NR by lia.
      assert (0 <= total_weight w s (next + 1) k'); [|lia].
      pose proof (total_weight_count w s (next + 1) k') as TWC. enough (k' - (next + 1) + 1 <= total_weight w s (next + 1) k') by lia.
      apply TWC; [intros p P; apply WP; lia|lia]. }
    fold (accepts nd (both_score st') sp). destruct (accepts nd (both_score st') sp) eqn:AC.
    + assert (inside nobs next = true /\ inside nobs (next + 1) = true) as (-> & ->) by (unfold inside; lia). cbn [andb].
      pose proof AC as AC'. unfold accepts, TreeSearchModel.accepts in AC'. apply andb_prop in AC'. destruct AC' as (A1 & A2).
      apply (IH (next + 1) st' _ next); auto; try lia.
      * split; [lia|]. split; [lia|]. split; auto. left. lia.
      * right. now apply (accepts_again nd _ _ (Best Continuous 0 (both_score st') (both_score st') (both_score st') (both_score st') 0)).
      * right. exists next. split; [|split; [|split]].
        -- split; [fold f e; lia|]. split; [apply (cut_lt sidx); auto; lia|]. fold f e. rewrite <- NL, <- NR. split; auto. split; auto.
           fold cut_score. rewrite <- B1. exact A2.
        -- unfold is_cut. cbn [b_prop b_threshold b_score b_left b_right]. fold f e. auto.
        -- cbn [b_feat]. destruct FO as [->|(? & _ & _ & -> & _)]; auto.
        -- cbn [b_score]. destruct FO as [->|(? & _ & _ & _ & L)]; [now rewrite S0 in A1|]. eapply f64_lt_trans; eauto.
      * intros PL k' V K'. cbn [b_score]. destruct (Z.eq_dec k' next) as [->|]; [rewrite B1; apply f64_lt_irrefl|].
        destruct (Z_lt_ge_dec k' sidx); [|elim (NOCUT k' PL ltac:(lia) V)].
        specialize (BU PL k' V l). destruct (f64_lt (cut_score k') (both_score st')) eqn:LT; auto.
        rewrite (f64_lt_trans _ _ _ LT A1) in BU. discriminate.
    + apply (IH (next + 1) st' sp next); auto; try lia.
      * split; [lia|]. split; [lia|]. split; auto. left. lia.
      * intros PL k' V K'. destruct (Z.eq_dec k' next) as [->|].
        -- destruct V as (_ & _ & _ & _ & V5). fold f e in V5. fold cut_score in V5. unfold accepts, TreeSearchModel.accepts in AC. rewrite B1 in AC.
           unfold improvement in AC. unfold gain in V5. rewrite V5, andb_true_r in AC. exact AC.
        -- destruct (Z_lt_ge_dec k' sidx); [apply BU; auto|elim (NOCUT k' PL ltac:(lia) V)].
Qed.

(** split_raw_continuous on sorted values *)
Hypothesis MP : 1 <= min_node_sample.
Lemma continuous_exact sp : sp0 = Best (b_prop sp) (b_feat sp) (nscore nd) (b_left sp) (b_right sp) (b_threshold sp) (b_category sp) ->
  exists sp', split_raw_continuous y nobs n_obs_total bootstrap weights score min_node_sample min_improvement feat_thresh nd cc s fv sp = Some sp' /\
    found sp' /\ best_upto e sp'.
Proof.
  intros E0. unfold split_raw_continuous. rewrite <- E0. cbv zeta.
  apply (scan_exact _ (first nd) _ sp0 (f - 1)); fold f e; try lia.
  - split; [lia|]. split; [lia|]. split.
    + unfold counts_at. cbn [left_count right_count ns_left ns_right]. replace (f - 1 + 1) with f by lia. split; [|split; [|split]]; auto.
      * intros c. rewrite class_weight_empty by lia. reflexivity.
      * rewrite total_weight_empty by lia. reflexivity.
    + left. lia.
  - left. cbn [ns_left]. lia.
  - left. reflexivity.
  - intros _ k' (V & _) K'. fold f e in V. lia.
Qed.
End Exact.

(** split_raw_continuous on any values *)
Lemma continuous_basic nd cc s fv sp : 0 <= first nd <= last nd -> last nd < nobs -> 1 <= min_node_sample ->
  (forall c, cc c = class_weight y w s (first nd) (last nd) c) -> n_node nd = total_weight w s (first nd) (last nd) ->
  let sp0 := Best (b_prop sp) (b_feat sp) (nscore nd) (b_left sp) (b_right sp) (b_threshold sp) (b_category sp) in
  exists sp', split_raw_continuous y nobs n_obs_total bootstrap weights score min_node_sample min_improvement feat_thresh nd cc s fv sp = Some sp' /\
    some_cut nd fv sp0 sp'.
Proof.
  intros F L M C N sp0. unfold split_raw_continuous. cbv zeta. fold sp0. apply (scan_basic nd cc s fv sp0); auto; try lia.
  - left. cbn [ns_left]. lia.
  - now left.
Qed.
End Scan.
