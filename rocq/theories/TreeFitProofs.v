(** The invariant of fit_serial. *)
From Coq Require Import ZArith List Bool Lia Permutation.
From Flocq Require Import Core IEEE754.BinarySingleNaN.
From Verif Require Import Base Par F64 UtilModel SortModel SortSpec SortProofs SortMoreProofs TreeModel TreeSpec TreePartProofs TreeGrowProofs.
Import ListNotations.
Local Open Scope Z_scope.

(** ** The nodes after a split *)
Section Split.
Variables (t : list node) (idx : Z) (nd0 nd2 rn ln : node).
Hypothesis N0 : node_at t idx nd0.
Let n := size t.
Definition grown_tree := set_node t idx nd2 ++ [rn; ln].

Lemma gt_size : size grown_tree = n + 2.
Proof. unfold grown_tree, size. rewrite app_length. unfold set_node. rewrite set_nth_len. cbn [length]. unfold n, size. lia. Qed.
Lemma gt_idx : node_at grown_tree idx nd2.
Proof.
  pose proof (node_at_range _ _ _ N0). unfold node_at, grown_tree. rewrite get_app_l by (rewrite size_set; auto).
  eapply set_eq; eauto.
Qed.
Lemma gt_old j : 0 <= j < n -> j <> idx -> get_node grown_tree j = get_node t j.
Proof.
  pose proof (node_at_range _ _ _ N0). intros J NE. unfold grown_tree. rewrite get_app_l by (rewrite size_set; auto).
  apply set_ne; lia.
Qed.
Lemma gt_right : node_at grown_tree n rn.
Proof. unfold node_at, grown_tree. rewrite get_app_r by (rewrite size_set; fold n; lia). rewrite size_set. fold n. now rewrite Z.sub_diag. Qed.
Lemma gt_left : node_at grown_tree (n + 1) ln.
Proof.
  unfold node_at, grown_tree. rewrite get_app_r by (rewrite size_set; fold n; lia). rewrite size_set. fold n.
  now replace (n + 1 - n) with 1 by lia.
Qed.
Lemma gt_inv j x : node_at grown_tree j x ->
  (j = idx /\ x = nd2) \/ (j <> idx /\ 0 <= j < n /\ node_at t j x) \/ (j = n /\ x = rn) \/ (j = n + 1 /\ x = ln).
Proof.
  intros J. pose proof (node_at_range _ _ _ J) as RJ. rewrite gt_size in RJ.
  pose proof gt_right as GR. pose proof gt_left as GL. pose proof gt_idx as GI. unfold node_at in *.
  destruct (Z.eq_dec j n) as [->|A]; [right; right; left; split; congruence|].
  destruct (Z.eq_dec j (n + 1)) as [->|B]; [right; right; right; split; congruence|].
  destruct (Z.eq_dec j idx) as [->|C]; [left; split; congruence|].
  right; left. rewrite gt_old in J by lia. split; [auto|]. split; [lia|auto].
Qed.
Lemma gt_leaves : leaf nd0 = true -> leaf nd2 = false -> leaf rn = true -> leaf ln = true ->
  count_leaves grown_tree = count_leaves t + 1.
Proof.
  intros A B C D. unfold count_leaves, grown_tree. rewrite filter_app, app_length. cbn [filter]. rewrite C, D. cbn [length].
  enough (H : Z.of_nat (length (filter leaf (set_node t idx nd2))) = Z.of_nat (length (filter leaf t)) - 1) by lia.
  unfold set_node. unfold node_at, get_node in N0. destruct (idx <? 0); [discriminate|]. clear n. revert N0. generalize (Z.to_nat idx).
  induction t as [|x l IH]; intros [|i]; cbn [nth_error]; try discriminate.
  - intros [= ->]. cbn [set_nth filter]. rewrite A, B. cbn [length]. lia.
  - intros H. cbn [set_nth filter]. specialize (IH i H). destruct (leaf x); cbn [length]; lia.
Qed.
End Split.

Section Fit.
Variables (X : Z -> f64) (xlen ldx n_samples : Z) (y : Z -> Z) (n_class : Z).
Variables (use_hist : bool) (binned : Z -> Z) (blen nobs : Z) (bootstrap : bool) (weights : Z -> Z).
Variables (max_depth min_node_sample : Z) (min_split_score : f64).
Variables (R : Type) (search : R -> Z -> node -> (Z -> Z) -> option (R * option split * (Z -> Z))).
Variables (good : R -> Prop) (sep : Prop) (kind : property -> Prop).
Let w := weight bootstrap weights.
Let on_left := on_left X ldx use_hist binned.
Let readable := readable X xlen ldx use_hist blen.
Let samples_ok := samples_ok n_samples nobs.
Let describes := describes y n_class bootstrap weights.
Let fresh := fresh y n_class bootstrap weights.
Let split_node := split_node_and_add_children X xlen ldx n_samples y n_class use_hist binned blen nobs bootstrap weights
                    max_depth min_node_sample min_split_score.
Let fit_loop := fit_loop X xlen ldx n_samples y n_class use_hist binned blen nobs bootstrap weights
                    max_depth min_node_sample min_split_score R search.
Hypothesis labels : forall i, 0 <= i < n_samples -> 0 <= y i < n_class.
Hypothesis classes : 1 <= n_class.
Hypothesis depth_pos : 0 <= max_depth.
Hypothesis min_pos : 1 <= min_node_sample.

Hypothesis search_ok : search_contract X xlen ldx use_hist binned blen n_samples nobs (weight bootstrap weights) min_node_sample R search good sep kind.

(** the tree *)
Record tree_inv (t : list node) : Prop := {
  t_grown : well_grown t nobs max_depth;
  t_range : forall i nd, node_at t i nd -> 0 <= first nd /\ last nd < nobs /\ first nd <= last nd + 1;
  t_cover : forall p, 0 <= p < nobs -> exists i nd, node_at t i nd /\ leaf nd = true /\ has nd p;
  t_disj : forall i j a b, node_at t i a -> node_at t j b -> leaf a = true -> leaf b = true -> i <> j ->
    last a < first b \/ last b < first a;
  t_lam : forall i nd a j b, node_at t i nd -> leaf nd = false -> node_at t (lchild nd) a -> node_at t j b -> leaf b = true ->
    last b < first nd \/ last nd < first b \/ (first nd <= first b /\ last b <= last a) \/
    (last a + 1 <= first b /\ last b <= last nd) }.

(** the samples *)
Record samp_inv (t : list node) (s0 s : Z -> Z) : Prop := {
  s_perm : rearranged 0 nobs s0 s;
  s_desc : forall i nd, node_at t i nd -> describes s nd;
  s_route : sep -> forall i nd a, node_at t i nd -> leaf nd = false -> node_at t (lchild nd) a ->
    forall p, has nd p -> on_left nd (s p) = (p <=? last a);
  s_min : sep -> has_minimum min_node_sample t;
  s_agree : sep -> forall i nd, node_at t i nd -> leaf nd = false -> forall p, has nd p -> agrees X ldx use_hist binned nd (s p);
  s_kind : forall i nd, node_at t i nd -> leaf nd = false -> kind (prop nd) }.

(** the numbers kept *)
Record count_inv (d0 : Z) (st : state) : Prop := {
  c_nodup : NoDup (queue st);
  c_queue : forall j, In j (queue st) -> exists nd, node_at (nodes st) j nd /\ leaf nd = true /\ ndepth nd < max_depth /\ first nd <= last nd;
  c_leaves : n_leaves st + Z.of_nat (length (queue st)) = count_leaves (nodes st);
  c_depth : d0 <= tdepth st /\ (forall i nd, node_at (nodes st) i nd -> ndepth nd <= tdepth st) /\
    (tdepth st = d0 \/ exists i nd, node_at (nodes st) i nd /\ ndepth nd = tdepth st) }.

Lemma leaf_laminar t idx nd0 : tree_inv t -> node_at t idx nd0 -> leaf nd0 = true -> forall i nd, node_at t i nd ->
  last nd0 < first nd \/ last nd < first nd0 \/ (first nd <= first nd0 /\ last nd0 <= last nd).
Proof.
  intros T N0 L0 i nd N. destruct (leaf nd) eqn:L.
  - destruct (Z.eq_dec i idx) as [->|NE]; [right; right; unfold node_at in *; assert (nd = nd0) as -> by congruence; lia|].
    destruct (t_disj _ T i idx nd nd0 N N0 L L0 NE); auto.
  - destruct (wg_children _ _ _ (t_grown _ T) i nd N L) as (a & b & NA & NB & _ & _ & _ & _ & _ & _ & _ & FA & FB & LB & K).
    destruct (t_lam _ T i nd a idx nd0 N L NA N0 L0) as [H|[H|[H|H]]]; auto; right; right; lia.
Qed.

Lemma rearranged_samples f l s s' : 0 <= f -> l < nobs -> samples_ok s -> rearranged f (l - f + 1) s s' -> samples_ok s'.
Proof.
  intros F L SO RE p P. destruct (Z_le_gt_dec f p) as [A|A]; [destruct (Z_le_gt_dec p l) as [B|B]|].
  - destruct (rearranged_from _ _ _ _ p RE ltac:(lia)) as (j & J & ->). apply SO. lia.
  - rewrite (proj2 RE) by lia. now apply SO.
  - rewrite (proj2 RE) by lia. now apply SO.
Qed.

Lemma describes_rearranged f l s s' nd : rearranged f (l - f + 1) s s' ->
  (l < first nd \/ last nd < f \/ (first nd <= f /\ l <= last nd)) -> describes s nd -> describes s' nd.
Proof.
  intros RE H (A & B & C). split; [|split].
  - eapply is_first_max_ext; [|exact A]. intros c. eapply class_weight_rearranged; eauto.
  - rewrite B. eapply total_weight_rearranged; eauto.
  - rewrite C. apply map_ext. intros c. do 2 f_equal. eapply class_weight_rearranged; eauto.
Qed.

(** the samples of a leaf may be reordered *)
Lemma samp_rearranged t s0 s s' idx nd0 : tree_inv t -> samp_inv t s0 s -> node_at t idx nd0 -> leaf nd0 = true ->
  rearranged (first nd0) (last nd0 - first nd0 + 1) s s' -> samp_inv t s0 s'.
Proof.
  intros T SI N0 L0 RE. destruct (t_range _ T _ _ N0) as (F & L & FL). split.
  - eapply rearranged_trans; [exact (s_perm _ _ _ SI)|]. eapply rearranged_widen; [exact RE|lia|lia].
  - intros i nd N. eapply describes_rearranged; [exact RE| |exact (s_desc _ _ _ SI _ _ N)].
    exact (leaf_laminar t idx nd0 T N0 L0 i nd N).
  - intros SEP i nd a N LF NA p P. pose proof (s_route _ _ _ SI SEP i nd a N LF NA) as RT.
    pose proof (t_lam _ T i nd a idx nd0 N LF NA N0 L0) as LAM.
    destruct (wg_children _ _ _ (t_grown _ T) i nd N LF) as (a' & b & NA' & _ & _ & _ & _ & _ & _ & _ & _ & _ & _ & _ & KA).
    unfold node_at in NA, NA'. assert (a' = a) as -> by congruence. unfold has in P.
    destruct (Z_le_gt_dec (first nd0) p) as [A|A]; [destruct (Z_le_gt_dec p (last nd0)) as [B|B]|].
    + destruct (rearranged_from _ _ _ _ p RE ltac:(lia)) as (j & J & ->).
      rewrite (RT j) by (unfold has; lia). destruct (Z.leb_spec j (last a)), (Z.leb_spec p (last a)); auto; lia.
    + rewrite (proj2 RE) by lia. now apply RT.
    + rewrite (proj2 RE) by lia. now apply RT.
  - exact (s_min _ _ _ SI).
  - intros SEP i nd N LF p P. pose proof (s_agree _ _ _ SI SEP i nd N LF) as AG. unfold has in *.
    pose proof (leaf_laminar t idx nd0 T N0 L0 i nd N) as LAM.
    destruct (Z_le_gt_dec (first nd0) p) as [A|A]; [destruct (Z_le_gt_dec p (last nd0)) as [B|B]|].
    + destruct (rearranged_from _ _ _ _ p RE ltac:(lia)) as (j & J & ->). apply AG. lia.
    + rewrite (proj2 RE) by lia. now apply AG.
    + rewrite (proj2 RE) by lia. now apply AG.
  - exact (s_kind _ _ _ SI).
Qed.

Lemma side_weight_rearranged left nd f l a b : rearranged f (l - f + 1) a b ->
  side_weight X ldx use_hist binned w left nd a f l = side_weight X ldx use_hist binned w left nd b f l.
Proof. intros RE. unfold side_weight. apply sum_perm, Permutation_map, RE. Qed.

(** the samples on the two sides of an exact split *)
Lemma side_weight_split nd s f l k : f - 1 <= k <= l -> (forall p, f <= p <= l -> on_left nd (s p) = (p <=? k)) ->
  side_weight X ldx use_hist binned w true nd s f l = total_weight w s f k /\
  side_weight X ldx use_hist binned w false nd s f l = total_weight w s (k + 1) l.
Proof.
  intros K H. unfold side_weight, total_weight. replace (l - f + 1) with ((k - f + 1) + (l - (k + 1) + 1)) by lia.
  rewrite slice_app by lia. rewrite !map_app, !sum_app. replace (f + (k - f + 1)) with (k + 1) by lia.
  assert (Z0 : forall (g : Z -> Z) L, (forall x, In x L -> g x = 0) -> fold_right Z.add 0 (map g L) = 0).
  { intros g L. induction L as [|x L IH]; intros A; cbn; auto. rewrite A, IH; auto; cbn; auto. intros z I. apply A. now right. }
  split.
  - rewrite (Z0 _ (slice s (k + 1) _)), Z.add_0_r.
    + f_equal. apply map_ext_in. intros x I. apply in_slice in I. destruct I as (p & P & <-). fold on_left. rewrite H by lia.
      destruct (Z.leb_spec p k); [reflexivity|lia].
    + intros x I. apply in_slice in I. destruct I as (p & P & <-). fold on_left. rewrite H by lia. destruct (Z.leb_spec p k); [lia|reflexivity].
  - rewrite (Z0 _ (slice s f _)), Z.add_0_l.
    + f_equal. apply map_ext_in. intros x I. apply in_slice in I. destruct I as (p & P & <-). fold on_left. rewrite H by lia.
      destruct (Z.leb_spec p k); [lia|reflexivity].
    + intros x I. apply in_slice in I. destruct I as (p & P & <-). fold on_left. rewrite H by lia. destruct (Z.leb_spec p k); [reflexivity|lia].
Qed.

Lemma side_weight_exists nd s f l left : 0 < side_weight X ldx use_hist binned w left nd s f l ->
  exists p, f <= p <= l /\ on_left nd (s p) = left.
Proof.
  unfold side_weight. intros H. assert (E : exists i, In i (slice s f (l - f + 1)) /\ on_left nd i = left).
  { revert H. induction (slice s f (l - f + 1)) as [|x L IH]; cbn [map fold_right]; intros H; [lia|]. fold on_left in H, IH.
    destruct (eqb (on_left nd x) left) eqn:E.
    - apply eqb_prop in E. exists x. split; [now left|auto].
    - destruct IH as (i & I & O); [lia|]. exists i. split; [now right|auto]. }
  destruct E as (i & I & O). apply in_slice in I. destruct I as (p & P & <-). exists p. split; [lia|auto].
Qed.

(** ** Splitting a leaf *)
Lemma tree_split t idx nd0 sp rn ln k s' : tree_inv t -> node_at t idx nd0 -> leaf nd0 = true -> ndepth nd0 < max_depth ->
  let n := size t in let nd2 := with_left (with_right (apply_split use_hist nd0 sp) n) (n + 1) in
  first nd0 - 1 <= k <= last nd0 ->
  fresh rn idx (ndepth nd0 + 1) (k + 1) (last nd0) s' -> fresh ln idx (ndepth nd0 + 1) (first nd0) k s' ->
  tree_inv (grown_tree t idx nd2 rn ln).
Proof.
  intros T N0 L0 D0 n nd2 K FR FL.
  destruct FR as (R1 & R2 & R3 & R4 & R5 & _), FL as (L1 & L2 & L3 & L4 & L5 & _).
  pose proof (t_range _ T _ _ N0) as RG0. pose proof (node_at_range _ _ _ N0) as RI. fold n in RI.
  pose proof (gt_idx t idx nd0 nd2 rn ln N0) as GI. pose proof (gt_right t idx nd2 rn ln) as GR. pose proof (gt_left t idx nd2 rn ln) as GL. fold n in GR, GL.
  assert (OLD : forall j x, node_at t j x -> j <> idx -> node_at (grown_tree t idx nd2 rn ln) j x).
  { intros j x J NE. pose proof (node_at_range _ _ _ J). unfold node_at. rewrite (gt_old _ _ _ _ _ _ N0); auto. }
  assert (WG : well_grown (grown_tree t idx nd2 rn ln) nobs max_depth).
  { pose proof (t_grown _ T) as G. split.
    - destruct (wg_root _ _ _ G) as (r & NR & F & L & D). destruct (Z.eq_dec 0 idx) as [e|NE].
      + exists nd2. rewrite <- e in *. split; [exact GI|]. unfold node_at in NR, N0. assert (r = nd0) as -> by congruence. auto.
      + exists r. split; [apply OLD; auto|]. auto.
    - intros i nd N LF. destruct (gt_inv _ _ _ _ _ _ N0 _ _ N) as [(-> & ->)|[(NE & RJ & NT)|[(-> & ->)|(-> & ->)]]]; try congruence.
      + exists ln, rn. cbn [nd2 with_left with_right apply_split lchild rchild ndepth first last]. rewrite R2, R3, R4, R5, L2, L3, L4, L5.
        repeat split; auto; lia.
      + destruct (wg_children _ _ _ G i nd NT LF) as (a & b & NA & NB & I1 & I2 & I3 & PA & PB & DA & DB & FA & FB & LB & KK).
        assert (TR : forall j c, node_at t j c -> exists c', node_at (grown_tree t idx nd2 rn ln) j c' /\ parent c' = parent c /\ ndepth c' = ndepth c /\ first c' = first c /\ last c' = last c).
        { intros j c NC. destruct (Z.eq_dec j idx) as [->|NJ].
          - exists nd2. unfold node_at in NC, N0. assert (c = nd0) as -> by congruence. split; [exact GI|]. repeat split; reflexivity.
          - exists c. split; [apply OLD; auto|]. repeat split; reflexivity. }
        destruct (TR _ _ NA) as (a' & NA' & A1 & A2 & A3 & A4). destruct (TR _ _ NB) as (b' & NB' & B1 & B2 & B3 & B4).
        exists a', b'. rewrite A1, A2, A3, A4, B1, B2, B3, B4. repeat split; auto; lia.
    - intros i nd N NZ. destruct (gt_inv _ _ _ _ _ _ N0 _ _ N) as [(-> & ->)|[(NE & RJ & NT)|[(-> & ->)|(-> & ->)]]].
      + destruct (wg_parent _ _ _ G idx nd0 N0 NZ) as (p & NP & LP & PI & CH). exists p. change (parent nd2) with (parent nd0).
        split; [apply OLD; auto; lia|]. split; auto.
      + destruct (wg_parent _ _ _ G i nd NT NZ) as (p & NP & LP & PI & CH).
        destruct (Z.eq_dec (parent nd) idx) as [e|NP']; [exfalso; rewrite e in NP; unfold node_at in *; congruence|].
        exists p. split; [apply OLD; auto|]. auto.
      + exists nd2. rewrite R2. split; [exact GI|]. split; [reflexivity|]. split; [lia|]. right. reflexivity.
      + exists nd2. rewrite L2. split; [exact GI|]. split; [reflexivity|]. split; [lia|]. left. reflexivity.
    - intros i nd N. destruct (gt_inv _ _ _ _ _ _ N0 _ _ N) as [(-> & ->)|[(NE & RJ & NT)|[(-> & ->)|(-> & ->)]]].
      + exact (wg_depth _ _ _ G idx nd0 N0).
      + exact (wg_depth _ _ _ G i nd NT).
      + pose proof (wg_depth _ _ _ G idx nd0 N0). lia.
      + pose proof (wg_depth _ _ _ G idx nd0 N0). lia. }
  split; [exact WG|..].
  - intros i nd N. destruct (gt_inv _ _ _ _ _ _ N0 _ _ N) as [(-> & ->)|[(NE & RJ & NT)|[(-> & ->)|(-> & ->)]]].
    + exact RG0.
    + exact (t_range _ T _ _ NT).
    + lia.
    + lia.
  - intros p P. destruct (t_cover _ T p P) as (i & nd & N & LF & H). destruct (Z.eq_dec i idx) as [->|NE].
    + unfold node_at in N, N0. assert (nd = nd0) as -> by congruence. unfold has in H.
      destruct (Z_le_gt_dec p k).
      * exists (n + 1), ln. split; [exact GL|]. split; [auto|]. unfold has. lia.
      * exists n, rn. split; [exact GR|]. split; [auto|]. unfold has. lia.
    + exists i, nd. split; [apply OLD; auto|]. auto.
  - assert (SUB : forall i a, node_at (grown_tree t idx nd2 rn ln) i a -> leaf a = true ->
        (exists i', node_at t i' a /\ i' = i /\ i' <> idx) \/ ((i = n /\ a = rn) \/ (i = n + 1 /\ a = ln))).
    { intros i a N LF. destruct (gt_inv _ _ _ _ _ _ N0 _ _ N) as [(-> & ->)|[(NE & RJ & NT)|[H|H]]]; auto; [discriminate|].
      left. exists i. auto. }
    intros i j a b NA NB LA LB IJ.
    destruct (SUB i a NA LA) as [(i' & NI & -> & NE)|[(-> & ->)|(-> & ->)]], (SUB j b NB LB) as [(j' & NJ & -> & NE')|[(-> & ->)|(-> & ->)]];
      try (exfalso; congruence); try lia.
    + exact (t_disj _ T i j a b NI NJ LA LB IJ).
    + destruct (t_disj _ T i idx a nd0 NI N0 LA L0 NE); lia.
    + destruct (t_disj _ T i idx a nd0 NI N0 LA L0 NE); lia.
    + destruct (t_disj _ T j idx b nd0 NJ N0 LB L0 NE'); lia.
    + destruct (t_disj _ T j idx b nd0 NJ N0 LB L0 NE'); lia.
  - intros i nd a j b N LF NA NB LB.
    destruct (gt_inv _ _ _ _ _ _ N0 _ _ N) as [(-> & ->)|[(NE & RJ & NT)|[(-> & ->)|(-> & ->)]]]; try congruence.
    + change (lchild nd2) with (n + 1) in NA. unfold node_at in NA, GL. assert (a = ln) as -> by congruence.
      change (first nd2) with (first nd0). change (last nd2) with (last nd0).
      destruct (gt_inv _ _ _ _ _ _ N0 _ _ NB) as [(-> & ->)|[(NE & RJ & NT)|[(-> & ->)|(-> & ->)]]]; try discriminate; try lia.
      destruct (t_disj _ T j idx b nd0 NT N0 LB L0 NE); lia.
    + destruct (wg_children _ _ _ (t_grown _ T) i nd NT LF) as (a0 & b0 & NA0 & NB0 & _).
      assert (LA : last a = last a0).
      { destruct (Z.eq_dec (lchild nd) idx) as [e|NE'].
        - rewrite e in NA, NA0. unfold node_at in *. assert (a = nd2) as -> by congruence. assert (a0 = nd0) as -> by congruence. reflexivity.
        - pose proof (OLD _ _ NA0 NE') as O. unfold node_at in *. congruence. }
      rewrite LA. destruct (gt_inv _ _ _ _ _ _ N0 _ _ NB) as [(-> & ->)|[(NEj & RJj & NTj)|[(-> & ->)|(-> & ->)]]]; try discriminate.
      * exact (t_lam _ T i nd a0 j b NT LF NA0 NTj LB).
      * destruct (t_lam _ T i nd a0 idx nd0 NT LF NA0 N0 L0) as [H|[H|[H|H]]]; lia.
      * destruct (t_lam _ T i nd a0 idx nd0 NT LF NA0 N0 L0) as [H|[H|[H|H]]]; lia.
Qed.

Lemma on_left_children nd a b i : on_left (with_left (with_right nd a) b) i = on_left nd i.
Proof. reflexivity. Qed.

Lemma samp_split t s0 s idx nd0 sp rn ln k s' : tree_inv t -> samp_inv t s0 s -> node_at t idx nd0 -> leaf nd0 = true ->
  let n := size t in let nd2 := with_left (with_right (apply_split use_hist nd0 sp) n) (n + 1) in
  first nd0 - 1 <= k <= last nd0 -> rearranged (first nd0) (last nd0 - first nd0 + 1) s s' ->
  fresh rn idx (ndepth nd0 + 1) (k + 1) (last nd0) s' -> fresh ln idx (ndepth nd0 + 1) (first nd0) k s' ->
  (sep -> forall p, first nd0 <= p <= last nd0 -> on_left (apply_split use_hist nd0 sp) (s' p) = (p <=? k)) ->
  (sep -> min_node_sample <= n_node rn /\ min_node_sample <= n_node ln) ->
  (sep -> forall p, first nd0 <= p <= last nd0 -> agrees X ldx use_hist binned (apply_split use_hist nd0 sp) (s' p)) ->
  kind (prop (apply_split use_hist nd0 sp)) ->
  samp_inv (grown_tree t idx nd2 rn ln) s0 s'.
Proof.
  intros T SI N0 L0 n nd2 K RE FR FL SEPR SEPM SEPA KD.
  pose proof (samp_rearranged _ _ _ _ _ _ T SI N0 L0 RE) as SI'.
  assert (GL := gt_left t idx nd2 rn ln). fold n in GL.
  split; [exact (s_perm _ _ _ SI')|..].
  - intros i nd N. destruct (gt_inv _ _ _ _ _ _ N0 _ _ N) as [(-> & ->)|[(NE & RJ & NT)|[(-> & ->)|(-> & ->)]]].
    + exact (s_desc _ _ _ SI' idx nd0 N0).
    + exact (s_desc _ _ _ SI' i nd NT).
    + apply FR.
    + apply FL.
  - intros SEP i nd a N LF NA p P.
    destruct (gt_inv _ _ _ _ _ _ N0 _ _ N) as [(-> & ->)|[(NE & RJ & NT)|[(-> & ->)|(-> & ->)]]].
    + change (lchild nd2) with (n + 1) in NA. unfold node_at in NA, GL. assert (a = ln) as -> by congruence.
      destruct FL as (_ & _ & _ & _ & -> & _). unfold nd2. rewrite on_left_children. apply SEPR; auto.
    + destruct (wg_children _ _ _ (t_grown _ T) i nd NT LF) as (a0 & b0 & NA0 & NB0 & _).
      assert (LA : last a = last a0).
      { destruct (Z.eq_dec (lchild nd) idx) as [e|NE'].
        - rewrite e in NA, NA0. pose proof (gt_idx t idx nd0 nd2 rn ln N0) as GI. unfold node_at in *. assert (a = nd2) as -> by congruence. assert (a0 = nd0) as -> by congruence. reflexivity.
        - pose proof (node_at_range _ _ _ NA0). unfold node_at in *. rewrite (gt_old _ _ _ _ _ _ N0) in NA by auto. congruence. }
      rewrite LA. exact (s_route _ _ _ SI' SEP i nd a0 NT LF NA0 p P).
    + destruct FR as (R1 & _). congruence.
    + destruct FL as (R1 & _). congruence.
  - intros SEP i nd N NZ. pose proof (s_min _ _ _ SI SEP) as M. specialize (SEPM SEP).
    destruct (gt_inv _ _ _ _ _ _ N0 _ _ N) as [(-> & ->)|[(NE & RJ & NT)|[(-> & ->)|(-> & ->)]]]; try tauto.
    + exact (M idx nd0 N0 NZ).
    + exact (M i nd NT NZ).
  - intros SEP i nd N LF p P. destruct (gt_inv _ _ _ _ _ _ N0 _ _ N) as [(-> & ->)|[(NE & RJ & NT)|[(-> & ->)|(-> & ->)]]].
    + exact (SEPA SEP p P).
    + exact (s_agree _ _ _ SI' SEP i nd NT LF p P).
    + destruct FR as (R1 & _). congruence.
    + destruct FL as (R1 & _). congruence.
  - intros i nd N LF. destruct (gt_inv _ _ _ _ _ _ N0 _ _ N) as [(-> & ->)|[(NE & RJ & NT)|[(-> & ->)|(-> & ->)]]].
    + exact KD.
    + exact (s_kind _ _ _ SI' i nd NT LF).
    + destruct FR as (R1 & _). congruence.
    + destruct FL as (R1 & _). congruence.
Qed.

(** ** The loop *)
Definition depth_of (t : list node) (j : Z) : Z := match get_node t j with Some nd => ndepth nd | None => 0 end.
Definition cost (d : Z) : Z := 2 ^ (max_depth - d + 1) - 1.
Definition work (st : state) : Z := fold_right Z.add 0 (map (fun j => cost (depth_of (nodes st) j)) (queue st)).

Lemma cost_step d : d < max_depth -> cost d = 1 + 2 * cost (d + 1).
Proof.
  intros. unfold cost. replace (max_depth - d + 1) with (Z.succ (max_depth - (d + 1) + 1)) by lia. rewrite Z.pow_succ_r by lia. lia.
Qed.
Lemma cost_pos d : d <= max_depth -> 0 <= cost d.
Proof. intros. unfold cost. enough (0 < 2 ^ (max_depth - d + 1)) by lia. apply Z.pow_pos_nonneg; lia. Qed.

Lemma rearranged_positive f l s s' : 0 <= f -> l < nobs -> positive w nobs s -> rearranged f (l - f + 1) s s' -> positive w nobs s'.
Proof.
  intros F L SO RE p P. destruct (Z_le_gt_dec f p) as [A|A]; [destruct (Z_le_gt_dec p l) as [B|B]|].
  - destruct (rearranged_from _ _ _ _ p RE ltac:(lia)) as (j & J & ->). apply SO. lia.
  - rewrite (proj2 RE) by lia. now apply SO.
  - rewrite (proj2 RE) by lia. now apply SO.
Qed.

Lemma loop_ok d0 s0 : samples_ok s0 -> positive w nobs s0 -> forall fuel r st,
  good r -> tree_inv (nodes st) -> samp_inv (nodes st) s0 (samples st) -> count_inv d0 st ->
  work st <= Z.of_nat fuel ->
  exists st', fit_loop fuel r st = Some st' /\ tree_inv (nodes st') /\ samp_inv (nodes st') s0 (samples st') /\
    count_inv d0 st' /\ queue st' = [].
Proof.
  intros SO0 WP0. induction fuel as [|fuel IH]; intros r st GD T SI CI WK; unfold fit_loop; cbn [TreeModel.fit_loop];
    destruct (queue st) as [|idx q] eqn:Q; try (exists st; auto; fail).
  - exfalso. unfold work in WK. rewrite Q in WK. cbn [map fold_right] in WK.
    assert (forall j, In j (queue st) -> 0 < cost (depth_of (nodes st) j)) as CP.
    { intros j J. destruct (c_queue _ _ CI j J) as (nd & N & L & D & _). unfold depth_of. rewrite N. rewrite cost_step by auto.
      pose proof (cost_pos (ndepth nd + 1) ltac:(lia)). lia. }
    rewrite Q in CP. pose proof (CP idx (or_introl eq_refl)).
    assert (0 <= fold_right Z.add 0 (map (fun j => cost (depth_of (nodes st) j)) q)); [|lia].
    { clear - CP. induction q as [|j q IH]; cbn; [lia|]. pose proof (CP j ltac:(cbn; auto)).
      assert (0 <= fold_right Z.add 0 (map (fun j => cost (depth_of (nodes st) j)) q)) by (apply IH; intros i I; apply CP; cbn in *; tauto). lia. }
  - destruct (c_queue _ _ CI idx) as (nd0 & N0 & L0 & D0 & NE0); [rewrite Q; now left|].
    destruct (t_range _ T _ _ N0) as (F & L & FL).
    assert (SO : samples_ok (samples st)).
    { apply (rearranged_samples 0 (nobs - 1) s0); try lia; auto. replace (nobs - 1 - 0 + 1) with nobs by lia. exact (s_perm _ _ _ SI). }
    assert (WP : positive w nobs (samples st)).
    { apply (rearranged_positive 0 (nobs - 1) s0); try lia; auto. replace (nobs - 1 - 0 + 1) with nobs by lia. exact (s_perm _ _ _ SI). }
    destruct (search_ok r idx nd0 (samples st) GD (conj F NE0) L SO WP (proj1 (proj2 (s_desc _ _ _ SI _ _ N0)))) as (r' & best & s1 & ES & GD' & RE & BS).
    rewrite N0. cbn [bind]. rewrite ES. cbn [bind].
    pose proof (samp_rearranged _ _ _ _ _ _ T SI N0 L0 RE) as SI1.
    assert (SO1 : samples_ok s1) by (eapply rearranged_samples; eauto).
    assert (ND : ~ In idx q /\ NoDup q) by (pose proof (c_nodup _ _ CI) as H; rewrite Q in H; inversion H; auto).
    pose proof (c_leaves _ _ CI) as CL. rewrite Q in CL. cbn [length] in CL.
    assert (WQ : work st = cost (ndepth nd0) + fold_right Z.add 0 (map (fun j => cost (depth_of (nodes st) j)) q)).
    { unfold work. rewrite Q. cbn [map fold_right]. unfold depth_of at 1. now rewrite N0. }
    destruct best as [sp|].
    + destruct BS as (HC & KD & RD & SP & AGR).
      set (st1 := State (nodes st) q s1 (n_leaves st) (tdepth st)).
      destruct (split_ok X xlen ldx n_samples y n_class use_hist binned blen nobs bootstrap weights max_depth min_node_sample min_split_score
                  labels classes st1 idx nd0 sp N0 F L FL SO1 HC RD) as (s2 & k & rn & ln & b1 & b2 & ESP & RE2 & K & FR & FLN & BD1 & BD2 & SPL).
      rewrite ESP. cbn [bind]. cbn [st1 nodes queue samples n_leaves tdepth] in *.
      set (n := size (nodes st)) in *. set (nd2 := with_left (with_right (apply_split use_hist nd0 sp) n) (n + 1)) in *.
      set (q2 := (if b2 then [n + 1] else []) ++ (if b1 then [n] else []) ++ q) in *.
      change (set_node (nodes st) idx nd2 ++ [rn; ln]) with (grown_tree (nodes st) idx nd2 rn ln) in *.
      assert (GR := gt_right (nodes st) idx nd2 rn ln). assert (GL := gt_left (nodes st) idx nd2 rn ln). fold n in GR, GL.
      assert (GI := gt_idx (nodes st) idx nd0 nd2 rn ln N0).
      assert (QR : forall j, In j q -> 0 <= j < n /\ j <> idx).
      { intros j J. destruct (c_queue _ _ CI j) as (ndj & NJ & _); [rewrite Q; now right|]. pose proof (node_at_range _ _ _ NJ). fold n in H.
        split; auto. intros ->. tauto. }
      assert (SPL' : sep -> forall p, first nd0 <= p <= last nd0 -> on_left (apply_split use_hist nd0 sp) (s2 p) = (p <=? k)).
      { intros SEP. apply SPL. apply (side_weight_exists _ _ _ _ false). specialize (SP SEP false). fold w in SP. lia. }
      assert (NEC : forall nd f l, n_node nd = total_weight w s2 f l -> 2 * min_node_sample <= n_node nd -> f <= l).
      { intros nd f l E M. destruct (Z_le_gt_dec f l); auto. exfalso. unfold total_weight, slice in E.
        assert (zrange (l - f + 1) = []) as ZE by (unfold zrange; replace (Z.to_nat (l - f + 1)) with O by lia; reflexivity).
        rewrite ZE in E. cbn in E. lia. }
      apply IH; auto.
      * cbn [nodes]. eapply tree_split; eauto.
      * cbn [nodes samples]. eapply samp_split; eauto;
          [|intros SEP p P; destruct (rearranged_from _ _ _ _ p RE2 ltac:(lia)) as (j & J & ->); apply AGR; auto; lia].
        intros SEP. pose proof (SPL' SEP) as SS.
        destruct (side_weight_split _ _ _ _ _ K SS) as (W1 & W2).
        pose proof (SP SEP true) as M1. pose proof (SP SEP false) as M2. fold w in M1, M2.
        rewrite (side_weight_rearranged true _ _ _ _ _ RE2) in M1. rewrite (side_weight_rearranged false _ _ _ _ _ RE2) in M2. rewrite W1 in M1. rewrite W2 in M2.
        destruct FR as (_ & _ & _ & F1 & L1 & _ & -> & _), FLN as (_ & _ & _ & F2 & L2 & _ & -> & _).
        rewrite F1, L1, F2, L2. auto.
      * split; cbn [nodes queue n_leaves tdepth].
        -- unfold q2. assert (~ In n q) by (intros I; apply QR in I; lia). assert (~ In (n + 1) q) by (intros I; apply QR in I; lia).
           destruct b1, b2; cbn [app]; repeat constructor; try tauto; cbn [In]; intros [|]; try tauto; lia.
        -- intros j J. assert (J' : In j q \/ (j = n /\ b1 = true) \/ (j = n + 1 /\ b2 = true)).
           { unfold q2 in J. destruct b1, b2; cbn [app In] in J; intuition auto. }
           destruct J' as [J'|[(-> & B)|(-> & B)]].
           ++ destruct (c_queue _ _ CI j) as (ndj & NJ & LJ & DJ & EJ); [rewrite Q; now right|]. exists ndj.
              destruct (QR j J'). unfold node_at. rewrite (gt_old _ _ _ _ _ _ N0); auto.
           ++ exists rn. destruct FR as (R1 & _ & R3 & R4 & R5 & _ & R6 & _). split; [exact GR|]. split; [auto|]. destruct (BD1 B). split; [lia|]. rewrite R4, R5. rewrite R4, R5 in R6. eapply NEC; eauto.
           ++ exists ln. destruct FLN as (R1 & _ & R3 & R4 & R5 & _ & R6 & _). split; [exact GL|]. split; [auto|]. destruct (BD2 B). split; [lia|]. rewrite R4, R5. rewrite R4, R5 in R6. eapply NEC; eauto.
        -- destruct FR as (R1 & _), FLN as (R2 & _). rewrite (gt_leaves (nodes st) idx nd0 nd2 rn ln N0) by auto.
           unfold q2. rewrite !app_length. destruct b1, b2; cbn [length]; lia.
        -- destruct (c_depth _ _ CI) as (C1 & C2 & C3). split; [lia|]. split.
           ++ intros i nd N. destruct (gt_inv _ _ _ _ _ _ N0 _ _ N) as [(-> & ->)|[(NE & RJ & NT)|[(-> & ->)|(-> & ->)]]].
              ** pose proof (C2 _ _ N0). change (ndepth nd2) with (ndepth nd0). lia.
              ** pose proof (C2 _ _ NT). lia.
              ** destruct FR as (_ & _ & R3 & _). lia.
              ** destruct FLN as (_ & _ & R3 & _). lia.
           ++ destruct (Z_le_gt_dec (ndepth nd0 + 1) (tdepth st)) as [LE|GT].
              ** rewrite Z.max_l by lia. destruct C3 as [C3|(i & nd & N & D)]; auto. right.
                 destruct (Z.eq_dec i idx) as [->|NE].
                 --- exists idx, nd2. split; [exact GI|]. unfold node_at in N, N0. assert (nd = nd0) as -> by congruence. exact D.
                 --- exists i, nd. split; auto. pose proof (node_at_range _ _ _ N). unfold node_at. rewrite (gt_old _ _ _ _ _ _ N0); auto.
              ** rewrite Z.max_r by lia. right. exists n, rn. split; [exact GR|]. apply FR.
      * unfold work. cbn [nodes queue]. rewrite WQ, (cost_step _ D0) in WK.
        assert (OLDQ : fold_right Z.add 0 (map (fun j => cost (depth_of (grown_tree (nodes st) idx nd2 rn ln) j)) q) =
                       fold_right Z.add 0 (map (fun j => cost (depth_of (nodes st) j)) q)).
        { f_equal. apply map_ext_in. intros j J. destruct (QR j J). unfold depth_of. rewrite (gt_old _ _ _ _ _ _ N0); auto. }
        assert (DR : depth_of (grown_tree (nodes st) idx nd2 rn ln) n = ndepth nd0 + 1) by (unfold depth_of; rewrite GR; apply FR).
        assert (DL : depth_of (grown_tree (nodes st) idx nd2 rn ln) (n + 1) = ndepth nd0 + 1) by (unfold depth_of; rewrite GL; apply FLN).
        pose proof (cost_pos (ndepth nd0 + 1) ltac:(lia)).
        unfold q2. rewrite !map_app, !sum_app, OLDQ. destruct b1, b2; cbn [map fold_right]; rewrite ?DR, ?DL; lia.
    + cbn [split_node_and_add_children bind nodes queue samples n_leaves tdepth]. apply IH; cbn [nodes samples]; auto.
      * split; cbn [nodes queue n_leaves tdepth].
        -- tauto.
        -- intros j J. apply (c_queue _ _ CI). rewrite Q. now right.
        -- lia.
        -- exact (c_depth _ _ CI).
      * unfold work. cbn [nodes queue]. rewrite WQ, (cost_step _ D0) in WK. pose proof (cost_pos (ndepth nd0 + 1) ltac:(lia)). lia.
Qed.
End Fit.

(** ** fit *)
Section FitAll.
Variables (X : Z -> f64) (xlen ldx n_samples : Z) (y : Z -> Z) (n_class : Z).
Variables (use_hist : bool) (binned : Z -> Z) (blen nobs : Z) (bootstrap : bool) (weights : Z -> Z).
Variables (max_depth min_node_sample : Z) (min_split_score : f64).
Variables (R : Type) (search : R -> Z -> node -> (Z -> Z) -> option (R * option split * (Z -> Z))).
Variables (good : R -> Prop) (sep : Prop) (kind : property -> Prop).
Hypothesis labels : forall i, 0 <= i < n_samples -> 0 <= y i < n_class.
Hypothesis classes : 1 <= n_class.
Hypothesis depth_pos : 0 <= max_depth.
Hypothesis min_pos : 1 <= min_node_sample.
Hypothesis obs_pos : 1 <= nobs.
Hypothesis search_ok : search_contract X xlen ldx use_hist binned blen n_samples nobs (weight bootstrap weights) min_node_sample R search good sep kind.
Let w := weight bootstrap weights.

Lemma fit_inv d0 sc s total r : good r -> samples_ok n_samples nobs s -> positive w nobs s -> total = total_weight w s 0 (nobs - 1) -> 0 <= d0 ->
  exists st, fit X xlen ldx n_samples y n_class use_hist binned blen nobs bootstrap weights max_depth min_node_sample
                 min_split_score R search d0 sc s total r = Some st /\
    tree_inv nobs max_depth (nodes st) /\
    samp_inv X ldx y n_class use_hist binned nobs bootstrap weights min_node_sample sep kind (nodes st) s (samples st) /\
    (0 < max_depth -> n_leaves st = count_leaves (nodes st)) /\
    d0 <= tdepth st /\ (forall i nd, node_at (nodes st) i nd -> ndepth nd <= tdepth st) /\
    (tdepth st = d0 \/ exists i nd, node_at (nodes st) i nd /\ ndepth nd = tdepth st).
Proof.
  intros GD SO WP TW D0. unfold fit, fit_init.
  destruct (count_class_ok n_samples y n_class nobs bootstrap weights labels s 0 (nobs - 1)) as (count & EC & CC); auto; try lia.
  rewrite EC. cbn [bind].
  set (root := Node true (-1) (-1) (-1) 0 sc Continuous (first_max count n_class) (-1) (f64_of_Z 0) (-1) 0 (nobs - 1) total (class_props n_class count total)).
  assert (ONE : forall i nd, node_at [root] i nd -> i = 0 /\ nd = root).
  { intros i nd N. pose proof (node_at_range _ _ _ N) as RG. unfold size in RG. cbn [length] in RG. assert (i = 0) as -> by lia. split; auto. unfold node_at in N. cbn in N. congruence. }
  assert (T : tree_inv nobs max_depth [root]).
  { split.
    - split.
      + exists root. repeat split; reflexivity.
      + intros i nd N LF. destruct (ONE _ _ N) as [_ ->]. discriminate.
      + intros i nd N NZ. destruct (ONE _ _ N). lia.
      + intros i nd N. destruct (ONE _ _ N) as [_ ->]. cbn. lia.
    - intros i nd N. destruct (ONE _ _ N) as [_ ->]. cbn. lia.
    - intros p P. exists 0, root. split; [reflexivity|]. split; [reflexivity|]. unfold has. cbn. lia.
    - intros i j a b NA NB _ _ NE. destruct (ONE _ _ NA), (ONE _ _ NB). lia.
    - intros i nd a j b N LF. destruct (ONE _ _ N) as [_ ->]. discriminate. }
  assert (SI : samp_inv X ldx y n_class use_hist binned nobs bootstrap weights min_node_sample sep kind [root] s s).
  { split.
    - apply rearranged_refl.
    - intros i nd N. destruct (ONE _ _ N) as [_ ->]. unfold describes. cbn [root pred_class n_node props first last]. split; [|split].
      + eapply is_first_max_ext; [|apply first_max_ok; auto]. intros c. now rewrite CC.
      + exact TW.
      + unfold class_props. apply map_ext. intros c. now rewrite CC.
    - intros _ i nd a N LF. destruct (ONE _ _ N) as [_ ->]. discriminate.
    - intros _ i nd N NZ. destruct (ONE _ _ N). lia.
    - intros _ i nd N LF. destruct (ONE _ _ N) as [_ ->]. discriminate.
    - intros i nd N LF. destruct (ONE _ _ N) as [_ ->]. discriminate. }
  destruct (Z.ltb_spec 0 max_depth) as [DP|DP].
  - destruct (loop_ok X xlen ldx n_samples y n_class use_hist binned blen nobs bootstrap weights max_depth min_node_sample min_split_score
      R search good sep kind labels classes min_pos search_ok d0 s SO WP (2 ^ (Z.to_nat max_depth + 1)) r (State [root] [0] s 0 d0)) as (st & E & T' & SI' & CI & Q); auto.
    + split; cbn [nodes queue n_leaves tdepth].
      * repeat constructor. auto.
      * intros j [<-|[]]. exists root. repeat split; auto. cbn. lia.
      * reflexivity.
      * split; [lia|]. split; [|auto]. intros i nd N. destruct (ONE _ _ N) as [_ ->]. cbn. lia.
    + unfold work. cbn [nodes queue map fold_right]. unfold depth_of, cost. cbn [get_node Z.ltb Z.compare Z.to_nat nth_error root ndepth].
      rewrite Nat2Z.inj_pow. replace (Z.of_nat (Z.to_nat max_depth + 1)) with (max_depth - 0 + 1) by lia. change (Z.of_nat 2) with 2. lia.
    + exists st. split; [exact E|]. split; [auto|]. split; [auto|]. split; [|exact (c_depth _ _ _ CI)].
      intros _. pose proof (c_leaves _ _ _ CI) as L. rewrite Q in L. cbn in L. lia.
  - exists (State [root] [] s 0 d0). split; [destruct (2 ^ (Z.to_nat max_depth + 1))%nat; reflexivity|]. split; [auto|]. split; [auto|]. split; [lia|].
    cbn [nodes tdepth]. split; [lia|]. split; [|auto]. intros i nd N. destruct (ONE _ _ N) as [_ ->]. cbn. lia.
Qed.

Lemma inv_partition t : tree_inv nobs max_depth t -> leaves_partition t nobs.
Proof.
  intros T p P. destruct (t_cover _ _ _ T p P) as (i & nd & N & LF & H). exists i. split; [exists nd; auto|].
  intros j (nd' & N' & LF' & H'). destruct (Z.eq_dec i j) as [e|NE]; auto. exfalso. unfold has in *.
  destruct (t_disj _ _ _ T i j nd nd' N N' LF LF' NE); lia.
Qed.
Lemma inv_depth t d : (forall i nd, node_at t i nd -> ndepth nd <= d) -> (exists i nd, node_at t i nd /\ ndepth nd = d) -> is_depth t d.
Proof.
  intros A (i & nd & N & D). split.
  - intros x I. destruct (In_nth_error _ _ I) as (k & K). apply (A (Z.of_nat k)). unfold node_at, get_node.
    destruct (Z.ltb_spec (Z.of_nat k) 0); [lia|]. now rewrite Nat2Z.id.
  - exists nd. split; auto. unfold node_at, get_node in N. destruct (i <? 0); [discriminate|]. eapply nth_error_In; eauto.
Qed.

(** ** Prediction follows the tree *)
Lemma descend_ok side t x p : tree_inv nobs max_depth t -> 0 <= p < nobs ->
  (forall i nd a, node_at t i nd -> leaf nd = false -> has nd p -> node_at t (lchild nd) a -> side nd (x (feature nd)) = Some (p <=? last a)) ->
  forall fuel i nd, node_at t i nd -> has nd p -> size t - i <= Z.of_nat fuel ->
  exists j l, descend side fuel t x i = Some j /\ node_at t j l /\ leaf l = true /\ has l p.
Proof.
  intros T P SD. induction fuel as [|fuel IH]; intros i nd N H FU.
  - pose proof (node_at_range _ _ _ N). lia.
  - cbn [descend]. rewrite N. cbn [bind]. destruct (leaf nd) eqn:LF; [exists i, nd; auto|].
    destruct (wg_children _ _ _ (t_grown _ _ _ T) i nd N LF) as (a & b & NA & NB & I1 & I2 & _ & _ & _ & _ & _ & FA & FB & LB & K).
    rewrite (SD i nd a N LF H NA). cbn [bind]. unfold has in H. destruct (Z.leb_spec p (last a)).
    + apply (IH (lchild nd) a NA); [unfold has; lia|lia].
    + apply (IH (rchild nd) b NB); [unfold has; lia|lia].
Qed.
End FitAll.
