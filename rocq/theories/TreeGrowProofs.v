(** The tree built by fit_serial. *)
From Coq Require Import ZArith List Bool Lia Permutation.
From Flocq Require Import Core IEEE754.BinarySingleNaN.
From Verif Require Import Base Par F64 UtilModel SortModel SortSpec SortProofs SortMoreProofs TreeModel TreeSpec TreePartProofs.
Import ListNotations.
Local Open Scope Z_scope.

(** ** Lists of nodes *)
Lemma set_nth_len {A} (x : A) : forall l i, length (set_nth l i x) = length l.
Proof. induction l; destruct i; cbn; auto. Qed.
Lemma set_nth_eq {A} (x : A) : forall l i, (i < length l)%nat -> nth_error (set_nth l i x) i = Some x.
Proof. induction l; destruct i; cbn; intros; auto; try lia. apply IHl. lia. Qed.
Lemma set_nth_ne {A} (x : A) : forall l i j, i <> j -> nth_error (set_nth l i x) j = nth_error l j.
Proof. induction l; destruct i, j; cbn; intros; auto; try lia. Qed.
Lemma set_nth_twice {A} (x z : A) : forall l i, set_nth (set_nth l i x) i z = set_nth l i z.
Proof. induction l; destruct i; cbn; intros; f_equal; auto. Qed.
Lemma set_nth_app {A} (x : A) m : forall l i, (i < length l)%nat -> set_nth (l ++ m) i x = set_nth l i x ++ m.
Proof. induction l; destruct i; cbn; intros; auto; try lia. f_equal. apply IHl. lia. Qed.

Definition size (l : list node) : Z := Z.of_nat (length l).

Lemma node_at_range l i nd : node_at l i nd -> 0 <= i < size l.
Proof.
  unfold node_at, get_node, size. destruct (Z.ltb_spec i 0); [discriminate|]. intros E.
  assert (nth_error l (Z.to_nat i) <> None) as N by congruence. apply nth_error_Some in N. lia.
Qed.
Lemma set_eq l i nd x : node_at l i nd -> node_at (set_node l i x) i x.
Proof.
  intros N. apply node_at_range in N as R. unfold node_at, get_node, set_node, size in *. destruct (Z.ltb_spec i 0); [lia|].
  apply set_nth_eq. lia.
Qed.
Lemma set_ne l i j x : 0 <= i -> i <> j -> get_node (set_node l i x) j = get_node l j.
Proof.
  intros. unfold get_node, set_node. destruct (Z.ltb_spec j 0); auto. apply set_nth_ne. lia.
Qed.
Lemma size_set l i x : size (set_node l i x) = size l.
Proof. unfold size, set_node. now rewrite set_nth_len. Qed.
Lemma get_app_l l m i : 0 <= i < size l -> get_node (l ++ m) i = get_node l i.
Proof. unfold get_node, size. destruct (Z.ltb_spec i 0); auto. intros. apply nth_error_app1. lia. Qed.
Lemma get_app_r l m i : size l <= i -> get_node (l ++ m) i = nth_error m (Z.to_nat (i - size l)).
Proof.
  unfold get_node, size. intros. destruct (Z.ltb_spec i 0); [lia|]. rewrite nth_error_app2 by lia. f_equal. lia.
Qed.
Lemma set_app l m i x : 0 <= i < size l -> set_node (l ++ m) i x = set_node l i x ++ m.
Proof. unfold set_node, size. intros. apply set_nth_app. lia. Qed.

(** ** Counting classes *)
Lemma first_max_ok count n : 1 <= n -> is_first_max count n (first_max count n).
Proof.
  intros N. unfold first_max.
  enough (H : forall k, 0 <= k -> let b := fold_left (fun best c => if count best <? count c then c else best) (zrange k) 0 in
            (0 <= b < Z.max k 1) /\ (forall c, 0 <= c < k -> count c <= count b) /\ (forall c, 0 <= c < b -> count c < count b)).
  { destruct (H n ltac:(lia)) as (A & B & C). split; [lia|]. auto. }
  apply (Z_lt_induction (fun k => let b := fold_left (fun best c => if count best <? count c then c else best) (zrange k) 0 in
            (0 <= b < Z.max k 1) /\ (forall c, 0 <= c < k -> count c <= count b) /\ (forall c, 0 <= c < b -> count c < count b))).
  intros k IH. destruct (Z_le_gt_dec k 0) as [K0|K0].
  - assert (zrange k = []) as -> by (unfold zrange; replace (Z.to_nat k) with O by lia; reflexivity). cbn. split; [lia|]. split; intros; lia.
  - specialize (IH (k - 1) ltac:(lia)). cbv zeta in *.
    replace (zrange k) with (zrange ((k - 1) + 1)) by (f_equal; lia). rewrite zrange_split by lia. rewrite fold_left_app.
    change (map (fun i => k - 1 + i) (zrange 1)) with [k - 1 + 0]. rewrite Z.add_0_r. cbn [fold_left].
    set (b := fold_left _ (zrange (k - 1)) 0) in *. destruct IH as (B1 & B2 & B3).
    destruct (Z.ltb_spec (count b) (count (k - 1))) as [C|C].
    + split; [lia|]. split.
      * intros c Hc. destruct (Z.eq_dec c (k - 1)) as [->|]; [lia|]. specialize (B2 c ltac:(lia)). lia.
      * intros c Hc. specialize (B2 c ltac:(lia)). lia.
    + split; [lia|]. split.
      * intros c Hc. destruct (Z.eq_dec c (k - 1)) as [->|]; [lia|]. apply B2. lia.
      * intros c Hc. apply B3. lia.
Qed.

Lemma is_first_max_ext f g n c : (forall i, f i = g i) -> is_first_max f n c -> is_first_max g n c.
Proof. intros E (A & B & C). split; [auto|]. split; intros; rewrite <- !E; auto. Qed.

Lemma sum_perm l m : Permutation l m -> fold_right Z.add 0 l = fold_right Z.add 0 m.
Proof. induction 1; cbn; lia. Qed.
Lemma sum_app l m : fold_right Z.add 0 (l ++ m) = fold_right Z.add 0 l + fold_right Z.add 0 m.
Proof. induction l; cbn; lia. Qed.

(** Ranges that contain the rearranged one or do not meet it keep their elements. *)
Lemma slice_rearranged {E} f l f' l' (a b : Z -> E) : rearranged f (l - f + 1) a b ->
  (l < f' \/ l' < f \/ (f' <= f /\ l <= l')) -> Permutation (slice a f' (l' - f' + 1)) (slice b f' (l' - f' + 1)).
Proof.
  intros R [H|[H|[H1 H2]]].
  - rewrite (slice_ext a b); auto. intros i I. symmetry. apply R. lia.
  - rewrite (slice_ext a b); auto. intros i I. symmetry. apply R. lia.
  - apply (rearranged_widen f (l - f + 1) f' (l' - f' + 1) a b R); lia.
Qed.

Lemma class_weight_rearranged y w f l f' l' a b c : rearranged f (l - f + 1) a b ->
  (l < f' \/ l' < f \/ (f' <= f /\ l <= l')) -> class_weight y w a f' l' c = class_weight y w b f' l' c.
Proof. intros R H. unfold class_weight. apply sum_perm, Permutation_map. eapply slice_rearranged; eauto. Qed.
Lemma total_weight_rearranged w f l f' l' a b : rearranged f (l - f + 1) a b ->
  (l < f' \/ l' < f \/ (f' <= f /\ l <= l')) -> total_weight w a f' l' = total_weight w b f' l'.
Proof. intros R H. unfold total_weight. apply sum_perm, Permutation_map. eapply slice_rearranged; eauto. Qed.

Lemma if_eq {A} (b : bool) (p q r : A) : (b = true -> p = r) -> (b = false -> q = r) -> (if b then p else q) = r.
Proof. destruct b; auto. Qed.

Section Grow.
Variables (X : Z -> f64) (xlen ldx n_samples : Z) (y : Z -> Z) (n_class : Z).
Variables (use_hist : bool) (binned : Z -> Z) (blen nobs : Z) (bootstrap : bool) (weights : Z -> Z).
Variables (max_depth min_node_sample : Z) (min_split_score : f64).
Let w := weight bootstrap weights.
Let on_left := on_left X ldx use_hist binned.
Let readable := readable X xlen ldx use_hist blen.
Let count_class_occurences := count_class_occurences n_samples y n_class nobs bootstrap weights.
Let add_node := add_node n_samples y n_class nobs bootstrap weights.
Let split_node := split_node_and_add_children X xlen ldx n_samples y n_class use_hist binned blen nobs bootstrap weights
                    max_depth min_node_sample min_split_score.
Let treat_later := treat_later max_depth min_node_sample min_split_score.
Hypothesis labels : forall i, 0 <= i < n_samples -> 0 <= y i < n_class.
Hypothesis classes : 1 <= n_class.

Let samples_ok := TreeSpec.samples_ok n_samples nobs.

Lemma count_ok s : samples_ok s -> forall ps count, (forall p, In p ps -> 0 <= p < nobs) ->
  exists c', count_class_occurences s ps count = Some c' /\
    forall c, c' c = count c + fold_right Z.add 0 (map (fun i => if y i =? c then w i else 0) (map s ps)).
Proof.
  intros SO. induction ps as [|p ps IH]; intros count H; unfold count_class_occurences; cbn [TreeModel.count_class_occurences].
  - exists count. split; auto. intros. cbn. lia.
  - pose proof (H p (or_introl eq_refl)) as P. pose proof (SO p P) as SP. pose proof (labels _ SP) as LP.
    assert (inside nobs p && inside n_samples (s p) = true) as -> by (unfold inside; lia).
    cbv zeta. assert (inside n_class (y (s p)) = true) as -> by (unfold inside; lia).
    destruct (IH (store_at count (y (s p)) (count (y (s p)) + w (s p)))) as (c' & E & C); [intros; apply H; now right|].
    exists c'. split; [exact E|]. intros c. rewrite C. cbn [map fold_right]. unfold store_at.
    rewrite (Z.eqb_sym c). destruct (Z.eqb_spec (y (s p)) c) as [->|]; lia.
Qed.

Lemma in_positions f l p : In p (positions f l) <-> f <= p <= l.
Proof.
  unfold positions. rewrite in_map_iff. split.
  - intros (i & <- & I). apply in_zrange in I. lia.
  - intros. exists (p - f). rewrite in_zrange. lia.
Qed.

Lemma count_class_ok s f l : samples_ok s -> 0 <= f -> l < nobs ->
  exists c', count_class_occurences s (positions f l) (fun _ => 0) = Some c' /\
    forall c, c' c = class_weight y w s f l c.
Proof.
  intros SO F L. destruct (count_ok s SO (positions f l) (fun _ => 0)) as (c' & E & C).
  - intros p P. apply in_positions in P. lia.
  - exists c'. split; auto. intros c. rewrite C. unfold class_weight, positions, slice. now rewrite (map_map (fun i => f + i) s).
Qed.

Lemma sum_classes (g : Z -> Z) i : 0 <= y i < n_class -> forall acc,
  fold_left (fun acc c => acc + (g c + if y i =? c then w i else 0)) (zrange n_class) acc =
  fold_left (fun acc c => acc + g c) (zrange n_class) acc + w i.
Proof.
  intros Y.
  assert (H : forall l acc, NoDup l ->
    fold_left (fun acc c => acc + (g c + if y i =? c then w i else 0)) l acc =
    fold_left (fun acc c => acc + g c) l acc + (if in_dec Z.eq_dec (y i) l then w i else 0)).
  { induction l as [|c l IH]; intros acc ND; cbn [fold_left]; [destruct (in_dec _ _ _) as [[]|]; lia|].
    inversion_clear ND. rewrite IH by auto.
    assert (SH : forall l a b, fold_left (fun acc c => acc + g c) l (a + b) = fold_left (fun acc c => acc + g c) l a + b).
    { clear. induction l as [|c l IH]; intros; cbn; auto. rewrite <- IH. f_equal. lia. }
    rewrite Z.add_assoc, SH. destruct (in_dec Z.eq_dec (y i) l) as [I|I], (in_dec Z.eq_dec (y i) (c :: l)) as [I'|I'], (Z.eqb_spec (y i) c) as [e|e];
      cbn in I'; try lia; exfalso; try rewrite e in *; intuition congruence. }
  intros acc. rewrite H by apply zrange_nodup. destruct (in_dec _ _ _) as [|N]; auto. exfalso. apply N, in_zrange. lia.
Qed.

Lemma total_ok s f l count : samples_ok s -> 0 <= f -> l < nobs -> (forall c, count c = class_weight y w s f l c) ->
  total n_class count = total_weight w s f l.
Proof.
  intros SO F L C. unfold total, total_weight.
  assert (EXT : forall (g h : Z -> Z), (forall c, g c = h c) -> forall l acc, fold_left (fun acc c => acc + g c) l acc = fold_left (fun acc c => acc + h c) l acc).
  { intros g h E. induction l0; intros; cbn; auto. now rewrite E. }
  rewrite (EXT _ _ C). clear C. unfold class_weight.
  assert (IN : forall i, In i (slice s f (l - f + 1)) -> 0 <= y i < n_class).
  { intros i I. apply in_slice in I as (p & P & <-). apply labels, SO. lia. }
  induction (slice s f (l - f + 1)) as [|i r IH]; cbn [map fold_right].
  - clear. enough (H : forall l, fold_left (fun acc c : Z => acc + 0) l 0 = 0) by apply H. induction l; cbn; auto.
  - rewrite (EXT _ (fun c => fold_right Z.add 0 (map (fun i0 => if y i0 =? c then w i0 else 0) r) + if y i =? c then w i else 0)) by (intros; lia).
    rewrite sum_classes by (apply IN; now left). rewrite IH by (intros; apply IN; now right). lia.
Qed.

Lemma ones_total s f l : bootstrap = false -> f <= l + 1 -> total_weight w s f l = l - f + 1.
Proof.
  intros B H. unfold total_weight, w, weight. rewrite B.
  rewrite <- (slice_len s f (l - f + 1)) at 2 by lia.
  induction (slice s f (l - f + 1)) as [|i r IH]; cbn [map fold_right length]; auto. rewrite IH. lia.
Qed.

(** the part of a node that describes its samples *)
Definition describes (s : Z -> Z) (nd : node) : Prop :=
  is_first_max (class_weight y w s (first nd) (last nd)) n_class (pred_class nd) /\
  n_node nd = total_weight w s (first nd) (last nd) /\
  props nd = map (fun c => f64_div (f64_of_Z (class_weight y w s (first nd) (last nd) c)) (f64_of_Z (n_node nd))) (zrange n_class).

(** a node just added *)
Definition fresh (nd : node) (par d f l : Z) (s : Z -> Z) : Prop :=
  leaf nd = true /\ parent nd = par /\ ndepth nd = d /\ first nd = f /\ last nd = l /\ describes s nd.

Lemma add_node_ok st i p (is_left : bool) score k : node_at (nodes st) i p ->
  let f := if is_left then first p else k + 1 in let l := if is_left then k else last p in
  samples_ok (samples st) -> 0 <= f -> l < nobs -> f <= l + 1 ->
  exists nd, add_node st i is_left score k =
    Some (State (set_node (nodes st) i (if is_left then with_left p (size (nodes st)) else with_right p (size (nodes st))) ++ [nd])
                (queue st) (samples st) (n_leaves st) (Z.max (tdepth st) (ndepth p + 1))) /\
    fresh nd i (ndepth p + 1) f l (samples st).
Proof.
  intros N f l SO F L FL. unfold add_node, TreeModel.add_node. rewrite N. cbn [bind]. cbv zeta. fold f l.
  destruct (count_class_ok (samples st) f l SO F L) as (c & E & C). unfold count_class_occurences in E. rewrite E. cbn [bind].
  eexists. split; [reflexivity|]. unfold fresh, describes. cbn [leaf parent ndepth first last pred_class n_node props].
  assert (NN : (if bootstrap then total n_class c else l - f + 1) = total_weight w (samples st) f l).
  { apply if_eq; intros; [apply total_ok; auto|]. symmetry. apply ones_total; auto. }
  split; [auto|]. split; [auto|]. split; [auto|]. split; [auto|]. split; [auto|]. split; [|split].
  - apply (is_first_max_ext c); auto. now apply first_max_ok.
  - exact NN.
  - unfold class_props. apply map_ext. intros. now rewrite C.
Qed.

Lemma treat_ok st nd score : node_at (nodes st) (size (nodes st) - 1) nd -> exists b : bool,
  treat_later st score = Some (State (nodes st) ((if b then [size (nodes st) - 1] else []) ++ queue st) (samples st)
                                     (n_leaves st + if b then 0 else 1) (tdepth st)) /\
  (b = true -> ndepth nd < max_depth /\ 2 * min_node_sample <= n_node nd).
Proof.
  intros N. unfold treat_later, TreeModel.treat_later. change (Z.of_nat (length (nodes st)) - 1) with (size (nodes st) - 1).
  cbv zeta. rewrite N. cbn [bind]. destruct (_ && _ && _) eqn:C.
  - exists true. rewrite Z.add_0_r. split; auto. intros _. lia.
  - exists false. split; auto. discriminate.
Qed.

Lemma last_node l (nd : node) : node_at (l ++ [nd]) (size (l ++ [nd]) - 1) nd.
Proof.
  unfold node_at. replace (size (l ++ [nd]) - 1) with (size l) by (unfold size; rewrite app_length; cbn; lia).
  rewrite get_app_r by lia. now rewrite Z.sub_diag.
Qed.

(** What treating a node does, when it is split. *)
Lemma split_ok st idx nd0 sp : node_at (nodes st) idx nd0 ->
  let nd := apply_split use_hist nd0 sp in let n := size (nodes st) in
  0 <= first nd0 -> last nd0 < nobs -> first nd0 <= last nd0 + 1 -> samples_ok (samples st) ->
  (use_hist = true -> s_prop sp <> Continuous) ->
  (forall p, first nd0 <= p <= last nd0 -> readable nd (samples st p)) ->
  exists s' k rn ln (b1 b2 : bool),
    split_node st idx (Some sp) =
      Some (State (set_node (nodes st) idx (with_left (with_right nd n) (n + 1)) ++ [rn; ln])
                  ((if b2 then [n + 1] else []) ++ (if b1 then [n] else []) ++ queue st) s'
                  (n_leaves st + (if b1 then 0 else 1) + (if b2 then 0 else 1)) (Z.max (tdepth st) (ndepth nd0 + 1))) /\
    rearranged (first nd0) (last nd0 - first nd0 + 1) (samples st) s' /\ first nd0 - 1 <= k <= last nd0 /\
    fresh rn idx (ndepth nd0 + 1) (k + 1) (last nd0) s' /\ fresh ln idx (ndepth nd0 + 1) (first nd0) k s' /\
    (b1 = true -> ndepth nd0 + 1 < max_depth /\ 2 * min_node_sample <= n_node rn) /\
    (b2 = true -> ndepth nd0 + 1 < max_depth /\ 2 * min_node_sample <= n_node ln) /\
    ((exists p, first nd0 <= p <= last nd0 /\ on_left nd (samples st p) = false) ->
     forall p, first nd0 <= p <= last nd0 -> on_left nd (s' p) = (p <=? k)).
Proof.
  intros N nd n F L FL SO HC RD.
  assert (PART : exists s' k, partition_samples X xlen ldx use_hist binned blen nobs nd (samples st) = Some (s', k) /\
    rearranged (first nd0) (last nd0 - first nd0 + 1) (samples st) s' /\ first nd0 - 1 <= k <= last nd0 /\
    ((exists p, first nd0 <= p <= last nd0 /\ on_left nd (samples st p) = false) ->
     forall p, first nd0 <= p <= last nd0 -> on_left nd (s' p) = (p <=? k))).
  { destruct (Z_le_gt_dec (first nd0) (last nd0)) as [NE|NE].
    - destruct (partition_ok X xlen ldx use_hist binned blen nobs nd (on_left nd) (samples st)) as (s' & k & E & R & K & SPL & _); auto.
      + exact (readable_sided X xlen ldx use_hist binned blen nobs nd (samples st) RD).
      + exists s', k. split; [exact E|]. split; [exact R|]. split; [cbn in K; lia|].
        intros EX p P. destruct (SPL EX) as (_ & _ & A & B). destruct (Z.leb_spec p k); [apply A|apply B]; cbn; lia.
    - exists (samples st), (first nd0 - 1). split; [exact (partition_empty X xlen ldx use_hist binned blen nobs nd (samples st) (Z.gt_lt _ _ NE))|]. split; [apply rearranged_refl|]. split; [lia|].
      intros (p & P & _). lia. }
  destruct PART as (s' & k & E & R & K & SPL).
  assert (SO' : samples_ok s').
  { intros p P. destruct (Z_le_gt_dec (first nd0) p) as [A|A]; [destruct (Z_le_gt_dec p (last nd0)) as [B|B]|].
    - destruct (rearranged_from _ _ _ _ p R ltac:(lia)) as (j & J & ->). apply SO. lia.
    - rewrite (proj2 R) by lia. now apply SO.
    - rewrite (proj2 R) by lia. now apply SO. }
  pose proof (node_at_range _ _ _ N) as RG.
  unfold split_node, split_node_and_add_children. rewrite N. cbn [bind]. cbv zeta. fold nd.
  assert (use_hist && match s_prop sp with Continuous => true | _ => false end = false) as ->.
  { destruct use_hist; auto. cbn. destruct (s_prop sp); auto. now elim HC. }
  rewrite E. cbn [bind].
  set (st1 := State (set_node (nodes st) idx nd) (queue st) s' (n_leaves st) (tdepth st)).
  assert (N1 : node_at (nodes st1) idx nd) by (cbn; eapply set_eq; eauto).
  assert (S1 : size (nodes st1) = n) by (cbn; apply size_set).
  destruct (add_node_ok st1 idx nd false (s_right_score sp) k N1) as (rn & E2 & FR); auto; [cbn; lia..|].
  unfold add_node in E2. rewrite E2. cbn [bind]. clear E2. rewrite S1.
  change (nodes st1) with (set_node (nodes st) idx nd).
  unfold set_node at 1 2. rewrite set_nth_twice. change (set_nth (nodes st) (Z.to_nat idx) (with_right nd n)) with (set_node (nodes st) idx (with_right nd n)).
  cbn [st1 queue samples n_leaves tdepth]. change (ndepth nd) with (ndepth nd0) in *.
  set (st2 := State (set_node (nodes st) idx (with_right nd n) ++ [rn]) (queue st) s' (n_leaves st) (Z.max (tdepth st) (ndepth nd0 + 1))).
  assert (N2 : node_at (nodes st2) idx (with_right nd n)).
  { cbn. unfold node_at. rewrite get_app_l by (rewrite size_set; lia). eapply set_eq; eauto. }
  assert (S2 : size (nodes st2) = n + 1).
  { unfold st2. cbn [nodes]. unfold size at 1. rewrite app_length, Nat2Z.inj_add. fold (size (set_node (nodes st) idx (with_right nd n))). rewrite size_set. fold n. cbn. lia. }
  destruct (treat_ok st2 rn (s_right_score sp)) as (b1 & E3 & B1); [apply last_node|].
  unfold treat_later in E3. rewrite E3. cbn [bind]. clear E3. rewrite S2. replace (n + 1 - 1) with n by lia.
  cbn [st2 nodes queue samples n_leaves tdepth].
  set (st3 := State (set_node (nodes st) idx (with_right nd n) ++ [rn]) ((if b1 then [n] else []) ++ queue st) s'
                    (n_leaves st + (if b1 then 0 else 1)) (Z.max (tdepth st) (ndepth nd0 + 1))).
  destruct (add_node_ok st3 idx (with_right nd n) true (s_left_score sp) k N2) as (ln & E4 & FL4); auto; [cbn; lia..|].
  unfold add_node in E4. rewrite E4. cbn [bind]. clear E4.
  change (size (nodes st3)) with (size (nodes st2)). rewrite S2.
  change (nodes st3) with (set_node (nodes st) idx (with_right nd n) ++ [rn]).
  rewrite set_app by (rewrite size_set; lia). unfold set_node at 1 2. rewrite set_nth_twice.
  change (set_nth (nodes st) (Z.to_nat idx) (with_left (with_right nd n) (n + 1))) with (set_node (nodes st) idx (with_left (with_right nd n) (n + 1))).
  rewrite <- app_assoc. cbn [app]. cbn [st3 queue samples n_leaves tdepth]. change (ndepth (with_right nd n)) with (ndepth nd0) in *.
  rewrite (Z.max_l (Z.max (tdepth st) (ndepth nd0 + 1))) by lia.
  set (st4 := State (set_node (nodes st) idx (with_left (with_right nd n) (n + 1)) ++ [rn; ln]) ((if b1 then [n] else []) ++ queue st) s'
                    (n_leaves st + (if b1 then 0 else 1)) (Z.max (tdepth st) (ndepth nd0 + 1))).
  assert (S4 : size (nodes st4) = n + 2).
  { unfold st4. cbn [nodes]. unfold size at 1. rewrite app_length, Nat2Z.inj_add. fold (size (set_node (nodes st) idx (with_left (with_right nd n) (n + 1)))). rewrite size_set. fold n. cbn. lia. }
  destruct (treat_ok st4 ln (s_left_score sp)) as (b2 & E5 & B2).
  { unfold node_at. rewrite S4. cbn [st4 nodes]. rewrite get_app_r by (rewrite size_set; fold n; lia).
    rewrite size_set. fold n. replace (n + 2 - 1 - n) with 1 by lia. reflexivity. }
  unfold treat_later in E5. rewrite E5, S4. replace (n + 2 - 1) with (n + 1) by lia. cbn [st4 nodes queue samples n_leaves tdepth].
  exists s', k, rn, ln, b1, b2. split; [reflexivity|]. split; [exact R|]. split; [exact K|].
  split; [exact FR|]. split; [exact FL4|].
  destruct FR as (_ & _ & D1 & _), FL4 as (_ & _ & D2 & _). rewrite D1 in B1. rewrite D2 in B2. auto.
Qed.
End Grow.
