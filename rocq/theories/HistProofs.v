(** Proofs about the histograms of the training data. *)
From Coq Require Import ZArith List Bool Permutation Lia Reals Lra.
From Flocq Require Import Core BinarySingleNaN.
From Verif Require Import Base ListFacts Par F64 FloatMid FloatOrder UtilModel SortModel TreeSearchModel TreeSearchSpec ForestModel TreeModel TreeTrainModel TreeTrainSpec HistModel HistSpec HistFloatProofs.
Import ListNotations.
Local Open Scope Z_scope.

(** ** One feature *)
Section Feature.
Variables n m : Z.
Hypothesis Hm : 2 <= m <= 65535.
Hypothesis Hn : 2 * m <= n <= 2 ^ 32.
Variable vals : Z -> f64.

Definition close (t s : Z) : bool := f64_lt (f64_abs (f64_sub (vals t) (vals s))) (tol num64).

Lemma explore_ok t : forall fuel r, r <= n - 1 -> n - 1 - r <= Z.of_nat fuel ->
  r <= explore num64 n vals fuel t r <= n - 1 /\
  (explore num64 n vals fuel t r < n - 1 -> close t (explore num64 n vals fuel t r + 1) = false).
Proof.
  induction fuel as [|fuel IH]; intros r R F; cbn [explore].
  - split; lia.
  - cbn [lt abs sub num64]. fold (close t (r + 1)). destruct (Z.ltb_spec r (n - 1)); cbn [andb]; [|split; lia].
    destruct (close t (r + 1)) eqn:C.
    + destruct (IH (r + 1)) as [B C']; try lia. cbv iota. split; [lia|auto].
    + cbv iota. split; [lia|auto].
Qed.

Inductive picked : Z -> list f64 -> Prop :=
| picked_nil p : picked p []
| picked_cons p t r l : p <= t -> t <= r -> r + 1 <= n - 1 -> close t (r + 1) = false -> picked (r + 1) l ->
    picked p (vals (r + 1) :: l).

Lemma loop_ok : forall fuel k p, Z.of_nat k <= m + 1 -> m + 4 <= Z.of_nat (fuel + k) -> 0 <= p <= place n m k - 1 -> (1 <= fuel)%nat ->
  exists l, thresholds_loop num64 n m vals fuel (qn m k) = Some l /\ picked p l /\ Z.of_nat (length l) <= Z.max 0 (m - 1 - Z.of_nat k).
Proof.
  induction fuel as [|fuel IH]; intros k p K F P F1; [lia|]. cbn [thresholds_loop].
  rewrite (qn_within n m Hm Hn k K). destruct (Z.ltb_spec (Z.of_nat k) (m - 1)) as [L|L].
  2:{ exists []. split; auto. split; [constructor|cbn; lia]. }
  change (round num64 (mul num64 (qn m k) (of_Z num64 n))) with (place n m k).
  pose proof (place_low n m Hm Hn k K) as Pl. pose proof (place_high n m Hm Hn k L) as Ph.
  unfold inside. rewrite (proj2 (Z.leb_le 0 (place n m k - 1))) by lia. rewrite (proj2 (Z.ltb_lt (place n m k - 1) n)) by lia. cbn [andb].
  set (t := place n m k - 1) in *.
  destruct (explore_ok t (Z.to_nat n) t) as [B C]; try lia. set (r := explore num64 n vals (Z.to_nat n) t t) in *.
  destruct (Z.leb_spec (n - 1) r) as [R|R].
  { exists []. split; auto. split; [constructor|cbn; lia]. }
  specialize (C R).
  assert (N : exists k', (if r =? t then add num64 (qn m k) (q_step num64 m) else
      skip num64 m fuel (div num64 (of_Z num64 r) (of_Z num64 n)) (qn m k)) = qn m k' /\ (k < k')%nat /\ Z.of_nat k' <= m + 1 /\ r + 1 <= place n m k' - 1).
  { destruct (Z.eqb_spec r t) as [E|E].
    - exists (S k). pose proof (place_step n m Hm Hn k (S k)). repeat split; try lia.
    - destruct (skip_ok n m Hm Hn r ltac:(lia) fuel k K ltac:(lia)) as (k' & Ek & Lk & Bk & Q). exists k'.
      assert (k <> k'). { intros <-. rewrite (limit_moves n m Hm Hn) in Q by lia. discriminate. }
      pose proof (limit_passed n m Hm Hn k' r Bk ltac:(lia) Q). repeat split; auto; lia. }
  destruct N as (k' & Eq & Lk & Bk & Pk). rewrite Eq.
  destruct (IH k' (r + 1)) as (l & El & Pi & Len); try lia. rewrite El. cbn [option_map].
  exists (vals (r + 1) :: l). split; auto. split; [econstructor; eauto; lia|]. cbn [length]. lia.
Qed.

Lemma thresholds_ok : exists l, compute_thresholds num64 n m vals = Some l /\ picked 0 l /\ Z.of_nat (length l) <= m - 1.
Proof.
  unfold compute_thresholds. pose proof (place_low n m Hm Hn 0 ltac:(lia)).
  destruct (loop_ok (Z.to_nat (2 * m + 8)) 0 0) as (l & E & P & L); try lia. exists l. split; auto. split; auto. lia.
Qed.

(** if no two adjacent values are close *)
Lemma loop_distinct : (forall i, 0 <= i < n - 1 -> close i (i + 1) = false) ->
  forall d fuel k, Z.of_nat (d + k) = m - 1 -> (d < fuel)%nat ->
  thresholds_loop num64 n m vals fuel (qn m k) = Some (map (fun k => vals (place n m k)) (seq k d)).
Proof.
  intros D. induction d as [|d IH]; intros fuel k K F; (destruct fuel as [|fuel]; [lia|]); cbn [thresholds_loop seq map].
  - rewrite (qn_within n m Hm Hn k) by lia. rewrite (proj2 (Z.ltb_ge _ _)) by lia. reflexivity.
  - rewrite (qn_within n m Hm Hn k) by lia. rewrite (proj2 (Z.ltb_lt _ _)) by lia.
    change (round num64 (mul num64 (qn m k) (of_Z num64 n))) with (place n m k).
    pose proof (place_low n m Hm Hn k ltac:(lia)) as Pl. pose proof (place_high n m Hm Hn k ltac:(lia)) as Ph.
    unfold inside. rewrite (proj2 (Z.leb_le 0 (place n m k - 1))) by lia. rewrite (proj2 (Z.ltb_lt (place n m k - 1) n)) by lia. cbn [andb].
    set (t := place n m k - 1) in *.
    assert (E : explore num64 n vals (Z.to_nat n) t t = t).
    { destruct (Z.to_nat n) eqn:En; [lia|]. cbn [explore lt abs sub num64]. fold (close t (t + 1)). rewrite D by lia. now rewrite andb_false_r. }
    rewrite E. rewrite (proj2 (Z.leb_gt _ _)) by lia. rewrite Z.eqb_refl.
    change (add num64 (qn m k) (q_step num64 m)) with (qn m (S k)).
    rewrite IH by lia. cbn [option_map]. do 3 f_equal. lia.
Qed.
Lemma thresholds_distinct : (forall i, 0 <= i < n - 1 -> close i (i + 1) = false) ->
  compute_thresholds num64 n m vals = Some (map (fun k => vals (place n m k)) (seq 0 (Z.to_nat (m - 1)))).
Proof. intros D. exact (loop_distinct D (Z.to_nat (m - 1)) (Z.to_nat (2 * m + 8)) 0 ltac:(lia) ltac:(lia)). Qed.

(** ** The thresholds increase *)
Hypothesis vals_num : forall i, 0 <= i < n -> is_nan (vals i) = false.
Hypothesis vals_sorted : forall i k, 0 <= i < k -> k < n -> f64_lt (vals k) (vals i) = false.

Lemma vals_key i k : 0 <= i <= k -> k < n -> (key (vals i) <= key (vals k))%R.
Proof.
  intros I K. destruct (Z.eq_dec i k) as [->|]; [lra|]. apply f64_lt_false; try apply vals_num; try lia. apply vals_sorted; lia.
Qed.

Lemma picked_at : forall p l, picked p l -> 0 <= p -> forall c, (c < length l)%nat ->
  exists s, nth c l (vals 0) = vals s /\ p < s <= n - 1 /\
    forall d, (c < d)%nat -> (d < length l)%nat -> exists s', nth d l (vals 0) = vals s' /\ s < s' <= n - 1.
Proof.
  induction 1 as [p|p t r l P T R C H IH]; intros P0 c Lc; [cbn in Lc; lia|].
  destruct c as [|c].
  - exists (r + 1). split; [reflexivity|]. split; [lia|]. intros [|d] D Ld; [lia|]. cbn [length] in Ld.
    destruct (IH ltac:(lia) d ltac:(lia)) as (s' & E & B & _). exists s'. auto.
  - cbn [length] in Lc. destruct (IH ltac:(lia) c ltac:(lia)) as (s & E & B & F). exists s. split; [exact E|]. split; [lia|].
    intros [|d] D Ld; [lia|]. cbn [length] in Ld. exact (F d ltac:(lia) ltac:(lia)).
Qed.

Lemma picked_monotone p l : picked p l -> 0 <= p -> forall c d x, (c <= d)%nat -> (d < length l)%nat -> is_nan x = false ->
  f64_lt x (nth c l (vals 0)) = true -> f64_lt x (nth d l (vals 0)) = true.
Proof.
  intros P P0 c d x C D X L. destruct (Nat.eq_dec c d) as [<-|Nq]; auto.
  destruct (picked_at p l P P0 c ltac:(lia)) as (s & E & B & F). destruct (F d ltac:(lia) D) as (s' & E' & B').
  rewrite E in L. rewrite E'. apply f64_lt_key in L; auto; [|apply vals_num; lia]. apply f64_lt_key; auto; [apply vals_num; lia|].
  pose proof (vals_key s s'). lra || (assert (key (vals s) <= key (vals s'))%R by (apply vals_key; lia); lra).
Qed.

(** ... strictly if the values are finite *)
Hypothesis vals_finite : forall i, 0 <= i < n -> is_finite (vals i) = true.
Lemma close_equal t s : 0 <= t <= s -> s < n -> close t s = false -> f64_lt (vals t) (vals s) = true.
Proof.
  intros T S C. apply f64_lt_key; try (apply vals_num; lia).
  destruct (Rle_lt_or_eq_dec _ _ (vals_key t s T S)) as [|E]; auto.
  rewrite !key_finite in E by (apply vals_finite; lia).
  assert (Z0 : f64_lt (f64_of_Z 0) (tol num64) = true) by (vm_compute; reflexivity).
  pose proof (sub_zero_lt (vals s) (vals t) (tol num64) (vals_finite s ltac:(lia)) (vals_finite t ltac:(lia)) (eq_sym E) Z0) as Q.
  unfold close in C. congruence.
Qed.

Lemma picked_strict : forall p l, picked p l -> 0 <= p ->
  forall c, (c < length l)%nat -> exists s, p < s <= n - 1 /\ nth c l (vals 0) = vals s /\ f64_lt (vals p) (vals s) = true /\
    forall d, (d < c)%nat -> f64_lt (nth d l (vals 0)) (vals s) = true.
Proof.
  induction 1 as [p|p t r l P T R C H IH]; intros P0 c Lc; [cbn in Lc; lia|].
  assert (St : f64_lt (vals p) (vals (r + 1)) = true).
  { pose proof (close_equal t (r + 1) ltac:(lia) ltac:(lia) C) as Q. apply f64_lt_key in Q; try (apply vals_num; lia).
    apply f64_lt_key; try (apply vals_num; lia). assert (key (vals p) <= key (vals t))%R by (apply vals_key; lia). lra. }
  destruct c as [|c].
  - exists (r + 1). repeat split; auto; try lia.
  - cbn [length] in Lc. destruct (IH ltac:(lia) c ltac:(lia)) as (s & B & E & Ls & F). exists s. split; [lia|]. split; auto. split.
    + apply f64_lt_key in St; try (apply vals_num; lia). apply f64_lt_key in Ls; try (apply vals_num; lia).
      apply f64_lt_key; try (apply vals_num; lia). lra.
    + intros [|d] D; [exact Ls|]. exact (F d ltac:(lia)).
Qed.
End Feature.

(** ** The search for the bin *)
Lemma bin_search_ok (thr : Z -> f64) base x nb :
  (forall c d, 0 <= c <= d -> d < nb - 1 -> f64_lt x (thr (base + c)) = true -> f64_lt x (thr (base + d)) = true) ->
  forall fuel start last, 0 <= start <= last -> last <= nb - 1 -> last - start <= Z.of_nat fuel ->
  (forall c, 0 <= c < start -> f64_lt x (thr (base + c)) = false) ->
  (forall c, last <= c < nb - 1 -> f64_lt x (thr (base + c)) = true) ->
  let b := bin_search num64 fuel thr base x start last in
  0 <= b <= nb - 1 /\ forall c, 0 <= c < nb - 1 -> (b <=? c) = f64_lt x (thr (base + c)).
Proof.
  intros M. induction fuel as [|fuel IH]; intros start last S L F Lo Hi; cbn [bin_search].
  - assert (last = start) by lia. subst last. split; [lia|]. intros c C. destruct (Z.leb_spec start c); symmetry; [apply Hi|apply Lo]; lia.
  - destruct (Z.ltb_spec start last) as [H|H].
    + cbn [lt num64]. set (mid := (start + last) / 2).
      assert (Mid : start <= mid < last) by (unfold mid; split; [apply Z.div_le_lower_bound; lia|apply Z.div_lt_upper_bound; lia]).
      destruct (f64_lt x (thr (base + mid))) eqn:E.
      * apply IH; auto; try lia. intros c C. apply (M mid c); auto; lia.
      * apply IH; auto; try lia. intros c C. destruct (f64_lt x (thr (base + c))) eqn:Ec; auto.
        rewrite (M c mid) in E by (auto; lia). discriminate.
    + assert (last = start) by lia. subst last. split; [lia|]. intros c C. destruct (Z.leb_spec start c); symmetry; [apply Hi|apply Lo]; lia.
Qed.

(** ** Stores of all features *)
Section Stores.
Variables m n_features : Z.
Lemma stores_fst {T} : forall (l : list T) pos p, In p (map fst (stores pos l)) <-> pos <= p < pos + Z.of_nat (length l).
Proof.
  induction l as [|t l IH]; intros pos p; cbn [stores map length fst In]; [lia|]. rewrite IH. lia.
Qed.
Lemma stores_nodup {T} : forall (l : list T) pos, NoDup (map fst (stores pos l)).
Proof.
  induction l as [|t l IH]; intros pos; cbn [stores map fst]; constructor; auto. rewrite stores_fst. lia.
Qed.
Lemma stores_nth {T} (d : T) : forall l pos c, (c < length l)%nat -> In (pos + Z.of_nat c, nth c l d) (stores pos l).
Proof.
  induction l as [|t l IH]; intros pos c C; cbn [length] in C; [lia|]. cbn [stores]. destruct c as [|c].
  - left. cbn [nth]. f_equal. lia.
  - right. replace (pos + Z.of_nat (S c)) with (pos + 1 + Z.of_nat c) by lia. apply IH. lia.
Qed.
Lemma nodup_flat_map {A} (f : A -> list Z) : forall l, NoDup l -> (forall a, In a l -> NoDup (f a)) ->
  (forall a b p, In a l -> In b l -> In p (f a) -> In p (f b) -> a = b) -> NoDup (flat_map f l).
Proof.
  induction l as [|a l IH]; intros D N U; cbn [flat_map]; [constructor|]. inversion D as [|? ? Na Dl]; subst.
  assert (Nl : NoDup (flat_map f l)) by (apply IH; auto; [intros; apply N; now right|intros; eapply U; eauto; now right]).
  assert (Di : forall p, In p (f a) -> ~ In p (flat_map f l)).
  { intros p P Q. apply in_flat_map in Q as (b & B & Q). assert (a = b) by (apply (U a b p); auto; [now left|now right]). subst. auto. }
  assert (Nf : NoDup (f a)) by (apply N; now left).
  clear - Nl Di Nf. induction (f a) as [|x g IHg]; cbn [app]; auto. inversion Nf; subst. constructor.
  - rewrite in_app_iff. intros [H|H]; auto. apply (Di x); auto. now left.
  - apply IHg; auto. intros p P. apply Di. now right.
Qed.
Lemma store_all_ok {T} : forall (tr : list (Z * T)) thr, NoDup (map fst tr) ->
  (forall p, In p (map fst tr) -> 0 <= p < n_features * (m - 1)) ->
  exists thr', store_all m n_features tr thr = Some thr' /\ (forall p v, In (p, v) tr -> thr' p = v) /\
    (forall p, ~ In p (map fst tr) -> thr' p = thr p).
Proof.
  induction tr as [|[p v] tr IH]; intros thr N B; cbn [store_all].
  - exists thr. repeat split; auto. intros ? ? [].
  - cbn [map fst] in *. inversion N as [|? ? Np Nt]; subst. pose proof (B p (or_introl eq_refl)) as Bp. unfold inside.
    rewrite (proj2 (Z.leb_le 0 p)), (proj2 (Z.ltb_lt p _)) by lia. cbn [andb].
    destruct (IH (store_at thr p v) Nt) as (thr' & E & V & O); [intros; apply B; now right|].
    exists thr'. split; auto. split.
    + intros p' v' [Q|Q]; [|auto]. injection Q as <- <-. rewrite O by auto. unfold store_at. now rewrite Z.eqb_refl.
    + intros p' Q. rewrite O by (intros H; apply Q; now right). unfold store_at. destruct (Z.eqb_spec p' p); auto. subst. destruct Q. now left.
Qed.
End Stores.

(** ** The whole matrix *)
Section Matrix.
Variables (X : Z -> f64) (ldx n n_features m : Z) (sorted : Z -> Z -> f64).
Hypothesis Hm : 2 <= m <= 65535.
Hypothesis Hn : 2 * m <= n <= 2 ^ 32.
Hypothesis Hf : 0 <= n_features.
Hypothesis Xnum : numbers X ldx n n_features.
Hypothesis Xsorted : sorted_columns X ldx n n_features sorted.

Lemma sorted_value j s : 0 <= j < n_features -> 0 <= s < n -> exists i, 0 <= i < n /\ sorted j s = X (j * ldx + i).
Proof.
  intros J S. destruct (Xsorted j J) as [P _]. assert (In (sorted j s) (map (sorted j) (zrange n))) by (apply in_map, in_zrange; auto).
  apply (Permutation_in _ P), in_map_iff in H as (i & E & I). apply in_zrange in I. exists i. auto.
Qed.
Lemma sorted_num j s : 0 <= j < n_features -> 0 <= s < n -> is_nan (sorted j s) = false.
Proof. intros J S. destruct (sorted_value j s J S) as (i & I & ->). apply Xnum; auto. Qed.

Definition found (j : Z) : list f64 := match compute_thresholds num64 n m (sorted j) with Some l => l | None => [] end.
Lemma found_ok j : compute_thresholds num64 n m (sorted j) = Some (found j) /\ picked n (sorted j) 0 (found j) /\ Z.of_nat (length (found j)) <= m - 1.
Proof. unfold found. destruct (thresholds_ok n m Hm Hn (sorted j)) as (l & E & P). now rewrite E. Qed.

Notation of_feature := (feature_trace n m sorted).
Lemma of_feature_eq j : of_feature j = stores (j * (m - 1)) (found j).
Proof. unfold feature_trace, feature_stores. destruct (found_ok j) as (E & _). now rewrite E. Qed.

Variables (sched : list (list Z)) (tr : list (Z * f64)) (thr0 : Z -> f64).
Hypothesis Hteam : feature_team n_features sched.
Hypothesis Htr : interleaving (map (flat_map of_feature) sched) tr.

Lemma trace_perm : Permutation (flat_map of_feature (zrange n_features)) tr.
Proof.
  apply interleaving_perm in Htr. rewrite <- Htr. clear Htr.
  assert (E : concat (map (flat_map of_feature) sched) = flat_map of_feature (concat sched)).
  { clear Hteam. induction sched as [|a l IH]; auto. cbn [map concat]. rewrite flat_map_app, IH. auto. }
  rewrite E. apply Permutation_flat_map. exact Hteam.
Qed.

Lemma thresholds_stored : exists thr, store_all m n_features tr thr0 = Some thr /\
  forall j c, 0 <= j < n_features -> 0 <= c < nbins num64 n m sorted j - 1 ->
    thr (j * (m - 1) + c) = nth (Z.to_nat c) (found j) (sorted j 0).
Proof.
  pose proof trace_perm as P.
  assert (F : map fst (flat_map of_feature (zrange n_features)) = flat_map (fun j => map fst (of_feature j)) (zrange n_features)).
  { clear. generalize (zrange n_features). induction l as [|j l IH]; auto. cbn [flat_map]. now rewrite map_app, IH. }
  destruct (store_all_ok m n_features tr thr0) as (thr & E & V & _).
  - apply (Permutation_NoDup (Permutation_map fst P)). rewrite F. apply nodup_flat_map.
    + apply zrange_nodup.
    + intros j _. rewrite of_feature_eq. apply stores_nodup.
    + intros a b p _ _ A B. rewrite of_feature_eq in A, B. apply stores_fst in A, B.
      destruct (found_ok a) as (_ & _ & La). destruct (found_ok b) as (_ & _ & Lb). nia.
  - intros p Q. apply (Permutation_in _ (Permutation_sym (Permutation_map fst P))) in Q. rewrite F in Q.
    apply in_flat_map in Q as (j & J & Q). apply in_zrange in J. rewrite of_feature_eq in Q. apply stores_fst in Q.
    destruct (found_ok j) as (_ & _ & Lj). nia.
  - exists thr. split; auto. intros j c J C. apply V. apply (Permutation_in _ P). apply in_flat_map. exists j. split; [apply in_zrange; auto|].
    rewrite of_feature_eq. replace (j * (m - 1) + c) with (j * (m - 1) + Z.of_nat (Z.to_nat c)) by lia. apply stores_nth.
    unfold nbins in C. destruct (found_ok j) as (Ej & _). rewrite Ej in C. lia.
Qed.

Section Bins.
Variable thr : Z -> f64.
Hypothesis Hthr : forall j c, 0 <= j < n_features -> 0 <= c < nbins num64 n m sorted j - 1 ->
    thr (j * (m - 1) + c) = nth (Z.to_nat c) (found j) (sorted j 0).
Notation nb := (nbins num64 n m sorted).
Notation bin := (binned num64 n m X ldx nb thr).

Lemma nb_eq j : nb j = Z.of_nat (length (found j)) + 1.
Proof. unfold nbins. destruct (found_ok j) as (E & _). now rewrite E. Qed.

Lemma bin_ok j i : 0 <= j < n_features -> 0 <= i < n ->
  0 <= bin (n * j + i) <= nb j - 1 /\
  forall c, 0 <= c < nb j - 1 -> (bin (n * j + i) <=? c) = f64_lt (X (j * ldx + i)) (thr (j * (m - 1) + c)).
Proof.
  intros J I. unfold binned.
  assert (D : (n * j + i) / n = j) by (rewrite Z.mul_comm, Z.div_add_l, Z.div_small by lia; lia).
  assert (Mo : (n * j + i) mod n = i) by (rewrite Z.mul_comm, Z.add_comm, Z.mod_add, Z.mod_small by lia; lia).
  rewrite D, Mo. pose proof (nb_eq j) as Nb. destruct (found_ok j) as (_ & Pk & _).
  assert (Mon : forall c d, 0 <= c <= d -> d < nb j - 1 -> f64_lt (X (j * ldx + i)) (thr (j * (m - 1) + c)) = true -> f64_lt (X (j * ldx + i)) (thr (j * (m - 1) + d)) = true).
  { intros c d C Dd. rewrite !Hthr by lia.
    apply (picked_monotone n (sorted j) (fun s S => sorted_num j s J S) (proj2 (Xsorted j J)) 0 (found j) Pk); try lia. apply Xnum; auto. }
  apply (bin_search_ok thr (j * (m - 1)) (X (j * ldx + i)) (nb j) Mon); try lia.
Qed.

Lemma all_binned : binned_right X ldx n n_features bin (n * n_features) m nb thr.
Proof.
  split.
  - intros j i J I. nia.
  - intros j i J I. destruct (bin_ok j i J I). lia.
  - intros j J. rewrite nb_eq. destruct (found_ok j) as (_ & _ & L). lia.
  - intros j i c J I C. destruct (bin_ok j i J I) as [_ B]. rewrite (Z.mul_comm ldx). apply B. auto.
Qed.

Lemma none_empty : finite_numbers X ldx n n_features -> forall j b, 0 <= j < n_features -> 0 <= b < nb j ->
  exists i, 0 <= i < n /\ bin (n * j + i) = b.
Proof.
  intros Fin j b J B. destruct (found_ok j) as (_ & Pk & _). pose proof (nb_eq j) as Nb.
  assert (Fv : forall s, 0 <= s < n -> is_finite (sorted j s) = true).
  { intros s S. destruct (sorted_value j s J S) as (i & I & ->). apply Fin; auto. }
  pose proof (picked_strict n (sorted j) (fun s S => sorted_num j s J S) (proj2 (Xsorted j J)) Fv 0 (found j) Pk ltac:(lia)) as St.
  assert (Idx : exists s, 0 <= s < n /\ (forall c, 0 <= c < b -> f64_lt (sorted j s) (thr (j * (m - 1) + c)) = false) /\
                 (b < nb j - 1 -> f64_lt (sorted j s) (thr (j * (m - 1) + b)) = true)).
  { destruct (Z.eq_dec b 0) as [->|Nz].
    - exists 0. split; [lia|]. split; [lia|]. intros C. rewrite Hthr by lia.
      destruct (St 0%nat ltac:(lia)) as (s & S & E & L & _). rewrite Z2Nat.inj_0, E. exact L.
    - destruct (St (Z.to_nat (b - 1)) ltac:(lia)) as (s & S & E & L & F). exists s. split; [lia|]. split.
      + intros c C. rewrite Hthr by lia. destruct (Z.eq_dec c (b - 1)) as [->|].
        * rewrite E. apply f64_lt_irrefl.
        * pose proof (F (Z.to_nat c) ltac:(lia)) as Q. destruct (f64_orders) as [As _]. destruct (St (Z.to_nat c) ltac:(lia)) as (s' & S' & E' & _).
          rewrite E' in *. apply As; auto; apply sorted_num; auto; lia.
      + intros C. rewrite Hthr by lia. destruct (St (Z.to_nat b) ltac:(lia)) as (s' & S' & E' & _ & F').
        rewrite E', <- E. apply F'. lia. }
  destruct Idx as (s & S & Lo & Hi). destruct (sorted_value j s J S) as (i & I & E). exists i. split; auto.
  destruct (bin_ok j i J I) as [Bb Bs]. rewrite <- E in Bs.
  assert (~ bin (n * j + i) < b).
  { intros Q. specialize (Bs (b - 1) ltac:(lia)). rewrite Lo in Bs by lia. apply Z.leb_gt in Bs. lia. }
  assert (~ b < bin (n * j + i)).
  { intros Q. specialize (Bs b ltac:(lia)). rewrite Hi in Bs by lia. apply Z.leb_le in Bs. lia. }
  lia.
Qed.
End Bins.
End Matrix.

(** ** Bins of equal size *)
Lemma count_range lo hi : 0 <= lo -> forall N, Z.of_nat (length (filter (fun s => (lo <=? s) && (s <? hi)) (map Z.of_nat (seq 0 N)))) = Z.max 0 (Z.min hi (Z.of_nat N) - lo).
Proof.
  intros L. induction N as [|N IH]; [cbn; lia|]. rewrite seq_S, map_app, filter_app, app_length, Nat2Z.inj_add, IH. cbn [plus map filter].
  destruct (Z.leb_spec lo (Z.of_nat N)); destruct (Z.ltb_spec (Z.of_nat N) hi); cbn [andb length]; lia.
Qed.
Lemma filter_map_length {A B} (f : A -> B) (P : B -> bool) l : length (filter (fun a => P (f a)) l) = length (filter P (map f l)).
Proof. induction l as [|a l IH]; auto. cbn [map filter]. destruct (P (f a)); cbn [length]; auto. Qed.
Lemma perm_filter_length {A} (P : A -> bool) l l' : Permutation l l' -> length (filter P l) = length (filter P l').
Proof. induction 1; cbn [filter]; auto; repeat match goal with |- context [if P ?x then _ else _] => destruct (P x) end; cbn [length]; congruence. Qed.

Section Equal.
Variables (X : Z -> f64) (ldx n n_features m : Z) (sorted : Z -> Z -> f64).
Hypothesis Hm : 2 <= m <= 65535.
Hypothesis Hn : 2 * m <= n <= 2 ^ 32.
Hypothesis Xfin : finite_numbers X ldx n n_features.
Hypothesis Xsorted : sorted_columns X ldx n n_features sorted.
Variable thr : Z -> f64.
Hypothesis Hthr : forall j c, 0 <= j < n_features -> 0 <= c < nbins num64 n m sorted j - 1 ->
    thr (j * (m - 1) + c) = nth (Z.to_nat c) (found n m sorted j) (sorted j 0).
Notation nb := (nbins num64 n m sorted).
Notation bin := (binned num64 n m X ldx nb thr).
Variable j : Z.
Hypothesis Hj : 0 <= j < n_features.
Hypothesis Hdist : forall i, 0 <= i < n - 1 -> close (sorted j) i (i + 1) = false.

Lemma finite_num (x : f64) : is_finite x = true -> is_nan x = false.
Proof. destruct x; auto. Qed.
Lemma fin_numbers : numbers X ldx n n_features.
Proof. intros j' i J I. apply finite_num, Xfin; auto. Qed.
Lemma sorted_finite s : 0 <= s < n -> is_finite (sorted j s) = true.
Proof. intros S. destruct (sorted_value X ldx n n_features sorted Xsorted j s Hj S) as (i & I & ->). apply Xfin; auto. Qed.

Lemma found_distinct : found n m sorted j = map (fun k => sorted j (place n m k)) (seq 0 (Z.to_nat (m - 1))).
Proof. unfold found. now rewrite (thresholds_distinct n m Hm Hn (sorted j) Hdist). Qed.
Lemma nb_distinct : nb j = m.
Proof. unfold nbins. rewrite (thresholds_distinct n m Hm Hn (sorted j) Hdist), map_length, seq_length. lia. Qed.

Lemma strictly s s' : 0 <= s < n -> 0 <= s' < n -> f64_lt (sorted j s) (sorted j s') = (s <? s').
Proof.
  intros S S'. assert (Num : forall s, 0 <= s < n -> is_nan (sorted j s) = false) by (intros; apply finite_num, sorted_finite; auto).
  destruct (Z.ltb_spec s s') as [L|L].
  - assert (A : f64_lt (sorted j s) (sorted j (s + 1)) = true).
    { apply (close_equal n (sorted j) Num (proj2 (Xsorted j Hj)) sorted_finite); try lia. apply Hdist. lia. }
    apply f64_lt_key in A; try (apply Num; lia). apply f64_lt_key; try (apply Num; lia).
    assert (key (sorted j (s + 1)) <= key (sorted j s'))%R by (apply (vals_key n (sorted j) Num (proj2 (Xsorted j Hj))); lia). lra.
  - apply f64_lt_false; try (apply Num; lia). apply (vals_key n (sorted j) Num (proj2 (Xsorted j Hj))); lia.
Qed.

Definition low (b : Z) : Z := if b =? 0 then 0 else place n m (Z.to_nat (b - 1)).
Definition high (b : Z) : Z := if b =? m - 1 then n else place n m (Z.to_nat b).

Lemma place_range k : Z.of_nat k < m - 1 -> 0 <= place n m k < n.
Proof. intros K. pose proof (place_low n m Hm Hn k ltac:(lia)). pose proof (place_high n m Hm Hn k K). lia. Qed.

Lemma bin_of_sorted s i b : 0 <= s < n -> 0 <= i < n -> X (j * ldx + i) = sorted j s -> 0 <= b < m ->
  (bin (n * j + i) =? b) = ((low b <=? s) && (s <? high b)).
Proof.
  intros S I E B. destruct (bin_ok X ldx n n_features m sorted Hm Hn fin_numbers Xsorted thr Hthr j i Hj I) as [R Q].
  rewrite nb_distinct in R, Q.
  assert (Q' : forall c, 0 <= c < m - 1 -> (bin (n * j + i) <=? c) = (s <? place n m (Z.to_nat c))).
  { intros c C. rewrite Q, E by auto. rewrite Hthr by (rewrite ?nb_distinct; auto). rewrite found_distinct.
    rewrite (nth_indep _ (sorted j 0) (sorted j (place n m 0))) by (rewrite map_length, seq_length; lia).
    rewrite (map_nth (fun k => sorted j (place n m k))), seq_nth by lia. cbn [plus]. apply strictly; auto. apply place_range. lia. }
  clear Q. unfold low, high.
  assert (Lo : b <> 0 -> (b <=? bin (n * j + i)) = (place n m (Z.to_nat (b - 1)) <=? s)).
  { intros Nz. specialize (Q' (b - 1) ltac:(lia)). destruct (Z.leb_spec b (bin (n * j + i))); destruct (Z.leb_spec (bin (n * j + i)) (b - 1)); try lia;
      destruct (Z.leb_spec (place n m (Z.to_nat (b - 1))) s); destruct (Z.ltb_spec s (place n m (Z.to_nat (b - 1)))); try lia; auto; try discriminate. }
  assert (Hi : b <> m - 1 -> (bin (n * j + i) <=? b) = (s <? place n m (Z.to_nat b))) by (intros; apply Q'; lia).
  destruct (Z.eqb_spec b 0) as [Z0|Z0]; destruct (Z.eqb_spec b (m - 1)) as [Z1|Z1]; try (specialize (Lo Z0)); try (specialize (Hi Z1));
    repeat match goal with
    | |- context [?a <=? ?c] => destruct (Z.leb_spec a c)
    | |- context [?a <? ?c] => destruct (Z.ltb_spec a c)
    | |- context [?a =? ?c] => destruct (Z.eqb_spec a c)
    | H : context [?a <=? ?c] |- _ => destruct (Z.leb_spec a c)
    end; cbn [andb]; auto; try lia; try discriminate.
Qed.

Lemma size_eq b : 0 <= b < m -> bin_size bin n j b = high b - low b.
Proof.
  intros B. unfold bin_size.
  set (bv := fun x => bin_search num64 (Z.to_nat (nb j)) thr (j * (m - 1)) x 0 (nb j - 1)).
  assert (E : forall i, 0 <= i < n -> bin (n * j + i) = bv (X (j * ldx + i))).
  { intros i I. unfold binned, bv.
    assert (D : (n * j + i) / n = j) by (rewrite Z.mul_comm, Z.div_add_l, Z.div_small by lia; lia).
    assert (Mo : (n * j + i) mod n = i) by (rewrite Z.mul_comm, Z.add_comm, Z.mod_add, Z.mod_small by lia; lia).
    rewrite D, Mo. reflexivity. }
  rewrite (filter_ext_in _ (fun i => bv (X (j * ldx + i)) =? b)) by (intros i I; apply in_zrange in I; now rewrite E).
  rewrite (filter_map_length (fun i => X (j * ldx + i)) (fun x => bv x =? b)).
  rewrite <- (perm_filter_length _ _ _ (proj1 (Xsorted j Hj))), <- (filter_map_length (sorted j) (fun x => bv x =? b)).
  rewrite (filter_ext_in _ (fun s => (low b <=? s) && (s <? high b))).
  - unfold zrange. unfold low at 1. rewrite count_range by (destruct (b =? 0); [lia|pose proof (place_low n m Hm Hn (Z.to_nat (b - 1)) ltac:(lia)); lia]).
    fold (low b). rewrite Z2Nat.id by lia.
    assert (low b <= high b <= n).
    { unfold low, high. destruct (Z.eqb_spec b 0); destruct (Z.eqb_spec b (m - 1)); try lia.
      - pose proof (place_range (Z.to_nat b) ltac:(lia)). lia.
      - pose proof (place_range (Z.to_nat (b - 1)) ltac:(lia)). lia.
      - pose proof (place_range (Z.to_nat b) ltac:(lia)). pose proof (place_step n m Hm Hn (Z.to_nat (b - 1)) (Z.to_nat b) ltac:(lia) ltac:(lia)). lia. }
    lia.
  - intros s S. apply in_zrange in S. destruct (sorted_value X ldx n n_features sorted Xsorted j s Hj S) as (i & I & Es).
    rewrite Es, <- E by auto. apply bin_of_sorted; auto.
Qed.

Lemma size_near b : 0 <= b < m -> Z.abs (m * bin_size bin n j b - n) < 2 * m.
Proof.
  intros B. rewrite (size_eq b B). destruct (inv_bounds m Hm) as [Ib Ie].
  assert (P : forall k, Z.of_nat k < m - 1 -> (Rabs (IZR m * IZR (place n m k) - IZR n * (INR k + 1)) < 7 / 10 * IZR m)%R).
  { intros k K. pose proof (place_multiple n m Hm Hn k ltac:(lia)) as Q. assert (M : (0 < IZR m)%R) by (apply IZR_lt; lia).
    replace (IZR m * IZR (place n m k) - IZR n * (INR k + 1))%R with (IZR m * (IZR (place n m k) - IZR n * ((INR k + 1) * / IZR m)))%R by (field; lra).
    rewrite Rabs_mult, (Rabs_pos_eq (IZR m)) by lra. rewrite (Rmult_comm (7 / 10)). apply Rmult_lt_compat_l; auto. }
  assert (M : (2 <= IZR m)%R) by (apply IZR_le; lia).
  assert (Lo : (Rabs (IZR m * IZR (low b) - IZR n * IZR b) < 7 / 10 * IZR m)%R).
  { unfold low. destruct (Z.eqb_spec b 0) as [->|Nz].
    - rewrite !Rmult_0_r, Rminus_0_r, Rabs_R0. lra.
    - specialize (P (Z.to_nat (b - 1)) ltac:(lia)). rewrite INR_IZR_INZ, Z2Nat.id in P by lia. rewrite minus_IZR in P.
      replace (IZR b - 1 + 1)%R with (IZR b) in P by lra. exact P. }
  assert (Hi : (Rabs (IZR m * IZR (high b) - IZR n * (IZR b + 1)) < 7 / 10 * IZR m)%R).
  { unfold high. destruct (Z.eqb_spec b (m - 1)) as [->|Nz].
    - rewrite minus_IZR. replace (IZR m * IZR n - IZR n * (IZR m - 1 + 1))%R with 0%R by lra. rewrite Rabs_R0. lra.
    - specialize (P (Z.to_nat b) ltac:(lia)). rewrite INR_IZR_INZ, Z2Nat.id in P by lia. exact P. }
  apply lt_IZR. rewrite abs_IZR, minus_IZR, !mult_IZR, minus_IZR.
  apply Rabs_def2 in Lo, Hi. apply Rabs_def1; lra.
Qed.
End Equal.

Lemma bins_of_ok usr n m : bins_of usr n = Some m -> 2 <= m <= 65535 /\ 2 * m <= n /\ m = Z.min usr (n / 2).
Proof.
  unfold bins_of. destruct (Z.ltb_spec (Z.min usr (n / 2)) 2); [discriminate|]. destruct (Z.ltb_spec 65535 usr); [discriminate|].
  intros E. injection E as <-. pose proof (Z.mul_div_le n 2 ltac:(lia)). lia.
Qed.

Lemma histograms_valid c usr : uses_histograms c usr -> valid_data c.
Proof.
  intros (H & L & F & N & B & Num & sorted & sched & tr & thr0 & S & Tm & I & St & Nb & Bl & Bi).
  destruct (bins_of_ok _ _ _ B) as (Hm & Hn & _). unfold valid_data. rewrite H. split; auto.
  destruct (thresholds_stored (t_samples c) (t_features c) (t_max_bin c) sorted Hm ltac:(lia) sched tr thr0 Tm I) as (thr & E & V).
  rewrite St in E. injection E as E. rewrite Bi, Bl, Nb. rewrite E.
  apply (all_binned (t_X c) (t_ldx c) (t_samples c) (t_features c) (t_max_bin c) sorted Hm ltac:(lia) Num S thr V).
Qed.

Lemma size_positive bin n j b i : 0 <= i < n -> bin (n * j + i) = b -> 0 < bin_size bin n j b.
Proof.
  intros I E. unfold bin_size. assert (In i (filter (fun i => bin (n * j + i) =? b) (zrange n))).
  { apply filter_In. split; [apply in_zrange; auto|apply Z.eqb_eq; auto]. }
  destruct (filter _ _); [destruct H|cbn [length]; lia].
Qed.
Lemma stores_behind {T} m nf : forall (l : list T) pos thr, pos <= nf * (m - 1) -> nf * (m - 1) < pos + Z.of_nat (length l) ->
  store_all m nf (stores pos l) thr = None.
Proof.
  induction l as [|t l IH]; intros pos thr P L; cbn [stores store_all length] in *; [lia|].
  unfold inside. destruct (Z.ltb_spec pos (nf * (m - 1))); [|now rewrite andb_false_r].
  destruct (0 <=? pos); auto. cbn [andb]. apply IH; lia.
Qed.
