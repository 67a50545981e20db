(** Proofs about the sorting of samples. *)
From Coq Require Import ZArith List Bool Lia Permutation.
From Verif Require Import Base Par UtilModel UtilProofs SortModel SortSpec.
Import ListNotations.
Local Open Scope Z_scope.

(** ** Ranges of arrays *)
Section Ranges.
Context {E : Type}.
Implicit Types a b c : Z -> E.

Lemma zrange_split k m : 0 <= k -> 0 <= m -> zrange (k + m) = zrange k ++ map (fun i => k + i) (zrange m).
Proof.
  intros. unfold zrange. rewrite Z2Nat.inj_add, seq_app, map_app, map_map by lia. f_equal.
  cbn [Nat.add]. replace (Z.to_nat k) with (0 + Z.to_nat k)%nat at 1 by lia.
  rewrite <- (map_map (fun x => (Z.to_nat k + x)%nat) Z.of_nat) with (l := seq 0 (Z.to_nat m)) || idtac.
  assert (Q : forall s n, map Z.of_nat (seq (s + Z.to_nat k) n) = map (fun x => k + Z.of_nat x) (seq s n)).
  { intros s n. revert s. induction n as [|n IH]; intros s; cbn [seq map]; [reflexivity|]. f_equal; [lia|]. apply (IH (S s)). }
  apply Q.
Qed.

Lemma slice_app a s k m : 0 <= k -> 0 <= m -> slice a s (k + m) = slice a s k ++ slice a (s + k) m.
Proof.
  intros. unfold slice. rewrite zrange_split, map_app, map_map by lia. f_equal. apply map_ext. intros. f_equal. lia.
Qed.

Lemma slice_ext a b s n : (forall i, s <= i < s + n -> a i = b i) -> slice a s n = slice b s n.
Proof. intros H. apply map_ext_in. intros i I. apply in_zrange in I. apply H. lia. Qed.

Lemma in_slice a s n x : In x (slice a s n) <-> exists i, s <= i < s + n /\ a i = x.
Proof.
  unfold slice. rewrite in_map_iff. split.
  - intros (i & <- & I). apply in_zrange in I. exists (s + i). split; [lia|auto].
  - intros (i & I & <-). exists (i - s). rewrite in_zrange. split; [f_equal; lia|lia].
Qed.

Lemma rearranged_refl s n a : rearranged s n a a.
Proof. split; auto. Qed.

Lemma rearranged_trans s n a b c : rearranged s n a b -> rearranged s n b c -> rearranged s n a c.
Proof. intros [P1 F1] [P2 F2]. split; [now rewrite P1|]. intros. rewrite F2, F1; auto. Qed.

Lemma rearranged_widen s n s' n' a b : rearranged s n a b -> s' <= s -> s + n <= s' + n' -> rearranged s' n' a b.
Proof.
  intros [P F] H1 H2. destruct (Z_le_gt_dec n 0) as [N|N].
  - split; [|intros; apply F; lia]. rewrite (slice_ext a b); auto. intros. symmetry. apply F. lia.
  - split; [|intros; apply F; lia].
    replace n' with ((s - s') + (n + (s' + n' - s - n))) by lia.
    rewrite !(slice_app _ s'), !(slice_app _ (s' + (s - s'))) by lia.
    replace (s' + (s - s')) with s by lia.
    rewrite (slice_ext a b s') by (intros; symmetry; apply F; lia).
    rewrite (slice_ext a b (s + n)) by (intros; symmetry; apply F; lia).
    now rewrite P.
Qed.

Lemma rearranged_from s n a b i : rearranged s n a b -> s <= i < s + n -> exists j, s <= j < s + n /\ b i = a j.
Proof.
  intros [P _] I. assert (In (b i) (slice a s n)) as Q.
  { rewrite P. apply in_slice. eauto. }
  apply in_slice in Q as (j & ? & ?). eauto.
Qed.

Lemma rearranged_to s n a b i : rearranged s n a b -> s <= i < s + n -> exists j, s <= j < s + n /\ b j = a i.
Proof.
  intros [P _] I. assert (In (a i) (slice b s n)) as Q.
  { rewrite <- P. apply in_slice. eauto. }
  apply in_slice in Q as (j & ? & ?). eauto.
Qed.

Definition exchange a i j : Z -> E := store_at (store_at a i (a j)) j (a i).
Lemma exchange_l a i j : exchange a i j i = a j.
Proof. unfold exchange, store_at. destruct (Z.eqb_spec i j) as [->|]; auto. now rewrite Z.eqb_refl. Qed.
Lemma exchange_r a i j : exchange a i j j = a i.
Proof. unfold exchange, store_at. now rewrite Z.eqb_refl. Qed.
Lemma exchange_o a i j k : k <> i -> k <> j -> exchange a i j k = a k.
Proof. intros. unfold exchange, store_at. destruct (Z.eqb_spec k j), (Z.eqb_spec k i); auto; lia. Qed.

Lemma exchange_rearranged s n a i j : s <= i < s + n -> s <= j < s + n -> rearranged s n a (exchange a i j).
Proof.
  intros I J. split; [|intros; apply exchange_o; lia].
  set (t := fun k => if k =? i then j else if k =? j then i else k).
  assert (T : forall k, exchange a i j k = a (t k)).
  { intros k. unfold t. destruct (Z.eqb_spec k i) as [->|]; [apply exchange_l|].
    destruct (Z.eqb_spec k j) as [->|]; [apply exchange_r|]. now apply exchange_o. }
  assert (S : forall c, slice c s n = map c (map (fun k => s + k) (zrange n))) by (intros; unfold slice; now rewrite map_map).
  rewrite !S. rewrite (map_ext _ _ T), <- (map_map t a). apply Permutation_map. symmetry.
  assert (ND : NoDup (map (fun k => s + k) (zrange n))).
  { apply FinFun.Injective_map_NoDup; [intros x y; lia|apply zrange_nodup]. }
  assert (IN : forall k, In k (map (fun k => s + k) (zrange n)) <-> s <= k < s + n).
  { intros k. rewrite in_map_iff. split; [intros (x & <- & X); apply in_zrange in X; lia|].
    intros. exists (k - s). rewrite in_zrange. lia. }
  apply NoDup_Permutation; auto.
  - apply FinFun.Injective_map_NoDup; auto. intros x y. unfold t.
    destruct (Z.eqb_spec x i), (Z.eqb_spec x j), (Z.eqb_spec y i), (Z.eqb_spec y j); lia.
  - intros k. rewrite IN, in_map_iff. split.
    + intros (x & <- & X). apply IN in X. unfold t. destruct (x =? i), (x =? j); lia.
    + intros K. exists (t k). rewrite IN. unfold t.
      destruct (Z.eqb_spec k i) as [->|]; [|destruct (Z.eqb_spec k j) as [->|]].
      * rewrite Z.eqb_refl. destruct (Z.eqb_spec j i); lia.
      * rewrite Z.eqb_refl. lia.
      * destruct (Z.eqb_spec k i), (Z.eqb_spec k j); lia.
Qed.
End Ranges.

Lemma range_all_rearranged {V} (P : V -> Prop) s n (a b : Z -> Z * V) :
  rearranged s n a b -> range_all P s n a -> range_all P s n b.
Proof. intros R H i I. destruct (rearranged_from s n a b i R I) as (j & J & ->). auto. Qed.

Lemma range_all_sub {V} (P : V -> Prop) s n s' n' (a : Z -> Z * V) :
  range_all P s n a -> s <= s' -> s' + n' <= s + n -> range_all P s' n' a.
Proof. intros H ? ? i I. apply H. lia. Qed.

(** ** Heap sort *)
Section Sort.
Variable V : Type.
Variable lt : V -> V -> bool.
Variable len : Z.
Notation arr := (Z -> Z * V).
Implicit Types a b : arr.

Lemma inside_true i : 0 <= i < len -> inside len i = true.
Proof. intros. unfold inside. destruct (Z.leb_spec 0 i), (Z.ltb_spec i len); auto; lia. Qed.
Lemma value_some a i : 0 <= i < len -> value V len a i = Some (snd (a i)).
Proof. intros. unfold value. now rewrite inside_true. Qed.
Lemma swap_some a i j : 0 <= i < len -> 0 <= j < len -> swap V len a i j = Some (exchange a i j).
Proof. intros. unfold swap. now rewrite !inside_true by lia. Qed.

(** child [c] of node [i], heap condition at node [i] of a heap of size [n] from position [s] *)
Definition child (i c : Z) : Prop := c = 2 * i + 1 \/ c = 2 * i + 2.
Definition val a (s i : Z) : V := snd (a (s + i)).
Definition heap_at a s n i : Prop := forall c, child i c -> c < n -> lt (val a s i) (val a s c) = false.
Definition heap_from a s n r : Prop := forall i, r <= i -> heap_at a s n i.
Definition heap_but a s n r i0 : Prop :=
  (forall i, r <= i -> i <> i0 -> heap_at a s n i) /\
  (forall p c, r <= p -> child p i0 -> child i0 c -> c < n -> lt (val a s p) (val a s c) = false).

Lemma larger_some a s n m c : 0 <= s -> s + n <= len -> 0 <= m < len -> s <= c ->
  larger V lt len a s n m c =
    Some (if (c - s <=? n - 1) && lt (snd (a m)) (snd (a c)) then c else m).
Proof.
  intros. unfold larger. destruct (Z.leb_spec (c - s) (n - 1)); cbn [andb]; auto.
  rewrite !value_some by lia. cbn [bind]. reflexivity.
Qed.

Lemma heapify_ok s n : 0 <= s -> s + n <= len -> forall fuel a root,
  0 <= root < n -> (Z.to_nat (n - root) < fuel)%nat ->
  exists b, heapify V lt len fuel a s n root = Some b /\ rearranged s n a b /\
    forall P r, orders lt P -> range_all P s n a -> 0 <= r <= root -> heap_but a s n r root -> heap_from b s n r.
Proof.
  intros S L. induction fuel as [|fuel IH]; intros a root R F; [lia|]. cbn [heapify].
  rewrite larger_some by lia. cbn [bind].
  set (l := root * 2 + 1 + s). set (m1 := if (l - s <=? n - 1) && lt (snd (a (root + s))) (snd (a l)) then l else root + s).
  assert (M1 : m1 = l /\ l - s < n /\ lt (snd (a (root + s))) (snd (a l)) = true \/
               m1 = root + s /\ (l - s < n -> lt (snd (a (root + s))) (snd (a l)) = false)).
  { unfold m1. destruct (Z.leb_spec (l - s) (n - 1)); cbn [andb]; [|right; split; auto; lia].
    destruct (lt (snd (a (root + s))) (snd (a l))) eqn:E; [left|right]; repeat split; auto; lia. }
  clearbody m1. rewrite larger_some by (unfold l in *; lia). cbn [bind]. set (m := if (l + 1 - s <=? n - 1) && lt (snd (a m1)) (snd (a (l + 1))) then l + 1 else m1).
  assert (M : m = l + 1 /\ l + 1 - s < n /\ lt (snd (a m1)) (snd (a (l + 1))) = true \/
              m = m1 /\ (l + 1 - s < n -> lt (snd (a m1)) (snd (a (l + 1))) = false)).
  { unfold m. destruct (Z.leb_spec (l + 1 - s) (n - 1)); cbn [andb]; [|right; split; auto; lia].
    destruct (lt (snd (a m1)) (snd (a (l + 1)))) eqn:E; [left|right]; repeat split; auto; lia. }
  clearbody m.
  destruct (Z.eqb_spec m (root + s)) as [E|E].
  - exists a. split; [reflexivity|]. split; [apply rearranged_refl|]. intros P r O RA Hr [H1 H2] i Hi.
    destruct (Z.eq_dec i root) as [->|]; [|auto]. intros c C Hc. unfold val, l in *.
    replace (s + root) with (root + s) by lia.
    destruct M1 as [(-> & ? & ?)|(-> & Q1)]; destruct M as [(-> & ? & ?)|(-> & Q2)]; try lia.
    destruct C as [-> | ->].
    + replace (s + (2 * root + 1)) with (root * 2 + 1 + s) by lia. apply Q1. lia.
    + replace (s + (2 * root + 2)) with (root * 2 + 1 + s + 1) by lia. apply Q2. lia.
  - assert (C : child root (m - s)) by (unfold child, l in *; lia).
    assert (Hm : m - s < n) by (unfold l in *; lia).
    assert (Hrm : root < m - s) by (unfold child in C; lia).
    rewrite swap_some by lia. cbn [bind].
    destruct (IH (exchange a (root + s) m) (m - s)) as (b & Eb & Rb & Hb); [lia|lia|].
    assert (RX : rearranged s n a (exchange a (root + s) m)) by (apply exchange_rearranged; lia).
    exists b. split; [exact Eb|]. split; [eapply rearranged_trans; eauto|].
    intros P r O RA Hr [H1 H2]. apply (Hb P); auto; [eapply range_all_rearranged; eauto|lia|].
    assert (Pv : forall i, 0 <= i < n -> P (val a s i)) by (intros; apply RA; lia).
    assert (Pl : forall i, s <= i < s + n -> P (snd (a i))) by (intros; apply RA; lia).
    (* the chosen child is larger than the root and not less than the other child *)
    assert (G : lt (val a s root) (val a s (m - s)) = true /\
                forall c, child root c -> c < n -> lt (val a s (m - s)) (val a s c) = false).
    { unfold val. replace (s + root) with (root + s) by lia. replace (s + (m - s)) with m by lia.
      pose proof (ord_asym _ _ O) as A. pose proof (ord_trans _ _ O) as T.
      assert (P0 : P (snd (a (root + s)))) by (apply RA; lia).
      assert (IR : forall x, P x -> lt x x = false).
      { intros x Px. destruct (lt x x) eqn:Q; auto. rewrite <- Q. auto. }
      destruct M1 as [(-> & L1 & Q1)|(-> & Q1)]; destruct M as [(-> & L2 & Q2)|(-> & Q2)]; try lia.
      - assert (Pa : P (snd (a l))) by (apply RA; unfold l in *; lia).
        assert (Pb : P (snd (a (l + 1)))) by (apply RA; unfold l in *; lia).
        split.
        + destruct (lt (snd (a (root + s))) (snd (a (l + 1)))) eqn:Q; auto.
          rewrite (T _ _ (snd (a l)) P0 Pb Pa Q) in Q1; [discriminate|]. apply A; auto.
        + intros c [-> | ->] Hc.
          * replace (s + (2 * root + 1)) with l by (unfold l; lia). apply A; auto.
          * replace (s + (2 * root + 2)) with (l + 1) by (unfold l; lia). apply IR; auto.
      - assert (Pa : P (snd (a l))) by (apply RA; unfold l in *; lia).
        split; auto. intros c [-> | ->] Hc.
        + replace (s + (2 * root + 1)) with l by (unfold l; lia). apply IR; auto.
        + replace (s + (2 * root + 2)) with (l + 1) by (unfold l; lia). apply Q2. unfold l; lia.
      - assert (Pa : P (snd (a l))) by (apply RA; unfold l in *; lia).
        assert (Pb : P (snd (a (l + 1)))) by (apply RA; unfold l in *; lia).
        split; auto. intros c [-> | ->] Hc.
        + replace (s + (2 * root + 1)) with l by (unfold l; lia).
          apply (T _ (snd (a (root + s)))); auto. apply Q1. unfold l in *; lia.
        + replace (s + (2 * root + 2)) with (l + 1) by (unfold l; lia). apply IR; auto. }
    destruct G as [G1 G2].
    assert (VR : val (exchange a (root + s) m) s root = val a s (m - s)).
    { unfold val. replace (s + root) with (root + s) by lia. rewrite exchange_l. do 2 f_equal. lia. }
    assert (VM : val (exchange a (root + s) m) s (m - s) = val a s root).
    { unfold val. replace (s + (m - s)) with m by lia. rewrite exchange_r. do 2 f_equal. lia. }
    assert (VO : forall i, i <> root -> i <> m - s -> val (exchange a (root + s) m) s i = val a s i).
    { intros. unfold val. rewrite exchange_o; auto; lia. }
    split.
    + intros i Hi Hne c Cc Hc. destruct (Z.eq_dec i root) as [->|Ni].
      * rewrite VR. destruct (Z.eq_dec c (m - s)) as [->|Nc].
        -- rewrite VM. apply (ord_asym _ _ O); auto; apply Pv; lia.
        -- rewrite VO; [apply G2; auto|unfold child in *; lia|auto].
      * rewrite (VO i) by auto. destruct (Z.eq_dec c root) as [->|Nc].
        -- rewrite VR. apply (H2 i (m - s)); auto.
        -- assert (c <> m - s) by (unfold child in *; lia). rewrite VO by auto. now apply H1.
    + intros p c Hp Cp Cc Hc. assert (p = root) by (unfold child in *; lia). subst p. rewrite VR.
      rewrite VO by (unfold child in *; lia). apply H1; auto; lia.
Qed.

Lemma build_heap_ok s n : 0 <= s -> s + n <= len -> forall k a, Z.of_nat k <= Z.quot n 2 -> 0 <= n ->
  exists b, build_heap V lt len k a s n = Some b /\ rearranged s n a b /\
    forall P, orders lt P -> range_all P s n a -> heap_from a s n (Z.of_nat k) -> heap_from b s n 0.
Proof.
  intros S L. induction k as [|k IH]; intros a K N; cbn [build_heap].
  - exists a. split; [reflexivity|]. split; [apply rearranged_refl|]. auto.
  - rewrite Z.quot_div_nonneg in * by lia. pose proof (Z.mul_div_le n 2).
    unfold multi_range_heapify.
    destruct (heapify_ok s n S L (Z.to_nat (n + 1)) a (Z.of_nat k)) as (b & Eb & Rb & Hb); [lia|lia|].
    rewrite Eb. cbn [bind]. destruct (IH b) as (c & Ec & Rc & Hc); [lia|lia|].
    exists c. split; [exact Ec|]. split; [eapply rearranged_trans; eauto|].
    intros P O RA HF. apply (Hc P); auto; [eapply range_all_rearranged; eauto|].
    apply (Hb P (Z.of_nat k)); auto; [lia|]. split.
    + intros i Hi Ni. apply HF. lia.
    + intros p c' Hp Cp. unfold child in Cp. lia.
Qed.

(** the root of a heap is a maximum *)
Lemma heap_max P a s n : orders lt P -> range_all P s n a -> heap_from a s n 0 ->
  forall i, 0 <= i < n -> lt (val a s 0) (val a s i) = false.
Proof.
  intros O RA H i Hi. assert (Hi0 : 0 <= i) by lia. revert i Hi0 Hi.
  apply (Z_lt_induction (fun i => 0 <= i < n -> lt (val a s 0) (val a s i) = false)). intros i IH Hi.
  assert (Pv : forall k, 0 <= k < n -> P (val a s k)) by (intros; apply RA; lia).
  destruct (Z.eq_dec i 0) as [->|].
  - destruct (lt _ _) eqn:Q; auto. rewrite <- Q. apply (ord_asym _ _ O); auto; apply Pv; lia.
  - set (p := (i - 1) / 2). assert (C : child p i).
    { unfold child, p. pose proof (Z.div_mod (i - 1) 2). pose proof (Z.mod_pos_bound (i - 1) 2). lia. }
    assert (0 <= p < i) by (unfold child in C; lia).
    apply (ord_trans _ _ O _ (val a s p)); try apply Pv; try lia.
    + apply IH; lia.
    + apply H; auto; lia.
Qed.

Lemma take_maxima_ok s : 0 <= s -> forall k a, s + Z.of_nat k < len ->
  exists b, take_maxima V lt len k a s = Some b /\ rearranged s (Z.of_nat k + 1) a b /\
    forall P, orders lt P -> range_all P s (Z.of_nat k + 1) a -> heap_from a s (Z.of_nat k + 1) 0 ->
      ordered lt s (Z.of_nat k + 1) b.
Proof.
  intros S. induction k as [|k IH]; intros a L.
  - exists a. split; [reflexivity|]. split; [apply rearranged_refl|]. intros P O RA _ i j Hi Hj.
    assert (j = i) by lia. subst j. destruct (lt _ _) eqn:Q; auto. rewrite <- Q.
    apply (ord_asym _ _ O); auto; apply RA; lia.
  - cbn [take_maxima]. rewrite swap_some by lia. cbn [bind]. unfold multi_range_heapify.
    set (m := Z.of_nat (Datatypes.S k)) in *. set (a1 := exchange a s (s + m)).
    destruct (heapify_ok s m S ltac:(lia) (Z.to_nat (m + 1)) a1 0) as (a2 & E2 & R2 & H2); [lia|lia|].
    rewrite E2. cbn [bind]. replace (Z.of_nat k + 1) with m in IH by lia.
    destruct (IH a2) as (b & Eb & Rb & Hb); [lia|].
    assert (R1 : rearranged s (m + 1) a a1) by (apply exchange_rearranged; lia).
    assert (R12 : rearranged s m a1 b) by (eapply rearranged_trans; eauto).
    exists b. split; [exact Eb|]. split.
    { eapply rearranged_trans; [exact R1|]. eapply rearranged_widen; [exact R12|lia|lia]. }
    intros P O RA HF.
    assert (RA1 : range_all P s (m + 1) a1) by (eapply range_all_rearranged; eauto).
    assert (RA2 : range_all P s m a2).
    { eapply range_all_rearranged; [exact R2|]. eapply range_all_sub; [exact RA1|lia|lia]. }
    assert (OB : ordered lt s m b).
    { apply (Hb P); auto. apply (H2 P); auto; [eapply range_all_sub; [exact RA1|lia|lia]|lia|].
      split; [|intros p c Hp Cp; unfold child in Cp; lia].
      intros i Hi Ni c C Hc. unfold val, a1.
      rewrite !exchange_o by (unfold child in C; lia). apply HF; auto; lia. }
    intros i j Hi Hj. destruct (Z.eq_dec j (s + m)) as [->|]; [|apply OB; lia].
    assert (B : b (s + m) = a s).
    { destruct R12 as [_ F]. rewrite F by lia. unfold a1. apply exchange_r. }
    rewrite B. destruct (Z.eq_dec i (s + m)) as [->|].
    { rewrite B. destruct (lt _ _) eqn:Q; auto. rewrite <- Q. apply (ord_asym _ _ O); auto; apply RA; lia. }
    assert (exists t, 0 <= t < m + 1 /\ b i = a (s + t)) as (t & Ht & Et).
    { destruct (rearranged_from s m a1 b i R12) as (j & J & ->); [lia|].
      destruct (rearranged_from s (m + 1) a a1 j R1) as (j' & J' & ->); [lia|].
      exists (j' - s). split; [lia|]. f_equal. lia. }
    rewrite Et. pose proof (heap_max P a s (m + 1) O RA HF t Ht) as Q. unfold val in Q.
    now replace (s + 0) with s in Q by lia.
Qed.

Lemma heap_sort_ok a s n : 0 <= s -> s + n <= len -> 1 <= n ->
  exists b, multi_range_heap_sort V lt len a s n = Some b /\ rearranged s n a b /\
    forall P, orders lt P -> range_all P s n a -> ordered lt s n b.
Proof.
  intros S L N. unfold multi_range_heap_sort.
  assert (Z.of_nat (Z.to_nat (Z.quot n 2)) <= Z.quot n 2) as K.
  { rewrite Z.quot_div_nonneg by lia. pose proof (Z.div_pos n 2). lia. }
  destruct (build_heap_ok s n S L _ a K ltac:(lia)) as (b & Eb & Rb & Hb). rewrite Eb. cbn [bind].
  destruct (take_maxima_ok s S (Z.to_nat (n - 1)) b) as (c & Ec & Rc & Hc); [lia|].
  replace (Z.of_nat (Z.to_nat (n - 1)) + 1) with n in * by lia.
  exists c. split; [exact Ec|]. split; [eapply rearranged_trans; eauto|].
  intros P O RA. apply (Hc P); auto; [eapply range_all_rearranged; eauto|].
  apply (Hb P); auto. intros i Hi c' C Hc'.
  rewrite Z.quot_div_nonneg in * by lia. pose proof (Z.div_mod n 2). pose proof (Z.mod_pos_bound n 2).
  unfold child in C. lia.
Qed.

(** ** Quick sort *)
Lemma pivot_ok a s n : 0 <= s -> s + n <= len -> 2 <= n ->
  exists i, s <= i < s + n /\ pivot_median3 V lt len a s n = Some (snd (a i)).
Proof.
  intros S L N. unfold pivot_median3. rewrite Z.quot_div_nonneg by lia.
  assert (0 <= n / 2 < n) by (split; [apply Z.div_pos; lia|apply Z.div_lt; lia]).
  rewrite !value_some by lia. cbn [bind]. unfold median3.
  repeat match goal with |- context [if ?b then _ else _] => destruct b end;
    eexists; (split; [|reflexivity]); lia.
Qed.

Definition zone (Q : V -> Prop) lo hi a : Prop := forall i, lo <= i < hi -> Q (snd (a i)).

Lemma partition_ok s n pv : 0 <= s -> s + n <= len -> forall fuel a l r p,
  s <= p <= l -> l <= r <= s + n -> (Z.to_nat (r - l) < fuel)%nat ->
  zone (fun v => lt v pv = true) s p a -> zone (fun v => lt v pv = false /\ lt pv v = false) p l a ->
  zone (fun v => lt pv v = true) r (s + n) a ->
  exists b p' r', partition V lt len fuel a pv l r p = Some (b, p', r') /\ rearranged s n a b /\
    s <= p' <= r' /\ r' <= s + n /\
    zone (fun v => lt v pv = true) s p' b /\ zone (fun v => lt v pv = false /\ lt pv v = false) p' r' b /\
    zone (fun v => lt pv v = true) r' (s + n) b.
Proof.
  intros S L. induction fuel as [|fuel IH]; intros a l r p Hp Hl F Z1 Z2 Z3; [lia|]. cbn [partition].
  destruct (Z.ltb_spec l r).
  - rewrite value_some by lia. cbn [bind]. destruct (lt (snd (a l)) pv) eqn:E1; [|destruct (lt pv (snd (a l))) eqn:E2].
    + rewrite swap_some by lia. cbn [bind].
      destruct (IH (exchange a l p) (l + 1) r (p + 1)) as (b & p' & r' & Eb & Rb & Q); try lia.
      * intros i Hi. destruct (Z.eq_dec i p) as [->|]; [now rewrite exchange_r|]. rewrite exchange_o by lia. apply Z1. lia.
      * intros i Hi. destruct (Z.eq_dec i l) as [->|]; [rewrite exchange_l; apply Z2; lia|]. rewrite exchange_o by lia. apply Z2. lia.
      * intros i Hi. rewrite exchange_o by lia. apply Z3. lia.
      * exists b, p', r'. split; [exact Eb|]. split; [|exact Q].
        eapply rearranged_trans; [|exact Rb]. apply exchange_rearranged; lia.
    + rewrite swap_some by lia. cbn [bind].
      destruct (IH (exchange a (r - 1) l) l (r - 1) p) as (b & p' & r' & Eb & Rb & Q); try lia.
      * intros i Hi. rewrite exchange_o by lia. apply Z1. lia.
      * intros i Hi. rewrite exchange_o by lia. apply Z2. lia.
      * intros i Hi. destruct (Z.eq_dec i (r - 1)) as [->|]; [now rewrite exchange_l|]. rewrite exchange_o by lia. apply Z3. lia.
      * exists b, p', r'. split; [exact Eb|]. split; [|exact Q].
        eapply rearranged_trans; [|exact Rb]. apply exchange_rearranged; lia.
    + destruct (IH a (l + 1) r p) as (b & p' & r' & Eb & Rb & Q); try lia; auto.
      * intros i Hi. destruct (Z.eq_dec i l) as [->|]; [auto|]. apply Z2. lia.
      * exists b, p', r'. auto.
  - assert (l = r) by lia. subst l. exists a, p, r. split; [reflexivity|]. split; [apply rearranged_refl|].
    repeat split; auto; try lia; apply Z2; auto.
Qed.

Lemma zone_rearranged Q s n lo hi a b : rearranged s n a b -> (hi <= s \/ s + n <= lo \/ (lo <= s /\ s + n <= hi)) ->
  zone Q lo hi a -> zone Q lo hi b.
Proof.
  intros R H Z i Hi. destruct (Z_lt_dec i s) as [|]; [destruct R as [_ F]; rewrite F by lia; auto|].
  destruct (Z_lt_dec i (s + n)) as [|]; [|destruct R as [_ F]; rewrite F by lia; auto].
  destruct (rearranged_from s n a b i R ltac:(lia)) as (j & J & ->). apply Z. lia.
Qed.

Hypothesis irreflexive : forall x, lt x x = false.

Lemma intro_sort_ok : forall fuel entry a s n d, 0 <= s -> s + n <= len -> 0 <= n -> (Z.to_nat n <= fuel)%nat ->
  exists b, intro_sort V lt len fuel entry a s n d = Some b /\ rearranged s n a b /\
    forall P, orders lt P -> range_all P s n a -> ordered lt s n b.
Proof.
  induction fuel as [|fuel IH]; intros entry a s n d S L N F.
  - cbn [intro_sort]. destruct (Z.leb_spec n 1); [|lia]. exists a. split; auto. split; [apply rearranged_refl|].
    intros P O RA i j. lia.
  - cbn [intro_sort]. destruct (Z.leb_spec n 1).
    { exists a. split; auto. split; [apply rearranged_refl|]. intros P O RA i j Hi Hj.
      assert (j = i) by lia. subst j. auto. }
    destruct (entry && (d <=? 0)). { apply heap_sort_ok; lia. }
    destruct (pivot_ok a s n S L ltac:(lia)) as (ip & Hip & ->). cbn [bind]. set (pv := snd (a ip)).
    destruct (partition_ok s n pv S L (Z.to_nat (n + 1)) a s (s + n) s) as (a1 & p & r & E1 & R1 & B1 & B2 & Z1 & Z2 & Z3);
      try lia; try (intros i Hi; lia).
    rewrite E1. cbn [bind].
    (* the pivot is in the middle *)
    assert (p < r) as PR.
    { destruct (rearranged_to s n a a1 ip R1 Hip) as (j & J & Ej).
      destruct (Z_lt_dec j p) as [|]; [specialize (Z1 j ltac:(lia)); rewrite Ej in Z1; unfold pv in *; cbn in Z1; rewrite irreflexive in Z1; discriminate|].
      destruct (Z_lt_dec j r) as [|]; [lia|].
      specialize (Z3 j ltac:(lia)); rewrite Ej in Z3; unfold pv in *; cbn in Z3; rewrite irreflexive in Z3; discriminate. }
    destruct (IH true a1 s (p - s) (d - 1)) as (a2 & E2 & R2 & O2); try lia. rewrite E2. cbn [bind].
    destruct (IH false a2 r (n - (r - s)) (d - 1)) as (b & Eb & Rb & Ob); try lia.
    exists b. split; [exact Eb|].
    assert (R2' : rearranged s n a1 a2) by (eapply rearranged_widen; [exact R2|lia|lia]).
    assert (Rb' : rearranged s n a2 b) by (eapply rearranged_widen; [exact Rb|lia|lia]).
    split. { eapply rearranged_trans; [exact R1|]. eapply rearranged_trans; [exact R2'|exact Rb']. }
    intros P O RA.
    assert (RA1 : range_all P s n a1) by (eapply range_all_rearranged; eauto).
    assert (RA2 : range_all P s n a2) by (eapply range_all_rearranged; eauto).
    assert (RAb : range_all P s n b) by (eapply range_all_rearranged; eauto).
    assert (Ppv : P pv) by (apply RA; lia).
    assert (T2 : ordered lt s (p - s) a2) by (apply (O2 P); auto; eapply range_all_sub; [exact RA1|lia|lia]).
    assert (Tb : ordered lt r (n - (r - s)) b) by (apply (Ob P); auto; eapply range_all_sub; [exact RA2|lia|lia]).
    assert (W1 : zone (fun v => lt v pv = true) s p b).
    { eapply zone_rearranged; [exact Rb|lia|]. eapply zone_rearranged; [exact R2|lia|exact Z1]. }
    assert (W2 : zone (fun v => lt v pv = false /\ lt pv v = false) p r b).
    { eapply zone_rearranged; [exact Rb|lia|]. eapply zone_rearranged; [exact R2|lia|exact Z2]. }
    assert (W3 : zone (fun v => lt pv v = true) r (s + n) b).
    { eapply zone_rearranged; [exact Rb|lia|]. eapply zone_rearranged; [exact R2|lia|exact Z3]. }
    assert (BL : forall i, s <= i < r -> lt pv (snd (b i)) = false).
    { intros i Hi. destruct (Z_lt_dec i p); [|apply W2; lia]. apply (ord_asym _ _ O); auto; [apply RAb; lia|apply W1; lia]. }
    assert (BR : forall i, p <= i < s + n -> lt (snd (b i)) pv = false).
    { intros i Hi. destruct (Z_lt_dec i r); [apply W2; lia|]. apply (ord_asym _ _ O); auto; [apply RAb; lia|apply W3; lia]. }
    intros i j Hi Hj. destruct (Z_lt_dec j p) as [|].
    + destruct Rb as [_ Fb]. rewrite !Fb by lia. apply T2; lia.
    + destruct (Z_lt_dec i r) as [|]; [|apply Tb; lia].
      apply (ord_trans _ _ O _ pv); auto; [apply RAb; lia|apply RAb; lia|apply BR; lia|apply BL; lia].
Qed.
End Sort.
