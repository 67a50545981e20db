(** Proofs about the bucket sort and the counting of sample indices. *)
From Coq Require Import ZArith List Bool Lia Permutation.
From Verif Require Import Base Par UtilModel UtilProofs SortModel SortSpec SortProofs.
Import ListNotations.
Local Open Scope Z_scope.

Lemma slice_len {E} (a : Z -> E) s n : 0 <= n -> Z.of_nat (length (slice a s n)) = n.
Proof. intros. unfold slice. rewrite map_length, zrange_len. lia. Qed.
Lemma slice_one {E} (a : Z -> E) s : slice a s 1 = [a s].
Proof. unfold slice. change (zrange 1) with [0]. cbn [map]. now rewrite Z.add_0_r. Qed.
Lemma slice_0 {E} (a : Z -> E) s : slice a s 0 = [].
Proof. reflexivity. Qed.

(** ** Bucket sort *)
Section Bucket.
Variable V : Type.
Variable len : Z.
Variable round : V -> Z.
Variable of_int : Z -> V.
Variables n_cat ldbuck nb : Z.
Hypothesis cats : 0 <= n_cat.
Hypothesis size : n_cat * ldbuck <= nb.
Variable a : Z -> Z * V.

(** the indices of category [c] *)
Definition bucket (c : Z) (l : list (Z * V)) : list Z := map fst (filter (fun e => round (snd e) =? c) l).
Lemma bucket_app c l m : bucket c (l ++ m) = bucket c l ++ bucket c m.
Proof. unfold bucket. now rewrite filter_app, map_app. Qed.
Lemma bucket_short c l : (length (bucket c l) <= length l)%nat.
Proof. unfold bucket. rewrite map_length. induction l as [|x l IH]; cbn; [lia|]. destruct (_ =? _); cbn; lia. Qed.

Definition filled (l : list (Z * V)) (buckets idx : Z -> Z) : Prop :=
  forall c, 0 <= c < n_cat -> idx c = Z.of_nat (length (bucket c l)) /\ slice buckets (ldbuck * c) (idx c) = bucket c l.

Lemma fill_ok : forall is l buckets idx, (forall i, In i is -> 0 <= i < len /\ 0 <= round (snd (a i)) < n_cat) ->
  Z.of_nat (length l + length is) <= ldbuck -> filled l buckets idx ->
  exists buckets' idx', fill_buckets V len round n_cat ldbuck nb is a buckets idx = Some (buckets', idx') /\
    filled (l ++ map a is) buckets' idx'.
Proof.
  induction is as [|i is IH]; intros l buckets idx HI HL HF.
  - exists buckets, idx. split; [reflexivity|]. cbn. now rewrite app_nil_r.
  - cbn [fill_buckets]. destruct (HI i) as [I1 I2]; [now left|]. rewrite value_some by lia. cbn [bind].
    set (x := round (snd (a i))) in *. destruct (Z.leb_spec 0 x); [|lia]. destruct (Z.ltb_spec x n_cat); [|lia]. cbn [andb].
    destruct (HF x ltac:(lia)) as [Ex Sx]. pose proof (bucket_short x l) as BS. cbn [length] in HL.
    assert (0 <= ldbuck * x) by nia. assert (ldbuck * x + ldbuck <= nb) by nia.
    assert (0 <= ldbuck * x + idx x < ldbuck * x + ldbuck) by lia.
    destruct (Z.leb_spec 0 (ldbuck * x + idx x)); [|lia]. destruct (Z.ltb_spec (ldbuck * x + idx x) nb); [|lia]. cbn [andb].
    set (B := store_at buckets (ldbuck * x + idx x) (fst (a i))). set (X := store_at idx x (idx x + 1)).
    destruct (IH (l ++ [a i]) B X) as (b' & x' & E & F).
    + intros j J. apply HI. now right.
    + rewrite app_length. cbn [length]. lia.
    + intros c Hc. destruct (HF c Hc) as [Ec Sc]. rewrite bucket_app.
      assert (BA : bucket c [a i] = if x =? c then [fst (a i)] else []).
      { unfold bucket. cbn [filter]. fold x. destruct (x =? c); reflexivity. }
      rewrite BA. unfold X, store_at. destruct (Z.eqb_spec c x) as [->|Nc].
      * rewrite Z.eqb_refl. rewrite app_length. cbn [length]. split; [rewrite Ex; lia|].
        rewrite slice_app, slice_one by lia. f_equal.
        -- rewrite <- Sx. apply slice_ext. intros k Hk. unfold B, store_at. destruct (Z.eqb_spec k (ldbuck * x + idx x)); auto; lia.
        -- unfold B, store_at. now rewrite Z.eqb_refl.
      * destruct (Z.eqb_spec x c); [lia|]. rewrite app_nil_r. split; [exact Ec|]. rewrite <- Sc. apply slice_ext.
        intros k Hk. unfold B, store_at. destruct (Z.eqb_spec k (ldbuck * x + idx x)); auto.
        pose proof (bucket_short c l). exfalso. assert (c < x \/ x < c) as [|] by lia; nia.
    + exists b', x'. split; [exact E|]. cbn [map]. now rewrite <- app_assoc in F.
Qed.

Definition out (l : list (Z * V)) (cs : list Z) : list (Z * V) :=
  flat_map (fun c => map (fun x => (x, of_int c)) (bucket c l)) cs.

Lemma read_ok l buckets idx : Z.of_nat (length l) <= ldbuck -> filled l buckets idx ->
  forall cs (b : Z -> Z * V) s, (forall c, In c cs -> 0 <= c < n_cat) -> 0 <= s ->
  s + Z.of_nat (length (out l cs)) <= len ->
  exists b', read_buckets V len of_int ldbuck nb cs b buckets idx s = Some b' /\
    slice b' s (Z.of_nat (length (out l cs))) = out l cs /\
    forall i, ~ s <= i < s + Z.of_nat (length (out l cs)) -> b' i = b i.
Proof.
  intros HL HF. induction cs as [|c cs IH]; intros b s HC S L.
  - exists b. cbn. auto.
  - assert (C : 0 <= c < n_cat) by (apply HC; now left). destruct (HF c C) as [Ec Sc].
    pose proof (bucket_short c l) as BS. cbn [read_buckets]. cbn [out flat_map] in *. fold (out l cs) in *.
    rewrite app_length, map_length in *. rewrite Nat2Z.inj_add in *. rewrite <- Ec in *.
    assert (0 <= c * ldbuck) by nia. assert (c * ldbuck + ldbuck <= nb) by nia.
    destruct (Z.leb_spec 0 s); [|lia]. destruct (Z.leb_spec (s + idx c) len); [|lia].
    destruct (Z.leb_spec 0 (c * ldbuck)); [|lia]. destruct (Z.leb_spec (c * ldbuck + idx c) nb); [|lia]. cbn [andb].
    match goal with |- exists b', read_buckets _ _ _ _ _ _ ?x _ _ _ = _ /\ _ => set (b1 := x) end.
    destruct (IH b1 (s + idx c)) as (b' & E & S' & F); [intros; apply HC; now right|lia|lia|].
    exists b'. split; [exact E|]. split.
    + rewrite slice_app, S' by lia. f_equal.
      rewrite <- Sc. unfold slice. rewrite map_map. apply map_ext_in. intros k K. apply in_zrange in K.
      rewrite F by lia. unfold b1. destruct (Z.leb_spec s (s + k)); [|lia]. destruct (Z.ltb_spec (s + k) (s + idx c)); [|lia].
      cbn [andb]. do 2 f_equal. lia.
    + intros i Hi. rewrite F by lia. unfold b1. destruct (Z.leb_spec s i); cbn [andb]; auto.
      destruct (Z.ltb_spec i (s + idx c)); auto. lia.
Qed.

Lemma length_one_more {A} (g h : Z -> list A) c0 : forall R, NoDup R -> In c0 R ->
  (forall c, In c R -> length (g c) = (length (h c) + (if (c =? c0)%Z then 1 else 0))%nat) ->
  length (flat_map g R) = S (length (flat_map h R)).
Proof.
  assert (Q : forall R, (forall c, In c R -> length (g c) = length (h c)) -> length (flat_map g R) = length (flat_map h R)).
  { induction R as [|c R IH]; intros H; auto. cbn. rewrite !app_length, H, IH; auto; [intros; apply H; now right|now left]. }
  induction R as [|c R IH]; intros ND I H; [destruct I|]. cbn. rewrite !app_length. inversion ND; subst.
  destruct I as [->|I].
  - rewrite (Q R), H; [rewrite Z.eqb_refl; lia|now left|]. intros c Hc. rewrite H by now right.
    destruct (Z.eqb_spec c c0) as [->|]; [contradiction|lia].
  - rewrite IH; auto; [|intros; apply H; now right]. rewrite H by now left.
    destruct (Z.eqb_spec c c0) as [->|]; [contradiction|lia].
Qed.

Lemma out_length l : (forall e, In e l -> 0 <= round (snd e) < n_cat) -> length (out l (zrange n_cat)) = length l.
Proof.
  induction l as [|e l IH]; intros H.
  - unfold out. induction (zrange n_cat) as [|c R IHR]; auto.
  - cbn [length]. rewrite <- IH by (intros; apply H; now right).
    apply (length_one_more _ _ (round (snd e))); [apply zrange_nodup|apply in_zrange; apply H; now left|].
    intros c _. rewrite !map_length. unfold bucket. rewrite !map_length. cbn [filter].
    rewrite (Z.eqb_sym c). destruct (round (snd e) =? c); cbn [length]; lia.
Qed.

Lemma out_by_category l : out l (zrange n_cat) = by_category round of_int n_cat l.
Proof. unfold out, by_category, bucket. apply flat_map_ext. intros c. now rewrite map_map. Qed.

Lemma bucket_sort_ok s n buckets : 0 <= s -> 0 <= n -> s + n <= len -> n <= ldbuck ->
  (forall i, s <= i < s + n -> 0 <= round (snd (a i)) < n_cat) ->
  exists b, bucket_sort_samples V len round of_int n_cat ldbuck nb a s n buckets = Some b /\
    slice b s n = by_category round of_int n_cat (slice a s n) /\
    forall i, ~ s <= i < s + n -> b i = a i.
Proof.
  intros S N L B R. unfold bucket_sort_samples.
  destruct (fill_ok (map (fun i => s + i) (zrange n)) [] buckets (fun _ => 0)) as (b1 & x1 & E1 & F1).
  - intros i I. apply in_map_iff in I as (k & <- & K). apply in_zrange in K. split; [lia|apply R; lia].
  - cbn [length Nat.add]. rewrite map_length, zrange_len. lia.
  - intros c Hc. split; reflexivity.
  - rewrite E1. cbn [bind]. cbn [app] in F1. rewrite map_map in F1. change (map _ (zrange n)) with (slice a s n) in F1.
    assert (HO : Z.of_nat (length (out (slice a s n) (zrange n_cat))) = n).
    { rewrite out_length, slice_len; auto. intros e I. apply in_slice in I as (i & Hi & <-). auto. }
    destruct (read_ok (slice a s n) b1 x1) with (cs := zrange n_cat) (b := a) (s := s) as (b & E & S' & F); auto.
    + rewrite slice_len; lia.
    + intros c I. now apply in_zrange in I.
    + lia.
    + rewrite HO in S', F. exists b. split; [exact E|]. rewrite S', out_by_category. auto.
Qed.
End Bucket.

(** ** Counting *)
Lemma end_of_run_ok f n v : forall fuel h, f h = v -> 0 <= h < n -> (Z.to_nat (n - h) <= fuel)%nat ->
  exists h', end_of_run fuel f n h v = Some h' /\ h < h' <= n /\ (forall i, h <= i < h' -> f i = v) /\
    (h' < n -> f h' <> v).
Proof.
  induction fuel as [|fuel IH]; intros h E H F; [lia|]. cbn [end_of_run].
  destruct (Z.ltb_spec (h + 1) n); cbn [andb].
  - destruct (Z.eqb_spec (f (h + 1)) v) as [Ev|Nv].
    + destruct (IH (h + 1)) as (h' & E' & B & A & D); auto; try lia.
      exists h'. split; [exact E'|]. split; [lia|]. split; [|exact D]. intros i Hi.
      destruct (Z.eq_dec i h) as [->|]; auto. apply A. lia.
    + exists (h + 1). split; [reflexivity|]. split; [lia|]. split; [|auto]. intros i Hi. assert (i = h) by lia. now subst.
  - exists (h + 1). split; [reflexivity|]. split; [lia|]. split; [|lia]. intros i Hi. assert (i = h) by lia. now subst.
Qed.

Lemma count_all v w l : (forall x, In x l -> x = v) -> count_occ Z.eq_dec l w = if Z.eq_dec v w then length l else 0%nat.
Proof.
  induction l as [|x l IH]; intros H; cbn; [destruct (Z.eq_dec v w); auto|].
  rewrite (H x) by now left. rewrite IH by (intros; apply H; now right). destruct (Z.eq_dec v w); auto.
Qed.

Lemma compress_ok srt n m : nondecreasing srt n -> (forall i, 0 <= i < n -> 0 <= srt i < m) ->
  forall fuel f cnt h u, 0 <= u <= h -> h <= n -> (Z.to_nat (n - h) < fuel)%nat ->
  (forall i, h <= i < n -> f i = srt i) -> (0 < h < n -> srt (h - 1) < srt h) ->
  increasing f u -> (forall v, (exists i, 0 <= i < h /\ srt i = v) <-> (exists i, 0 <= i < u /\ f i = v)) ->
  (forall v, cnt v = Z.of_nat (count_occ Z.eq_dec (slice srt 0 h) v)) ->
  exists f' cnt' u', compress fuel n m f cnt h u = Some (f', cnt', u') /\ increasing f' u' /\ 0 <= u' <= n /\
    (forall v, (exists i, 0 <= i < n /\ srt i = v) <-> (exists i, 0 <= i < u' /\ f' i = v)) /\
    (forall v, cnt' v = Z.of_nat (count_occ Z.eq_dec (slice srt 0 n) v)).
Proof.
  intros ND BD. induction fuel as [|fuel IH]; intros f cnt h u U HN F FS RB INC SET CNT; [lia|]. cbn [compress].
  destruct (Z.ltb_spec h n).
  - set (v := f h). assert (Ev : v = srt h) by (apply FS; lia).
    destruct (end_of_run_ok f n v (Z.to_nat n) h) as (h' & E & B & A & D); auto; try lia.
    rewrite E. cbn [bind]. pose proof (BD h ltac:(lia)).
    destruct (Z.leb_spec 0 v); [|lia]. destruct (Z.ltb_spec v m); [|lia]. cbn [andb].
    assert (LT : forall i, 0 <= i < h -> srt i < v).
    { intros i Hi. pose proof (ND i (h - 1) ltac:(lia) ltac:(lia)). specialize (RB ltac:(lia)). lia. }
    assert (AS : forall i, h <= i < h' -> srt i = v).
    { intros i Hi. rewrite <- FS by lia. now apply A. }
    assert (ST : forall i, i <> u -> store_at f u v i = f i).
    { intros i Hi. unfold store_at. destruct (Z.eqb_spec i u); [lia|auto]. }
    assert (SU : store_at f u v u = v) by (unfold store_at; now rewrite Z.eqb_refl).
    apply IH; try lia.
    + intros i Hi. rewrite ST by lia. apply FS. lia.
    + intros Hh. pose proof (ND (h' - 1) h' ltac:(lia) ltac:(lia)). rewrite (AS (h' - 1)) in * by lia.
      specialize (D ltac:(lia)). rewrite FS in D by lia. lia.
    + intros i j Hi Hj. destruct (Z.eq_dec j u) as [->|].
      * rewrite SU, ST by lia. destruct (proj2 (SET (f i))) as (k & K & Ek); [exists i; split; [lia|auto]|].
        rewrite <- Ek. now apply LT.
      * rewrite !ST by lia. apply INC; lia.
    + intros w. split.
      * intros (i & Hi & <-). destruct (Z_lt_dec i h).
        -- destruct (proj1 (SET (srt i))) as (k & K & Ek); [exists i; split; [lia|auto]|]. exists k. rewrite ST by lia. split; [lia|auto].
        -- exists u. rewrite SU, AS by lia. split; [lia|auto].
      * intros (i & Hi & <-). destruct (Z.eq_dec i u) as [->|].
        -- exists h. rewrite SU. split; [lia|auto].
        -- rewrite ST by auto. destruct (proj2 (SET (f i))) as (k & K & Ek); [exists i; split; [lia|auto]|].
           exists k. split; [lia|auto].
    + intros w. replace h' with (h + (h' - h)) at 2 by lia. rewrite slice_app by lia. rewrite count_occ_app, Nat2Z.inj_add.
      rewrite <- CNT. rewrite (count_all v w (slice srt (0 + h) (h' - h))).
      2:{ intros x Hx. apply in_slice in Hx as (i & Hi & <-). apply AS. lia. }
      unfold store_at. destruct (Z.eqb_spec w v) as [->|].
      * destruct (Z.eq_dec v v); [|lia]. rewrite slice_len by lia. rewrite CNT.
        assert (Z0 : count_occ Z.eq_dec (slice srt 0 h) v = 0%nat).
        { apply count_occ_not_In. intros I. apply in_slice in I as (i & Hi & Ei). specialize (LT i ltac:(lia)). lia. }
        rewrite Z0. lia.
      * destruct (Z.eq_dec v w); [lia|]. lia.
  - assert (h = n) by lia. subst h. exists f, cnt, u. split; [reflexivity|]. auto.
Qed.

Lemma compress_count_ok sort n m f : sorts sort -> 0 <= n -> (forall i, 0 <= i < n -> 0 <= f i < m) ->
  exists idx cnt k, compress_count_occurences sort n m f = Some (idx, cnt, k) /\ increasing idx k /\ 0 <= k <= n /\
    (forall v, (exists i, 0 <= i < n /\ f i = v) <-> (exists i, 0 <= i < k /\ idx i = v)) /\
    (forall v, cnt v = Z.of_nat (count_occ Z.eq_dec (slice f 0 n) v)).
Proof.
  intros S N B. destruct (S f n N) as [R ND]. unfold compress_count_occurences.
  destruct (compress_ok (sort f n) n m ND) with (fuel := Z.to_nat (n + 1)) (f := sort f n) (cnt := fun _ : Z => 0) (h := 0) (u := 0)
    as (idx & cnt & k & E & INC & K & SET & CNT); try lia; auto.
  - intros i Hi. destruct (rearranged_from 0 n f (sort f n) i R ltac:(lia)) as (j & J & ->). apply B. lia.
  - intros i j. lia.
  - intros v. split; intros (i & Hi & _); lia.
  - exists idx, cnt, k. split; [exact E|]. split; [exact INC|]. split; [exact K|]. split.
    + intros v. rewrite <- SET. split; intros (i & Hi & <-).
      * destruct (rearranged_to 0 n f (sort f n) i R ltac:(lia)) as (j & J & Ej). exists j. split; [lia|auto].
      * destruct (rearranged_from 0 n f (sort f n) i R ltac:(lia)) as (j & J & Ej). exists j. split; [lia|auto].
    + intros v. rewrite CNT. destruct R as [P _]. f_equal. apply Permutation_count_occ. now symmetry.
Qed.
