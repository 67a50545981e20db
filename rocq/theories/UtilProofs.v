From Coq Require Import ZArith List Bool Reals Lia Lra.
From Flocq Require Import Core IEEE754.BinarySingleNaN.
From Verif Require Import Base Par ListFacts F64 SplitModel SplitSpec SplitProofs UtilModel UtilSpec.
Import ListNotations.
Local Open Scope Z_scope.

Section Copies.
  Context {T : Type} (A : Z -> T).
  Lemma copies_out l : forall B d, (forall w, In w l -> fst w <> d) -> run_copies A B l d = B d.
  Proof.
    induction l as [|w l IH]; intros B d H; cbn; auto.
    change (run_copies A (store_at B (fst w) (A (snd w))) l d = B d).
    rewrite IH by (intros; apply H; now right). unfold store_at.
    destruct (Z.eqb_spec d (fst w)); auto. exfalso. apply (H w); [now left|auto].
  Qed.
  Lemma copies_in l : forall B w, In w l ->
    (forall w', In w' l -> fst w' = fst w -> snd w' = snd w) -> run_copies A B l (fst w) = A (snd w).
  Proof.
    induction l as [|x l IH]; intros B w I H; [destruct I|]. destruct I as [->|I].
    - change (run_copies A (store_at B (fst w) (A (snd w))) l (fst w) = A (snd w)).
      destruct (in_dec Z.eq_dec (fst w) (map fst l)) as [J|J].
      + apply in_map_iff in J as (y & E & J). rewrite <- E.
        rewrite IH; auto.
        * rewrite (H y); auto. now right.
        * intros w' W E'. rewrite (H w'), (H y); auto; try (now right). congruence.
      + rewrite copies_out; [unfold store_at; now rewrite Z.eqb_refl|].
        intros w' W E. apply J. apply in_map_iff. eauto.
    - apply (IH (store_at B (fst x) (A (snd x)))); auto. intros; apply H; auto. now right.
  Qed.
End Copies.

Lemma in_span lo hi x : In x (span lo hi) <-> lo <= x < hi.
Proof.
  unfold span. rewrite in_map_iff. split.
  - intros (k & <- & K). apply in_zrange in K. lia.
  - intros. exists (x - lo). rewrite in_zrange. lia.
Qed.
Lemma span_nodup lo hi : NoDup (span lo hi).
Proof.
  apply FinFun.Injective_map_NoDup; [intros ? ? ?; lia|apply zrange_nodup].
Qed.
Lemma in_starts n bs x : 0 < bs -> In x (starts n bs) <-> exists k, x = k * bs /\ 0 <= k /\ k * bs < n.
Proof.
  intros. unfold starts. rewrite in_map_iff. split.
  - intros (k & <- & K). apply in_zrange in K. exists k. repeat split; try lia.
    assert (k + 1 <= (n + bs - 1) / bs) by lia.
    assert ((k + 1) * bs <= n + bs - 1).
    { etransitivity; [apply Z.mul_le_mono_nonneg_r; [lia|eassumption]|].
      rewrite Z.mul_comm. apply Z.mul_div_le. lia. }
    lia.
  - intros (k & -> & K1 & K2). exists k. split; auto. apply in_zrange. split; [lia|].
    apply Z.lt_le_trans with (k + 1); [lia|]. apply Z.div_le_lower_bound; lia.
Qed.
Lemma starts_nodup n bs : 0 < bs -> NoDup (starts n bs).
Proof.
  intros. apply FinFun.Injective_map_NoDup; [|apply zrange_nodup].
  intros a b E. apply Z.mul_reg_r in E; lia.
Qed.
(** every index is in the block it is expected in, and in no other *)
Lemma block_of n bs i : 0 < bs -> 0 <= i < n ->
  In (i / bs * bs) (starts n bs) /\ i / bs * bs <= i < Z.min (i / bs * bs + bs) n.
Proof.
  intros P H. pose proof (Z.div_mod i bs ltac:(lia)). pose proof (Z.mod_pos_bound i bs P).
  pose proof (Z.div_pos i bs ltac:(lia) P).
  split; [apply in_starts; [lia|]; exists (i / bs); repeat split; nia|].
  apply Z.min_case_strong; nia.
Qed.
Lemma block_range n bs s i : 0 < bs -> In s (starts n bs) -> s <= i < Z.min (s + bs) n ->
  0 <= i < n /\ s = i / bs * bs.
Proof.
  intros P S H. apply in_starts in S as (k & -> & K1 & K2); auto.
  assert (i / bs = k) by (symmetry; apply Z.div_unique with (i - k * bs); nia).
  split; [nia|congruence].
Qed.

Lemma concat_flat_map {X Y} (f : X -> list (list Y)) l :
  concat (flat_map f l) = flat_map (fun x => concat (f x)) l.
Proof. induction l; cbn; auto. rewrite concat_app. now f_equal. Qed.
Lemma concat_map_flat {X Y} (f : X -> list Y) l : concat (map f l) = flat_map f l.
Proof. induction l; cbn; auto. now f_equal. Qed.

(** The copies of both transpositions, for any copy [f i j] performed at (i, j). *)
Definition blocked (f : Z -> Z -> copy) (n_rows n_cols : Z) : list (list copy) :=
  flat_map (fun a => map (fun b =>
      flat_map (fun i => map (fun j => f i j) (span b (Z.min (b + 64) n_cols)))
        (span a (Z.min (a + 64) n_rows)))
      (starts n_cols 64)) (starts n_rows 64).

Lemma in_blocked f n_rows n_cols w :
  In w (concat (blocked f n_rows n_cols)) <->
  exists i j, 0 <= i < n_rows /\ 0 <= j < n_cols /\ w = f i j.
Proof.
  unfold blocked. rewrite concat_flat_map, in_flat_map. split.
  - intros (a & Ia & H). rewrite concat_map_flat, in_flat_map in H.
    destruct H as (b & Ib & H). apply in_flat_map in H as (i & Ii & H).
    apply in_map_iff in H as (j & <- & Ij). apply in_span in Ii, Ij.
    apply block_range in Ii as (? & _), Ij as (? & _); auto; try lia. exists i, j. auto.
  - intros (i & j & Hi & Hj & ->).
    destruct (block_of n_rows 64 i) as (I1 & I2); try lia.
    destruct (block_of n_cols 64 j) as (J1 & J2); try lia.
    exists (i / 64 * 64). split; auto. rewrite concat_map_flat. apply in_flat_map.
    exists (j / 64 * 64). split; auto. apply in_flat_map. exists i. split; [apply in_span; lia|].
    apply in_map, in_span. lia.
Qed.

Lemma NoDup_flat_map {X Y} (f : X -> list Y) l :
  NoDup l -> (forall x, In x l -> NoDup (f x)) ->
  (forall x y z, In x l -> In y l -> In z (f x) -> In z (f y) -> x = y) -> NoDup (flat_map f l).
Proof.
  induction l as [|x l IH]; intros N H D; cbn; [constructor|].
  inversion N; subst. apply nodup_app.
  - apply H. now left.
  - apply IH; auto; intros; [apply H|eapply D]; eauto; now right.
  - intros z Z1 Z2. apply in_flat_map in Z2 as (y & Y1 & Y2).
    assert (x = y) by (eapply D; eauto; [now left|now right]). congruence.
Qed.

Lemma blocked_nodup f n_rows n_cols :
  (forall i j i' j', 0 <= i < n_rows -> 0 <= j < n_cols -> 0 <= i' < n_rows -> 0 <= j' < n_cols ->
     fst (f i j) = fst (f i' j') -> i = i' /\ j = j') ->
  NoDup (map fst (concat (blocked f n_rows n_cols))).
Proof.
  intros Inj.
  assert (R : map fst (concat (blocked f n_rows n_cols)) =
    flat_map (fun a => flat_map (fun b => flat_map (fun i => map (fun j => fst (f i j))
      (span b (Z.min (b + 64) n_cols))) (span a (Z.min (a + 64) n_rows))) (starts n_cols 64))
      (starts n_rows 64)).
  { unfold blocked. rewrite concat_flat_map.
    assert (M : forall X (g : X -> list copy) l, map fst (flat_map g l) = flat_map (fun x => map fst (g x)) l).
    { intros X g l. induction l; cbn; auto. rewrite map_app. now f_equal. }
    rewrite M. apply flat_map_ext. intros a. rewrite concat_map_flat, M. apply flat_map_ext. intros b.
    rewrite M. apply flat_map_ext. intros i. rewrite map_map. reflexivity. }
  rewrite R. clear R.
  assert (W : forall a b i z, In a (starts n_rows 64) -> In b (starts n_cols 64) ->
    In i (span a (Z.min (a + 64) n_rows)) ->
    In z (map (fun j => fst (f i j)) (span b (Z.min (b + 64) n_cols))) ->
    exists j, 0 <= i < n_rows /\ 0 <= j < n_cols /\ z = fst (f i j) /\ a = i / 64 * 64 /\
      b = j / 64 * 64).
  { intros a b i z Ia Ib Ii Iz. apply in_map_iff in Iz as (j & <- & Ij). apply in_span in Ii, Ij.
    apply block_range in Ii as (? & ?), Ij as (? & ?); auto; try lia. exists j. auto. }
  apply NoDup_flat_map; [apply starts_nodup; lia| |].
  - intros a Ia. apply NoDup_flat_map; [apply starts_nodup; lia| |].
    + intros b Ib. apply NoDup_flat_map; [apply span_nodup| |].
      * intros i Ii. assert (ND := span_nodup b (Z.min (b + 64) n_cols)).
        apply in_span, block_range in Ii as (? & _); auto; try lia.
        revert ND. assert (K : forall j, In j (span b (Z.min (b + 64) n_cols)) -> 0 <= j < n_cols).
        { intros j Ij. apply in_span, block_range in Ij as (? & _); auto; lia. }
        revert K. induction (span b (Z.min (b + 64) n_cols)) as [|j l IH]; intros K ND; cbn; [constructor|].
        inversion ND; subst. constructor; [|apply IH; auto; intros; apply K; now right].
        intros J. apply in_map_iff in J as (j' & E & J). apply Inj in E as (_ & ->); auto;
          try (apply K; cbn; auto; fail).
      * intros i i' z Ii Ii' Z1 Z2.
        destruct (W a b i z) as (j & ? & ? & -> & _); auto.
        destruct (W a b i' _ Ia Ib Ii' Z2) as (j' & ? & ? & E & _).
        apply Inj in E; tauto.
    + intros b b' z Ib Ib' Z1 Z2. apply in_flat_map in Z1 as (i & Ii & Z1), Z2 as (i' & Ii' & Z2).
      destruct (W a b i z) as (j & ? & ? & -> & _ & ->); auto.
      destruct (W a b' i' _ Ia Ib' Ii' Z2) as (j' & ? & ? & E & _ & ->).
      apply Inj in E as (_ & ->); auto.
  - intros a a' z Ia Ia' Z1 Z2. apply in_flat_map in Z1 as (b & Ib & Z1), Z2 as (b' & Ib' & Z2).
    apply in_flat_map in Z1 as (i & Ii & Z1), Z2 as (i' & Ii' & Z2).
    destruct (W a b i z) as (j & ? & ? & -> & -> & ->); auto.
    destruct (W a' b' i' _ Ia' Ib' Ii' Z2) as (j' & ? & ? & E & -> & ->).
    apply Inj in E as (-> & _); auto.
Qed.

Lemma row_to_column_blocked n_rows n_cols lda ldb :
  row_to_column n_rows n_cols lda ldb = blocked (fun i j => (j * ldb + i, i * lda + j)) n_rows n_cols.
Proof. reflexivity. Qed.
Lemma column_to_row_blocked n_rows n_cols lda ldb :
  column_to_row n_rows n_cols lda ldb = blocked (fun j i => (j + i * ldb, i + j * lda)) n_cols n_rows.
Proof. reflexivity. Qed.

Lemma row_to_column_correct {T} (A B : Z -> T) n_rows n_cols lda ldb tr :
  n_rows <= ldb -> interleaving (row_to_column n_rows n_cols lda ldb) tr ->
  (forall r c, 0 <= r < n_rows -> 0 <= c < n_cols ->
     run_copies A B tr (pos column_major ldb r c) = A (pos row_major lda r c)) /\
  (forall p, ~ inside column_major ldb n_rows n_cols p -> run_copies A B tr p = B p) /\
  (forall w, In w tr -> inside column_major ldb n_rows n_cols (fst w) /\
                        inside row_major lda n_rows n_cols (snd w)) /\
  NoDup (map fst tr).
Proof.
  intros L H. apply interleaving_perm in H. rewrite row_to_column_blocked in H.
  set (f := fun i j => (j * ldb + i, i * lda + j)) in *.
  assert (Inj : forall i j i' j', 0 <= i < n_rows -> 0 <= j < n_cols -> 0 <= i' < n_rows ->
    0 <= j' < n_cols -> fst (f i j) = fst (f i' j') -> i = i' /\ j = j').
  { intros i j i' j' ? ? ? ? E.
    apply (pos_inj column_major ldb n_rows n_cols i j i' j'); auto; congruence. }
  assert (In_tr : forall w, In w tr <-> exists i j, 0 <= i < n_rows /\ 0 <= j < n_cols /\ w = f i j).
  { intros w. rewrite <- in_blocked. split; apply Permutation.Permutation_in; auto.
    now symmetry. }
  split; [|split; [|split]].
  - intros r c Hr Hc. change (pos column_major ldb r c) with (fst (f r c)).
    rewrite (copies_in A tr B (f r c)); [reflexivity|apply In_tr; eauto|].
    intros w' W E. apply In_tr in W as (i & j & Hi & Hj & ->). apply Inj in E as (-> & ->); auto.
  - intros p N. apply copies_out. intros w W E. apply In_tr in W as (i & j & Hi & Hj & ->).
    apply N. exists i, j. auto.
  - intros w W. apply In_tr in W as (i & j & Hi & Hj & ->).
    split; exists i, j; repeat split; auto; lia.
  - eapply Permutation.Permutation_NoDup; [apply Permutation.Permutation_map; exact H|].
    now apply blocked_nodup.
Qed.

Lemma column_to_row_correct {T} (A B : Z -> T) n_rows n_cols lda ldb tr :
  n_cols <= ldb -> interleaving (column_to_row n_rows n_cols lda ldb) tr ->
  (forall r c, 0 <= r < n_rows -> 0 <= c < n_cols ->
     run_copies A B tr (pos row_major ldb r c) = A (pos column_major lda r c)) /\
  (forall p, ~ inside row_major ldb n_rows n_cols p -> run_copies A B tr p = B p) /\
  (forall w, In w tr -> inside row_major ldb n_rows n_cols (fst w) /\
                        inside column_major lda n_rows n_cols (snd w)) /\
  NoDup (map fst tr).
Proof.
  intros L H. apply interleaving_perm in H. rewrite column_to_row_blocked in H.
  set (f := fun j i => (j + i * ldb, i + j * lda)) in *.
  assert (Inj : forall j i j' i', 0 <= j < n_cols -> 0 <= i < n_rows -> 0 <= j' < n_cols ->
    0 <= i' < n_rows -> fst (f j i) = fst (f j' i') -> j = j' /\ i = i').
  { intros j i j' i' ? ? ? ? E. cbn in E.
    assert (i = i' /\ j = j'); [|tauto].
    apply (pos_inj row_major ldb n_rows n_cols i j i' j'); auto; try congruence. cbn. lia. }
  assert (In_tr : forall w, In w tr <-> exists j i, 0 <= j < n_cols /\ 0 <= i < n_rows /\ w = f j i).
  { intros w. rewrite <- in_blocked. split; apply Permutation.Permutation_in; auto.
    now symmetry. }
  assert (F1 : forall r c, pos row_major ldb r c = fst (f c r)) by (intros; cbn; lia).
  assert (F2 : forall r c, pos column_major lda r c = snd (f c r)) by (intros; cbn; lia).
  split; [|split; [|split]].
  - intros r c Hr Hc. rewrite F1, F2.
    apply copies_in; [apply In_tr; eauto|].
    intros w' W E. apply In_tr in W as (j & i & Hj & Hi & ->). apply Inj in E as (-> & ->); auto.
  - intros p N. apply copies_out. intros w W E. apply In_tr in W as (j & i & Hj & Hi & ->).
    apply N. exists i, j. rewrite F1. auto.
  - intros w W. apply In_tr in W as (j & i & Hj & Hi & ->).
    split; exists i, j; repeat split; auto; cbn; lia.
  - eapply Permutation.Permutation_NoDup; [apply Permutation.Permutation_map; exact H|].
    now apply blocked_nodup.
Qed.

(** ** Blocking schemes *)
Lemma partition_intro n k bs (len : Z -> Z) : 0 < bs -> 0 < k ->
  (forall b, 0 <= b < k - 1 -> len b = bs) -> 0 < len (k - 1) -> (k - 1) * bs + len (k - 1) = n ->
  partitions n k (block_off bs) len.
Proof.
  intros P K L F E. unfold block_off. split.
  - intros b B. destruct (Z.eq_dec b (k - 1)) as [->|].
    + repeat split; try lia. nia.
    + rewrite L by lia. repeat split; try lia; nia.
  - intros s S. destruct (Z_lt_le_dec s ((k - 1) * bs)) as [H|H].
    + pose proof (Z.div_mod s bs ltac:(lia)). pose proof (Z.mod_pos_bound s bs P).
      assert (0 <= s / bs < k - 1) by (split; [apply Z.div_pos; lia|apply Z.div_lt_upper_bound; lia]).
      exists (s / bs). split; [rewrite L by lia; split; [lia|nia]|].
      intros b (B1 & B2). destruct (Z.eq_dec b (k - 1)) as [->|]; [lia|].
      rewrite L in B2 by lia. symmetry. apply Z.div_unique with (s - b * bs); nia.
    + exists (k - 1). split; [split; lia|]. intros b (B1 & B2).
      destruct (Z.eq_dec b (k - 1)) as [->|]; auto. rewrite L in B2 by lia. nia.
Qed.

Lemma blocking_scheme_correct n bs : 0 <= n -> 0 < bs ->
  exists k rem, blocking_scheme n bs = Some (k, rem) /\
    partitions n k (block_off bs) (block_len k bs rem) /\ k = (n + bs - 1) / bs.
Proof.
  intros N P. unfold blocking_scheme.
  destruct (Z.eqb_spec bs 0); [lia|].
  rewrite Z.quot_div_nonneg, Z.rem_mod_nonneg by lia.
  pose proof (Z.div_mod n bs ltac:(lia)). pose proof (Z.mod_pos_bound n bs P).
  pose proof (Z.div_pos n bs N P). rewrite Z.gtb_ltb.
  eexists _, _. split; [reflexivity|].
  destruct (Z.ltb_spec 0 (n mod bs)) as [R|R].
  - split.
    + apply partition_intro; auto; unfold block_len; try lia.
      * intros b B. destruct (Z.eqb_spec b (n / bs + 1 - 1)); [lia|]. reflexivity.
      * rewrite Z.eqb_refl, Z.gtb_ltb. destruct (Z.ltb_spec 0 (n mod bs)); cbn; lia.
      * rewrite Z.eqb_refl, Z.gtb_ltb. destruct (Z.ltb_spec 0 (n mod bs)); cbn; try lia.
    + apply Z.div_unique with (n mod bs - 1); lia.
  - assert (n mod bs = 0) by lia.
    split; [|apply Z.div_unique with (bs - 1); lia].
    destruct (Z.eq_dec n 0) as [->|].
    + rewrite Z.div_0_l by lia. split; intros; lia.
    + assert (0 < n / bs) by (destruct (Z.eq_dec (n / bs) 0) as [E|]; [rewrite E in *; lia|lia]).
      assert (B : forall b, block_len (n / bs) bs (n mod bs) b = bs).
      { intros. unfold block_len. rewrite Z.gtb_ltb. destruct (Z.ltb_spec 0 (n mod bs)); [lia|].
        now rewrite andb_false_r. }
      apply partition_intro; auto; rewrite ?B; try lia.
Qed.

Lemma round256 b : 0 < b -> b <= Z.shiftl (Z.shiftr (b + 255) 8) 8 /\ 256 <= Z.shiftl (Z.shiftr (b + 255) 8) 8.
Proof.
  intros. rewrite Z.shiftl_mul_pow2, Z.shiftr_div_pow2 by lia. change (2 ^ 8) with 256.
  pose proof (Z.div_mod (b + 255) 256 ltac:(lia)). pose proof (Z.mod_pos_bound (b + 255) 256 ltac:(lia)).
  assert (1 <= (b + 255) / 256) by (apply Z.div_le_lower_bound; lia). lia.
Qed.

(** the block size chosen before the last block is looked at *)
Lemma tall_block_size n mb mx : 1 <= n -> 1 <= mb -> 1 <= mx ->
  exists bs,
    (if Z.quot n (Z.min mb n) >? mx then
       if mx =? 0 then None
       else Some (Z.min (Z.shiftl (Z.shiftr (Z.quot n mx + 255) 8) 8) n)
     else Some (Z.min mb n)) = Some bs /\
    Z.min mb n <= bs <= n /\ (mx <= 256 -> n / bs <= mx) /\
    (n / Z.min mb n <= mx -> bs = Z.min mb n) /\ (mx < n / Z.min mb n -> Z.min (n / mx) n <= bs).
Proof.
  intros N M X. set (b0 := Z.min mb n). assert (B0 : 1 <= b0 <= n) by lia.
  rewrite Z.quot_div_nonneg by lia. rewrite Z.gtb_ltb.
  destruct (Z.ltb_spec mx (n / b0)) as [L|L].
  - destruct (Z.eqb_spec mx 0); [lia|]. rewrite Z.quot_div_nonneg by lia.
    assert (C : b0 <= n / mx).
    { apply Z.div_le_lower_bound; [lia|].
      pose proof (Z.mul_div_le n b0 ltac:(lia)). nia. }
    destruct (round256 (n / mx)) as (R1 & R2); [lia|].
    set (rr := Z.shiftl (Z.shiftr (n / mx + 255) 8) 8) in *.
    eexists. split; [reflexivity|]. split; [lia|]. split; [|split; intros; lia].
    intros X2. destruct (Z.min_spec rr n) as [(E1 & ->)|(E1 & ->)].
    + apply Z.lt_succ_r, Z.div_lt_upper_bound; [lia|].
      pose proof (Z.div_mod n mx ltac:(lia)). pose proof (Z.mod_pos_bound n mx ltac:(lia)). nia.
    + rewrite Z.div_same by lia. lia.
  - eexists. split; [reflexivity|]. repeat split; try lia.
Qed.

Lemma tall_correct n mb mx mf : 1 <= n -> 1 <= mb -> 1 <= mx -> 1 <= mf ->
  exists k bs final, tall_skinny_blocking_scheme n mb mx mf = Some (k, bs, final) /\
    partitions n k (block_off bs) (tall_block_len k bs final) /\
    (forall b, 0 <= b < k - 1 -> Z.min mb n <= tall_block_len k bs final b) /\
    Z.min mf (Z.min mb n) <= final /\
    (mx <= 256 -> k <= mx + 1) /\
    (k = 1 -> bs = n).
Proof.
  intros N M X F. unfold tall_skinny_blocking_scheme.
  destruct (tall_block_size n mb mx N M X) as (bs & E & B1 & B2 & _ & _).
  destruct (Z.eqb_spec (Z.min mb n) 0); [lia|]. cbv zeta. rewrite E.
  destruct (Z.eqb_spec bs 0); [lia|].
  rewrite Z.quot_div_nonneg, Z.rem_mod_nonneg by lia. rewrite Z.geb_leb.
  pose proof (Z.div_mod n bs ltac:(lia)) as D. pose proof (Z.mod_pos_bound n bs ltac:(lia)).
  assert (K : 1 <= n / bs) by (apply Z.div_le_lower_bound; lia).
  assert (TL : forall k b f, b < k - 1 -> tall_block_len k bs f b = bs).
  { intros k b f ?. unfold tall_block_len. destruct (Z.eqb_spec b (k - 1)); [lia|reflexivity]. }
  assert (TF : forall k b f, tall_block_len k b f (k - 1) = f).
  { intros. unfold tall_block_len. now rewrite Z.eqb_refl. }
  destruct (Z.leb_spec mf (n mod bs)) as [G|G].
  - eexists _, _, _. split; [reflexivity|]. split; [|split; [|split; [|split]]].
    + apply partition_intro; try lia; [intros; apply TL; lia|rewrite TF; lia|rewrite TF; lia].
    + intros. rewrite TL; lia.
    + lia.
    + intros X2. specialize (B2 X2). lia.
    + intros K1. nia.
  - eexists _, _, _. split; [reflexivity|].
    destruct (Z.eqb_spec (n / bs) 1) as [E1|E1].
    + rewrite E1. split; [|split; [|split; [|split]]].
      * apply partition_intro; try lia; rewrite ?TF; try lia.
      * lia.
      * lia.
      * lia.
      * lia.
    + split; [|split; [|split; [|split]]].
      * apply partition_intro; try lia; [intros; apply TL; lia|rewrite TF; lia|rewrite TF; lia].
      * intros. rewrite TL; lia.
      * lia.
      * intros X2. specialize (B2 X2). lia.
      * lia.
Qed.

(** ** The data check *)
Lemma one_is : is (f64_of_Z 1) 1.
Proof. apply (f64_of_Z_is 1). lia. Qed.

(** adding one to a number below 2^53 never gives the number back *)
Lemma plus_one_moves (x : R) : generic_format radix2 fexp64 x -> (Rabs x < bpow radix2 53)%R ->
  (x < rnd (x + 1))%R.
Proof.
  intros G B. destruct (Req_dec x 0) as [->|N].
  { rewrite Rplus_0_l. replace 1%R with (IZR 1) by reflexivity. rewrite rnd_Z by lia. lra. }
  assert (U : (ulp radix2 fexp64 x <= 1)%R).
  { rewrite ulp_neq_0 by auto. apply (bpow_le radix2 _ 0). unfold cexp, fexp64, SpecFloat.fexp.
    assert (mag radix2 x <= 53)%Z by (apply mag_le_bpow; auto). unfold SpecFloat.emin. lia. }
  assert (S : (succ radix2 fexp64 x <= x + 1)%R).
  { eapply Rle_trans; [apply succ_le_plus_ulp; typeclasses eauto|]. lra. }
  assert (V : (x < succ radix2 fexp64 x)%R) by (apply succ_gt_id; auto).
  eapply Rlt_le_trans; [exact V|].
  replace (succ radix2 fexp64 x) with (rnd (succ radix2 fexp64 x)).
  - now apply rnd_mono.
  - unfold rnd. apply round_generic; [typeclasses eauto|].
    apply generic_format_succ; auto; typeclasses eauto.
Qed.

Lemma bad_element_nan x : nan_value x -> bad_element x = true.
Proof. unfold nan_value, bad_element. now intros ->. Qed.

Lemma bad_element_moderate x : moderate x -> bad_element x = false.
Proof.
  intros (F & B). unfold bad_element.
  assert (is_nan x = false) by (destruct x; auto; discriminate). rewrite H. cbn [orb].
  assert (X : is x (B2R x)) by (split; auto).
  assert (P : is (f64_add x (f64_of_Z 1)) (rnd (B2R x + 1))).
  { apply f64_add_is; [exact X|apply one_is|].
    eapply Rle_trans; [apply Rabs_triang|]. rewrite Rabs_R1.
    apply Rle_trans with (bpow radix2 53 + bpow radix2 53)%R.
    - apply Rplus_le_compat; [lra|]. apply (bpow_le radix2 0 53). lia.
    - replace (bpow radix2 53 + bpow radix2 53)%R with (bpow radix2 54).
      + apply bpow_le. lia.
      + change 54%Z with (1 + 53)%Z. rewrite bpow_plus. change (bpow radix2 1) with 2%R. ring. }
  destruct (f64_eq x (f64_add x (f64_of_Z 1))) eqn:E; auto.
  apply (f64_eq_is _ _ _ _ X P) in E.
  pose proof (plus_one_moves (B2R x) (generic_format_B2R _ _ x) B). lra.
Qed.

Lemma existsb_z (f : Z -> bool) n : existsb f (zrange n) = true <-> exists i, 0 <= i < n /\ f i = true.
Proof.
  rewrite existsb_exists. split; intros (i & H & E); exists i; rewrite in_zrange in *; auto.
Qed.
Lemma existsb_zz (f : Z -> Z -> bool) n m :
  existsb (fun i => existsb (f i) (zrange m)) (zrange n) = true <->
  exists i j, 0 <= i < n /\ 0 <= j < m /\ f i j = true.
Proof.
  rewrite existsb_z. split.
  - intros (i & Hi & H). apply existsb_z in H as (j & Hj & E). eauto.
  - intros (i & j & Hi & Hj & E). exists i. split; auto. apply existsb_z. eauto.
Qed.

Lemma check_data_args o n_rows n_cols nul X ld :
  check_data o n_rows n_cols nul X ld = st_success \/ check_data o n_rows n_cols nul X ld = st_invalid_input <->
  1 <= n_rows /\ 1 <= n_cols /\ nul = false /\ good_ld o n_rows n_cols ld.
Proof.
  unfold check_data.
  destruct (Z.ltb_spec n_rows 1); cbn [orb]; [split; [intros [E|E]; discriminate E|lia]|].
  destruct (Z.ltb_spec n_cols 1); [split; [intros [E|E]; discriminate E|lia]|].
  destruct nul; [split; [intros [E|E]; discriminate E|intros (_ & _ & E & _); discriminate E]|].
  destruct o; cbn [good_ld];
    (match goal with |- context [if ?a <? ?b then _ else _] => destruct (Z.ltb_spec a b) end;
     [split; [intros [E|E]; discriminate E|lia]|]);
    (match goal with |- context [existsb ?f ?l] => destruct (existsb f l) end);
    (split; [intros _; repeat split; lia|auto]).
Qed.

Lemma check_data_status o n_rows n_cols nul X ld :
  1 <= n_rows -> 1 <= n_cols -> nul = false -> good_ld o n_rows n_cols ld ->
  exists b : bool, check_data o n_rows n_cols nul X ld = (if b then st_invalid_input else st_success) /\
    (b = true <-> has_element o n_rows n_cols ld X (fun x => bad_element x = true)).
Proof.
  intros R C -> G. unfold check_data, has_element.
  destruct (Z.ltb_spec n_rows 1); [lia|]. destruct (Z.ltb_spec n_cols 1); [lia|]. cbn [orb].
  destruct o; cbn [good_ld] in G.
  - destruct (Z.ltb_spec ld n_cols); [lia|]. eexists. split; [reflexivity|].
    apply (existsb_zz (fun i j => bad_element (X (i * ld + j)))).
  - destruct (Z.ltb_spec ld n_rows); [lia|]. eexists. split; [reflexivity|].
    rewrite (existsb_zz (fun j i => bad_element (X (i + j * ld)))).
    split; intros (i & j & Hi & Hj & E); exists j, i; repeat split; try lia; cbn [pos] in *;
      rewrite <- E; do 2 f_equal; lia.
  - destruct (Z.ltb_spec ld n_rows); [lia|]. eexists. split; [reflexivity|].
    rewrite (existsb_zz (fun j i => bad_element (X (i + j * ld)))).
    split; intros (i & j & Hi & Hj & E); exists j, i; repeat split; try lia; cbn [pos] in *;
      rewrite <- E; do 2 f_equal; lia.
Qed.

Lemma check_data_nan o n_rows n_cols X ld :
  1 <= n_rows -> 1 <= n_cols -> good_ld o n_rows n_cols ld ->
  has_element o n_rows n_cols ld X nan_value ->
  check_data o n_rows n_cols false X ld = st_invalid_input.
Proof.
  intros R C G (r & c & Hr & Hc & E).
  destruct (check_data_status o n_rows n_cols false X ld R C eq_refl G) as (b & -> & B).
  replace b with true; auto. symmetry. apply B. exists r, c. auto using bad_element_nan.
Qed.

Lemma check_data_exact o n_rows n_cols X ld :
  1 <= n_rows -> 1 <= n_cols -> good_ld o n_rows n_cols ld ->
  (forall r c, 0 <= r < n_rows -> 0 <= c < n_cols ->
     nan_value (X (pos o ld r c)) \/ moderate (X (pos o ld r c))) ->
  (check_data o n_rows n_cols false X ld = st_invalid_input <->
     has_element o n_rows n_cols ld X nan_value) /\
  (check_data o n_rows n_cols false X ld = st_success <->
     ~ has_element o n_rows n_cols ld X nan_value).
Proof.
  intros R C G M.
  destruct (check_data_status o n_rows n_cols false X ld R C eq_refl G) as (b & -> & B).
  assert (E : b = true <-> has_element o n_rows n_cols ld X nan_value).
  { rewrite B. split; intros (r & c & Hr & Hc & E); exists r, c; repeat split; auto; try lia.
    - destruct (M r c Hr Hc) as [|Q]; auto. now rewrite (bad_element_moderate _ Q) in E.
    - now apply bad_element_nan. }
  rewrite <- E. destruct b; split; split; intros; auto; try congruence.
Qed.

Lemma check_2D_exact o n_rows n_cols X ld rmin cmin : o <> other_order ->
  1 <= n_rows -> 1 <= n_cols -> rmin <= n_rows -> cmin <= n_cols -> good_ld o n_rows n_cols ld ->
  (forall r c, 0 <= r < n_rows -> 0 <= c < n_cols ->
     nan_value (X (pos o ld r c)) \/ moderate (X (pos o ld r c))) ->
  (check_2D_array true o n_rows n_cols false X ld rmin cmin = st_invalid_input <->
     has_element o n_rows n_cols ld X nan_value) /\
  (check_2D_array true o n_rows n_cols false X ld rmin cmin = st_success <->
     ~ has_element o n_rows n_cols ld X nan_value).
Proof.
  intros O R C Rm Cm G M. unfold check_2D_array.
  destruct (Z.ltb_spec n_rows rmin); [lia|]. destruct (Z.ltb_spec n_cols cmin); [lia|].
  cbv zeta.
  assert (L : check_ld o n_rows n_cols ld = st_success).
  { destruct o; cbn in *; try congruence; destruct (Z.ltb_spec ld n_cols), (Z.ltb_spec ld n_rows);
      auto; lia. }
  rewrite L.
  destruct (check_data_exact o n_rows n_cols X ld R C G M) as (E1 & E2).
  destruct (check_data_status o n_rows n_cols false X ld R C eq_refl G) as (b & E & _).
  rewrite E in *. destruct b.
  - split; [exact E1|]. exact E2.
  - split; [exact E1|exact E2].
Qed.

(** ** Storing the input *)
Lemma store_success ho oo check n_rows n_cols nul data ld mode rmin cmin o i ldi :
  store_2D_array ho oo check n_rows n_cols nul data ld mode rmin cmin = (st_success, o, i, ldi) ->
  mode <> 2 ->
  nul = false /\ rmin <= n_rows /\ cmin <= n_cols /\ o <> other_order /\ good_ld o n_rows n_cols ld /\
  o = match oo with Some x => x | None => ho end /\
  ((mode = 3 /\ i = IUnset) \/
   (mode <> 3 /\ o = column_major /\ i = IUser /\ ldi = ld) \/
   (mode <> 3 /\ o = row_major /\ ldi = n_rows /\
      i = INew (n_rows * n_cols) (if mode =? 0 then row_to_column n_rows n_cols ld n_rows else []))).
Proof.
  unfold store_2D_array. intros H M.
  destruct (Z.eqb_spec mode 2); [lia|].
  destruct (Z.ltb_spec n_rows rmin); [discriminate|].
  destruct (Z.ltb_spec n_cols cmin); [discriminate|].
  destruct nul; [discriminate|]. cbv zeta in H.
  set (o' := match oo with Some x => x | None => ho end) in *.
  match type of H with context [match ?s with st_invalid_input => _ | _ => _ end] => set (st := s) in * end.
  assert (st <> st_invalid_input) by (intros E; rewrite E in H; discriminate).
  assert (H' : match check_ld o' n_rows n_cols ld with
        | st_success =>
            if mode =? 3 then (st_success, o', IUnset, 0)
            else match o' with
                 | column_major => (st_success, o', IUser, ld)
                 | _ => (st_success, o',
                         INew (n_rows * n_cols)
                           (if mode =? 0 then row_to_column n_rows n_cols ld n_rows else []),
                         n_rows)
                 end
        | e => (e, o', IUnset, 0)
        end = (st_success, o, i, ldi)) by (destruct st; auto; congruence).
  clear H. destruct (check_ld o' n_rows n_cols ld) eqn:L; try discriminate.
  assert (G : o' <> other_order /\ good_ld o' n_rows n_cols ld).
  { unfold check_ld in L. destruct o'; try discriminate; cbn.
    - destruct (Z.ltb_spec ld n_cols); [discriminate|]. split; [congruence|lia].
    - destruct (Z.ltb_spec ld n_rows); [discriminate|]. split; [congruence|lia]. }
  destruct G as (G1 & G2).
  destruct (Z.eqb_spec mode 3).
  - injection H' as <- <- <-. repeat (split; [solve [auto|lia]|]). auto.
  - destruct o' eqn:E; try congruence; injection H' as <- <- <-;
      repeat (split; [solve [auto|lia]|]).
    + right. right. auto.
    + right. left. auto.
Qed.

Lemma store_values {T} (values junk : Z -> T) ho oo check n_rows n_cols nul data ld rmin cmin o i ldi tr :
  store_2D_array ho oo check n_rows n_cols nul data ld 0 rmin cmin = (st_success, o, i, ldi) ->
  internal_schedule i tr ->
  (forall r c, 0 <= r < n_rows -> 0 <= c < n_cols ->
     internal_values values junk i tr (pos column_major ldi r c) = values (pos o ld r c)) /\
  n_rows <= ldi /\
  (forall size its, i = INew size its -> forall w, In w tr ->
     0 <= fst w < size /\ inside o ld n_rows n_cols (snd w)).
Proof.
  intros H S. apply store_success in H; [|lia].
  destruct H as (_ & _ & _ & _ & G & _ & [(M & _)|[(_ & -> & -> & ->)|(_ & -> & -> & ->)]]); [lia| |].
  - cbn in S. subst tr. cbn. repeat split; auto; try discriminate.
  - cbn [internal_schedule] in S. change (0 =? 0) with true in S. cbn iota in S.
    apply (row_to_column_correct values junk) in S as (S1 & _ & S3 & _); [|lia].
    split; [|split].
    + intros r c Hr Hc. cbn [internal_values]. now apply S1.
    + lia.
    + intros size its E w W. injection E as <- _. apply S3 in W as (W1 & W2). split; auto.
      destruct W1 as (r & c & Hr & Hc & ->). cbn [pos]. nia.
Qed.

Lemma results_in o n_rows n_cols ld w : o <> other_order ->
  In w (copy_2D_results_array o n_rows n_cols ld) <->
  exists r c, 0 <= r < n_rows /\ 0 <= c < n_cols /\
    w = (pos o (dense_ld o n_rows n_cols) r c, pos column_major ld r c).
Proof.
  intros O. destruct o; try congruence; cbn [copy_2D_results_array dense_ld pos]; rewrite in_flat_map; split.
  - intros (r & Hr & H). apply in_map_iff in H as (c & <- & Hc). apply in_zrange in Hr, Hc.
    exists r, c. split; [auto|split; [auto|f_equal; lia]].
  - intros (r & c & Hr & Hc & ->). exists r. split; [now apply in_zrange|]. apply in_map_iff.
    exists c. split; [f_equal; lia|now apply in_zrange].
  - intros (c & Hc & H). apply in_map_iff in H as (r & <- & Hr). apply in_zrange in Hr, Hc.
    exists r, c. split; [auto|split; [auto|f_equal; lia]].
  - intros (r & c & Hr & Hc & ->). exists c. split; [now apply in_zrange|]. apply in_map_iff.
    exists r. split; [f_equal; lia|now apply in_zrange].
Qed.

Lemma results_correct {T} (data res : Z -> T) o n_rows n_cols ld : o <> other_order ->
  (forall r c, 0 <= r < n_rows -> 0 <= c < n_cols ->
     run_copies data res (copy_2D_results_array o n_rows n_cols ld)
       (pos o (dense_ld o n_rows n_cols) r c) = data (pos column_major ld r c)) /\
  (forall p, ~ (0 <= p < n_rows * n_cols) ->
     run_copies data res (copy_2D_results_array o n_rows n_cols ld) p = res p).
Proof.
  intros O. split.
  - intros r c Hr Hc.
    change (data (pos column_major ld r c)) with
      (data (snd (pos o (dense_ld o n_rows n_cols) r c, pos column_major ld r c))).
    change (pos o (dense_ld o n_rows n_cols) r c) with
      (fst (pos o (dense_ld o n_rows n_cols) r c, pos column_major ld r c)) at 1.
    apply copies_in; [apply results_in; eauto|].
    intros w W E. apply results_in in W as (r' & c' & Hr' & Hc' & ->); auto. cbn [fst snd] in *.
    destruct (pos_inj o (dense_ld o n_rows n_cols) n_rows n_cols r' c' r c) as (-> & ->); auto.
    destruct o; cbn; lia.
  - intros p P. apply copies_out. intros w W E. apply results_in in W as (r & c & Hr & Hc & ->); auto.
    apply P. rewrite <- E. destruct o; cbn; try congruence; nia.
Qed.

Lemma store_then_copy {T} (values junk res : Z -> T) ho oo check n_rows n_cols nul data ld rmin cmin o i ldi tr :
  store_2D_array ho oo check n_rows n_cols nul data ld 0 rmin cmin = (st_success, o, i, ldi) ->
  internal_schedule i tr ->
  forall r c, 0 <= r < n_rows -> 0 <= c < n_cols ->
  run_copies (internal_values values junk i tr) res (copy_2D_results_array o n_rows n_cols ldi)
    (pos o (dense_ld o n_rows n_cols) r c) = values (pos o ld r c).
Proof.
  intros H S r c Hr Hc.
  assert (O : o <> other_order) by (apply store_success in H; [tauto|lia]).
  rewrite (proj1 (results_correct _ res o n_rows n_cols ldi O)) by auto.
  now apply (store_values values junk ho oo check n_rows n_cols nul data ld rmin cmin o i ldi tr).
Qed.
