(** Lloyd's algorithm in exact arithmetic: sums, counts, centres. *)
From Coq Require Import ZArith Reals List Bool Lia Lra Arith Permutation.
From Verif Require Import Base Par UtilModel NnModel RealArith KmModel KmSpec KmKernelProofs.
Import ListNotations.
Local Open Scope R_scope.

Notation rw := (list R).

(** ** lists *)
Lemma put_length {A} (l : list A) : forall n x, length (put l n x) = length l.
Proof. induction l as [|a l IH]; intros [|n] x; cbn; auto. Qed.
Lemma put_nth {A} (l : list A) : forall n x i d, (n < length l)%nat -> nth i (put l n x) d = if Nat.eqb i n then x else nth i l d.
Proof.
  induction l as [|a l IH]; intros [|n] x [|i] d H; cbn in *; auto; try lia.
  apply IH. lia.
Qed.
Lemma in_put {A} (l : list A) : forall n x y, In y (put l n x) -> y = x \/ In y l.
Proof.
  induction l as [|a l IH]; intros [|n] x y H; cbn in H; auto; try tauto.
  - destruct H as [<-|H]; cbn; auto.
  - destruct H as [<-|H]; cbn; auto. destruct (IH _ _ _ H); auto.
Qed.
Lemma rsum_app a b : rsum (a ++ b) = rsum a + rsum b.
Proof. unfold rsum. induction a; cbn [app fold_right]; [lra|rewrite IHa; lra]. Qed.
Lemma rsum_perm a b : Permutation a b -> rsum a = rsum b.
Proof. unfold rsum. induction 1; cbn [fold_right]; lra. Qed.
Lemma rsum_map_ext {A} (f g : A -> R) l : (forall x, In x l -> f x = g x) -> rsum (map f l) = rsum (map g l).
Proof. intros H. f_equal. apply map_ext_in. auto. Qed.
Lemma rsum_map_add {A} (f g : A -> R) l : rsum (map (fun x => f x + g x) l) = rsum (map f l) + rsum (map g l).
Proof. unfold rsum. induction l; cbn [map fold_right]; [lra|rewrite IHl; lra]. Qed.
Lemma rsum_map_scal {A} c (f : A -> R) l : rsum (map (fun x => c * f x) l) = c * rsum (map f l).
Proof. unfold rsum. induction l; cbn [map fold_right]; [lra|rewrite IHl; lra]. Qed.
Lemma rsum_map_zero {A} (f : A -> R) l : (forall x, In x l -> f x = 0) -> rsum (map f l) = 0.
Proof.
  unfold rsum. induction l as [|a l IH]; intros H; cbn [map fold_right]; auto.
  rewrite (H a) by (left; auto). rewrite IH; [lra|]. intros; apply H; right; auto.
Qed.
Lemma rsum_map_le {A} (f g : A -> R) l : (forall x, In x l -> f x <= g x) -> rsum (map f l) <= rsum (map g l).
Proof.
  unfold rsum. induction l as [|a l IH]; intros H; cbn [map fold_right]; [lra|].
  specialize (IH (fun x Hx => H x (or_intror Hx))). specialize (H a (or_introl eq_refl)). lra.
Qed.
Lemma rsum_map_le_eq {A} (f g : A -> R) l : (forall x, In x l -> f x <= g x) -> rsum (map g l) <= rsum (map f l) ->
  forall x, In x l -> f x = g x.
Proof.
  unfold rsum. induction l as [|a l IH]; intros H E x Hx; cbn [map fold_right] in *; [easy|].
  pose proof (rsum_map_le f g l (fun x Hx => H x (or_intror Hx))) as Q. unfold rsum in Q.
  pose proof (H a (or_introl eq_refl)). destruct Hx as [<-|Hx]; [lra|]. apply IH; auto; [|lra].
  intros y Hy. apply H. right. auto.
Qed.
Lemma rsum_concat l : rsum (concat l) = rsum (map rsum l).
Proof. unfold rsum at 2. induction l; cbn [concat map fold_right]; auto. rewrite rsum_app, IHl. auto. Qed.

(** ** blocks *)
Lemma skipn_plus {A} b : forall a (l : list A), skipn a (skipn b l) = skipn (b + a) l.
Proof.
  induction b as [|b IH]; intros a l; [reflexivity|].
  destruct l as [|x l]; [rewrite !skipn_nil; reflexivity|]. cbn [skipn Nat.add]. apply IH.
Qed.
Lemma concat_blocks {A} bs : (bs <> 0)%nat -> forall n (X : list A), length X = n ->
  concat (map (block X bs) (seq 0 (n_blocks n bs))) = X.
Proof.
  intros B n. induction n as [n IH] using (well_founded_induction lt_wf). intros X L.
  destruct (Nat.eq_dec n 0) as [->|Hn].
  - unfold n_blocks. cbn [Nat.add]. rewrite Nat.div_small by lia. cbn. destruct X; [auto|cbn in L; lia].
  - destruct (Nat.le_gt_cases n bs) as [S|S].
    + assert (n_blocks n bs = 1)%nat as ->.
      { unfold n_blocks. replace (n + bs - 1)%nat with ((n - 1) + 1 * bs)%nat by lia. rewrite Nat.div_add by auto.
        rewrite Nat.div_small by lia. auto. }
      cbn [seq map concat]. rewrite app_nil_r. unfold block. cbn [Nat.mul skipn]. apply firstn_all2. lia.
    + assert (n_blocks n bs = 1 + n_blocks (n - bs) bs)%nat as ->.
      { unfold n_blocks. replace (n + bs - 1)%nat with ((n - bs + bs - 1) + 1 * bs)%nat by lia. rewrite Nat.div_add by auto. lia. }
      cbn [Nat.add seq map concat]. unfold block at 1. cbn [Nat.mul skipn].
      rewrite <- seq_shift, map_map.
      rewrite (map_ext _ (block (skipn bs X) bs)).
      * rewrite (IH (n - bs)%nat); [apply firstn_skipn|lia|rewrite skipn_length; lia].
      * intros b. unfold block. f_equal. cbn [Nat.mul]. symmetry. apply skipn_plus.
Qed.

(** ** sums *)
Definition entry (j f : nat) (S : list rw) : R := nth f (nth j S []) 0.
Notation shape := centres.
Definition part (j f : nat) (lx : list (nat * rw)) : R :=
  rsum (map (fun a => if Nat.eqb (fst a) j then nth f (snd a) 0 else 0) lx).
Definition ok_samples (k nf : nat) (lx : list (nat * rw)) : Prop := forall a, In a lx -> (fst a < k)%nat /\ length (snd a) = nf.

Lemma part_app j f a b : part j f (a ++ b) = part j f a + part j f b.
Proof. unfold part. rewrite map_app. apply rsum_app. Qed.
Lemma part_nil j f : part j f [] = 0.
Proof. reflexivity. Qed.
Lemma part_cons j f a l : part j f (a :: l) = (if Nat.eqb (fst a) j then nth f (snd a) 0 else 0) + part j f l.
Proof. reflexivity. Qed.

Lemma shape_row k nf S j : shape k nf S -> (j < k)%nat -> length (nth j S []) = nf.
Proof. intros [L H] J. apply H. apply nth_In. lia. Qed.

Lemma zip_with_length {T} (g : T -> T -> T) a b : length a = length b -> length (zip_with g a b) = length a.
Proof. intros E. unfold zip_with. rewrite map_length, combine_length. lia. Qed.
Lemma add_row_nth a b f : length a = length b -> nth f (add_row arithR a b) 0 = nth f a 0 + nth f b 0.
Proof.
  intros E. unfold add_row, zip_with. revert b E f. induction a as [|x a IH]; intros [|y b] E f; cbn in E; try discriminate.
  - cbn. destruct f; lra.
  - destruct f as [|f]; cbn [combine map nth fst snd].
    + reflexivity.
    + apply IH. lia.
Qed.

Lemma shape_zeros k nf : shape k nf (zeros arithR k nf).
Proof. split; [apply repeat_length|]. intros s H. apply repeat_spec in H. subst. apply repeat_length. Qed.
Lemma nth_repeat' {A} (x : A) n i d : nth i (repeat x n) d = if Nat.ltb i n then x else d.
Proof.
  revert i. induction n as [|n IH]; intros [|i]; cbn [repeat nth]; auto. rewrite IH. cbn. destruct n; reflexivity.
Qed.
Lemma entry_zeros k nf j f : entry j f (zeros arithR k nf) = 0.
Proof.
  unfold entry, zeros. rewrite nth_repeat'. destruct (Nat.ltb j k); [|destruct f; reflexivity].
  rewrite nth_repeat'. destruct (Nat.ltb f nf); reflexivity.
Qed.

Lemma add_sample_ok k nf S a : shape k nf S -> (fst a < k)%nat -> length (snd a) = nf ->
  shape k nf (add_sample arithR S a) /\
  forall j f, entry j f (add_sample arithR S a) = entry j f S + (if Nat.eqb (fst a) j then nth f (snd a) 0 else 0).
Proof.
  intros SH L Lx. pose proof (shape_row k nf S (fst a) SH L) as Lr. destruct SH as [LS HS]. unfold add_sample. split.
  - split; [rewrite put_length; auto|]. intros s Hs. destruct (in_put _ _ _ _ Hs) as [->|H]; auto.
    unfold add_row. rewrite zip_with_length; congruence.
  - intros j f. unfold entry. rewrite put_nth by lia. rewrite (Nat.eqb_sym (fst a) j). destruct (Nat.eqb_spec j (fst a)) as [->|].
    + apply add_row_nth. congruence.
    + lra.
Qed.

Lemma update_plain_ok k nf lx : ok_samples k nf lx -> forall S, shape k nf S ->
  shape k nf (fold_left (add_sample arithR) lx S) /\
  forall j f, entry j f (fold_left (add_sample arithR) lx S) = entry j f S + part j f lx.
Proof.
  induction lx as [|a lx IH]; intros O S SH; cbn [fold_left].
  - split; auto. intros. rewrite part_nil. lra.
  - destruct (O a (or_introl eq_refl)) as [A1 A2]. destruct (add_sample_ok k nf S a SH A1 A2) as [SH' E].
    destruct (IH (fun b Hb => O b (or_intror Hb)) _ SH') as [SH'' E']. split; auto.
    intros j f. rewrite E', E, part_cons. lra.
Qed.

Definition shape4 k nf (q : list rw * list rw * list rw * list rw) : Prop :=
  match q with (w1, w2, w3, w4) => shape k nf w1 /\ shape k nf w2 /\ shape k nf w3 /\ shape k nf w4 end.
Definition entry4 j f (q : list rw * list rw * list rw * list rw) : R :=
  match q with (w1, w2, w3, w4) => entry j f w1 + entry j f w2 + entry j f w3 + entry j f w4 end.

Lemma deal_ok k nf : forall fuel lx q, (length lx < fuel)%nat -> ok_samples k nf lx -> shape4 k nf q ->
  shape4 k nf (deal arithR fuel lx q) /\ forall j f, entry4 j f (deal arithR fuel lx q) = entry4 j f q + part j f lx.
Proof.
  assert (Rest : forall lx w1 w2 w3 w4, ok_samples k nf lx -> shape4 k nf (w1, w2, w3, w4) ->
     shape4 k nf (fold_left (add_sample arithR) lx w1, w2, w3, w4) /\
     forall j f, entry4 j f (fold_left (add_sample arithR) lx w1, w2, w3, w4) = entry4 j f (w1, w2, w3, w4) + part j f lx).
  { intros lx w1 w2 w3 w4 O [S1 [S2 [S3 S4]]]. destruct (update_plain_ok k nf lx O w1 S1) as [SH E]. split.
    - cbn. auto.
    - intros j f. cbn. rewrite E. lra. }
  induction fuel as [|fuel IH]; intros lx [[[w1 w2] w3] w4] L O SH; [lia|].
  destruct lx as [|a [|b [|c [|d lx]]]]; cbn [deal]; try (apply Rest; auto; fail).
  assert (Oa := O a ltac:(cbn; auto)). assert (Ob := O b ltac:(cbn; auto)).
  assert (Oc := O c ltac:(cbn; auto)). assert (Od := O d ltac:(cbn; auto)).
  destruct SH as [S1 [S2 [S3 S4]]].
  destruct (add_sample_ok k nf w1 a S1 (proj1 Oa) (proj2 Oa)) as [S1' E1].
  destruct (add_sample_ok k nf w2 b S2 (proj1 Ob) (proj2 Ob)) as [S2' E2].
  destruct (add_sample_ok k nf w3 c S3 (proj1 Oc) (proj2 Oc)) as [S3' E3].
  destruct (add_sample_ok k nf w4 d S4 (proj1 Od) (proj2 Od)) as [S4' E4].
  destruct (IH lx (add_sample arithR w1 a, add_sample arithR w2 b, add_sample arithR w3 c, add_sample arithR w4 d)) as [SH' E'].
  - cbn in L. lia.
  - intros x Hx. apply O. cbn. auto.
  - cbn. auto.
  - split; auto. intros j f. rewrite E'. cbn [entry4]. rewrite E1, E2, E3, E4, !part_cons. lra.
Qed.

Definition add_tables (a b : list rw) : list rw := map (fun ww => add_row arithR (fst ww) (snd ww)) (combine a b).
Lemma add_tables_ok k nf a b : shape k nf a -> shape k nf b ->
  shape k nf (add_tables a b) /\ forall j f, entry j f (add_tables a b) = entry j f a + entry j f b.
Proof.
  intros [La Ha] [Lb Hb]. unfold add_tables. split.
  - split; [rewrite map_length, combine_length; lia|]. intros s Hs. apply in_map_iff in Hs. destruct Hs as [[x y] [<- Hxy]].
    cbn [fst snd]. unfold add_row. rewrite zip_with_length.
    + apply Ha. eapply in_combine_l; eauto.
    + rewrite Ha, Hb; auto; [eapply in_combine_r|eapply in_combine_l]; eauto.
  - intros j f. unfold entry. destruct (Nat.ltb_spec j k) as [J|J].
    + rewrite (nth_map_in _ _ ([], [])) by (rewrite combine_length; lia). rewrite combine_nth by lia. cbn [fst snd].
      apply add_row_nth. rewrite Ha, Hb; auto; apply nth_In; lia.
    + rewrite !(nth_overflow _ []) by (rewrite ?map_length, ?combine_length; lia). destruct f; cbn; lra.
Qed.

Lemma update_ok st k nf lx : ok_samples k nf lx -> forall S, shape k nf S ->
  shape k nf (update arithR st k nf S lx) /\ forall j f, entry j f (update arithR st k nf S lx) = entry j f S + part j f lx.
Proof.
  intros O S SH. destruct st; cbn [update].
  - apply update_plain_ok; auto.
  - unfold update_four. pose proof (shape_zeros k nf) as Z.
    destruct (deal_ok k nf (Datatypes.S (length lx)) lx (zeros arithR k nf, zeros arithR k nf, zeros arithR k nf, zeros arithR k nf)) as [S4 E4];
      auto; [cbn; auto|].
    destruct (deal arithR (Datatypes.S (length lx)) lx _) as [[[w1 w2] w3] w4]. destruct S4 as [S1 [S2 [S3 S4]]].
    cbn [entry4] in E4. change (fun sw => add_row arithR (fst sw) (snd sw)) with (fun sw : rw * rw => add_row arithR (fst sw) (snd sw)).
    fold (add_tables w1 w2). fold (add_tables (add_tables w1 w2) w3). fold (add_tables (add_tables (add_tables w1 w2) w3) w4).
    fold (add_tables S (add_tables (add_tables (add_tables w1 w2) w3) w4)).
    destruct (add_tables_ok k nf w1 w2 S1 S2) as [T1 F1].
    destruct (add_tables_ok k nf _ w3 T1 S3) as [T2 F2].
    destruct (add_tables_ok k nf _ w4 T2 S4) as [T3 F3].
    destruct (add_tables_ok k nf S _ SH T3) as [T4 F4].
    split; auto. intros j f. rewrite F4, F3, F2, F1. specialize (E4 j f). rewrite !entry_zeros in E4. lra.
Qed.

Lemma in_block {A} (X : list A) bs b x : In x (block X bs b) -> In x X.
Proof.
  unfold block. intros H. assert (H' : In x (skipn (b * bs) X)).
  { rewrite <- (firstn_skipn bs (skipn (b * bs) X)). apply in_or_app. auto. }
  rewrite <- (firstn_skipn (b * bs) X). apply in_or_app. auto.
Qed.

Lemma thread_sums_ok st k nf bs lx : ok_samples k nf lx -> forall blocks S, shape k nf S ->
  shape k nf (fold_left (fun s b => update arithR st k nf s (block lx bs b)) blocks S) /\
  forall j f, entry j f (fold_left (fun s b => update arithR st k nf s (block lx bs b)) blocks S) =
    entry j f S + part j f (concat (map (block lx bs) blocks)).
Proof.
  intros O. induction blocks as [|b blocks IH]; intros S SH; cbn [fold_left map concat].
  - split; auto. intros. rewrite part_nil. lra.
  - destruct (update_ok st k nf (block lx bs b)) with (S := S) as [SH' E]; auto.
    { intros a Ha. apply O. eapply in_block; eauto. }
    destruct (IH _ SH') as [SH'' E']. split; auto. intros j f. rewrite E', E, part_app. lra.
Qed.

Lemma part_perm j f a b : Permutation a b -> part j f a = part j f b.
Proof. intros P. unfold part. apply rsum_perm. apply Permutation_map. auto. Qed.

Lemma perm_concat_map {A B} (g : A -> list B) (a b : list A) : Permutation a b -> Permutation (concat (map g a)) (concat (map g b)).
Proof.
  induction 1; cbn [map concat]; auto.
  - apply Permutation_app_head. auto.
  - rewrite !app_assoc. apply Permutation_app_tail. apply Permutation_app_comm.
  - etransitivity; eauto.
Qed.

Lemma total_sums_ok st k nf bs lx t : (bs <> 0)%nat -> ok_samples k nf lx -> good_team (length lx) bs t ->
  shape k nf (total_sums arithR st k nf bs lx t) /\ forall j f, entry j f (total_sums arithR st k nf bs lx t) = part j f lx.
Proof.
  intros B O GT. destruct t as [|ts]; cbn [total_sums].
  - unfold thread_sums. destruct (thread_sums_ok st k nf bs lx O (seq 0 (n_blocks (length lx) bs)) _ (shape_zeros k nf)) as [SH E].
    split; auto. intros j f. rewrite E, entry_zeros, (concat_blocks bs B _ lx eq_refl). lra.
  - assert (H : forall ts S, shape k nf S ->
      let r := fold_left (fun s blocks => map (fun ab => add_row arithR (fst ab) (snd ab)) (combine s (thread_sums arithR st k nf bs lx blocks))) ts S in
      shape k nf r /\ forall j f, entry j f r = entry j f S + part j f (concat (map (block lx bs) (concat ts)))).
    { clear GT ts. induction ts as [|t ts IH]; intros S SH; cbn [fold_left concat map]; cbv zeta.
      - split; auto. intros. rewrite part_nil. lra.
      - fold (add_tables S (thread_sums arithR st k nf bs lx t)).
        destruct (thread_sums_ok st k nf bs lx O t _ (shape_zeros k nf)) as [SHt Et]. fold (thread_sums arithR st k nf bs lx t) in *.
        destruct (add_tables_ok k nf S _ SH SHt) as [SH' E']. destruct (IH _ SH') as [SH'' E'']. split; auto.
        intros j f. rewrite E'', E', Et, entry_zeros, map_app, concat_app, part_app. lra. }
    destruct (H ts _ (shape_zeros k nf)) as [SH E]. split; auto. intros j f. rewrite E, entry_zeros.
    rewrite (part_perm j f _ lx); [lra|]. rewrite <- (concat_blocks bs B _ lx eq_refl) at 2. apply perm_concat_map. apply GT.
Qed.

(** ** counts *)
Definition cnt (ls : list nat) (j : nat) : Z := Z.of_nat (count_occ Nat.eq_dec ls j).
Lemma cnt_app a b j : (cnt (a ++ b) j = cnt a j + cnt b j)%Z.
Proof. unfold cnt. rewrite count_occ_app. lia. Qed.
Lemma cnt_cons a b j : (cnt (a :: b) j = (if Nat.eqb a j then 1 else 0) + cnt b j)%Z.
Proof. unfold cnt. cbn [count_occ]. destruct (Nat.eq_dec a j) as [->|N]; [rewrite Nat.eqb_refl; lia|]. destruct (Nat.eqb_spec a j); [contradiction|lia]. Qed.
Lemma cnt_perm a b j : Permutation a b -> cnt a j = cnt b j.
Proof. intros P. unfold cnt. f_equal. apply Permutation_count_occ. auto. Qed.

Lemma add_counts_ok k ls : (forall l, In l ls -> (l < k)%nat) -> forall c, length c = k ->
  length (fold_left add_count ls c) = k /\ forall j, (j < k)%nat -> nth j (fold_left add_count ls c) 0%Z = (nth j c 0 + cnt ls j)%Z.
Proof.
  induction ls as [|a ls IH]; intros H c L; cbn [fold_left].
  - split; auto. intros. unfold cnt. cbn. lia.
  - destruct (IH (fun l Hl => H l (or_intror Hl)) (add_count c a)) as [L' E]; [unfold add_count; rewrite put_length; auto|].
    split; auto. intros j J. rewrite E by auto. unfold add_count. rewrite put_nth by (rewrite L; apply H; cbn; auto).
    rewrite cnt_cons, (Nat.eqb_sym j a). destruct (Nat.eqb_spec a j) as [->|]; lia.
Qed.

Lemma nth_repeat0 k j : nth j (repeat 0%Z k) 0%Z = 0%Z.
Proof. rewrite nth_repeat'. destruct (Nat.ltb j k); auto. Qed.

Lemma count_labels_ok k ls : (forall l, In l ls -> (l < k)%nat) ->
  length (count_labels k ls) = k /\ forall j, (j < k)%nat -> nth j (count_labels k ls) 0%Z = cnt ls j.
Proof.
  intros H. destruct (add_counts_ok k ls H (repeat 0%Z k) (repeat_length _ _)) as [L E]. split; auto.
  intros j J. unfold count_labels. rewrite E by auto. rewrite nth_repeat0. lia.
Qed.

Lemma thread_counts_ok k bs ls : (forall l, In l ls -> (l < k)%nat) -> forall blocks c, length c = k ->
  let r := fold_left (fun c b => fold_left add_count (block ls bs b) c) blocks c in
  length r = k /\ forall j, (j < k)%nat -> nth j r 0%Z = (nth j c 0 + cnt (concat (map (block ls bs) blocks)) j)%Z.
Proof.
  intros H. induction blocks as [|b blocks IH]; intros c L; cbn [fold_left map concat]; cbv zeta.
  - split; auto. intros. unfold cnt. cbn. lia.
  - destruct (add_counts_ok k (block ls bs b)) with (c := c) as [L' E']; auto.
    { intros l Hl. apply H. eapply in_block; eauto. }
    destruct (IH _ L') as [L'' E'']. split; auto. intros j J. rewrite E'', E', cnt_app by auto. lia.
Qed.

Lemma total_counts_ok k bs ls t : (bs <> 0)%nat -> (forall l, In l ls -> (l < k)%nat) -> good_team (length ls) bs t ->
  length (total_counts k bs ls t) = k /\ forall j, (j < k)%nat -> nth j (total_counts k bs ls t) 0%Z = cnt ls j.
Proof.
  intros B H GT. destruct t as [|ts]; cbn [total_counts].
  - unfold thread_counts. destruct (thread_counts_ok k bs ls H (seq 0 (n_blocks (length ls) bs)) _ (repeat_length 0%Z k)) as [L E].
    split; auto. intros j J. rewrite E, nth_repeat0 by auto. rewrite (concat_blocks bs B _ ls eq_refl). lia.
  - assert (Q : forall ts c, length c = k ->
      let r := fold_left (fun s blocks => map (fun ab => (fst ab + snd ab)%Z) (combine s (thread_counts k bs ls blocks))) ts c in
      length r = k /\ forall j, (j < k)%nat -> nth j r 0%Z = (nth j c 0 + cnt (concat (map (block ls bs) (concat ts))) j)%Z).
    { clear GT ts. induction ts as [|t ts IH]; intros c L; cbn [fold_left concat map]; cbv zeta.
      - split; auto. intros. unfold cnt. cbn. lia.
      - destruct (thread_counts_ok k bs ls H t _ (repeat_length 0%Z k)) as [Lt Et]. fold (thread_counts k bs ls t) in *. cbv zeta in *.
        match goal with |- context [fold_left _ ts ?c'] => destruct (IH c') as [L' E'] end.
        { rewrite map_length, combine_length. lia. }
        split; auto. intros j J. rewrite E' by auto. rewrite (nth_map_in _ _ (0%Z, 0%Z)) by (rewrite combine_length; lia).
        rewrite combine_nth by lia. cbn [fst snd]. rewrite Et, nth_repeat0, map_app, concat_app, cnt_app by auto. lia. }
    destruct (Q ts _ (repeat_length 0%Z k)) as [L E]. split; auto. intros j J. rewrite E, nth_repeat0 by auto.
    rewrite (cnt_perm _ ls); [lia|]. rewrite <- (concat_blocks bs B _ ls eq_refl) at 2. apply perm_concat_map. apply GT.
Qed.

(** ** the new centres are the means *)
Lemma cnt_members ls X j : length ls = length X -> cnt ls j = Z.of_nat (length (members ls X j)).
Proof.
  revert X. induction ls as [|a ls IH]; intros [|x X] E; cbn in E; try discriminate.
  - reflexivity.
  - rewrite cnt_cons. unfold members in *. cbn [combine filter fst]. rewrite IH with (X := X) by lia.
    destruct (Nat.eqb a j); cbn [map length]; lia.
Qed.
Lemma part_members ls X j f : part j f (combine ls X) = rsum (map (fun x => nth f x 0) (members ls X j)).
Proof.
  unfold part, members. induction (combine ls X) as [|a l IH]; [reflexivity|].
  cbn [map filter]. destruct (Nat.eqb (fst a) j); cbn [map]; unfold rsum in *; cbn [fold_right]; rewrite IH; lra.
Qed.

Lemma list_ext {A} (a b : list A) d : length a = length b -> (forall i, (i < length a)%nat -> nth i a d = nth i b d) -> a = b.
Proof. intros L H. apply (nth_ext a b d d); auto. Qed.

Lemma means_shape k nf ls X : shape k nf (means k nf ls X).
Proof.
  unfold means. split; [rewrite map_length, seq_length; auto|]. intros s Hs. apply in_map_iff in Hs. destruct Hs as [j [<- _]].
  destruct (members ls X j); [apply repeat_length|]. unfold mean. rewrite map_length, seq_length. auto.
Qed.

Lemma means_entry k nf ls X j f : (j < k)%nat -> (f < nf)%nat ->
  entry j f (means k nf ls X) =
  rsum (map (fun x => nth f x 0) (members ls X j)) / (match length (members ls X j) with O => 1 | n => INR n end).
Proof.
  intros J F. unfold entry, means. rewrite (nth_map_in _ _ O) by (rewrite seq_length; auto). rewrite seq_nth by auto. cbn [Nat.add].
  destruct (members ls X j) as [|x xs] eqn:E.
  - rewrite nth_repeat'. rewrite (proj2 (Nat.ltb_lt _ _)) by auto. cbn [map rsum fold_right length]. unfold rsum. cbn. lra.
  - unfold mean. rewrite (nth_map_in _ _ O) by (rewrite seq_length; auto). rewrite seq_nth by auto. reflexivity.
Qed.

Lemma shape_ext k nf A B : shape k nf A -> shape k nf B ->
  (forall j f, (j < k)%nat -> (f < nf)%nat -> entry j f A = entry j f B) -> A = B.
Proof.
  intros [LA HA] [LB HB] E. apply (list_ext A B []); [congruence|]. intros j J.
  assert (La : length (nth j A []) = nf) by (apply HA, nth_In; auto).
  assert (Lb : length (nth j B []) = nf) by (apply HB, nth_In; lia).
  apply (list_ext _ _ 0); [congruence|]. intros f F. apply E; lia.
Qed.

Theorem new_centres_means st bs t k nf ls X : (bs <> 0)%nat -> table nf X -> length ls = length X ->
  (forall l, In l ls -> (l < k)%nat) -> good_team (length X) bs t ->
  new_centres arithR st bs t k nf ls X = means k nf ls X.
Proof.
  intros B TX L H GT.
  assert (O : ok_samples k nf (combine ls X)).
  { intros [l x] Hlx. split; [apply H; eapply in_combine_l; eauto|apply TX; eapply in_combine_r; eauto]. }
  assert (Lc : length (combine ls X) = length X) by (rewrite combine_length; lia).
  destruct (total_sums_ok st k nf bs (combine ls X) t B O) as [[LS HS] ES]; [rewrite Lc; auto|].
  destruct (total_counts_ok k bs ls t B H) as [LC EC]; [rewrite L; auto|].
  unfold new_centres. set (sums := total_sums _ _ _ _ _ _ _) in *. set (counts := total_counts _ _ _ _) in *.
  apply (shape_ext k nf).
  - unfold scale. split; [rewrite map_length, combine_length; lia|]. intros s Hs. apply in_map_iff in Hs.
    destruct Hs as [[a c] [<- Hac]]. rewrite map_length. apply HS. eapply in_combine_l; eauto.
  - apply means_shape.
  - intros j f J F. rewrite means_entry by auto. unfold entry, scale.
    rewrite (nth_map_in _ _ ([], 0%Z)) by (rewrite combine_length; lia). rewrite combine_nth by lia. cbn [fst snd].
    assert (Lr : length (nth j sums []) = nf) by (apply HS, nth_In; lia).
    rewrite (nth_map_in _ _ 0) by lia. fold (entry j f sums). rewrite ES, part_members, EC by auto.
    rewrite (cnt_members ls X) by auto. cbn [div of_Z arithR]. f_equal.
    destruct (length (members ls X j)) as [|n] eqn:En; [reflexivity|].
    rewrite INR_IZR_INZ. destruct (Z.eqb_spec (Z.of_nat (S n)) 0); [lia|reflexivity].
Qed.
