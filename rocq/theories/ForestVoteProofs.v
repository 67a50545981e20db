From Coq Require Import ZArith List Bool Permutation Lia Reals Lra.
From Flocq Require Import IEEE754.BinarySingleNaN.
From Verif Require Import Base Par F64 UtilModel SortModel ForestModel ForestSpec ForestProofs.
Import ListNotations.
Local Open Scope Z_scope.

Lemma filter_length_perm {A} (f : A -> bool) l l' : Permutation l l' -> length (filter f l) = length (filter f l').
Proof. induction 1; cbn; auto; repeat destruct (f _); cbn; congruence. Qed.
Lemma filter_map_length {A B} (g : A -> B) (f : B -> bool) l : length (filter f (map g l)) = length (filter (fun a => f (g a)) l).
Proof. induction l as [|a l IH]; cbn; auto. destruct (f (g a)); cbn; congruence. Qed.
Lemma filter_one l s0 : NoDup l -> In s0 l -> length (filter (fun s => s =? s0) l) = 1%nat.
Proof.
  induction 1 as [|a l N D IH]; [easy|]. intros I. cbn. destruct (a =? s0) eqn:Ea.
  - apply Z.eqb_eq in Ea. subst a. cbn. f_equal. replace (filter (fun s => s =? s0) l) with (@nil Z); auto.
    clear -N. induction l as [|b l IH]; auto. cbn. destruct (b =? s0) eqn:Eb; [apply Z.eqb_eq in Eb; subst; exfalso; apply N; now left|].
    apply IH. intros I. apply N. now right.
  - apply IH. destruct I as [->|I]; auto. rewrite Z.eqb_refl in Ea. discriminate.
Qed.
Lemma filter_none {A} (f : A -> bool) l : (forall a, In a l -> f a = false) -> filter f l = [].
Proof. induction l as [|a l IH]; intros H; cbn; auto. rewrite (H a) by now left. apply IH. firstorder. Qed.
Lemma filter_flat_length {A B} (f : A -> list B) (P : B -> bool) (Q : A -> bool) l :
  (forall a, In a l -> length (filter P (f a)) = if Q a then 1%nat else 0%nat) -> length (filter P (flat_map f l)) = length (filter Q l).
Proof.
  induction l as [|a l IH]; intros H; auto. cbn [flat_map filter]. rewrite filter_app, app_length, IH by (intros; apply H; now right).
  rewrite (H a) by now left. destruct (Q a); cbn; auto.
Qed.

Section Vote.
Variables (nsamp n_class n_tree block_size n_blocks block_rem n_threads : Z) (vote : Z -> Z -> Z).
Hypothesis Hn : 0 <= nsamp.
Hypothesis Hb : 0 < block_size.
Hypothesis Hs : blocking_scheme nsamp block_size = Some (n_blocks, block_rem).
Hypothesis Hc : 0 < n_class.
Hypothesis Hv : forall t s, 0 <= t < n_tree -> 0 <= s < nsamp -> 0 <= vote t s < n_class.

Definition part (k p : Z) : bool := (k * block_size <=? p) && (p <? (k + 1) * block_size).
Lemma part_separate k k' p : part k p = true -> part k' p = true -> k = k'.
Proof. unfold part. rewrite !andb_true_iff, !Z.leb_le, !Z.ltb_lt. nia. Qed.

Let body := vote_body nsamp n_class block_size n_blocks block_rem vote.
Definition vote_ev (t s : Z) : list Z := [s * n_class + vote t s].
Definition vote_evs (it : Z * Z) : list Z :=
  flat_map (fun i => vote_ev (snd it) (fst it * block_size + i)) (zrange (n_elem n_blocks block_size block_rem (fst it))).
Definition good (k : Z) (it : Z * Z) : Prop := 0 <= k < n_threads /\ 0 <= fst it < n_blocks /\ 0 <= snd it < n_tree.

Lemma vote_body_local k it rest b r : good k it -> exists b' r',
  local Z Z (body k it ++ rest) b r = vote_evs it ++ local Z Z rest b' r'.
Proof.
  intros _. destruct it as [bl t]. unfold body, vote_body, vote_evs. cbn [fst snd]. rewrite <- app_assoc.
  destruct (item_local Z Z k (fun i => inside nsamp (bl * block_size + i)) (fun i => k * block_size + i) (fun i => vote t (bl * block_size + i))
    (fun i c => (bl * block_size + i) * n_class + c) (zrange (n_elem n_blocks block_size block_rem bl)) rest b r) as (b' & r' & ->).
  { intros. lia. }
  exists b', r'. reflexivity.
Qed.

Lemma vote_body_mine k it : good k it -> Forall (mine Z Z (n_threads * block_size) part k) (body k it).
Proof.
  intros (K & B & T). destruct it as [bl t]. cbn [fst snd] in *. unfold body, vote_body. apply Forall_app. split.
  - apply Forall_map, Forall_forall. intros i I. apply in_zrange in I.
    destruct (elem_inside _ _ _ _ Hn Hb Hs bl i B I) as [I1 I2]. cbn [mine]. unfold inside, part.
    rewrite !andb_true_iff, !Z.leb_le, !Z.ltb_lt. nia.
  - apply Forall_flat_map, Forall_forall. intros i I. apply in_zrange in I.
    destruct (elem_inside _ _ _ _ Hn Hb Hs bl i B I) as [I1 I2].
    repeat constructor; unfold inside, part; rewrite !andb_true_iff, !Z.leb_le, !Z.ltb_lt; nia.
Qed.

Lemma count_ok : forall cells c0, (forall p, In p cells -> 0 <= p < n_class * nsamp) -> exists c,
  count_classes nsamp n_class cells c0 = Some c /\ forall p, c p = c0 p + Z.of_nat (length (filter (fun q => q =? p) cells)).
Proof.
  induction cells as [|q cells IH]; intros c0 H.
  - exists c0. split; auto. intros p. cbn. lia.
  - cbn [count_classes]. assert (I : inside (n_class * nsamp) q = true).
    { specialize (H q (or_introl eq_refl)). unfold inside. rewrite andb_true_iff, Z.leb_le, Z.ltb_lt. auto. }
    rewrite I. destruct (IH (store_at c0 q (c0 q + 1))) as (c & E & F). { intros p P. apply H. now right. }
    exists c. split; auto. intros p. rewrite F. unfold store_at. cbn [filter]. rewrite (Z.eqb_sym q p).
    destruct (p =? q) eqn:Ep; cbn [length]; [apply Z.eqb_eq in Ep; subst|]; lia.
Qed.

Lemma cell_votes s c : 0 <= s < nsamp -> 0 <= c < n_class ->
  Z.of_nat (length (filter (fun q => q =? s * n_class + c) (flat_map (fun t => flat_map (vote_ev t) (zrange nsamp)) (zrange n_tree))))
  = votes vote n_tree s c.
Proof.
  intros S C. unfold votes. f_equal. apply filter_flat_length. intros t T. apply in_zrange in T.
  replace (flat_map (vote_ev t) (zrange nsamp)) with (map (fun s => s * n_class + vote t s) (zrange nsamp)) by (unfold vote_ev; induction (zrange nsamp); cbn; congruence).
  rewrite filter_map_length.
  rewrite (filter_ext_in _ (fun s' => (s' =? s) && (vote t s =? c))).
  2:{ intros s' I. apply in_zrange in I. pose proof (Hv t s' T I). pose proof (Hv t s T S). destruct (s' =? s) eqn:E.
      - apply Z.eqb_eq in E. subst s'. cbn [andb]. destruct (vote t s =? c) eqn:Ev; lia.
      - cbn [andb]. apply Z.eqb_neq in E. apply Z.eqb_neq. nia. }
  destruct (vote t s =? c).
  - rewrite (filter_ext _ (fun s' => s' =? s)) by (intros; apply andb_true_r). apply filter_one; [apply zrange_nodup|apply in_zrange; auto].
  - rewrite filter_none; auto. intros. apply andb_false_r.
Qed.

Lemma best_class_ok count i : (forall c, 0 <= c < n_class -> 0 <= count (i * n_class + c)) ->
  let k := best_class n_class count i in
  0 <= k < n_class /\ forall c, 0 <= c < n_class -> count (i * n_class + c) <= count (i * n_class + k) /\ (c < k -> count (i * n_class + c) < count (i * n_class + k)).
Proof.
  intros P. unfold best_class.
  assert (G : forall n : nat, Z.of_nat n <= n_class ->
    let '(m, k) := fold_left (fun '(m, k) c => if m <? count (i * n_class + c) then (count (i * n_class + c), c) else (m, k)) (zrange (Z.of_nat n)) (-1, -1) in
    (n = O /\ m = -1) \/ (0 <= k < Z.of_nat n /\ m = count (i * n_class + k) /\ forall c, 0 <= c < Z.of_nat n -> count (i * n_class + c) <= m /\ (c < k -> count (i * n_class + c) < m))).
  { induction n as [|n IH]; intros Hl; [cbn; auto|]. specialize (IH ltac:(lia)).
    replace (Z.of_nat (S n)) with (Z.of_nat n + 1) by lia. rewrite zrange_app, fold_left_app by lia.
    change (zrange 1) with [0]. cbn [map fold_left].
    destruct (fold_left _ (zrange (Z.of_nat n)) (-1, -1)) as [m k].
    specialize (P (Z.of_nat n + 0) ltac:(lia)).
    destruct (m <? count (i * n_class + (Z.of_nat n + 0))) eqn:L; [apply Z.ltb_lt in L|apply Z.ltb_ge in L]; right.
    - split; [lia|split; auto]. intros c Hc'. destruct (Z.eq_dec c (Z.of_nat n + 0)) as [->|Ne]; [lia|].
      destruct IH as [[-> ->]|(_ & _ & IH)]; [lia|]. destruct (IH c ltac:(lia)). lia.
    - destruct IH as [[-> ->]|(K & M & IH)]; [lia|]. split; [lia|split; auto]. intros c Hc'.
      destruct (Z.eq_dec c (Z.of_nat n + 0)) as [->|Ne]; [lia|]. apply IH. lia. }
  specialize (G (Z.to_nat n_class) ltac:(lia)). rewrite Z2Nat.id in G by lia.
  destruct (fold_left _ (zrange n_class) (-1, -1)) as [m k]. cbn [snd]. destruct G as [[G _]|(K & -> & G)]; [lia|]. auto.
Qed.

Lemma votes_counted sched tr : team n_threads (iterations n_blocks n_tree) sched ->
  interleaving (threads body 0 sched) tr ->
  exists pred, predict_with nsamp n_class block_size n_threads tr = Some pred /\ forall s, 0 <= s < nsamp -> majority vote n_tree n_class s (pred s).
Proof.
  intros [Tl Tp] I. unfold predict_with.
  destruct (team_run Z Z (n_threads * block_size) part part_separate body vote_evs good vote_body_local vote_body_mine sched tr
    (Memory (fun _ => 0) (fun _ => 0) [])) as (m & R & P); auto.
  { intros i its J K. apply Forall_forall. intros it L.
    assert (In it (iterations n_blocks n_tree)) by (apply (Permutation_in _ (Permutation_sym Tp)), in_concat; eauto).
    apply in_iterations in H. unfold good. lia. }
  cbn [updates app] in P. rewrite R. cbn [bind].
  assert (P' : Permutation (updates m) (flat_map (fun t => flat_map (vote_ev t) (zrange nsamp)) (zrange n_tree))).
  { rewrite P, <- (Permutation_flat_map _ Tp). apply (all_updates nsamp block_size n_blocks block_rem Hn Hb Hs vote_ev). }
  destruct (count_ok (updates m) (fun _ => 0)) as (c & E & F).
  { intros p Hp. apply (Permutation_in _ P') in Hp. apply in_flat_map in Hp. destruct Hp as (t & T & Hp). apply in_flat_map in Hp.
    destruct Hp as (s & S & [<-|[]]). apply in_zrange in T, S. pose proof (Hv t s T S). nia. }
  rewrite E. cbn [bind]. eexists. split; [reflexivity|]. intros s S.
  assert (V : forall k, 0 <= k < n_class -> c (s * n_class + k) = votes vote n_tree s k).
  { intros k K. rewrite F, (filter_length_perm _ _ _ P'). cbn. apply cell_votes; auto. }
  destruct (best_class_ok c s) as [K M]. { intros k K. rewrite V by auto. unfold votes. lia. }
  split; auto. intros k Hk. rewrite <- !V by auto. auto.
Qed.
End Vote.
