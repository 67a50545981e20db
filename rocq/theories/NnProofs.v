(** Nearest neighbours: the searches as a whole. *)
From Coq Require Import ZArith List Bool Reals Permutation Sorted Lia Lra.
From Verif Require Import Base Par UtilModel UtilSpec UtilTheorems NnModel NnSpec NnSelectProofs NnHeapProofs NnBoxProofs NnTreeProofs.
Import ListNotations.

Lemma NoDup_flat {A B} (f : A -> list B) l : NoDup l -> (forall a, In a l -> NoDup (f a)) ->
  (forall a b x, In a l -> In b l -> In x (f a) -> In x (f b) -> a = b) -> NoDup (flat_map f l).
Proof.
  induction l as [|a l IH]; intros Hl Hf Hd; simpl; [constructor|]. inversion Hl; subst.
  apply NoDup_join.
  - apply Hf; simpl; auto.
  - apply IH; auto; intros; [apply Hf; simpl; auto|]. eapply Hd; simpl; eauto.
  - intros x Hx Hx2. apply in_flat_map in Hx2 as (b & Hb & Hx2).
    assert (a = b) by (eapply Hd; simpl; eauto). subst. contradiction.
Qed.

(** ** Sorted lists *)
Fixpoint r_insert (x : R) (l : list R) : list R :=
  match l with [] => [x] | y :: l' => if Rle_dec x y then x :: l else y :: r_insert x l' end.
Lemma r_insert_perm x l : Permutation (r_insert x l) (x :: l).
Proof.
  induction l as [|y l IH]; simpl; auto. destruct (Rle_dec x y); auto. rewrite IH. constructor.
Qed.
Lemma r_insert_sorted x l : StronglySorted Rle l -> StronglySorted Rle (r_insert x l).
Proof.
  induction 1 as [|y l Hs IH Hf]; simpl; [repeat constructor|]. destruct (Rle_dec x y).
  - constructor; [constructor; auto|]. constructor; auto. eapply Forall_impl; [|exact Hf]. intros. lra.
  - constructor; auto. rewrite Forall_forall in *. intros z Hz.
    eapply Permutation_in in Hz; [|apply r_insert_perm]. destruct Hz as [<-|Hz]; auto. lra.
Qed.
Lemma r_sorted l : exists s, Permutation s l /\ StronglySorted Rle s.
Proof.
  induction l as [|x l (s & P & H)].
  - exists []. split; constructor.
  - exists (r_insert x s). split; [rewrite r_insert_perm; auto|apply r_insert_sorted; auto].
Qed.
Lemma sorted_unique l : forall l', Permutation l l' -> StronglySorted Rle l -> StronglySorted Rle l' -> l = l'.
Proof.
  induction l as [|x l IH]; intros l' P H H'.
  - apply Permutation_nil in P. auto.
  - destruct l' as [|y l']; [apply Permutation_sym, Permutation_nil in P; discriminate|].
    inversion H; subst. inversion H'; subst. rewrite Forall_forall in *.
    assert (x = y).
    { assert (Hx : In x (y :: l')) by (eapply Permutation_in; [exact P|simpl; auto]).
      assert (Hy : In y (x :: l)) by (eapply Permutation_in; [symmetry; exact P|simpl; auto]).
      destruct Hx as [|Hx]; auto. destruct Hy as [|Hy]; auto.
      apply Rle_antisym; auto. }
    subst. f_equal. apply IH; auto. eapply Permutation_cons_inv; eauto.
Qed.
Lemma sorted_app a b : StronglySorted Rle a -> StronglySorted Rle b -> (forall x y, In x a -> In y b -> (x <= y)%R) ->
  StronglySorted Rle (a ++ b).
Proof.
  induction 1 as [|x a Hs IH Hf]; intros Hb Hab; simpl; auto. constructor.
  - apply IH; auto. intros; apply Hab; simpl; auto.
  - rewrite Forall_forall in *. intros y Hy. apply in_app_or in Hy as [Hy|Hy]; auto. apply Hab; simpl; auto.
Qed.

(** [k] smallest entries in order have unique distances *)
Lemma smallest_keys {T} (key : T -> R) k all c c' : k_smallest key k all c -> ascending key c ->
  k_smallest key k all c' -> ascending key c' -> same_distances key c c'.
Proof.
  intros (L & r & P & H) A (L' & r' & P' & H') A'. unfold same_distances.
  set (f := fun e : Z * T => key (snd e)).
  assert (S : forall c, ascending key c -> StronglySorted Rle (map f c)).
  { induction 1 as [|e l Hs IH Hf]; simpl; constructor; auto. rewrite Forall_forall in *.
    intros y Hy. apply in_map_iff in Hy as (z & <- & Hz). apply Hf; auto. }
  destruct (r_sorted (map f r)) as (s & Ps & Ss). destruct (r_sorted (map f r')) as (s' & Ps' & Ss').
  assert (E : map f c ++ s = map f c' ++ s').
  { apply sorted_unique.
    - rewrite Ps, Ps', <- !map_app. apply Permutation_map. rewrite P, P'. reflexivity.
    - apply sorted_app; auto. intros x y Hx Hy. eapply Permutation_in in Hy; [|exact Ps].
      apply in_map_iff in Hx as (e & <- & He). apply in_map_iff in Hy as (g & <- & Hg). apply H; auto.
    - apply sorted_app; auto. intros x y Hx Hy. eapply Permutation_in in Hy; [|exact Ps'].
      apply in_map_iff in Hx as (e & <- & He). apply in_map_iff in Hy as (g & <- & Hg). apply H'; auto. }
  assert (EL : length (map f c) = length (map f c')) by (rewrite !map_length; congruence).
  apply (f_equal (firstn (length (map f c)))) in E. rewrite firstn_app, Nat.sub_diag, firstn_all in E.
  rewrite EL, firstn_app, Nat.sub_diag, firstn_all in E. simpl in E. now rewrite !app_nil_r in E.
Qed.

(** ** Brute force *)
Section Brute.
Context {T : Type} (N : arith T) (num : T -> Prop) (key : T -> R).
Notation all D n := (map (fun i => (i, D i)) (zrange n)).

Lemma entries_all (D : Z -> T) n max_block threads n_blocks rem : (0 < n)%Z -> (0 < max_block)%Z ->
  blocking_scheme n (Z.min max_block n) = Some (n_blocks, rem) -> Permutation (concat threads) (zrange n_blocks) ->
  Permutation (concat (concat (brute_entries D n max_block threads))) (all D n).
Proof.
  intros Hn Hb Hs P. set (bs := Z.min max_block n) in *.
  destruct (blocking_scheme_partitions n bs) as (k & rm & E & [P1 P2] & Ek); try lia.
  rewrite Hs in E. injection E as <- <-.
  unfold brute_entries. fold bs. rewrite Hs. rewrite <- concat_map.
  rewrite <- flat_map_concat_map. rewrite (Permutation_flat_map _ P).
  set (g := fun b => map (fun ii => (ii + b * bs)%Z) (zrange (block_len n_blocks bs rem b))).
  assert (EG : forall l, flat_map (block_entries D n_blocks rem bs) l = map (fun i => (i, D i)) (flat_map g l)).
  { induction l as [|b l IH]; simpl; auto. rewrite map_app. f_equal; auto.
    unfold block_entries, g, block_len. rewrite map_map, Z.gtb_ltb. reflexivity. }
  rewrite EG. apply Permutation_map. apply NoDup_Permutation.
  - apply NoDup_flat.
    + apply zrange_nodup.
    + intros b Hb'. apply FinFun.Injective_map_NoDup; [intros u v; lia|apply zrange_nodup].
    + intros a b x Ha Hb' Hx Hy. unfold g in Hx, Hy.
      apply in_map_iff in Hx as (u & Eu & Hu). apply in_map_iff in Hy as (v & Ev & Hv).
      apply in_zrange in Hu, Hv, Ha, Hb'.
      destruct (P1 a Ha) as (A1 & A2 & A3). destruct (P1 b Hb') as (B1 & B2 & B3). unfold block_off in *.
      destruct (P2 x) as (c & _ & Hc); [lia|]. rewrite <- (Hc a), <- (Hc b); auto; lia.
  - apply zrange_nodup.
  - intros x. rewrite in_zrange, in_flat_map. split.
    + intros (b & Hb' & Hx). unfold g in Hx. apply in_map_iff in Hx as (u & <- & Hu). apply in_zrange in Hu, Hb'.
      destruct (P1 b Hb') as (B1 & B2 & B3). unfold block_off in *. lia.
    + intros Hx. destruct (P2 x Hx) as (b & [Hb' Hx2] & _). exists b. split; [apply in_zrange; auto|].
      unfold g. apply in_map_iff. exists (x - b * bs)%Z. unfold block_off in *. split; [lia|apply in_zrange; lia].
Qed.

Section Order.
Variables (ltb leb : T -> T -> bool).
Hypothesis Hc : compares ltb leb num key.
Lemma brute_ok v k (D : Z -> T) n max_block threads n_blocks rem : (0 < k)%nat -> (0 < n)%Z -> (0 < max_block)%Z ->
  (forall i, (0 <= i < n)%Z -> num (D i)) ->
  blocking_scheme n (Z.min max_block n) = Some (n_blocks, rem) -> Permutation (concat threads) (zrange n_blocks) ->
  let res := stable_sort ltb (brute_candidates N ltb leb v k (brute_entries D n max_block threads)) in
  k_smallest key k (all D n) res /\ ascending key res.
Proof.
  intros Hk Hn Hb HD Hs P. cbv zeta. pose proof (entries_all D n max_block threads n_blocks rem Hn Hb Hs P) as PE.
  assert (HA : Forall (fun e => num (snd e)) (all D n)).
  { apply Forall_forall. intros e He. apply in_map_iff in He as (i & <- & Hi). apply in_zrange in Hi. apply HD; auto. }
  assert (HN : Forall (fun e => num (snd e)) (concat (concat (brute_entries D n max_block threads)))).
  { rewrite Forall_forall in *. intros e He. apply HA. eapply Permutation_in; eauto. }
  assert (K : k_smallest key k (all D n) (brute_candidates N ltb leb v k (brute_entries D n max_block threads))).
  { eapply smallest_perm; [exact PE|]. apply (brute_smallest N ltb leb num key Hc); auto. }
  split.
  - eapply smallest_perm_res; [symmetry; apply sort_perm|exact K].
  - apply (sort_ascending ltb leb num key Hc). destruct K as (_ & rest & PR & _).
    rewrite Forall_forall in *. unfold nums. intros. apply Forall_forall. intros e He. apply HA. eapply Permutation_in; [exact PR|].
    apply in_or_app; auto.
Qed.
End Order.
End Brute.

(** ** The k-d tree *)
Section Kd.
Context {T : Type} (N : arith T) (num fin : T -> Prop) (key : T -> R).
Hypothesis M : monotone N num fin key.
Variables (m : metric) (p p_inv : T).
Hypothesis Hm : metric_ok N num fin key m p p_inv.
Variables (row : Z -> list T) (n : Z) (nf : nat).
Hypothesis Hrow : samples fin row n nf.
Variables (nth_element : (Z -> Z -> bool) -> nat -> list Z -> list Z) (leaf_size : Z).
Hypothesis Hnth : nth_element_contract nth_element.
Hypothesis Hleaf : (1 <= leaf_size)%Z.
Hypothesis Hnf : (0 < nf)%nat.
Hypothesis Hn : (0 < n)%Z.
Variables (parts : list (list Z)) (root_dim : nat).
Hypothesis Hparts : Permutation (concat parts) (zrange n).
Hypothesis Hdim : (root_dim < nf)%nat.
Notation t := (build_kd N row nth_element nf leaf_size n parts root_dim).
Notation dist x i := (distance N m p p_inv x (row i)).

Lemma kd_indices : tree_ok N fin key row nf t /\ Permutation (node_indices t) (zrange n).
Proof. apply (build_kd_ok N num fin key M row n nf Hrow nth_element leaf_size Hnth Hleaf Hnf); auto. Qed.
Lemma kd_in i : In i (node_indices t) <-> (0 <= i < n)%Z.
Proof.
  destruct kd_indices as [_ P]. split; intros H.
  - apply in_zrange. eapply Permutation_in; eauto.
  - eapply Permutation_in; [symmetry; exact P|]. apply in_zrange; auto.
Qed.

Lemma kd_radius_ok x self eps : Forall fin x -> length x = nf -> num eps -> (0 <= key eps)%R ->
  exists res, kd_radius N row m p p_inv x self eps t = Some res /\ NoDup (map fst res) /\
    (forall i d, In (i, d) res -> candidate n self i /\ d = dist x i /\ (key d <= key (eps_internal N m eps))%R) /\
    (forall i, candidate n self i -> (key (dist x i) <= key (eps_internal N m eps))%R ->
       within N key nf x (row i) eps -> In (i, dist x i) res).
Proof.
  intros Hx Hl He He0. destruct kd_indices as [Ht P].
  assert (Hei : num (eps_internal N m eps)).
  { unfold eps_internal. destruct (euclid m); auto. apply (m_square _ _ _ _ M); auto. }
  destruct (radius_ok N num fin key M m p p_inv Hm row n nf Hrow x self Hx Hl eps (eps_internal N m eps) t) as (res & E & Nd & S & C); auto.
  { intros i H. apply kd_in; auto. }
  { eapply Permutation_NoDup; [symmetry; exact P|apply zrange_nodup]. }
  exists res. split; auto. split; auto. split.
  - intros i d H. destruct (S _ H) as (j & E2 & Hj & Hs & Hle). unfold entry in E2. injection E2 as -> ->.
    split; [|auto]. split; [apply kd_in; auto|]. intros Hsf. apply is_self_spec in Hsf. congruence.
  - intros i [Hi Hs] Hle Hw. apply (C i); auto.
    + apply kd_in; auto.
    + destruct (is_self self i) eqn:E3; auto. apply is_self_spec in E3. contradiction.
Qed.
Lemma kd_radius_exact x self eps : Forall fin x -> length x = nf -> num eps -> (0 <= key eps)%R ->
  euclid m = false \/ strict_square N num key eps ->
  exists res, kd_radius N row m p p_inv x self eps t = Some res /\ NoDup (map fst res) /\
    (forall i d, In (i, d) res <-> candidate n self i /\ d = dist x i /\ (key d <= key (eps_internal N m eps))%R).
Proof.
  intros Hx Hl He He0 Hst. destruct (kd_radius_ok x self eps Hx Hl He He0) as (res & E & Nd & S & C).
  exists res. split; auto. split; auto. intros i d. split; [apply S|]. intros (Hc & -> & Hle). apply C; auto.
  apply (near_of_dist N num fin key M m p p_inv Hm row n nf Hrow); auto. apply Hc.
Qed.

Lemma kd_k_ok x k : Forall fin x -> length x = nf -> (0 < k <= n)%Z ->
  (forall i, (0 <= i < n)%Z -> (key (dist x i) <= key (highest N))%R) ->
  exists res, kd_k_neighbors N row m p p_inv x k t = Some res /\
    k_smallest key (Z.to_nat k) (map (fun i => (i, dist x i)) (zrange n)) res /\ ascending key res.
Proof.
  intros Hx Hl Hk Hov. destruct kd_indices as [Ht P].
  destruct (k_search_ok N num fin key M m p p_inv Hm row n nf Hrow Hnf x None Hx Hl) with (t := t)
    (h := heap_new k (fun _ => (0%Z, zero N))) (seen := @nil (Z * T)) as (h & E & K & C); auto.
  { intros i [Hi _]. auto. } { intros i H. apply kd_in; auto. } { apply new_keeps. lia. }
  unfold kd_k_neighbors. rewrite E. cbn [bind]. eexists. split; [reflexivity|].
  assert (EF : filter (fun i => negb (is_self None i)) (node_indices t) = node_indices t).
  { generalize (node_indices t). induction l as [|i l IH]; [reflexivity|]. cbn. f_equal. exact IH. }
  cbn [app] in K. rewrite EF in K. cbn [capacity heap_new] in C.
  assert (Hsize : size h = k).
  { rewrite (keeps_size num key h _ K), C, map_length, (Permutation_length P), zrange_len by lia. lia. }
  destruct K as [Hh K]. rewrite C in K.
  assert (K' : k_smallest key (Z.to_nat k) (map (fun i => (i, dist x i)) (zrange n)) (contents h)).
  { eapply smallest_perm; [|exact K]. apply Permutation_map, P. }
  unfold contents in K'. rewrite Hsize in K'. split.
  - eapply smallest_perm_res; [symmetry; apply sort_perm|exact K'].
  - apply (sort_ascending (lt N) (le N) num key (m_order _ _ _ _ M)). destruct Hh as (_ & _ & Hnum & _).
    apply Forall_forall. intros e He. apply in_map_iff in He as (i & <- & Hi). apply in_zrange in Hi. apply Hnum. lia.
Qed.
End Kd.

(** ** Sorting meets the contract of std::nth_element *)
Lemma place_perm less x l : Permutation (place_in less x l) (x :: l).
Proof.
  induction l as [|y l IH]; simpl; auto. destruct (less y x); auto. rewrite IH. constructor.
Qed.
Lemma nth_sort_perm less l : Permutation (fold_right (place_in less) [] l) l.
Proof. induction l as [|x l IH]; simpl; auto. rewrite place_perm. auto. Qed.
Lemma place_sorted less (rank : Z -> R) x l : (forall a b, In a (x :: l) -> In b (x :: l) -> (less a b = true <-> (rank a < rank b)%R)) ->
  StronglySorted (fun a b => (rank a <= rank b)%R) l -> StronglySorted (fun a b => (rank a <= rank b)%R) (place_in less x l).
Proof.
  intros Hl H. induction H as [|y l Hs IH Hf]; simpl; [repeat constructor|].
  destruct (less y x) eqn:E.
  - apply Hl in E; simpl; auto. constructor.
    + apply IH. intros; apply Hl; simpl in *; tauto.
    + rewrite Forall_forall in *. intros z Hz. eapply Permutation_in in Hz; [|apply place_perm].
      destruct Hz as [<-|Hz]; auto. lra.
  - constructor; [constructor; auto|].
    assert (rank x <= rank y)%R.
    { destruct (Rle_or_lt (rank x) (rank y)); auto. apply (Hl y x) in H; simpl; auto. congruence. }
    constructor; auto. rewrite Forall_forall in *. intros z Hz. specialize (Hf z Hz). lra.
Qed.
Lemma sorted_split (rank : Z -> R) l : StronglySorted (fun a b => (rank a <= rank b)%R) l -> forall mid, (mid < length l)%nat ->
  (forall y, In y (firstn mid l) -> (rank y <= rank (nth mid l 0%Z))%R) /\
  (forall y, In y (skipn (mid + 1) l) -> (rank (nth mid l 0%Z) <= rank y)%R).
Proof.
  induction 1 as [|x l Hs IH Hf]; intros mid Hm; simpl in Hm; [lia|]. rewrite Forall_forall in Hf.
  destruct mid as [|mid]; simpl.
  - split; [intros y []|auto].
  - destruct (IH mid) as [I1 I2]; [lia|]. split; [|apply I2]. intros y [<-|Hy]; auto. apply Hf, nth_In. lia.
Qed.
Lemma sorting_contract : nth_element_contract nth_by_sorting.
Proof.
  intros less mid l rank Hm Hl. cbv zeta. unfold nth_by_sorting.
  assert (S : StronglySorted (fun a b => (rank a <= rank b)%R) (fold_right (place_in less) [] l)).
  { clear Hm. induction l as [|x l IH]; simpl; [constructor|]. apply place_sorted.
    - intros a b Ha Hb. apply Hl; (eapply Permutation_in; [|eassumption]; constructor; apply nth_sort_perm).
    - apply IH. intros; apply Hl; simpl; auto. }
  split; [apply nth_sort_perm|]. apply sorted_split; auto. rewrite (Permutation_length (nth_sort_perm less l)). exact Hm.
Qed.
