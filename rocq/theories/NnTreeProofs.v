(** The k-d tree: construction and searches. *)
From Coq Require Import ZArith List Bool Reals Permutation Sorted Lia Lra.
From Verif Require Import Base Par UtilModel NnModel NnSpec NnSelectProofs NnHeapProofs NnBoxProofs.
Import ListNotations.

Lemma Forall2_flip' {A B} (P : A -> B -> Prop) l l' : Forall2 P l l' -> Forall2 (fun b a => P a b) l' l.
Proof. induction 1; constructor; auto. Qed.
Lemma Forall2_trans' {A} (P : A -> A -> Prop) a b c : (forall x y z, P x y -> P y z -> P x z) ->
  Forall2 P a b -> Forall2 P b c -> Forall2 P a c.
Proof.
  intros Ht H. revert c. induction H; intros c Hc; inversion Hc; subst; constructor; eauto.
Qed.
Lemma Forall2_nth' {A} (P : A -> A -> Prop) a b d j : Forall2 P a b -> (j < length a)%nat -> P (nth j a d) (nth j b d).
Proof. intros H. revert j. induction H; intros j Hj; simpl in *; [lia|]. destruct j; auto. apply IHForall2. lia. Qed.
Lemma NoDup_app_parts {A} (a b : list A) : NoDup (a ++ b) -> NoDup a /\ NoDup b /\ forall x, In x a -> ~ In x b.
Proof.
  induction a as [|x a IH]; simpl; intros H.
  - repeat split; auto. constructor.
  - inversion H; subst. destruct (IH H3) as (Ha & Hb & Hd). repeat split; auto.
    + constructor; auto. intros Hi. apply H2, in_or_app; auto.
    + intros y [<-|Hy] Hb'; [apply H2, in_or_app; auto|]. eapply Hd; eauto.
Qed.
Lemma NoDup_join {A} (a b : list A) : NoDup a -> NoDup b -> (forall x, In x a -> ~ In x b) -> NoDup (a ++ b).
Proof.
  induction a as [|x a IH]; simpl; intros Ha Hb Hd; auto. inversion Ha; subst. constructor.
  - intros Hi. apply in_app_or in Hi as [|Hi]; auto. eapply Hd; eauto.
  - apply IH; auto.
Qed.
Lemma NoDup_filter_map {A B} (f : A -> bool) (g : A -> B) l : NoDup l -> (forall x y, g x = g y -> x = y) ->
  NoDup (map g (filter f l)).
Proof.
  intros H Hg. induction H; simpl; [constructor|]. destruct (f x); auto. simpl. constructor; auto.
  intros Hi. apply in_map_iff in Hi as (y & E & Hy). apply Hg in E. subst. apply filter_In in Hy. tauto.
Qed.

Lemma abs_le_inv a b : (Rabs a <= b -> - b <= a <= b)%R.
Proof. unfold Rabs. destruct (Rcase_abs a); lra. Qed.

Lemma parts_of {A} f (g : Z -> A) l x r : map g (filter f (l ++ x :: r)) =
  map g (filter f l) ++ map g (filter f [x]) ++ map g (filter f r).
Proof. change (x :: r) with ([x] ++ r). now rewrite !filter_app, !map_app. Qed.
Lemma perm_left {A} (s a b c : list A) : Permutation (((s ++ a) ++ b) ++ c) (s ++ b ++ a ++ c).
Proof.
  rewrite <- !app_assoc. apply Permutation_app_head. rewrite !app_assoc. apply Permutation_app_tail, Permutation_app_comm.
Qed.
Lemma perm_right {A} (s a b c : list A) : Permutation (((s ++ a) ++ c) ++ b) (s ++ b ++ a ++ c).
Proof. rewrite <- !app_assoc. apply Permutation_app_head. rewrite app_assoc. apply Permutation_app_comm. Qed.

Section Trees.
Context {T : Type} (N : arith T) (num fin : T -> Prop) (key : T -> R).
Hypothesis M : monotone N num fin key.
Variables (m : metric) (p p_inv : T).
Hypothesis Hm : metric_ok N num fin key m p p_inv.
Variable row : Z -> list T.
Variables (n : Z) (nf : nat).
Hypothesis Hrow : samples fin row n nf.

(** ** Bounds *)
Section Bounds.
Variables (op : T -> T -> T) (Rel : T -> T -> Prop).
Hypothesis op_fin : forall a b, fin a -> fin b -> fin (op a b).
Hypothesis op_l : forall a b, fin a -> fin b -> Rel (op a b) a.
Hypothesis op_r : forall a b, fin a -> fin b -> Rel (op a b) b.
Hypothesis Rel_refl : forall a, Rel a a.
Hypothesis Rel_trans : forall a b c, Rel a b -> Rel b c -> Rel a c.
Definition vec (v : list T) : Prop := length v = nf /\ Forall fin v.
Lemma Rel2_refl v : Forall2 Rel v v.
Proof. induction v; constructor; auto. Qed.

Lemma zip_vec k a : forall b, length a = k -> length b = k -> Forall fin a -> Forall fin b ->
  length (zip_with op a b) = k /\ Forall fin (zip_with op a b) /\ Forall2 Rel (zip_with op a b) a /\
  Forall2 Rel (zip_with op a b) b.
Proof.
  revert k. induction a as [|x a IH]; intros k [|y b] Ha Hb Fa Fb; simpl in *; try lia.
  - unfold zip_with. simpl. repeat split; auto.
  - inversion Fa; subst. inversion Fb; subst. destruct (IH (length a) b) as (I1 & I2 & I3 & I4); auto; try lia.
    unfold zip_with in *. simpl. repeat split; try constructor; auto; lia.
Qed.
Lemma fold_vec {A} (f : A -> list T) l : forall b, vec b -> (forall x, In x l -> vec (f x)) ->
  let r := fold_left (fun b x => zip_with op b (f x)) l b in
  vec r /\ Forall2 Rel r b /\ forall x, In x l -> Forall2 Rel r (f x).
Proof.
  induction l as [|x l IH]; intros b Hb Hl; cbv zeta; simpl.
  - repeat split; auto; try apply Hb. apply Rel2_refl. intros x [].
  - destruct Hb as [Hb1 Hb2]. destruct (Hl x) as [Hx1 Hx2]; [left; auto|].
    destruct (zip_vec nf b (f x) Hb1 Hx1 Hb2 Hx2) as (Z1 & Z2 & Z3 & Z4).
    destruct (IH (zip_with op b (f x))) as (I1 & I2 & I3); [split; auto|intros; apply Hl; right; auto|].
    split; [auto|split].
    + eapply Forall2_trans'; eauto.
    + intros y [<-|Hy]; auto. eapply Forall2_trans'; eauto.
Qed.
Lemma repeat_vec a : fin a -> vec (repeat a nf).
Proof. intros H. split; [apply repeat_length|]. apply Forall_forall. intros x Hx. apply repeat_spec in Hx. now subst. Qed.
Lemma fold_parts init parts : fin init -> (forall ix i, In ix parts -> In i ix -> (0 <= i < n)%Z) ->
  let r := fold_left (fun b ix => zip_with op b (fold_left (fun b i => zip_with op b (row i)) ix (repeat init nf))) parts
             (repeat init nf) in
  vec r /\ forall i, In i (concat parts) -> Forall2 Rel r (row i).
Proof.
  intros Hi Hp. cbv zeta.
  assert (Hv : forall ix, In ix parts ->
    let b := fold_left (fun b i => zip_with op b (row i)) ix (repeat init nf) in
    vec b /\ forall i, In i ix -> Forall2 Rel b (row i)).
  { intros ix Hix. cbv zeta. destruct (fold_vec row ix (repeat init nf) (repeat_vec init Hi)) as (V1 & _ & V3); auto.
    intros i Hii. apply Hrow. eapply Hp; eauto. }
  destruct (fold_vec (fun ix => fold_left (fun b i => zip_with op b (row i)) ix (repeat init nf)) parts (repeat init nf))
    as (W1 & _ & W3); auto using repeat_vec.
  { intros ix Hix. apply Hv; auto. }
  split; auto. intros i Hii. apply in_concat in Hii as (ix & Hix & Hii).
  eapply Forall2_trans'; [exact Rel_trans|apply W3; eauto|]. apply Hv; auto.
Qed.
End Bounds.

Lemma std_min_ok a b : fin a -> fin b -> fin (std_min N a b) /\ (key (std_min N a b) <= key a)%R /\ (key (std_min N a b) <= key b)%R.
Proof.
  intros Ha Hb. unfold std_min. pose proof (fin_num N num fin key M _ Ha). pose proof (fin_num N num fin key M _ Hb).
  destruct (lt N b a) eqn:E.
  - apply (lt_t N num fin key M) in E; auto. repeat split; auto; lra.
  - apply (lt_f N num fin key M) in E; auto. repeat split; auto; lra.
Qed.
Lemma std_max_ok a b : fin a -> fin b -> fin (std_max N a b) /\ (key a <= key (std_max N a b))%R /\ (key b <= key (std_max N a b))%R.
Proof.
  intros Ha Hb. unfold std_max. pose proof (fin_num N num fin key M _ Ha). pose proof (fin_num N num fin key M _ Hb).
  destruct (lt N a b) eqn:E.
  - apply (lt_t N num fin key M) in E; auto. repeat split; auto; lra.
  - apply (lt_f N num fin key M) in E; auto. repeat split; auto; lra.
Qed.

Definition box_ok (lo hi : list T) (ix : list Z) : Prop :=
  Forall fin lo /\ Forall fin hi /\ forall i, In i ix -> in_box key lo hi (row i).

Lemma node_box ix : (forall i, In i ix -> (0 <= i < n)%Z) -> box_ok (min_bounds N row nf ix) (max_bounds N row nf ix) ix.
Proof.
  intros Hi. unfold min_bounds, max_bounds.
  destruct (fold_vec (std_min N) (fun a b => (key a <= key b)%R)) with (f := row) (l := ix) (b := repeat (highest N) nf)
    as (V1 & _ & V3); try (intros; apply std_min_ok; auto); try (intros; lra).
  { apply repeat_vec. apply M. } { intros i H. apply Hrow, Hi; auto. }
  destruct (fold_vec (std_max N) (fun a b => (key b <= key a)%R)) with (f := row) (l := ix) (b := repeat (lowest N) nf)
    as (W1 & _ & W3); try (intros; apply std_max_ok; auto); try (intros; lra).
  { apply repeat_vec. apply M. } { intros i H. apply Hrow, Hi; auto. }
  split; [apply V1|split; [apply W1|]]. intros i H. split; [auto|].
  apply (Forall2_flip' (fun a b => (key b <= key a)%R)). auto.
Qed.
Lemma root_box parts : (forall ix i, In ix parts -> In i ix -> (0 <= i < n)%Z) ->
  box_ok (root_min N row nf parts) (root_max N row nf parts) (concat parts).
Proof.
  intros Hi. unfold root_min, root_max, min_bounds, max_bounds.
  destruct (fold_parts (std_min N) (fun a b => (key a <= key b)%R)) with (init := highest N) (parts := parts)
    as (V1 & V3); auto; try (intros; apply std_min_ok; auto); try (intros; lra).
  { apply M. }
  destruct (fold_parts (std_max N) (fun a b => (key b <= key a)%R)) with (init := lowest N) (parts := parts)
    as (W1 & W3); auto; try (intros; apply std_max_ok; auto); try (intros; lra).
  { apply M. }
  split; [apply V1|split; [apply W1|]]. intros i H. split; [auto|].
  apply (Forall2_flip' (fun a b => (key b <= key a)%R)). auto.
Qed.

(** ** Construction *)
Notation crd := (coord N row).
Fixpoint tree_ok (t : @tree T) : Prop :=
  match t with
  | Null => False
  | Leaf ix lo hi => box_ok lo hi ix
  | Node lo hi dim point l r =>
      box_ok lo hi (node_indices t) /\ (dim < nf)%nat /\
      (forall i, In i (node_indices l) -> (key (crd dim i) <= key (crd dim point))%R) /\
      (forall i, In i (node_indices r) -> (key (crd dim point) <= key (crd dim i))%R) /\
      tree_ok l /\ tree_ok r
  end.

Lemma nth_fin v j : Forall fin v -> fin (nth j v (zero N)).
Proof.
  intros H. destruct (nth_in_or_default j v (zero N)) as [Hi|Hd].
  - rewrite Forall_forall in H. auto.
  - rewrite Hd. apply M.
Qed.
Lemma crd_fin dim i : (0 <= i < n)%Z -> fin (crd dim i).
Proof. intros H. apply nth_fin, Hrow; auto. Qed.

Lemma best_dim_in ix dims : forall best bv, (best < nf)%nat -> (forall d, In d dims -> (d < nf)%nat) ->
  (best_dim_loop N row ix dims best bv < nf)%nat.
Proof.
  induction dims as [|d dims IH]; intros best bv Hb Hd; simpl; auto.
  destruct (lt N bv _); apply IH; auto; intros; apply Hd; simpl; auto.
Qed.
Lemma best_dim_ok ix : (0 < nf)%nat -> (best_dim N row nf ix < nf)%nat.
Proof. intros H. apply best_dim_in; auto. intros d Hd. apply in_seq in Hd. lia. Qed.

Variables (nth_element : (Z -> Z -> bool) -> nat -> list Z -> list Z) (leaf_size : Z).
Hypothesis Hnth : nth_element_contract nth_element.
Hypothesis Hleaf : (1 <= leaf_size)%Z.
Hypothesis Hnf : (0 < nf)%nat.
Notation bld := (build N row nth_element nf leaf_size).

Lemma split_at (l : list Z) mid : (mid < length l)%nat -> l = firstn mid l ++ nth mid l 0%Z :: skipn (mid + 1) l.
Proof.
  revert mid. induction l as [|x l IH]; intros mid H; simpl in H; [lia|].
  destruct mid as [|mid]; simpl; auto. f_equal. apply IH. lia.
Qed.

Lemma build_ok fuel : forall root ix, (length ix < fuel)%nat -> ix <> [] -> (forall i, In i ix -> (0 <= i < n)%Z) ->
  match root with Some (lo, hi, d) => box_ok lo hi ix /\ (d < nf)%nat | None => True end ->
  tree_ok (bld fuel root ix) /\ Permutation (node_indices (bld fuel root ix)) ix.
Proof.
  induction fuel as [|fuel IH]; intros root ix Hl Hne Hi Hroot; [lia|].
  destruct ix as [|i0 ix0] eqn:Eix; [contradiction|]. rewrite <- Eix in *. clear Hne.
  assert (Hlen : (0 < length ix)%nat) by (rewrite Eix; simpl; lia).
  assert (E : bld (S fuel) root ix =
    let lo := match root with Some (lo, _, _) => lo | None => min_bounds N row nf ix end in
    let hi := match root with Some (_, hi, _) => hi | None => max_bounds N row nf ix end in
    let n := Z.of_nat (length ix) in
    if ((n <? 2 * leaf_size) || (n =? 2))%Z then Leaf ix lo hi
    else
      let dim := match root with Some (_, _, d) => d | None => best_dim N row nf ix end in
      let mid := Z.to_nat ((n - 1) / 2) in
      let ix := nth_element (fun x y => lt N (crd dim x) (crd dim y)) mid ix in
      Node lo hi dim (nth mid ix 0%Z) (bld fuel None (firstn mid ix)) (bld fuel None (skipn (mid + 1) ix))).
  { rewrite Eix. reflexivity. }
  rewrite E. clear E. cbv zeta.
  set (lo := match root with Some (lo, _, _) => lo | None => min_bounds N row nf ix end).
  set (hi := match root with Some (_, hi, _) => hi | None => max_bounds N row nf ix end).
  set (dim := match root with Some (_, _, d) => d | None => best_dim N row nf ix end).
  assert (Hbox : box_ok lo hi ix /\ (dim < nf)%nat).
  { subst lo hi dim. destruct root as [[[lo hi] d]|]; auto. split; [apply node_box; auto|apply best_dim_ok; auto]. }
  clearbody lo hi dim. destruct Hbox as [Hbox Hdim]. clear Hroot Eix i0 ix0.
  destruct ((Z.of_nat (length ix) <? 2 * leaf_size)%Z || (Z.of_nat (length ix) =? 2)%Z) eqn:El.
  { split; [exact Hbox|reflexivity]. }
  apply orb_false_iff in El as [El1 El2]. apply Z.ltb_ge in El1. apply Z.eqb_neq in El2.
  set (mid := Z.to_nat ((Z.of_nat (length ix) - 1) / 2)).
  assert (Hmid : (0 < mid /\ mid + 1 < length ix)%nat).
  { subst mid. assert (3 <= Z.of_nat (length ix))%Z by lia.
    pose proof (Z.div_mod (Z.of_nat (length ix) - 1) 2 ltac:(lia)). pose proof (Z.mod_pos_bound (Z.of_nat (length ix) - 1) 2 ltac:(lia)). lia. }
  clearbody mid.
  destruct (Hnth (fun x y => lt N (crd dim x) (crd dim y)) mid ix (fun i => key (crd dim i))) as (P & Hlow & Hhigh); [lia| |].
  { intros a b Ha Hb. pose proof (m_order _ _ _ _ M) as [Ho _]. apply Ho; apply (fin_num N num fin key M), crd_fin; auto. }
  cbv zeta in *.
  set (l := nth_element (fun x y => lt N (crd dim x) (crd dim y)) mid ix) in *. clearbody l.
  assert (Hll : length l = length ix) by (apply Permutation_length; auto).
  assert (Hs : l = firstn mid l ++ nth mid l 0%Z :: skipn (mid + 1) l) by (apply split_at; lia).
  assert (Hin : forall i, In i l -> (0 <= i < n)%Z) by (intros i H; apply Hi; eapply Permutation_in; eauto).
  destruct (IH None (firstn mid l)) as [L1 L2]; auto.
  { rewrite firstn_length. lia. }
  { intros H. apply (f_equal (@length Z)) in H. rewrite firstn_length in H. simpl in H. lia. }
  { intros i H. apply Hin. rewrite Hs. apply in_or_app; auto. }
  destruct (IH None (skipn (mid + 1) l)) as [R1 R2]; auto.
  { rewrite skipn_length. lia. }
  { intros H. apply (f_equal (@length Z)) in H. rewrite skipn_length in H. simpl in H. lia. }
  { intros i H. apply Hin. rewrite Hs. apply in_or_app; simpl; auto. }
  assert (Hall : Permutation (node_indices (bld fuel None (firstn mid l)) ++ nth mid l 0%Z :: node_indices (bld fuel None (skipn (mid + 1) l))) ix).
  { apply Permutation_trans with (firstn mid l ++ nth mid l 0%Z :: skipn (mid + 1) l).
    - apply Permutation_app; auto.
    - rewrite <- Hs. exact P. }
  split; [|exact Hall].
  cbn [tree_ok node_indices]. split; [|repeat split; auto].
  - destruct Hbox as (B1 & B2 & B3). repeat split; auto; intros; apply B3; eapply Permutation_in; eauto.
  - intros i H. apply Hlow. eapply Permutation_in; eauto.
  - intros i H. apply Hhigh. eapply Permutation_in; eauto.
Qed.

Lemma build_kd_ok parts root_dim : (0 < n)%Z -> Permutation (concat parts) (zrange n) -> (root_dim < nf)%nat ->
  tree_ok (build_kd N row nth_element nf leaf_size n parts root_dim) /\
  Permutation (node_indices (build_kd N row nth_element nf leaf_size n parts root_dim)) (zrange n).
Proof.
  intros Hn P Hd. unfold build_kd. apply build_ok.
  - rewrite zrange_len by lia. lia.
  - intros H. apply (f_equal (@length Z)) in H. rewrite zrange_len in H by lia. simpl in H. lia.
  - intros i H. apply in_zrange in H. lia.
  - split; auto. destruct (root_box parts) as (B1 & B2 & B3).
    + intros ix i Hx Hi. apply in_zrange. eapply Permutation_in; [exact P|]. apply in_concat. eauto.
    + repeat split; auto; intros; apply B3; eapply Permutation_in; try (symmetry; exact P); auto.
Qed.

(** ** Searches *)
Section Query.
Variables (x : list T) (self : option Z).
Hypothesis Hx : Forall fin x.
Hypothesis Hxl : length x = nf.
Notation dist i := (distance N m p p_inv x (row i)).
Notation ent := (entry N row m p p_inv x).

Lemma dist_num i : (0 <= i < n)%Z -> num (dist i).
Proof. intros H. destruct (Hrow i H) as [H1 H2]. apply (dist_ok N num fin key M m p p_inv Hm); auto; congruence. Qed.

Lemma box_query eps lo hi ix i : box_ok lo hi ix -> In i ix -> (0 <= i < n)%Z -> num eps ->
  match check_box N m p p_inv eps x lo hi with
  | Outside => (key eps < key (dist i))%R
  | Inside => (key (dist i) <= key eps)%R
  | Near => True
  end.
Proof.
  intros (B1 & B2 & B3) Hi Hr He. destruct (Hrow i Hr) as [H1 H2].
  apply (check_box_ok N num fin key M m p p_inv Hm); auto. congruence.
Qed.

Notation near eps i := (within N key nf x (row i) eps).

Lemma is_self_spec i : is_self self i = true <-> self = Some i.
Proof.
  unfold is_self. destruct self as [s|]; [|split; discriminate]. rewrite Z.eqb_eq. split; [intros ->; auto|congruence].
Qed.

Lemma radius_ok eps eps_int t : num eps -> num eps_int -> (0 <= key eps)%R -> tree_ok t ->
  (forall i, In i (node_indices t) -> (0 <= i < n)%Z) -> NoDup (node_indices t) ->
  exists res, radius_search N row m p p_inv x self eps eps_int t = Some res /\
    NoDup (map fst res) /\
    (forall e, In e res -> exists i, e = ent i /\ In i (node_indices t) /\ is_self self i = false /\
       (key (dist i) <= key eps_int)%R) /\
    (forall i, In i (node_indices t) -> is_self self i = false -> (key (dist i) <= key eps_int)%R -> near eps i ->
       In (ent i) res).
Proof.
  intros He Hei He0. induction t as [|ix lo hi|lo hi dim point l IHl r IHr]; intros Ht Hi Hd; [contradiction| |].
  - cbn [tree_ok node_indices] in *.
    assert (Hbox := fun i H => box_query eps_int lo hi ix i Ht H (Hi i H) Hei).
    cbn [radius_search]. destruct (check_box N m p p_inv eps_int x lo hi) eqn:E; rewrite ?E in Hbox.
    + exists []. split; auto. split; [constructor|]. split; [intros e []|].
      intros i Hin _ Hle. specialize (Hbox i Hin). lra.
    + eexists. split; [reflexivity|]. split; [|split].
      * rewrite map_map. apply NoDup_filter_map; auto.
      * intros e H. apply in_map_iff in H as (i & <- & H). apply filter_In in H as [H1 H2].
        apply andb_true_iff in H2 as [H2 H3]. apply negb_true_iff in H2. exists i. repeat split; auto.
        apply (le_t N num fin key M) in H3; auto using dist_num.
      * intros i H1 H2 H3 _. apply in_map, filter_In. split; auto. apply andb_true_iff. split.
        { now rewrite H2. }
        { pose proof (m_order _ _ _ _ M) as [_ Ho]. apply Ho; auto using dist_num. }
    + eexists. split; [reflexivity|]. split; [|split].
      * rewrite map_map. apply NoDup_filter_map; auto.
      * intros e H. apply in_map_iff in H as (i & <- & H). apply filter_In in H as [H1 H2].
        apply negb_true_iff in H2. exists i. split; [auto|split; [auto|split; [auto|apply Hbox; auto]]].
      * intros i H1 H2 H3 _. apply in_map, filter_In. split; auto. now rewrite H2.
  - assert (Hbox := fun i H => box_query eps_int lo hi (node_indices (Node lo hi dim point l r)) i (proj1 Ht) H (Hi i H) Hei).
    cbn [radius_search]. destruct Ht as (Hb & Hdim & Hlow & Hhigh & Htl & Htr).
    cbn [node_indices] in Hi, Hd. destruct (NoDup_app_parts _ _ Hd) as (Hdl & Hdr & Hdis).
    inversion Hdr as [|? ? Hpr Hdr2]; subst.
    assert (Hip : (0 <= point < n)%Z) by (apply Hi, in_or_app; simpl; auto).
    destruct (IHl Htl) as (a & Ea & Na & Sa & Ca); auto. { intros; apply Hi, in_or_app; auto. }
    destruct (IHr Htr) as (b & Eb & Nb & Sb & Cb); auto. { intros; apply Hi, in_or_app; simpl; auto. }
    destruct (check_box N m p p_inv eps_int x lo hi) eqn:E; rewrite ?E in Hbox.
    + exists []. split; auto. split; [constructor|]. split; [intros e []|].
      intros i Hin _ Hle. specialize (Hbox i Hin). lra.
    + set (diff := sub N (nth dim x (zero N)) (crd dim point)).
      assert (Hdn : num diff) by (apply (sub_num N num fin key M); [apply nth_fin; auto|apply crd_fin; auto]).
      set (a' := if le N diff eps then a else []). set (b' := if le N (opp N eps) diff then b else []).
      set (here := if negb (is_self self point) && le N (dist point) eps_int then [ent point] else []).
      exists (here ++ a' ++ b'). split.
      { subst a' b'. rewrite Ea, Eb. destruct (le N diff eps), (le N (opp N eps) diff); reflexivity. }
      assert (Sa' : forall e, In e a' -> In e a) by (subst a'; destruct (le N diff eps); simpl; tauto).
      assert (Sb' : forall e, In e b' -> In e b) by (subst b'; destruct (le N (opp N eps) diff); simpl; tauto).
      assert (Na' : NoDup (map fst a')) by (subst a'; destruct (le N diff eps); simpl; auto; constructor).
      assert (Nb' : NoDup (map fst b')) by (subst b'; destruct (le N (opp N eps) diff); simpl; auto; constructor).
      assert (Ia : forall i, In i (map fst a') -> In i (node_indices l)).
      { intros i H. apply in_map_iff in H as (e & <- & H). apply Sa', Sa in H as (j & -> & H & _). exact H. }
      assert (Ib : forall i, In i (map fst b') -> In i (node_indices r)).
      { intros i H. apply in_map_iff in H as (e & <- & H). apply Sb', Sb in H as (j & -> & H & _). exact H. }
      assert (Ih : forall e, In e here -> e = ent point /\ is_self self point = false /\ (key (dist point) <= key eps_int)%R).
      { subst here. intros e. destruct (negb (is_self self point) && le N (dist point) eps_int) eqn:Eh; [|intros []].
        intros [<-|[]]. apply andb_true_iff in Eh as [E1 E2]. apply negb_true_iff in E1.
        apply (le_t N num fin key M) in E2; auto using dist_num. }
      split; [|split].
      * rewrite !map_app. apply NoDup_join.
        { subst here. destruct (negb _ && _); simpl; repeat constructor; auto. }
        { apply NoDup_join; auto. intros i H1 H2. apply (Hdis i); [apply Ia; auto|right; apply Ib; auto]. }
        { intros i H1 H2. apply in_map_iff in H1 as (e & <- & H1). apply Ih in H1 as (-> & _). cbn [fst entry] in H2.
          apply in_app_or in H2 as [H2|H2].
          - apply (Hdis point); [apply Ia; auto|simpl; auto].
          - apply Hpr, Ib; auto. }
      * intros e H. cbn [node_indices]. apply in_app_or in H as [H|H]; [|apply in_app_or in H as [H|H]].
        { apply Ih in H as (-> & H1 & H2). exists point. repeat split; auto. apply in_or_app; simpl; auto. }
        { apply Sa', Sa in H as (i & -> & H1 & H2 & H3). exists i. repeat split; auto. apply in_or_app; auto. }
        { apply Sb', Sb in H as (i & -> & H1 & H2 & H3). exists i. repeat split; auto. apply in_or_app; simpl; auto. }
      * intros i Hin Hs Hle Hnear. cbn [node_indices] in Hin.
        assert (Hir : (0 <= i < n)%Z) by (apply Hi; exact Hin).
        pose proof (Hnear dim Hdim) as Hnd. fold (crd dim i) in Hnd.
        apply in_app_or in Hin as [Hin|[<-|Hin]].
        { apply in_or_app; right. apply in_or_app; left. subst a'. destruct (le N diff eps) eqn:El; [apply Ca; auto|].
          exfalso. apply (le_f N num fin key M) in El; auto.
          pose proof (sub_mono_r N num fin key M (crd dim i) (crd dim point) (nth dim x (zero N))
            (crd_fin dim i Hir) (crd_fin dim point Hip) (nth_fin x dim Hx) (Hlow i Hin)) as Hmono.
          fold diff in Hmono. apply abs_le_inv in Hnd. lra. }
        { apply in_or_app; left. subst here. rewrite Hs. cbn [negb andb].
          assert (le N (dist point) eps_int = true) as ->.
          { pose proof (m_order _ _ _ _ M) as [_ Ho]. apply Ho; auto using dist_num. }
          simpl; auto. }
        { apply in_or_app; right. apply in_or_app; right. subst b'. destruct (le N (opp N eps) diff) eqn:El; [apply Cb; auto|].
          exfalso. destruct (m_opp _ _ _ _ M eps He) as [O1 O2]. apply (le_f N num fin key M) in El; auto. rewrite O2 in El.
          pose proof (sub_mono_r N num fin key M (crd dim point) (crd dim i) (nth dim x (zero N))
            (crd_fin dim point Hip) (crd_fin dim i Hir) (nth_fin x dim Hx) (Hhigh i Hin)) as Hmono.
          fold diff in Hmono. apply abs_le_inv in Hnd. lra. }
    + eexists. split; [reflexivity|]. split; [|split].
      * rewrite map_map. apply NoDup_filter_map; auto.
      * intros e H. apply in_map_iff in H as (i & <- & H). apply filter_In in H as [H1 H2].
        apply negb_true_iff in H2. exists i. split; [auto|split; [auto|split; [auto|apply Hbox; auto]]].
      * intros i H1 H2 H3 _. apply in_map, filter_In. split; auto. now rewrite H2.
Qed.

(** when the summands cannot exceed the radius without the distance exceeding it *)
Lemma near_of_dist eps i : num eps -> (0 <= key eps)%R -> (0 <= i < n)%Z ->
  (euclid m = false \/ strict_square N num key eps) ->
  (key (dist i) <= key (eps_internal N m eps))%R -> near eps i.
Proof.
  intros He He0 Hi Hstrict Hle j Hj. destruct (Hrow i Hi) as [H1 H2].
  set (d := sub N (nth j x (zero N)) (nth j (row i) (zero N))).
  assert (Hd : num d) by (apply (sub_num N num fin key M); apply nth_fin; auto).
  destruct (m_abs _ _ _ _ M d Hd) as [A1 A2].
  assert (H := dist_coord N num fin key M m p p_inv Hm x (row i) j (abs N d) ltac:(congruence) Hx H2 ltac:(lia) A1).
  rewrite A2 in H. specialize (H ltac:(fold d; split; [apply Rabs_pos|lra])).
  unfold th, eps_internal in *. destruct (euclid m) eqn:E.
  - destruct Hstrict as [|Hs]; [discriminate|].
    destruct (Rle_or_lt (Rabs (key d)) (key eps)) as [|Hlt]; auto. exfalso.
    specialize (Hs (abs N d) A1). rewrite A2 in Hs. specialize (Hs ltac:(lra)). lra.
  - rewrite A2 in H. lra.
Qed.

(** *** The nearest neighbours *)
Hypothesis Hover : forall i, candidate n self i -> (key (dist i) <= key (highest N))%R.
Notation rest_of t := (map ent (filter (fun i => negb (is_self self i)) (node_indices t))).
Notation keep := (keeps num key).

Lemma keeps_perm h a b : Permutation a b -> keep h a -> keep h b.
Proof. intros P [H1 H2]. split; auto. eapply smallest_perm; eauto. Qed.

Lemma max_num h seen : keep h seen -> num (max_dist N h).
Proof.
  intros [(H1 & H2 & H3 & H4) _]. unfold max_dist. destruct (Z.ltb_spec (size h) (capacity h)).
  - apply (fin_num N num fin key M), M.
  - apply H3. lia.
Qed.
Lemma prune h seen ix : keep h seen -> (forall i, In i ix -> (0 <= i < n)%Z) ->
  (forall i, In i ix -> (key (max_dist N h) < key (dist i))%R) ->
  keep h (seen ++ map ent (filter (fun i => negb (is_self self i)) ix)).
Proof.
  intros Hk Hr Hi. destruct (Z.ltb_spec (size h) (capacity h)) as [Hs|Hs].
  - assert (filter (fun i => negb (is_self self i)) ix = []) as ->; [|now rewrite app_nil_r].
    destruct (filter _ ix) as [|i l] eqn:E; auto. exfalso.
    assert (Hin : In i (filter (fun i => negb (is_self self i)) ix)) by (rewrite E; simpl; auto).
    apply filter_In in Hin as [H1 H2]. apply negb_true_iff in H2.
    specialize (Hi i H1). unfold max_dist in Hi. apply Z.ltb_lt in Hs. rewrite Hs in Hi.
    assert (Hc : candidate n self i).
    { split; auto. intros Hsf. apply is_self_spec in Hsf. congruence. }
    specialize (Hover i Hc). lra.
  - apply (skip_keeps N num key); auto.
    + destruct Hk as [(H1 & _) _]. lia.
    + intros e H. apply in_map_iff in H as (i & <- & H). apply filter_In in H as [H _]. left. apply Hi; auto.
Qed.
Lemma insert_sample_keeps h seen i : keep h seen -> (0 <= i < n)%Z ->
  keep (insert_sample N row m p p_inv x self h i) (seen ++ map ent (filter (fun i => negb (is_self self i)) [i])) /\
  capacity (insert_sample N row m p p_inv x self h i) = capacity h.
Proof.
  intros Hk Hi. unfold insert_sample. cbn [filter]. destruct (is_self self i); cbn [negb map].
  - rewrite app_nil_r. auto.
  - apply (insert_keeps N num key (m_order _ _ _ _ M)); auto. apply dist_num; auto.
Qed.
Lemma insert_samples_keep ix : forall h seen, keep h seen -> (forall i, In i ix -> (0 <= i < n)%Z) ->
  keep (fold_left (insert_sample N row m p p_inv x self) ix h) (seen ++ map ent (filter (fun i => negb (is_self self i)) ix)) /\
  capacity (fold_left (insert_sample N row m p p_inv x self) ix h) = capacity h.
Proof.
  induction ix as [|i ix IH]; intros h seen Hk Hi; simpl.
  - rewrite app_nil_r. auto.
  - destruct (insert_sample_keeps h seen i Hk) as [K1 K2]; [apply Hi; simpl; auto|].
    destruct (IH _ _ K1) as [I1 I2]; [intros; apply Hi; simpl; auto|]. split; [|congruence].
    rewrite <- app_assoc, <- map_app in I1. cbn [filter] in I1. destruct (negb (is_self self i)); exact I1.
Qed.

(** a child beyond the splitting value is left out only if it has no nearer sample *)
Lemma th_abs d a : num d -> num a -> (0 <= key d)%R -> euclid m = true -> key (mul N d (abs N d)) = key (mul N d d).
Proof.
  intros Hd _ H _. destruct (m_signed_square _ _ _ _ M d Hd) as [_ ->]. destruct (Rle_dec 0 (key d)); [auto|lra].
Qed.
Lemma sq_abs d : num d -> key (mul N (abs N d) (abs N d)) = key (mul N d d).
Proof.
  intros Hd. destruct (m_abs _ _ _ _ M d Hd) as [A1 A2]. apply Rle_antisym; apply (m_square_mono _ _ _ _ M); auto;
    rewrite A2, Rabs_Rabsolu; lra.
Qed.
Lemma far_dist dim i t d : (0 <= i < n)%Z -> (dim < nf)%nat -> num t ->
  t = (if euclid m then mul N d (abs N d) else d) -> num d ->
  (Rabs (key d) <= Rabs (key (sub N (nth dim x (zero N)) (crd dim i))))%R ->
  (Rabs (key t) <= key (dist i))%R.
Proof.
  intros Hi Hdim Ht Et Hd H. destruct (Hrow i Hi) as [H1 H2]. destruct (m_abs _ _ _ _ M d Hd) as [A1 A2].
  assert (G := dist_coord N num fin key M m p p_inv Hm x (row i) dim (abs N d) ltac:(congruence) Hx H2 ltac:(lia) A1).
  rewrite A2 in G. specialize (G ltac:(split; [apply Rabs_pos|exact H])).
  unfold th in G. subst t. destruct (euclid m).
  - rewrite sq_abs in G by auto. destruct (m_signed_square _ _ _ _ M d Hd) as [_ ->].
    destruct (m_square _ _ _ _ M d Hd) as [_ S0]. destruct (Rle_dec 0 (key d)).
    + rewrite Rabs_pos_eq; auto.
    + rewrite Rabs_Ropp, Rabs_pos_eq; auto.
  - rewrite A2 in G. auto.
Qed.

Lemma k_search_ok t : tree_ok t -> (forall i, In i (node_indices t) -> (0 <= i < n)%Z) ->
  forall h seen, keep h seen ->
  exists h', k_search N row m p p_inv x self h t = Some h' /\ keep h' (seen ++ rest_of t) /\ capacity h' = capacity h.
Proof.
  induction t as [|ix lo hi|lo hi dim point l IHl r IHr]; intros Ht Hi h seen Hk; [contradiction| |].
  - cbn [tree_ok node_indices k_search] in *.
    assert (Hins := insert_samples_keep ix h seen Hk Hi).
    destruct (size h <? capacity h)%Z eqn:Es; [eexists; split; [reflexivity|exact Hins]|].
    destruct (check_box N m p p_inv (max_dist N h) x lo hi) eqn:E; try (eexists; split; [reflexivity|exact Hins]).
    exists h. split; auto. split; auto. apply prune; auto. intros i H.
    pose proof (box_query (max_dist N h) lo hi ix i Ht H (Hi i H) (max_num h seen Hk)) as B. now rewrite E in B.
  - pose proof Ht as (Hb & Hdim & Hlow & Hhigh & Htl & Htr).
    cbn [k_search]. cbn [node_indices] in Hi |- *.
    assert (Hip : (0 <= point < n)%Z) by (apply Hi, in_or_app; simpl; auto).
    assert (Hil : forall i, In i (node_indices l) -> (0 <= i < n)%Z) by (intros; apply Hi, in_or_app; auto).
    assert (Hir : forall i, In i (node_indices r) -> (0 <= i < n)%Z) by (intros; apply Hi, in_or_app; simpl; auto).
    set (diff := sub N (nth dim x (zero N)) (crd dim point)).
    assert (Hdn : num diff) by (apply (sub_num N num fin key M); [apply nth_fin; auto|apply crd_fin; auto]).
    set (dt := if euclid m then mul N diff (abs N diff) else diff).
    assert (Hdt : num dt).
    { subst dt. destruct (euclid m); auto. apply (m_signed_square _ _ _ _ M); auto. }
    (* the sign of diff_tmp is that of diff *)
    assert (Hsign : (key diff < 0 -> key dt <= 0)%R /\ (0 <= key diff -> 0 <= key dt)%R).
    { subst dt. destruct (euclid m); [|lra]. destruct (m_signed_square _ _ _ _ M diff Hdn) as [_ ->].
      destruct (m_square _ _ _ _ M diff Hdn) as [_ S0]. destruct (Rle_dec 0 (key diff)); lra. }
    assert (Hgo : exists h',
      (let h := insert_sample N row m p p_inv x self h point in
       if lt N diff (zero N) then
         bind (k_search N row m p p_inv x self h l) (fun h =>
         if le N (opp N (max_dist N h)) dt then k_search N row m p p_inv x self h r else Some h)
       else
         bind (k_search N row m p p_inv x self h r) (fun h =>
         if le N dt (max_dist N h) then k_search N row m p p_inv x self h l else Some h)) = Some h' /\
      keep h' (seen ++ map ent (filter (fun i => negb (is_self self i)) (node_indices l ++ point :: node_indices r))) /\
      capacity h' = capacity h).
    { cbv zeta. destruct (insert_sample_keeps h seen point Hk Hip) as [K1 C1].
      set (h1 := insert_sample N row m p p_inv x self h point) in *. clearbody h1.
      destruct (lt N diff (zero N)) eqn:El.
      - apply (lt_t N num fin key M) in El; auto; [|apply (zero_num N num fin key M)]. rewrite (zero_key N num fin key M) in El.
        destruct (IHl Htl Hil h1 _ K1) as (h2 & E2 & K2 & C2). rewrite E2. cbn [bind].
        destruct (le N (opp N (max_dist N h2)) dt) eqn:Ele.
        + destruct (IHr Htr Hir h2 _ K2) as (h3 & E3 & K3 & C3). exists h3. split; auto. split; [|congruence].
          eapply keeps_perm; [|exact K3]. rewrite parts_of. apply perm_left.
        + pose proof (max_num h2 _ K2) as Hmx. destruct (m_opp _ _ _ _ M _ Hmx) as [O1 O2].
          apply (le_f N num fin key M) in Ele; auto. rewrite O2 in Ele.
          exists h2. split; auto. split; [|congruence].
          eapply keeps_perm; [|apply (prune h2 _ (node_indices r) K2 Hir)].
          * rewrite parts_of. apply perm_left.
          * intros i H. apply Rlt_le_trans with (Rabs (key dt)).
            { rewrite Rabs_left1 by (apply Hsign; auto). lra. }
            apply (far_dist dim i dt diff); auto.
            pose proof (sub_mono_r N num fin key M (crd dim point) (crd dim i) (nth dim x (zero N))
              (crd_fin dim point Hip) (crd_fin dim i (Hir i H)) (nth_fin x dim Hx) (Hhigh i H)) as Hmono.
            fold diff in Hmono. rewrite !Rabs_left1; lra.
      - apply (lt_f N num fin key M) in El; auto; [|apply (zero_num N num fin key M)]. rewrite (zero_key N num fin key M) in El.
        destruct (IHr Htr Hir h1 _ K1) as (h2 & E2 & K2 & C2). rewrite E2. cbn [bind].
        assert (HP : Permutation
          (((seen ++ map ent (filter (fun i => negb (is_self self i)) [point])) ++ rest_of r) ++ rest_of l)
          (seen ++ map ent (filter (fun i => negb (is_self self i)) (node_indices l ++ point :: node_indices r)))).
        { rewrite parts_of. apply perm_right. }
        destruct (le N dt (max_dist N h2)) eqn:Ele.
        + destruct (IHl Htl Hil h2 _ K2) as (h3 & E3 & K3 & C3). exists h3. split; auto. split; [|congruence].
          eapply keeps_perm; [|exact K3]. exact HP.
        + pose proof (max_num h2 _ K2) as Hmx.
          apply (le_f N num fin key M) in Ele; auto.
          exists h2. split; auto. split; [|congruence].
          eapply keeps_perm; [exact HP|apply (prune h2 _ (node_indices l) K2 Hil)].
          intros i H. apply Rlt_le_trans with (Rabs (key dt)).
          { rewrite Rabs_pos_eq by (apply Hsign; auto). lra. }
          apply (far_dist dim i dt diff); auto.
          pose proof (sub_mono_r N num fin key M (crd dim i) (crd dim point) (nth dim x (zero N))
            (crd_fin dim i (Hil i H)) (crd_fin dim point Hip) (nth_fin x dim Hx) (Hlow i H)) as Hmono.
          fold diff in Hmono. rewrite !Rabs_pos_eq; lra. }
    destruct (size h <? capacity h)%Z eqn:Es; [exact Hgo|].
    destruct (check_box N m p p_inv (max_dist N h) x lo hi) eqn:E; try exact Hgo.
    exists h. split; auto. split; auto. apply prune; auto. intros i H.
    pose proof (box_query (max_dist N h) lo hi _ i Hb H (Hi i H) (max_num h seen Hk)) as B. now rewrite E in B.
Qed.
End Query.
End Trees.
