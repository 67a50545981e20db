(** Proofs about the kernel column cache. *)
From Coq Require Import ZArith List Bool Lia Permutation.
From Verif Require Import Base ListFacts CacheModel CacheSpec.
Import ListNotations.

Section P.
  Variable C : Type.
  Notation cache := (cache C).
  Implicit Types c : cache.

  (** ** Association lists and node lists *)
  Lemma zassoc_remove {A} k k' (l : list (Z * A)) :
    zassoc k (zremove k' l) = if Z.eqb k k' then None else zassoc k l.
  Proof.
    induction l as [|[a v] l IH]; simpl; [destruct (Z.eqb k k'); auto|].
    destruct (Z.eqb_spec k' a).
    - subst. rewrite IH. destruct (Z.eqb_spec k a); auto.
    - simpl. rewrite IH. destruct (Z.eqb_spec k a), (Z.eqb_spec k k'); subst; auto; congruence.
  Qed.

  Lemma find_node_in id l x : find_node id l = Some x -> In x l /\ nid x = id.
  Proof.
    induction l as [|y l IH]; simpl; [discriminate|].
    destruct (Nat.eqb_spec (nid y) id).
    - intros H; inversion H; subst; auto.
    - intros H; destruct (IH H); auto.
  Qed.
  Lemma find_node_some id l x : NoDup (map nid l) -> In x l -> nid x = id -> find_node id l = Some x.
  Proof.
    induction l as [|y l IH]; simpl; [tauto|]. intros Hn [->|Hi] E.
    - subst. now rewrite Nat.eqb_refl.
    - inversion Hn; subst. destruct (Nat.eqb_spec (nid y) (nid x)).
      + exfalso. apply H1. rewrite e. now apply in_map.
      + now apply IH.
  Qed.
  Lemma unlink_perm id l x : find_node id l = Some x -> Permutation l (x :: unlink id l).
  Proof.
    induction l as [|y l IH]; simpl; [discriminate|].
    destruct (Nat.eqb_spec (nid y) id).
    - intros H; inversion H; subst. reflexivity.
    - intros H. rewrite (IH H) at 1. apply perm_swap.
  Qed.

  (** ** Invariant; [P] are the slots held by unfinished calls of put *)
  Definition slots c := map nslot (items c).
  Record inv (P : list nat) (c : cache) : Prop := mkInv {
    i_ids : NoDup (map nid (items c));
    i_lt : forall x, In x (items c) -> nid x < nxt c;
    i_idx : forall k id, zassoc k (index c) = Some id ->
                         exists x, In x (items c) /\ nid x = id /\ nkey x = k;
    i_slots : NoDup (slots c ++ P);
    i_bound : forall s, In s (slots c ++ P) -> s < fidx c;
    i_cap : fidx c + nfree c = cap c }.

  Lemma inv_perm P Q c : Permutation P Q -> inv P c -> inv Q c.
  Proof.
    intros HP [H1 H2 H3 H4 H5 H6]. split; auto.
    - eapply Permutation_NoDup; [|exact H4]. now apply Permutation_app_head.
    - intros s Hs. apply H5. rewrite in_app_iff in *. destruct Hs; auto.
      right. eapply Permutation_in; [symmetry; exact HP|auto].
  Qed.

  Lemma init_inv n : inv [] (set_size C n).
  Proof.
    split; simpl; try tauto; try constructor; intros; try lia; try discriminate.
  Qed.

  Lemma inv_items P c its :
    inv P c -> Permutation (items c) its ->
    inv P (mkCache (cap c) its (index c) (data c) (nfree c) (fidx c) (nxt c)).
  Proof.
    intros [H1 H2 H3 H4 H5 H6] Hp. unfold slots in *. split; simpl; auto.
    - eapply Permutation_NoDup; [|exact H1]. now apply Permutation_map.
    - intros x Hx. apply H2. eapply Permutation_in; [symmetry; exact Hp|auto].
    - intros k id Hk. destruct (H3 k id Hk) as (x & Hx & E). exists x. split; auto.
      eapply Permutation_in; eauto.
    - unfold slots; simpl. eapply Permutation_NoDup; [|exact H4].
      apply Permutation_app_tail. now apply Permutation_map.
    - unfold slots; simpl. intros s Hs. apply H5. rewrite in_app_iff in *. destruct Hs; auto.
      left. eapply Permutation_in; [|exact H]. symmetry. now apply Permutation_map.
  Qed.

  Lemma get_not_dangling P c k : inv P c -> get k c <> Dangling.
  Proof.
    intros H. unfold get. destruct (zassoc k (index c)) as [id|] eqn:E; [|discriminate].
    destruct (i_idx _ _ H k id E) as (x & Hx & Hi & _).
    rewrite (find_node_some _ _ _ (i_ids _ _ H) Hx Hi). discriminate.
  Qed.

  Lemma get_hit P c k s c' : inv P c -> get k c = Hit s c' ->
    exists x, In x (items c) /\ nkey x = k /\ nslot x = s /\
              zassoc k (index c) = Some (nid x) /\
              items c' = x :: unlink (nid x) (items c) /\
              Permutation (items c) (items c') /\
              c' = mkCache (cap c) (items c') (index c) (data c) (nfree c) (fidx c)
                           (nxt c).
  Proof.
    intros H. unfold get. destruct (zassoc k (index c)) as [id|] eqn:E; [|discriminate].
    destruct (i_idx _ _ H k id E) as (x & Hx & Hi & Hk). subst id.
    rewrite (find_node_some _ _ _ (i_ids _ _ H) Hx eq_refl).
    intros G; inversion G; subst. exists x. simpl. repeat split; auto.
    apply unlink_perm, find_node_some; auto. apply (i_ids _ _ H).
  Qed.

  Lemma get_inv P c k s c' : inv P c -> get k c = Hit s c' -> inv P c'.
  Proof.
    intros H G. destruct (get_hit _ _ _ _ _ H G) as (x & _ & _ & _ & _ & _ & Hp & ->).
    now apply inv_items.
  Qed.

  (** ** Part 1: taking slots *)
  Lemma rev_cons_split {A} (l : list A) x r : rev l = x :: r -> l = rev r ++ [x].
  Proof. intros H. rewrite <- (rev_involutive l), H. reflexivity. Qed.

  Lemma take_inv : forall n P c l c', inv P c -> take n c = (l, c') -> inv (l ++ P) c'.
  Proof.
    induction n as [|n IH]; intros P c l c' H; simpl.
    - intros E; inversion E; subst; auto.
    - destruct (nfree c) as [|f] eqn:Ef.
      + destruct (rev (items c)) as [|x r] eqn:Er.
        * intros E; inversion E; subst; auto.
        * apply rev_cons_split in Er.
          match goal with |- context [take n ?q] => set (c1 := q) end.
          destruct (take n c1) as [l1 c2] eqn:Et. intros E; inversion E; subst.
          eapply inv_perm; [|eapply (IH (nslot x :: P)); [|exact Et]].
          { symmetry. apply Permutation_middle. }
          destruct H as [H1 H2 H3 H4 H5 H6].
          unfold slots in *. rewrite Er in *. rewrite map_app in *. simpl in *.
          split; simpl; unfold slots; simpl; auto.
          -- now apply nodup_app_l in H1.
          -- intros y Hy. apply H2. rewrite in_app_iff. auto.
          -- intros k id. rewrite zassoc_remove. destruct (Z.eqb_spec k (nkey x)); [discriminate|].
             intros Hk. destruct (H3 k id Hk) as (y & Hy & Hi & Hkk). exists y. split; auto.
             rewrite in_app_iff in Hy. destruct Hy as [Hy|[->|[]]]; auto. congruence.
          -- rewrite <- app_assoc in H4. exact H4.
          -- intros s Hs. apply H5. rewrite <- app_assoc. exact Hs.
          -- lia.
      + match goal with |- context [take n ?q] => set (c1 := q) end.
        destruct (take n c1) as [l1 c2] eqn:Et. intros E; inversion E; subst.
        eapply inv_perm; [|eapply (IH (fidx c :: P)); [|exact Et]].
        { symmetry. apply Permutation_middle. }
        destruct H as [H1 H2 H3 H4 H5 H6]. unfold slots in *.
        split; simpl; unfold slots; simpl; auto.
        * eapply Permutation_NoDup; [apply Permutation_middle|]. constructor; auto.
          intros Hs. apply H5 in Hs. lia.
        * intros s Hs. rewrite in_app_iff in Hs. simpl in Hs.
          destruct Hs as [Hs|[<-|Hs]]; try lia; apply Nat.lt_lt_succ_r, H5; rewrite in_app_iff; auto.
        * lia.
  Qed.

  Lemma take_frame : forall n c l c', take n c = (l, c') ->
    cap c' = cap c /\ data c' = data c /\ nxt c' = nxt c /\
    (forall k id, zassoc k (index c') = Some id -> zassoc k (index c) = Some id) /\
    length l = Nat.min n (nfree c + length (items c)) /\
    items c' = firstn (length (items c) - (n - nfree c)) (items c) /\
    nfree c' = nfree c - n.
  Proof.
    induction n as [|n IH]; intros c l c'.
    - simpl. intros E; inversion E; subst. repeat split; auto; try lia.
      rewrite Nat.sub_0_r. now rewrite firstn_all.
    - cbn [take]. destruct (nfree c) as [|f] eqn:Ef.
      + destruct (rev (items c)) as [|x r] eqn:Er.
        * apply (f_equal (@rev node)) in Er. rewrite rev_involutive in Er. simpl in Er.
          intros E; inversion E; subst. rewrite Er, Ef. simpl. repeat split; auto.
        * apply rev_cons_split in Er.
          match goal with |- context [take n ?q] => set (c1 := q) end.
          destruct (take n c1) as [l1 c2] eqn:Et. intros E; inversion E; subst l c'.
          destruct (IH _ _ _ Et) as (A & B & D & F & G & I & J).
          subst c1. cbn [cap data nxt index items nfree fidx] in *. rewrite Er, app_length.
          simpl length.
          repeat split; auto.
          -- intros k id Hk. apply F in Hk. rewrite zassoc_remove in Hk.
             destruct (Z.eqb k (nkey x)); [discriminate|auto].
          -- rewrite G. lia.
          -- rewrite I, firstn_app. rewrite !Nat.sub_0_r.
             replace (length (rev r) + 1 - S n) with (length (rev r) - n) by lia.
             replace (length (rev r) - n - length (rev r)) with 0 by lia.
             simpl. now rewrite app_nil_r.
      + match goal with |- context [take n ?q] => set (c1 := q) end.
        destruct (take n c1) as [l1 c2] eqn:Et. intros E; inversion E; subst l c'.
        destruct (IH _ _ _ Et) as (A & B & D & F & G & I & J).
        subst c1. cbn [cap data nxt index items nfree fidx] in *.
        repeat split; auto; simpl length; lia.
  Qed.

  (** A key whose node survives keeps its mapping when keys are unique in the list. *)
  Lemma take_index : forall n c l c', take n c = (l, c') ->
    NoDup (map nkey (items c)) ->
    forall k, In k (map nkey (items c')) -> zassoc k (index c') = zassoc k (index c).
  Proof.
    induction n as [|n IH]; intros c l c'.
    - simpl. intros E; inversion E; subst; auto.
    - cbn [take]. destruct (nfree c) as [|f] eqn:Ef.
      + destruct (rev (items c)) as [|x r] eqn:Er.
        * intros E; inversion E; subst; auto.
        * apply rev_cons_split in Er.
          match goal with |- context [take n ?q] => set (c1 := q) end.
          destruct (take n c1) as [l1 c2] eqn:Et. intros E; inversion E; subst l c'.
          intros Hn k Hk. rewrite Er, map_app in Hn. simpl in Hn.
          assert (Hk1 : In k (map nkey (rev r))).
          { destruct (take_frame _ _ _ _ Et) as (_ & _ & _ & _ & _ & I & _).
            subst c1. cbn [items] in I. rewrite I in Hk.
            apply in_map_iff in Hk. destruct Hk as (y & <- & Hy). apply in_map.
            eapply in_firstn; eauto. }
          rewrite (IH _ _ _ Et); auto.
          -- subst c1. simpl. rewrite zassoc_remove. destruct (Z.eqb_spec k (nkey x)); auto.
             subst. exfalso. apply NoDup_remove_2 in Hn. rewrite app_nil_r in Hn. auto.
          -- subst c1. simpl. now apply nodup_app_l in Hn.
      + match goal with |- context [take n ?q] => set (c1 := q) end.
        destruct (take n c1) as [l1 c2] eqn:Et. intros E; inversion E; subst l c'.
        intros Hn k Hk. rewrite (IH _ _ _ Et); auto.
  Qed.

  (** ** Part 2: copying *)
  Lemma copy_fields : forall sl vl c,
    cap (copy_cols sl vl c) = cap c /\ items (copy_cols sl vl c) = items c /\
    index (copy_cols sl vl c) = index c /\ nfree (copy_cols sl vl c) = nfree c /\
    fidx (copy_cols sl vl c) = fidx c /\ nxt (copy_cols sl vl c) = nxt c.
  Proof.
    induction sl as [|s sl IH]; intros [|v vl] c; simpl; repeat split; auto;
      destruct (IH vl (write s v c)) as (A & B & D & E & F & G); auto.
  Qed.
  Lemma copy_inv P sl vl c : inv P c -> inv P (copy_cols sl vl c).
  Proof.
    destruct (copy_fields sl vl c) as (A & B & D & E & F & G).
    intros [H1 H2 H3 H4 H5 H6]. unfold slots in *.
    split; unfold slots; rewrite ?A, ?B, ?D, ?E, ?F, ?G; auto.
  Qed.
  Lemma copy_other : forall sl vl c s, ~ In s sl -> data (copy_cols sl vl c) s = data c s.
  Proof.
    induction sl as [|s0 sl IH]; intros [|v vl] c s Hs; simpl; auto.
    rewrite IH by (simpl in Hs; tauto). simpl. unfold upd.
    destruct (Nat.eqb_spec s s0); auto. subst. simpl in Hs; tauto.
  Qed.
  Lemma copy_at : forall sl vl c i s v, NoDup sl -> nth_error sl i = Some s ->
    nth_error vl i = Some v -> data (copy_cols sl vl c) s = Some v.
  Proof.
    induction sl as [|s0 sl IH]; intros [|v0 vl] c [|i] s v Hn Hs Hv; simpl in *; try discriminate.
    - inversion Hs; inversion Hv; inversion Hn; subst.
      rewrite copy_other by auto. simpl. unfold upd. now rewrite Nat.eqb_refl.
    - inversion Hn; subst. eapply IH; eauto.
  Qed.

  (** ** Part 3: linking *)
  Lemma link_inv : forall sl keys P c, length sl <= length keys -> inv (sl ++ P) c ->
    inv P (link keys sl c).
  Proof.
    induction sl as [|s sl IH]; intros [|k keys] P c Hl H; simpl in *; auto; try lia.
    apply IH; [lia|]. destruct H as [H1 H2 H3 H4 H5 H6]. unfold slots in *.
    split; simpl; unfold slots; simpl; auto.
    - constructor; auto. intros Hi. apply in_map_iff in Hi. destruct Hi as (x & E & Hx).
      apply H2 in Hx. lia.
    - intros x [<-|Hx]; simpl; [lia|]. apply H2 in Hx. lia.
    - intros k' id. rewrite zassoc_remove. destruct (Z.eqb_spec k' k).
      + intros E; inversion E; subst. exists (mkNode (nxt c) k s). simpl. auto.
      + intros E. destruct (H3 _ _ E) as (x & Hx & Ei). exists x; auto.
    - eapply Permutation_NoDup; [|exact H4]. symmetry. apply Permutation_middle.
    - intros s' Hs. apply H5. 
      apply (Permutation_in s' (Permutation_middle (map nslot (items c)) (sl ++ P) s)). exact Hs.
  Qed.
  Lemma link_fields : forall keys sl c,
    cap (link keys sl c) = cap c /\ data (link keys sl c) = data c /\
    nfree (link keys sl c) = nfree c /\ fidx (link keys sl c) = fidx c.
  Proof.
    induction keys as [|k keys IH]; intros [|s sl] c; simpl; auto.
    destruct (IH sl (mkCache (cap c) (mkNode (nxt c) k s :: items c)
                            ((k, nxt c) :: zremove k (index c)) (data c)
                            (nfree c) (fidx c) (S (nxt c)))) as (A & B & D & E).
    rewrite A, B, D, E. auto.
  Qed.
  Lemma link_items : forall keys sl c x, In x (items (link keys sl c)) ->
    In x (items c) \/
    (nxt c <= nid x /\ exists i, nth_error keys i = Some (nkey x) /\ nth_error sl i = Some (nslot x)).
  Proof.
    induction keys as [|k keys IH]; intros [|s sl] c x; simpl; auto.
    intros H. apply IH in H. simpl in H.
    destruct H as [[<-|H]|(Hl & i & H1 & H2)]; simpl; auto.
    - right. split; auto. exists 0. auto.
    - right. split; [lia|]. exists (S i). auto.
  Qed.
  Lemma link_incl : forall keys sl c x, In x (items c) -> In x (items (link keys sl c)).
  Proof.
    induction keys as [|k keys IH]; intros [|s sl] c x; simpl; auto.
    intros H. apply IH. simpl. auto.
  Qed.
  Lemma link_index : forall keys sl c k id,
    zassoc k (index (link keys sl c)) = Some id ->
    (exists i s, nth_error keys i = Some k /\ nth_error sl i = Some s /\
                 In (mkNode id k s) (items (link keys sl c))) \/
    (~ In k (firstn (length sl) keys) /\ zassoc k (index c) = Some id).
  Proof.
    induction keys as [|k0 keys IH]; intros [|s sl] c k id; simpl; auto.
    intros H. apply IH in H. simpl in H.
    destruct H as [(i & s1 & H1 & H2 & H3)|[Hk H]].
    - left. exists (S i), s1. auto.
    - destruct (Z.eqb_spec k k0).
      + inversion H; subst. left. exists 0, s. repeat split; auto.
        apply link_incl. simpl. auto.
      + rewrite zassoc_remove in H. destruct (Z.eqb_spec k k0); [congruence|].
        right. split; auto. intros [E|E]; congruence.
  Qed.
  Lemma link_maps : forall keys sl c k, In k (firstn (length sl) keys) ->
    exists id, zassoc k (index (link keys sl c)) = Some id.
  Proof.
    assert (G : forall keys sl c k id, zassoc k (index c) = Some id ->
                exists id', zassoc k (index (link keys sl c)) = Some id').
    { induction keys as [|k0 keys IH]; intros [|s sl] c k id; simpl; eauto.
      intros H. destruct (Z.eqb_spec k k0) as [->|].
      - eapply IH; simpl. rewrite Z.eqb_refl. reflexivity.
      - eapply IH; simpl. destruct (Z.eqb_spec k k0); [congruence|].
        rewrite zassoc_remove. destruct (Z.eqb_spec k k0); [congruence|exact H]. }
    induction keys as [|k0 keys IH]; intros [|s sl] c k; simpl; try tauto.
    intros [->|H]; [|now apply IH].
    eapply G; simpl. rewrite Z.eqb_refl. reflexivity.
  Qed.

  Lemma ids_inj P c x y : inv P c -> In x (items c) -> In y (items c) -> nid x = nid y -> x = y.
  Proof.
    intros H Hx Hy E. pose proof (find_node_some _ _ _ (i_ids _ _ H) Hx E) as F1.
    pose proof (find_node_some _ _ _ (i_ids _ _ H) Hy eq_refl) as F2. congruence.
  Qed.

  Lemma put_inv ks cols c st c' : inv [] c -> put ks cols c = (st, c') ->
    (cols = None -> exists P, inv P c') /\ (cols <> None -> inv [] c').
  Proof.
    intros H. unfold put.
    destruct (take _ c) as [sl c1] eqn:Et.
    pose proof (take_inv _ _ _ _ _ H Et) as Hi. rewrite app_nil_r in Hi.
    destruct (take_frame _ _ _ _ Et) as (_ & _ & _ & _ & Hlen & _ & _).
    destruct cols as [cols|].
    - intros E; inversion E; subst. split; [discriminate|]. intros _.
      apply link_inv; [lia|]. rewrite app_nil_r. now apply copy_inv.
    - intros E. assert (c' = c1) by (destruct sl; inversion E; auto). subst c'.
      split; [eauto|congruence].
  Qed.

  (** The slots lost by a failing call stay out of the list for ever: they behave like pending
      ones. *)
  Definition invx c := exists P, inv P c.

  Lemma put_invx ks cols c : invx c -> invx (snd (put ks cols c)).
  Proof.
    intros [P H]. unfold put.
    destruct (take _ c) as [sl c1] eqn:Et.
    pose proof (take_inv _ _ _ _ _ H Et) as Hi.
    destruct (take_frame _ _ _ _ Et) as (_ & _ & _ & _ & Hlen & _ & _).
    destruct cols as [cols|].
    - simpl. exists P. apply link_inv; [lia|]. now apply copy_inv.
    - destruct sl; simpl; eexists; exact Hi.
  Qed.

  Lemma step_invx c o : invx c -> exists c', step c o = Some c' /\ invx c'.
  Proof.
    intros [P H]. destruct o as [k|ks cols]; simpl.
    - destruct (get k c) as [|s c'|] eqn:E.
      + eexists; split; eauto. now exists P.
      + eexists; split; eauto. exists P. eapply get_inv; eauto.
      + exfalso. now apply (get_not_dangling _ _ k H).
    - eexists; split; eauto. apply put_invx. now exists P.
  Qed.

  (** ** A hit returns the column last stored under the key *)
  Definition good (h : list (cop C)) c : Prop :=
    forall k x, In x (items c) -> zassoc k (index c) = Some (nid x) ->
      exists kv v, last_put k h = Some kv /\ In (k, v) kv /\ data c (nslot x) = Some v.

  Definition mentions (k : Z) (o : cop C) : option (list (Z * C)) :=
    match o with
    | Put ks (Some cols) => if existsb (Z.eqb k) ks then Some (combine ks cols) else None
    | _ => None
    end.
  Lemma last_put_app k h o :
    last_put k (h ++ [o]) = match mentions k o with Some x => Some x | None => last_put k h end.
  Proof.
    induction h as [|a h IH]; simpl.
    - destruct o as [|ks [cols|]]; simpl; auto. destruct (existsb (Z.eqb k) ks); auto.
    - rewrite IH. destruct (mentions k o); auto.
  Qed.

  Lemma existsb_key k ks : existsb (Z.eqb k) ks = true <-> In k ks.
  Proof.
    rewrite existsb_exists. split.
    - intros (x & Hx & E). apply Z.eqb_eq in E. now subst.
    - intros H. exists k. split; auto. apply Z.eqb_refl.
  Qed.

  Lemma slots_count P c : inv P c -> length (items c) + length P <= fidx c.
  Proof.
    intros H. pose proof (i_slots _ _ H) as Hn. pose proof (i_bound _ _ H) as Hb.
    assert (Hl : length (slots c ++ P) <= length (seq 0 (fidx c))).
    { apply NoDup_incl_length; auto. intros s Hs. apply in_seq. apply Hb in Hs. lia. }
    rewrite seq_length, app_length in Hl. unfold slots in Hl. rewrite map_length in Hl. lia.
  Qed.

  Lemma step_good h c o : invx c -> sized o -> good h c ->
    forall c', step c o = Some c' -> good (h ++ [o]) c'.
  Proof.
    intros [P H] Hz Hg c'. destruct o as [k|ks cols]; simpl.
    - destruct (get k c) as [|s c1|] eqn:E; [| |discriminate]; intros Ec; inversion Ec; subst.
      + intros k' x Hx Hi. rewrite last_put_app. simpl. now apply Hg.
      + destruct (get_hit _ _ _ _ _ H E) as (x0 & _ & _ & _ & _ & _ & Hp & Hc).
        intros k' x Hx Hi. rewrite last_put_app. simpl. rewrite Hc in Hx, Hi |- *. simpl in *.
        apply Hg; auto. eapply Permutation_in; [symmetry; exact Hp|auto].
    - intros Ec; inversion Ec; subst. unfold put.
      destruct (take _ c) as [sl c1] eqn:Et.
      pose proof (take_inv _ _ _ _ _ H Et) as Hi.
      destruct (take_frame _ _ _ _ Et) as (A & B & D & F & G & I & J).
      assert (Hg1 : forall k x, In x (items c1) -> zassoc k (index c1) = Some (nid x) ->
        exists kv v, last_put k h = Some kv /\ In (k, v) kv /\ data c1 (nslot x) = Some v).
      { intros k x Hx Hk. rewrite B. apply Hg; auto. rewrite I in Hx. eapply in_firstn; eauto. }
      destruct cols as [cols|].
      + simpl in Hz. cbn [snd].
        destruct (copy_fields sl cols c1) as (A' & B' & D' & E' & F' & G').
        destruct (link_fields ks sl (copy_cols sl cols c1)) as (A2 & B2 & _).
        assert (HI : inv P (link ks sl (copy_cols sl cols c1))).
        { apply link_inv; [lia|]. now apply copy_inv. }
        pose proof (i_slots _ _ Hi) as Hn.
        assert (Hnsl : NoDup sl) by (apply nodup_app_r in Hn; now apply nodup_app_l in Hn).
        intros k x Hx Hk. rewrite last_put_app. cbn [mentions]. rewrite B2.
        apply link_index in Hk. rewrite D' in Hk.
        destruct Hk as [(i & s & H1 & H2 & H3)|[Hk Hk2]].
        * pose proof (ids_inj _ _ _ _ HI Hx H3 eq_refl) as ->. simpl.
          assert (Ee : existsb (Z.eqb k) ks = true).
          { apply existsb_key. eapply nth_error_In; eauto. }
          rewrite Ee.
          destruct (nth_error cols i) as [v|] eqn:Ev.
          -- exists (combine ks cols), v. repeat split; auto.
             ++ eapply combine_nth_error; eauto.
             ++ eapply copy_at; eauto.
          -- exfalso. apply nth_error_None in Ev. rewrite <- Hz in Ev.
             assert (i < length ks) by (apply nth_error_Some; congruence). lia.
        * destruct (i_idx _ _ Hi _ _ Hk2) as (y & Hy & Eid & _).
          assert (Hyl : In y (items (link ks sl (copy_cols sl cols c1)))).
          { apply link_incl. now rewrite B'. }
          pose proof (ids_inj _ _ _ _ HI Hx Hyl (eq_sym Eid)) as ->.
          assert (Hnk : ~ In k ks).
          { intros Hin. destruct (le_lt_dec (length ks) (length sl)) as [Hle|Hlt].
            - rewrite firstn_all2 in Hk by auto. auto.
            - assert (E0 : items c1 = []).
              { rewrite I. pose proof (slots_count _ _ H). pose proof (i_cap _ _ H).
                replace (length (items c) - (Nat.min (length ks) (cap c) - nfree c)) with 0
                  by lia. reflexivity. }
              rewrite E0 in Hy. inversion Hy. }
          destruct (existsb (Z.eqb k) ks) eqn:Ee; [apply existsb_key in Ee; tauto|].
          destruct (Hg1 k y Hy Hk2) as (kv & v & E1 & E2 & E3). exists kv, v.
          repeat split; auto. rewrite copy_other; auto.
          intros Hs. apply (in_map nslot) in Hy.
          eapply nodup_app_disj; [exact Hn|exact Hy|]. rewrite in_app_iff. auto.
      + intros k x Hx Hk. rewrite last_put_app. cbn [mentions].
        assert (E : snd match sl with [] => (st_success, c1) | _ :: _ => (st_invalid_pointer, c1) end
                    = c1) by (destruct sl; auto).
        rewrite E in *. now apply Hg1.
  Qed.

  Lemma run_good : forall l h c, invx c -> Forall sized l -> good h c ->
    exists c', run c l = Some c' /\ invx c' /\ good (h ++ l) c'.
  Proof.
    induction l as [|o l IH]; intros h c Hi Hs Hg; simpl.
    - exists c. rewrite app_nil_r. auto.
    - inversion Hs as [|o' l' Ho Hl]; subst.
      destruct (step_invx c o Hi) as (c1 & E & Hi1). rewrite E.
      destruct (IH (h ++ [o]) c1 Hi1 Hl (step_good _ _ _ Hi Ho Hg _ E)) as (c' & E' & H').
      exists c'. rewrite <- app_assoc in H'. simpl in H'. auto.
  Qed.

  Lemma last_stored_lemma : forall n l, Forall sized l ->
    exists c, run (set_size C n) l = Some c /\
      forall k, get k c <> Dangling /\
        (forall s c', get k c = Hit s c' ->
           exists kv v, last_put k l = Some kv /\ In (k, v) kv /\ seen k c = Some v).
  Proof.
    intros n l Hs.
    destruct (run_good l [] (set_size C n)) as (c & E & [P Hi] & Hg); auto.
    { exists []. apply init_inv. }
    { intros k x []. }
    exists c. split; auto. intros k. split; [eapply get_not_dangling; eauto|].
    intros s c' G. unfold seen. rewrite G.
    destruct (get_hit _ _ _ _ _ Hi G) as (x & Hx & _ & <- & Hk & _).
    apply (Hg k x Hx Hk).
  Qed.
End P.
