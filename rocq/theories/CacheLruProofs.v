(** Proofs about the kernel column cache: reference behaviour, concurrency, kernel columns. *)
From Coq Require Import ZArith List Bool Lia Permutation.
From Verif Require Import Base ListFacts CacheModel CacheSpec CacheProofs.
Import ListNotations.

Section P.
  Variable C : Type.
  Notation cache := (cache C).
  Implicit Types c : cache.
  Notation inv := (inv C).

  (** ** No slot lost: every slot is free or in the list *)
  Record full c : Prop := mkFull {
    f_inv : inv [] c;
    f_count : length (items c) + nfree c = cap c }.

  Lemma init_full n : full (set_size C n).
  Proof. split; [apply init_inv|reflexivity]. Qed.

  Lemma get_full c k s c' : full c -> get k c = Hit s c' -> full c'.
  Proof.
    intros [H Hc] G. split; [eapply get_inv; eauto|].
    destruct (get_hit _ _ _ _ _ _ H G) as (x & _ & _ & _ & _ & _ & Hp & ->). simpl.
    rewrite <- (Permutation_length Hp). auto.
  Qed.

  Lemma link_length : forall keys sl c, length sl <= length keys ->
    length (items (link keys sl c)) = length sl + length (items c).
  Proof.
    induction keys as [|k keys IH]; intros [|s sl] c Hl; simpl in *; auto; try lia.
    rewrite IH by lia. simpl. lia.
  Qed.

  Lemma put_full ks cols c : full c -> full (snd (put ks (Some cols) c)).
  Proof.
    intros [H Hc]. unfold put. destruct (take (Nat.min (length ks) (cap c)) c) as [sl c1] eqn:Et.
    pose proof (take_inv _ _ _ _ _ _ H Et) as Hi. rewrite app_nil_r in Hi.
    destruct (take_frame _ _ _ _ _ Et) as (A & B & D & F & G & I & J).
    destruct (copy_fields _ sl cols c1) as (A' & B' & D' & E' & F' & G').
    destruct (link_fields _ ks sl (copy_cols sl cols c1)) as (A2 & B2 & D2 & E2).
    simpl. split.
    - apply link_inv; [lia|]. rewrite app_nil_r. now apply copy_inv.
    - rewrite A2, D2, A', E', link_length, B', A, J, I by lia. rewrite firstn_length. lia.
  Qed.

  (** ** Refinement of the reference cache *)
  Definition view c : list (Z * option C) := map (fun x => (nkey x, data c (nslot x))) (items c).
  Definition lview (l : lru C) : list (Z * option C) := map (fun e => (fst e, Some (snd e))) l.

  Record matches (l : lru C) c : Prop := mkM {
    m_full : full c;
    m_view : view c = lview l;
    m_keys : NoDup (map nkey (items c));
    m_map : forall x, In x (items c) -> zassoc (nkey x) (index c) = Some (nid x) }.

  Lemma view_keys l c : view c = lview l -> map nkey (items c) = map fst l.
  Proof.
    intros H. apply (f_equal (map fst)) in H. unfold view, lview in H.
    rewrite !map_map in H. simpl in H. exact H.
  Qed.

  Lemma lru_find_in k (l : lru C) v : lru_find k l = Some v -> In (k, v) l.
  Proof.
    induction l as [|[a b] l IH]; simpl; [discriminate|].
    destruct (Z.eqb_spec k a); intros H; [inversion H; subst; auto|auto].
  Qed.
  Lemma lru_find_none k (l : lru C) : lru_find k l = None <-> ~ In k (map fst l).
  Proof.
    induction l as [|[a b] l IH]; simpl; [tauto|].
    destruct (Z.eqb_spec k a); [subst; split; [discriminate|tauto]|].
    rewrite IH. split; intros H; [intros [E|E]; [congruence|tauto]|tauto].
  Qed.

  Lemma find_view k its d (l : lru C) x :
    NoDup (map nkey its) -> In x its -> nkey x = k ->
    map (fun x => (nkey x, d (nslot x))) its = lview l ->
    exists v, lru_find k l = Some v /\ d (nslot x) = Some v.
  Proof.
    revert l. induction its as [|y its IH]; intros [|[a b] l]; simpl; try tauto; try discriminate.
    intros Hn Hi Hk He. inversion He. inversion Hn; subst.
    destruct Hi as [->|Hi].
    - rewrite Z.eqb_refl. eauto.
    - destruct (Z.eqb_spec (nkey x) (nkey y)) as [E|E].
      + exfalso. apply H4. rewrite <- E. now apply in_map.
      + eapply IH; eauto.
  Qed.

  Lemma filter_all {A} (p : A -> bool) l : (forall x, In x l -> p x = true) -> filter p l = l.
  Proof.
    induction l as [|x l IH]; simpl; auto. intros H. rewrite (H x); auto. f_equal. auto.
  Qed.
  Lemma map_filter {A B} (f : A -> B) p q l :
    (forall x, In x l -> p x = q (f x)) -> map f (filter p l) = filter q (map f l).
  Proof.
    induction l as [|x l IH]; simpl; auto. intros H. rewrite <- (H x) by auto.
    destruct (p x); simpl; rewrite IH; auto.
  Qed.

  Lemma unlink_filter x its : NoDup (map nid its) -> NoDup (map nkey its) -> In x its ->
    unlink (nid x) its = filter (fun y => negb (Z.eqb (nkey y) (nkey x))) its.
  Proof.
    induction its as [|y its IH]; simpl; [tauto|]. intros H1 H2 Hx.
    inversion H1; inversion H2; subst.
    destruct (Nat.eqb_spec (nid y) (nid x)) as [E|E].
    - assert (y = x).
      { destruct Hx as [->|Hx]; auto. exfalso. apply H3. rewrite E. now apply in_map. }
      subst. rewrite Z.eqb_refl. simpl. symmetry. apply filter_all. intros z Hz.
      destruct (Z.eqb_spec (nkey z) (nkey x)) as [E'|E']; auto.
      exfalso. apply H7. rewrite <- E'. now apply in_map.
    - destruct Hx as [->|Hx]; [congruence|].
      destruct (Z.eqb_spec (nkey y) (nkey x)) as [E'|E'].
      + exfalso. apply H7. rewrite E'. now apply in_map.
      + simpl. f_equal. auto.
  Qed.

  Lemma matches_get l c k : matches l c ->
    match get k c with
    | Miss => lru_find k l = None
    | Hit s c' => exists v, lru_find k l = Some v /\ data c s = Some v /\ matches (lru_use k l) c'
    | Dangling => False
    end.
  Proof.
    intros [Hf Hv Hk Hm]. destruct (get k c) as [|s c'|] eqn:G.
    - unfold get in G. destruct (zassoc k (index c)) as [id|] eqn:E.
      + destruct (find_node id (items c)); discriminate.
      + apply lru_find_none. rewrite <- (view_keys _ _ Hv). intros Hin.
        apply in_map_iff in Hin. destruct Hin as (x & <- & Hx). rewrite (Hm x Hx) in E. discriminate.
    - destruct (get_hit _ _ _ _ _ _ (f_inv _ Hf) G) as (x & Hx & Hxk & <- & Hix & Hit & Hp & Hc).
      destruct (find_view k (items c) (data c) l x Hk Hx Hxk Hv) as (v & Ev & Ed).
      exists v. split; [auto|]. split; [auto|]. split.
      + eapply get_full; eauto.
      + unfold view. rewrite Hc. simpl. rewrite Hit. unfold lru_use. rewrite Ev.
        rewrite unlink_filter; auto; [|apply (i_ids _ _ _ (f_inv _ Hf))].
        simpl. rewrite Hxk, Ed. f_equal.
        rewrite (map_filter _ _ (fun e => negb (Z.eqb (fst e) k))) by auto.
        unfold view in Hv. rewrite Hv. unfold lview. symmetry. now apply map_filter.
      + eapply Permutation_NoDup; [|exact Hk]. now apply Permutation_map.
      + rewrite Hc. simpl. intros y Hy. apply Hm.
        eapply Permutation_in; [symmetry; exact Hp|auto].
    - now apply (get_not_dangling _ _ _ k (f_inv _ Hf)).
  Qed.

  (** Linking fresh keys *)
  Lemma link_view : forall keys sl c (cols : list C),
    length sl <= length keys ->
    (forall i s, nth_error sl i = Some s -> data c s = nth_error cols i) ->
    length keys = length cols ->
    view (link keys sl c)
    = rev (map (fun e => (fst e, Some (snd e))) (firstn (length sl) (combine keys cols))) ++ view c.
  Proof.
    induction keys as [|k keys IH]; intros [|s sl] c [|v cols] Hl Hd He; simpl in *;
      try lia; auto.
    rewrite (IH sl _ cols); simpl; try lia.
    - rewrite <- app_assoc. f_equal. unfold view. simpl.
      pose proof (Hd 0 s eq_refl) as E. simpl in E. now rewrite E.
    - intros i s' Hs. apply (Hd (S i) s' Hs).
  Qed.

  Lemma link_map_fresh : forall keys sl c,
    length sl <= length keys -> NoDup keys ->
    NoDup (map nkey (items c)) ->
    (forall k, In k keys -> ~ In k (map nkey (items c))) ->
    (forall x, In x (items c) -> zassoc (nkey x) (index c) = Some (nid x)) ->
    NoDup (map nkey (items (link keys sl c))) /\
    (forall x, In x (items (link keys sl c)) ->
       zassoc (nkey x) (index (link keys sl c)) = Some (nid x)).
  Proof.
    induction keys as [|k keys IH]; intros [|s sl] c Hl Hn Hk Hd Hm; simpl in *; auto; try lia.
    inversion Hn; subst. apply IH; simpl; auto; try lia.
    - constructor; auto.
    - intros k' Hk' [E|E]; [congruence|]. apply (Hd k'); auto.
    - intros x [<-|Hx]; simpl; [now rewrite Z.eqb_refl|].
      destruct (Z.eqb_spec (nkey x) k) as [E|E].
      + exfalso. apply (Hd k); auto. rewrite <- E. now apply in_map.
      + rewrite zassoc_remove. destruct (Z.eqb_spec (nkey x) k); [congruence|auto].
  Qed.

  Lemma firstn_map_c {A B} (f : A -> B) n l : firstn n (map f l) = map f (firstn n l).
  Proof. revert l; induction n; intros [|x l]; simpl; auto. now rewrite IHn. Qed.

  Lemma matches_put l c ks cols : matches l c -> length ks = length cols -> NoDup ks ->
    (forall k, In k ks -> lru_find k l = None) ->
    matches (lru_store (cap c) (combine ks cols) l) (snd (put ks (Some cols) c)).
  Proof.
    intros [Hf Hv Hk Hm] Hz Hn Hd.
    pose proof (put_full ks cols c Hf) as Hf'. revert Hf'. unfold put.
    destruct (take (Nat.min (length ks) (cap c)) c) as [sl c1] eqn:Et.
    pose proof (take_inv _ _ _ _ _ _ (f_inv _ Hf) Et) as Hi. rewrite app_nil_r in Hi.
    pose proof (take_index _ _ _ _ _ Et Hk) as Hti.
    destruct (take_frame _ _ _ _ _ Et) as (A & B & D & F & G & I & J).
    destruct (copy_fields _ sl cols c1) as (A' & B' & D' & E' & F' & G').
    pose proof (f_count _ Hf) as Hcnt.
    assert (Hlen : length sl = Nat.min (length ks) (cap c)) by lia.
    simpl. intros Hf'.
    assert (Hsub : forall x, In x (items c1) -> In x (items c)).
    { intros x Hx. rewrite I in Hx. eapply in_firstn; eauto. }
    assert (Hk1 : NoDup (map nkey (items c1))).
    { rewrite I, <- firstn_map_c. rewrite <- (firstn_skipn
        (length (items c) - (Nat.min (length ks) (cap c) - nfree c)) (map nkey (items c))) in Hk.
      now apply nodup_app_l in Hk. }
    destruct (link_map_fresh ks sl (copy_cols sl cols c1)) as [Hk2 Hm2]; auto.
    { lia. }
    { now rewrite B'. }
    { rewrite B'. intros k Hin Hin2. apply (Hd k) in Hin. apply lru_find_none in Hin.
      apply Hin. rewrite <- (view_keys _ _ Hv). apply in_map_iff in Hin2.
      destruct Hin2 as (x & <- & Hx). apply in_map. auto. }
    { rewrite B', D'. intros x Hx. rewrite Hti by now apply in_map. apply Hm. auto. }
    split; auto.
    assert (Hns : NoDup sl) by (pose proof (i_slots _ _ _ Hi) as Hs; now apply nodup_app_r in Hs).
    rewrite (link_view ks sl _ cols); auto; try lia.
    - assert (Hvc : view (copy_cols sl cols c1)
                    = firstn (length (items c) - (Nat.min (length ks) (cap c) - nfree c)) (view c)).
      { unfold view. rewrite B'. rewrite firstn_map_c. rewrite <- I.
        apply map_ext_in. intros x Hx. f_equal. rewrite copy_other.
        - now rewrite B.
        - intros Hs. pose proof (i_slots _ _ _ Hi) as Hs'.
          eapply nodup_app_disj; [exact Hs'| |exact Hs]. unfold slots. now apply in_map. }
      rewrite Hvc, Hv. unfold lru_store, lview.
      rewrite firstn_app, rev_length, firstn_length, combine_length, <- Hz, Nat.min_id.
      rewrite firstn_all2 with (l := rev _).
      2:{ rewrite rev_length, firstn_length, combine_length, <- Hz. lia. }
      rewrite map_app, map_rev, <- !firstn_map_c.
      rewrite Hlen. f_equal.
      + f_equal. rewrite !firstn_map_c. f_equal.
        destruct (Nat.le_ge_cases (length ks) (cap c)) as [Hle|Hle].
        * rewrite Nat.min_l by auto. rewrite !firstn_all2; auto;
            rewrite combine_length, <- Hz; lia.
        * now rewrite Nat.min_r by auto.
      + assert (Hll : length (items c) = length l).
        { apply (f_equal (@length _)) in Hv. unfold view, lview in Hv.
          now rewrite !map_length in Hv. }
        destruct (Nat.le_ge_cases (Nat.min (length ks) (cap c)) (nfree c)) as [Hle|Hle].
        * rewrite !firstn_all2; auto; rewrite map_length; lia.
        * f_equal. lia.
    - intros i s Hs. destruct (nth_error cols i) as [v|] eqn:Ev.
      + eapply copy_at; eauto.
      + exfalso. apply nth_error_None in Ev.
        assert (i < length sl) by (apply nth_error_Some; congruence). lia.
  Qed.

  Lemma put_cap ks cols c : cap (snd (put ks cols c)) = cap c.
  Proof.
    unfold put. destruct (take _ c) as [sl c1] eqn:Et.
    destruct (take_frame _ _ _ _ _ Et) as (A & _).
    destruct cols as [cols|]; [|destruct sl; exact A]. simpl.
    destruct (copy_fields _ sl cols c1) as (A' & _).
    destruct (link_fields _ ks sl (copy_cols sl cols c1)) as (A2 & _). congruence.
  Qed.

  Lemma run_matches : forall h l c n, cap c = n -> matches l c -> fresh_puts n l h ->
    exists c', run c h = Some c' /\ matches (lru_run n l h) c'.
  Proof.
    induction h as [|o h IH]; intros l c n Hn Hm Hf; simpl; [eauto|].
    destruct Hf as [Ho Hf]. destruct o as [k|ks [cols|]]; simpl.
    - pose proof (matches_get l c k Hm) as G. destruct (get k c) as [|s c'|] eqn:Eg; [| |tauto].
      + apply IH; auto. simpl in Hf. unfold lru_use in *. now rewrite G in *.
      + destruct G as (v & _ & _ & Hm'). apply IH; auto.
        destruct (get_hit _ _ _ _ _ _ (f_inv _ (m_full _ _ Hm)) Eg)
          as (x & _ & _ & _ & _ & _ & _ & ->). auto.
    - destruct Ho as (Hz & Hd & Hfr). apply IH; auto.
      + rewrite put_cap. auto.
      + subst n. now apply matches_put.
    - tauto.
  Qed.

  Lemma reference_lemma : forall n h, fresh_puts n [] h ->
    exists c, run (set_size C n) h = Some c /\
      forall k, match get k c with
                | Miss => lru_find k (lru_run n [] h) = None
                | Hit s _ => lru_find k (lru_run n [] h) = seen k c /\ seen k c <> None
                | Dangling => False
                end.
  Proof.
    intros n h Hf.
    destruct (run_matches h [] (set_size C n) n) as (c & Er & Hm); auto.
    { split; simpl; try constructor; try tauto. apply init_inv. }
    exists c. split; auto. intros k. pose proof (matches_get _ _ k Hm) as G.
    unfold seen. destruct (get k c); auto. destruct G as (v & E1 & E2 & _).
    rewrite E1, E2. split; [auto|discriminate].
  Qed.
End P.
