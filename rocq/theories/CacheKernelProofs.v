(** Proofs about concurrent insertions and about the kernel columns handed to the SVM solver. *)
From Coq Require Import ZArith List Bool Lia Permutation.
From Verif Require Import Base ListFacts CacheModel CacheSpec CacheProofs CacheLruProofs.
Import ListNotations.

Section P.
  Variable C : Type.
  Notation cache := (cache C).
  Implicit Types c : cache.
  Notation inv := (inv C).
  Notation full := (full C).

  (** ** Concurrent insertions *)
  Definition held (l : list (nat * (list Z * list nat))) : list nat :=
    concat (map (fun e => snd (snd e)) l).

  Record tinv (s : cstate C) : Prop := mkT {
    t_inv : inv (held (pending s)) (shared s);
    t_len : forall t ks sl, In (t, (ks, sl)) (pending s) -> length sl <= length ks }.

  Lemma drop_held t ks sl l : of_thread t l = Some (ks, sl) ->
    Permutation (held l) (sl ++ held (drop_thread t l)) /\ In (t, (ks, sl)) l /\
    (forall e, In e (drop_thread t l) -> In e l).
  Proof.
    induction l as [|[t' [ks' sl']] l IH]; simpl; [discriminate|].
    destruct (Nat.eqb_spec t t').
    - intros H; inversion H; subst. repeat split; auto.
    - intros H. destruct (IH H) as (H1 & H2 & H3). repeat split; auto.
      + unfold held in *. simpl. rewrite H1. rewrite !app_assoc.
        apply Permutation_app_tail, Permutation_app_comm.
      + intros e [<-|He]; auto.
  Qed.

  Lemma write_inv P s v c : inv P c -> inv P (write s v c).
  Proof. intros [H1 H2 H3 H4 H5 H6]. split; auto. Qed.

  Lemma tnext_inv s o : tinv s -> tinv (tnext s o).
  Proof.
    intros [H Hl]. destruct o as [t keys|t i v|t]; simpl.
    - destruct (of_thread t (pending s)) eqn:E; [now split|].
      destruct (take _ (shared s)) as [sl c1] eqn:Et.
      split; simpl.
      + unfold held. simpl. eapply take_inv; eauto.
      + intros t' ks sl' [E'|Hin]; [inversion E'; subst|eauto].
        destruct (take_frame _ _ _ _ _ Et) as (_ & _ & _ & _ & G & _). lia.
    - destruct (of_thread t (pending s)) as [[ks sl]|] eqn:E; [|now split].
      destruct (nth_error sl i); [|now split]. split; simpl; auto. now apply write_inv.
    - destruct (of_thread t (pending s)) as [[ks sl]|] eqn:E; [|now split].
      destruct (drop_held _ _ _ _ E) as (H1 & H2 & H3). split; simpl.
      + apply link_inv; [eauto|]. eapply inv_perm; eauto.
      + intros t' ks' sl' Hin. apply Hl with t'. auto.
  Qed.

  Lemma trun_inv : forall l s, tinv s -> tinv (trun s l).
  Proof.
    induction l as [|o l IH]; intros s H; simpl; auto. apply IH. now apply tnext_inv.
  Qed.

  Lemma tcap : forall l (s : cstate C), cap (shared (trun s l)) = cap (shared s).
  Proof.
    induction l as [|o l IH]; intros s; simpl; auto. unfold trun in *. rewrite IH.
    destruct o as [t keys|t i v|t]; simpl.
    - destruct (of_thread t (pending s)); auto. destruct (take _ (shared s)) as [sl c1] eqn:Et.
      destruct (take_frame _ _ _ _ _ Et) as (A & _). auto.
    - destruct (of_thread t (pending s)) as [[ks sl]|]; auto. destruct (nth_error sl i); auto.
    - destruct (of_thread t (pending s)) as [[ks sl]|]; auto. simpl. apply link_fields.
  Qed.

  Lemma held_in t ks sl l x : of_thread t l = Some (ks, sl) -> In x sl -> In x (held l).
  Proof.
    intros E Hx. destruct (drop_held _ _ _ _ E) as (H1 & _).
    eapply Permutation_in; [symmetry; exact H1|]. rewrite in_app_iff; auto.
  Qed.

  Lemma drop_other t t' l : t <> t' -> of_thread t' (drop_thread t l) = of_thread t' l.
  Proof.
    intros Hne. induction l as [|[a x] l IH]; simpl; auto.
    destruct (Nat.eqb_spec t a).
    - subst. destruct (Nat.eqb_spec t' a); [congruence|auto].
    - simpl. now rewrite IH.
  Qed.

  Lemma concurrent_lemma : forall n l,
    let s := trun (mkCS (set_size C n) []) l in
    (forall k, get k (shared s) <> Dangling) /\
    (forall t ks sl x, of_thread t (pending s) = Some (ks, sl) -> In x sl -> x < n) /\
    (forall t1 t2 ks1 sl1 ks2 sl2 x, t1 <> t2 ->
       of_thread t1 (pending s) = Some (ks1, sl1) -> of_thread t2 (pending s) = Some (ks2, sl2) ->
       In x sl1 -> ~ In x sl2) /\
    (forall t i v k, seen k (shared (tnext s (TWrite t i v))) = seen k (shared s)).
  Proof.
    intros n l s. assert (H : tinv s).
    { apply trun_inv. split; simpl; [apply init_inv|tauto]. }
    assert (Hcap : cap (shared s) = n) by (unfold s; rewrite tcap; reflexivity).
    destruct H as [H Hl]. repeat split.
    - intros k. eapply get_not_dangling; eauto.
    - intros t ks sl x E Hx. pose proof (i_bound _ _ _ H x). pose proof (i_cap _ _ _ H).
      assert (In x (slots C (shared s) ++ held (pending s))).
      { rewrite in_app_iff. right. eapply held_in; eauto. }
      specialize (H0 H2). lia.
    - intros t1 t2 ks1 sl1 ks2 sl2 x Hne E1 E2 H1 H2.
      pose proof (i_slots _ _ _ H) as Hn. apply nodup_app_r in Hn.
      destruct (drop_held _ _ _ _ E1) as (Hp & _).
      apply (Permutation_NoDup Hp) in Hn.
      eapply nodup_app_disj; [exact Hn|exact H1|].
      apply (held_in t2 ks2 sl2); auto. now rewrite drop_other.
    - intros t i v k. simpl. destruct (of_thread t (pending s)) as [[ks sl]|] eqn:E; auto.
      destruct (nth_error sl i) as [x|] eqn:Ex; auto. simpl.
      unfold seen, get. simpl.
      destruct (zassoc k (index (shared s))) as [id|]; auto.
      destruct (find_node id (items (shared s))) as [y|] eqn:Ey; auto. simpl. unfold upd.
      destruct (Nat.eqb_spec (nslot y) x); auto. exfalso.
      apply find_node_in in Ey. destruct Ey as [Hy _].
      pose proof (i_slots _ _ _ H) as Hn.
      eapply nodup_app_disj; [exact Hn|apply in_map; exact Hy|].
      rewrite e. eapply held_in; eauto. eapply nth_error_In; eauto.
  Qed.

  (** ** A stored key is found *)
  Lemma put_hits_lemma : forall n h ks cols, Forall sized h -> Forall succeeding h ->
    length ks = length cols -> length ks <= n ->
    exists c, run (set_size C n) (h ++ [Put ks (Some cols)]) = Some c /\
      forall k, In k ks -> exists v, seen k c = Some v /\ In (k, v) (combine ks cols).
  Proof.
    intros n h ks cols Hs Hok Hz Hle.
    destruct (last_stored_lemma C n (h ++ [Put ks (Some cols)])) as (c & Er & Hg).
    { apply Forall_app. split; auto. }
    exists c. split; auto. intros k Hk.
    assert (Hlast : last_put k (h ++ [Put ks (Some cols)]) = Some (combine ks cols)).
    { rewrite last_put_app. simpl.
      replace (existsb (Z.eqb k) ks) with true; auto. symmetry. now apply existsb_key. }
    assert (exists s c', get k c = Hit s c') as (s & c' & G).
    { assert (Hr : exists c0, run (set_size C n) h = Some c0 /\ full c0 /\ cap c0 = n).
      { assert (R : forall h c0, full c0 -> cap c0 = n -> Forall succeeding h ->
                    exists c1, run c0 h = Some c1 /\ full c1 /\ cap c1 = n).
        { clear. induction h as [|o h IH]; intros c0 Hf Hc Ho; simpl; [eauto|].
          inversion Ho as [|o' h' Ho1 Ho2]; subst. destruct o as [k|ks [cols|]]; simpl.
          - destruct (get k c0) as [|s c1|] eqn:G.
            + apply IH; auto.
            + apply IH; auto; [eapply get_full; eauto|].
              destruct (get_hit _ _ _ _ _ _ (f_inv _ _ Hf) G)
                as (x & _ & _ & _ & _ & _ & _ & ->). reflexivity.
            + exfalso. now apply (get_not_dangling _ _ _ k (f_inv _ _ Hf)).
          - apply IH; auto; [now apply put_full|apply put_cap].
          - inversion Ho1. }
        apply R; auto. apply init_full. }
      destruct Hr as (c0 & Er0 & Hf0 & Hc0).
      assert (Erun : forall l c a b, run c l = Some a -> run c (l ++ [b]) = step a b).
      { clear. induction l as [|o l IH]; intros c a b; simpl.
        - intros E; inversion E; subst. destruct (step a b); auto.
        - destruct (step c o); [apply IH|discriminate]. }
      rewrite (Erun _ _ _ _ Er0) in Er. simpl in Er. inversion Er as [Ec]. clear Er Erun.
      assert (Hf1 : full c) by (rewrite <- Ec; now apply put_full). rewrite Ec.
      revert Ec. unfold put.
      destruct (take (Nat.min (length ks) (cap c0)) c0) as [sl c1] eqn:Et.
      destruct (take_frame _ _ _ _ _ Et) as (A & B & D & F & G & I & J).
      pose proof (f_count _ _ Hf0).
      simpl. intros Ec.
      assert (Hin : In k (firstn (length sl) ks)) by (rewrite firstn_all2; auto; lia).
      destruct (link_maps _ ks sl (copy_cols sl cols c1) k Hin) as (id & Eid).
      rewrite Ec in Eid.
      destruct (i_idx _ _ _ (f_inv _ _ Hf1) _ _ Eid) as (x & Hx & Hxi & _).
      unfold get. rewrite Eid, (find_node_some _ _ _ (i_ids _ _ _ (f_inv _ _ Hf1)) Hx Hxi). eauto. }
    destruct (proj2 (Hg k) s c' G) as (kv & v & E1 & E2 & E3).
    exists v. split; auto. congruence.
  Qed.

  (** ** Kernel columns *)
  Variable K : Z -> C.
  Definition holdsK c : Prop := forall x, In x (items c) -> data c (nslot x) = Some (K (nkey x)).

  Lemma get_holdsK c k s c' : full c -> holdsK c -> get k c = Hit s c' ->
    holdsK c' /\ data c' s = Some (K k).
  Proof.
    intros Hf Hk G.
    destruct (get_hit _ _ _ _ _ _ (f_inv _ _ Hf) G) as (x & Hx & Hxk & <- & _ & _ & Hp & Hc).
    rewrite Hc. split; simpl.
    - intros y Hy. simpl in *. apply Hk. eapply Permutation_in; [symmetry; exact Hp|auto].
    - rewrite (Hk x Hx). now rewrite Hxk.
  Qed.

  Lemma put_holdsK ks c : full c -> holdsK c -> holdsK (snd (put ks (Some (map K ks)) c)).
  Proof.
    intros Hf Hk. unfold put.
    destruct (take (Nat.min (length ks) (cap c)) c) as [sl c1] eqn:Et.
    pose proof (take_inv _ _ _ _ _ _ (f_inv _ _ Hf) Et) as Hi. rewrite app_nil_r in Hi.
    destruct (take_frame _ _ _ _ _ Et) as (A & B & D & F & G & I & J).
    destruct (copy_fields _ sl (map K ks) c1) as (A' & B' & D' & E' & F' & G').
    destruct (link_fields _ ks sl (copy_cols sl (map K ks) c1)) as (A2 & B2 & _).
    pose proof (i_slots _ _ _ Hi) as Hn.
    simpl. intros x Hx. rewrite B2. apply link_items in Hx. rewrite B' in Hx.
    destruct Hx as [Hx|(_ & i & H1 & H2)].
    - rewrite copy_other.
      + rewrite B. apply Hk. rewrite I in Hx. eapply in_firstn; eauto.
      + intros Hs. eapply nodup_app_disj; [exact Hn|apply in_map; exact Hx|exact Hs].
    - eapply copy_at; eauto; [now apply nodup_app_r in Hn|].
      now apply map_nth_error.
  Qed.

  (** Slots of recently found columns survive the insertion of few enough columns. *)
  Lemma put_keeps ks c pre suf x : full c -> items c = pre ++ suf ->
    length pre + length ks <= cap c -> In x pre ->
    data (snd (put ks (Some (map K ks)) c)) (nslot x) = data c (nslot x).
  Proof.
    intros Hf Hit Hle Hx. unfold put.
    destruct (take (Nat.min (length ks) (cap c)) c) as [sl c1] eqn:Et.
    pose proof (take_inv _ _ _ _ _ _ (f_inv _ _ Hf) Et) as Hi. rewrite app_nil_r in Hi.
    destruct (take_frame _ _ _ _ _ Et) as (A & B & D & F & G & I & J).
    destruct (link_fields _ ks sl (copy_cols sl (map K ks) c1)) as (A2 & B2 & _).
    simpl. rewrite B2, copy_other; [now rewrite B|].
    intros Hs. pose proof (i_slots _ _ _ Hi) as Hn.
    eapply nodup_app_disj; [exact Hn| |exact Hs]. unfold slots. apply in_map.
    pose proof (f_count _ _ Hf) as Hcnt. rewrite Hit, app_length in Hcnt.
    rewrite I, Hit, firstn_app, app_length, in_app_iff. left.
    rewrite firstn_all2 by lia. exact Hx.
  Qed.

  (** What the scan has established after [i] positions of [idx]. *)
  Record scanned (smaller : bool) (n : Z) (idx : list Z) (c0 : cache) (i : nat) (s : scan_state C)
    : Prop := mkSd {
    s_full : full (sc_cache s);
    s_cap : cap (sc_cache s) = cap c0;
    s_K : holdsK (sc_cache s);
    s_pos : Permutation (map fst (sc_known s) ++ sc_todo s) (seq 0 i);
    s_rhs : sc_rhs s = if smaller then length idx - length (sc_known s) else length idx;
    s_known : forall j p, In (j, p) (sc_known s) ->
      if smaller
      then exists q, p = PTemp q /\ sc_rhs s <= q /\
                     sc_temp s q = Some (K (nth j idx 0 mod n)%Z)
      else exists x, p = PCache (nslot x) /\ In x (items (sc_cache s)) /\
                     nkey x = (nth j idx 0 mod n)%Z;
    s_front : smaller = false -> exists pre suf, items (sc_cache s) = pre ++ suf /\
      length pre <= length (sc_known s) /\
      forall j q, In (j, PCache q) (sc_known s) -> exists x, In x pre /\ nslot x = q }.

  Lemma seq_snoc i : seq 0 (S i) = seq 0 i ++ [i].
  Proof. now rewrite seq_S. Qed.

  Lemma scan_step_ok active smaller n idx c0 i s : scanned smaller n idx c0 i s ->
    i < length idx ->
    exists s', scan_step active smaller n s i (nth i idx 0%Z) = Some s' /\
               scanned smaller n idx c0 (S i) s' /\
               (active = false -> sc_cache s' = sc_cache s /\ sc_known s' = sc_known s).
  Proof.
    intros [Hf Hc HK Hp Hr Hkn Hfr] Hi. unfold scan_step.
    assert (Htodo : scanned smaller n idx c0 (S i)
              (mkScan (sc_cache s) (sc_temp s) (sc_rhs s) (sc_known s) (sc_todo s ++ [i]))).
    { split; cbn [sc_cache sc_temp sc_rhs sc_known sc_todo]; auto. rewrite app_assoc, seq_S. simpl. now apply Permutation_app_tail. }
    destruct active; simpl; [|eexists; split; [reflexivity|]; auto].
    destruct (get (nth i idx 0 mod n)%Z (sc_cache s)) as [|q c'|] eqn:G.
    - eexists; split; [reflexivity|]. split; auto.
    - destruct (get_holdsK _ _ _ _ Hf HK G) as [HK' Hd].
      pose proof (get_full _ _ _ _ _ Hf G) as Hf'.
      destruct (get_hit _ _ _ _ _ _ (f_inv _ _ Hf) G)
        as (x & Hx & Hxk & Hxs & _ & Hit & Hperm & Hcc).
      assert (Hlen : length (sc_known s) + length (sc_todo s) = i).
      { apply Permutation_length in Hp. rewrite app_length, map_length, seq_length in Hp. auto. }
      assert (Hposn : forall p, Permutation (map fst (sc_known s ++ [(i, p)]) ++ sc_todo s)
                                            (seq 0 (S i))).
      { intros p. rewrite map_app, seq_S. simpl. rewrite <- app_assoc.
        rewrite <- Hp. rewrite <- app_assoc. apply Permutation_app_head. apply Permutation_app_comm. }
      assert (Hcap' : cap c' = cap c0) by (rewrite Hcc; auto).
      destruct smaller.
      + rewrite Hd. eexists; split; [reflexivity|]. split; [|discriminate].
        split; cbn [sc_cache sc_temp sc_rhs sc_known sc_todo]; auto.
        * rewrite Hr, app_length. simpl. lia.
        * intros j p Hin. rewrite in_app_iff in Hin. destruct Hin as [Hin|[E|[]]].
          -- destruct (Hkn j p Hin) as (q' & -> & Hq & Ht). exists q'. repeat split; auto; [lia|].
             unfold upd. destruct (Nat.eqb_spec q' (sc_rhs s - 1)); auto. lia.
          -- inversion E; subst. exists (sc_rhs s - 1). repeat split; auto.
             unfold upd. now rewrite Nat.eqb_refl.
        * discriminate.
      + eexists; split; [reflexivity|]. split; [|discriminate].
        split; cbn [sc_cache sc_temp sc_rhs sc_known sc_todo]; auto.
        * intros j p Hin. rewrite in_app_iff in Hin. destruct Hin as [Hin|[E|[]]].
          -- destruct (Hkn j p Hin) as (y & -> & Hy & Hyk). exists y. repeat split; auto.
             eapply Permutation_in; eauto.
          -- inversion E; subst. exists x. repeat split; auto.
             eapply Permutation_in; eauto.
        * intros _. destruct (Hfr eq_refl) as (pre & suf & Hps & Hpl & Hpin).
          rewrite Hit.
          assert (Hid : NoDup (map nid (items (sc_cache s)))) by apply (i_ids _ _ _ (f_inv _ _ Hf)).
          assert (Hu : forall l m y, NoDup (map nid (l ++ m)) -> In y l ->
                    unlink (nid y) (l ++ m) = unlink (nid y) l ++ m).
          { clear. induction l as [|z l IH]; intros m y Hn Hy; simpl in *; [tauto|].
            destruct (Nat.eqb_spec (nid z) (nid y)); auto. simpl. f_equal.
            inversion Hn; subst. apply IH; auto. destruct Hy as [->|Hy]; [congruence|auto]. }
          assert (Hu2 : forall l m y, NoDup (map nid (l ++ m)) -> In y m ->
                    unlink (nid y) (l ++ m) = l ++ unlink (nid y) m).
          { clear. induction l as [|z l IH]; intros m y Hn Hy; simpl in *; auto.
            inversion Hn; subst.
            destruct (Nat.eqb_spec (nid z) (nid y)).
            - exfalso. apply H1. rewrite e. apply in_map. rewrite in_app_iff. auto.
            - f_equal. apply IH; auto. }
          rewrite Hps in Hx. rewrite in_app_iff in Hx. rewrite Hps in *.
          rewrite app_length. simpl.
          destruct Hx as [Hx|Hx].
          -- rewrite Hu by auto.
             assert (Hpp : Permutation pre (x :: unlink (nid x) pre)).
             { apply unlink_perm, find_node_some; auto. rewrite map_app in Hid.
               now apply nodup_app_l in Hid. }
             exists (x :: unlink (nid x) pre), suf. repeat split; auto.
             ++ apply Permutation_length in Hpp. lia.
             ++ intros j q' Hin. rewrite in_app_iff in Hin. destruct Hin as [Hin|[E|[]]].
                ** destruct (Hpin j q' Hin) as (y & Hy & Hyq). exists y. split; auto.
                   eapply Permutation_in; eauto.
                ** inversion E; subst. exists x. simpl. auto.
          -- rewrite Hu2 by auto.
             exists (x :: pre), (unlink (nid x) suf). repeat split; auto.
             ++ simpl. lia.
             ++ intros j q' Hin. rewrite in_app_iff in Hin. destruct Hin as [Hin|[E|[]]].
                ** destruct (Hpin j q' Hin) as (y & Hy & Hyq). exists y. simpl. auto.
                ** inversion E; subst. exists x. simpl. auto.
    - exfalso. now apply (get_not_dangling _ _ _ (nth i idx 0 mod n)%Z (f_inv _ _ Hf)).
  Qed.

  Lemma scan_ok active smaller n idx c0 : forall rest i s,
    skipn i idx = rest -> i + length rest = length idx -> scanned smaller n idx c0 i s ->
    exists s', scan active smaller n s i rest = Some s' /\
               scanned smaller n idx c0 (length idx) s' /\
               (active = false -> sc_cache s' = sc_cache s /\ sc_known s' = sc_known s).
  Proof.
    induction rest as [|ix rest IH]; intros i s Hs Hl H; simpl.
    - simpl in Hl. rewrite Nat.add_0_r in Hl. subst i. eauto.
    - simpl in Hl. assert (Hi : i < length idx) by lia.
      assert (Hnth : nth i idx 0%Z = ix /\ skipn (S i) idx = rest).
      { clear - Hs Hi. revert idx Hs Hi. induction i as [|i IH]; intros [|y idx] Hs Hi; simpl in *;
          try lia.
        - inversion Hs; auto.
        - apply IH; auto. lia. }
      destruct Hnth as [Hn Hsk].
      destruct (scan_step_ok active smaller n idx c0 i s H Hi) as (s1 & E & H1 & Ha).
      rewrite Hn in E. rewrite E.
      destruct (IH (S i) s1 Hsk) as (s' & E' & H' & Ha'); auto; [lia|].
      exists s'. split; [auto|]. split; [auto|]. intros Hact.
      destruct (Ha Hact), (Ha' Hact). split; congruence.
  Qed.

  Lemma fill_at : forall keys j t q, q < length keys ->
    fill K keys j t (j + q) = Some (K (nth q keys 0%Z)).
  Proof.
    assert (G : forall keys j t p, p < j -> fill K keys j t p = t p).
    { induction keys as [|k keys IH]; intros j t p Hp; simpl; auto.
      rewrite IH by lia. unfold upd. destruct (Nat.eqb_spec p j); [lia|auto]. }
    induction keys as [|k keys IH]; intros j t [|q] Hq; simpl in *; try lia.
    - rewrite Nat.add_0_r, G by lia. unfold upd. now rewrite Nat.eqb_refl.
    - replace (j + S q) with (S j + q) by lia. rewrite IH by lia. reflexivity.
  Qed.
  Lemma fill_after : forall keys j t p, j + length keys <= p -> fill K keys j t p = t p.
  Proof.
    induction keys as [|k keys IH]; intros j t p Hp; simpl in *; auto.
    rewrite IH by lia. unfold upd. destruct (Nat.eqb_spec p j); [lia|auto].
  Qed.
  Lemma pair_temp_in : forall todo j i p, In (i, p) (pair_temp todo j) ->
    exists q, p = PTemp (j + q) /\ nth_error todo q = Some i.
  Proof.
    induction todo as [|a todo IH]; intros j i p; simpl; [tauto|].
    intros [E|H].
    - inversion E; subst. exists 0. rewrite Nat.add_0_r. auto.
    - destruct (IH _ _ _ H) as (q & -> & Hq). exists (S q). split; [f_equal; lia|auto].
  Qed.
  Lemma pair_temp_fst : forall todo j, map fst (pair_temp todo j) = todo.
  Proof. induction todo; intros; simpl; auto. now rewrite IHtodo. Qed.

  Definition kgood c := full c /\ holdsK c.

  Lemma init_kgood n : kgood (set_size C n).
  Proof. split; [apply init_full|]. intros x []. Qed.

  Lemma kernel_compute_ok active smaller n idx c temp :
    kgood c -> (smaller = false -> active = true -> length idx <= cap c) ->
    exists c' temp' ptrs, kernel_compute K active smaller n idx c temp = Some (c', temp', ptrs) /\
      kgood c' /\ cap c' = cap c /\
      Permutation (map fst ptrs) (seq 0 (length idx)) /\
      (forall i p, In (i, p) ptrs -> deref temp' c' p = Some (K (nth i idx 0 mod n)%Z)).
  Proof.
    intros [Hf HK] Hsm. unfold kernel_compute.
    destruct (scan_ok active smaller n idx c idx 0 (mkScan c temp (length idx) [] []))
      as (s & Es & Hs & Ha); auto.
    { split; simpl; auto.
      - destruct smaller; lia.
      - tauto.
      - intros _. exists [], (items c). repeat split; auto. intros j q []. }
    rewrite Es. destruct Hs as [Sf Sc SK Sp Sr Skn Sfr].
    set (keys := map (fun i => (nth i idx 0 mod n)%Z) (sc_todo s)).
    set (c1 := match keys with [] => _ | _ => _ end).
    assert (Hc1 : c1 = sc_cache s \/
                  (active = true /\ c1 = snd (put keys (Some (map K keys)) (sc_cache s)))).
    { unfold c1. destruct keys; auto. destruct active; auto. }
    assert (Hg1 : kgood c1 /\ cap c1 = cap c).
    { destruct Hc1 as [->|[_ ->]].
      - repeat split; auto; apply Sf.
      - repeat split; try (apply put_full; auto).
        + now apply put_holdsK.
        + rewrite put_cap. auto. }
    exists c1, (fill K keys 0 (sc_temp s)), (sc_known s ++ pair_temp (sc_todo s) 0).
    split; [reflexivity|]. split; [apply Hg1|]. split; [apply Hg1|]. split.
    - rewrite map_app, pair_temp_fst. exact Sp.
    - assert (Hcount : length (sc_known s) + length (sc_todo s) = length idx).
      { apply Permutation_length in Sp. rewrite app_length, map_length, seq_length in Sp. auto. }
      intros i p Hin. rewrite in_app_iff in Hin. destruct Hin as [Hin|Hin].
      + specialize (Skn i p Hin). destruct smaller.
        * destruct Skn as (q & -> & Hq & Ht). simpl. rewrite fill_after; auto.
          unfold keys. rewrite map_length. simpl. lia.
        * destruct Skn as (x & -> & Hx & Hxk). simpl.
          assert (Hd : data (sc_cache s) (nslot x) = Some (K (nth i idx 0 mod n)%Z)).
          { rewrite (SK x Hx). now rewrite Hxk. }
          destruct Hc1 as [->|[Hact ->]]; auto.
          destruct (Sfr eq_refl) as (pre & suf & Hps & Hpl & Hpin).
          destruct (Hpin i _ Hin) as (y & Hy & Hyq). rewrite <- Hyq in *.
          rewrite (put_keeps keys (sc_cache s) pre suf y); auto.
          unfold keys. rewrite map_length. specialize (Hsm eq_refl Hact). lia.
      + destruct (pair_temp_in _ _ _ _ Hin) as (q & -> & Hq). simpl.
        assert (Hql : q < length (sc_todo s)) by (apply nth_error_Some; congruence).
        pose proof (fill_at keys 0 (sc_temp s) q) as Hfa. simpl in Hfa.
        rewrite Hfa by (unfold keys; now rewrite map_length).
        unfold keys. f_equal. f_equal.
        rewrite (nth_indep _ 0%Z (nth 0 idx 0 mod n)%Z) by (now rewrite map_length).
        rewrite (map_nth (fun i => (nth i idx 0 mod n)%Z)).
        now rewrite (nth_error_nth _ _ 0 Hq).
  Qed.
End P.

Section K.
  Variable C : Type.
  Variable K : Z -> C.

  Lemma svm_cache_good N n ws c : svm_cache K N n ws c -> kgood C K c /\ cap c = n.
  Proof.
    induction 1 as [|c keys H [IH1 IH2]|c idx temp c' temp' ptrs H [IH1 IH2] Hl E].
    - split; [apply init_kgood|reflexivity].
    - rewrite put_cap. split; auto. destruct IH1. split; [now apply put_full|now apply put_holdsK].
    - destruct (kernel_compute_ok C K (is_active n) (is_smaller n ws) N idx c temp IH1)
        as (c2 & t2 & p2 & E2 & H2 & H3 & _).
      + unfold is_smaller, is_active. intros Hs Ha. rewrite Ha in Hs. simpl in Hs.
        apply Nat.ltb_ge in Hs. lia.
      + rewrite E in E2. inversion E2; subst. auto.
  Qed.

  Lemma kernel_columns_lemma : forall N n ws c idx temp,
    svm_cache K N n ws c -> length idx <= ws ->
    exists c' temp' ptrs,
      kernel_compute K (is_active n) (is_smaller n ws) N idx c temp = Some (c', temp', ptrs) /\
      Permutation (map fst ptrs) (seq 0 (length idx)) /\
      (forall i p, In (i, p) ptrs -> deref temp' c' p = Some (K (nth i idx 0 mod N)%Z)).
  Proof.
    intros N n ws c idx temp H Hl. destruct (svm_cache_good _ _ _ _ H) as [Hg Hc].
    destruct (kernel_compute_ok C K (is_active n) (is_smaller n ws) N idx c temp Hg)
      as (c2 & t2 & p2 & E2 & _ & _ & H3).
    - unfold is_smaller, is_active. intros Hs Ha. rewrite Ha in Hs. simpl in Hs.
      apply Nat.ltb_ge in Hs. lia.
    - eauto.
  Qed.
End K.
