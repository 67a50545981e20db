From Coq Require Import List Arith Bool Lia.
From Verif Require Import ListFacts VecModel VecSpec.
Import ListNotations.

Lemma grow_ok r : forall cap n, 0 < cap -> n <= cap + r ->
  exists c, grow r cap n = Some c /\ n <= c /\ cap <= c.
Proof.
  induction r as [|r IH]; intros cap n Hc Hn; cbn [grow].
  - destruct (Nat.leb_spec n cap); [eauto|lia].
  - destruct (Nat.leb_spec n cap); [eauto|].
    destruct (IH (2 * cap) n) as (c & E & ? & ?); try lia. exists c. repeat split; auto; lia.
Qed.

Lemma grow_diverges r n : 0 < n -> grow r 0 n = None.
Proof.
  intros Hn. induction r as [|r IH]; cbn [grow];
    destruct (Nat.leb_spec n 0); try lia; auto.
Qed.

Section VecProofs.
  Context {T : Type}.
  Notation cell := (option T).

  Definition rep (v : vec T) (l : list cell) : Prop :=
    sound v /\ 0 < vcap v /\ Forall2 cell_ok l (visible v).

  Lemma rep_len v l : rep v l -> length l = vsize v.
  Proof.
    intros ((H1 & H2) & _ & H3). apply Forall2_len in H3. rewrite H3.
    unfold visible. rewrite firstn_length. lia.
  Qed.

  Lemma rep_buf v l : rep v l -> exists b, buf v = Some b /\ length b = vcap v.
  Proof.
    intros ((H1 & H2) & H3 & _). unfold bufcells in H2.
    destruct (buf v); eauto. simpl in H2. lia.
  Qed.

  Lemma memcpy_eq (dst s : list cell) off n :
    n <= length s -> off + n <= length dst ->
    memcpy dst off (Some s) n = Some (firstn off dst ++ firstn n s ++ skipn (off + n) dst).
  Proof.
    intros H1 H2. unfold memcpy. destruct (Nat.eqb_spec n 0) as [->|].
    - simpl. rewrite Nat.add_0_r, firstn_skipn. auto.
    - rewrite (proj2 (Nat.leb_le _ _) H1), (proj2 (Nat.leb_le _ _) H2). auto.
  Qed.

  Lemma fill_visible (b : list cell) n c : n <= length b -> n <= c ->
    let w := mkVec (Some (firstn 0 (repeat None c) ++ firstn n b
                            ++ skipn (0 + n) (repeat None c))) n c in
    sound w /\ visible w = firstn n b.
  Proof.
    intros Hb Hc. cbn [firstn Nat.add app]. split.
    - split; cbn [vsize vcap bufcells buf]; auto.
      rewrite app_length, firstn_length, skipn_length, repeat_length. lia.
    - unfold visible; cbn [vsize bufcells buf].
      rewrite firstn_app, firstn_firstn, firstn_length, Nat.min_id.
      replace (n - Nat.min n (length b)) with 0 by lia. simpl. apply app_nil_r.
  Qed.

  Lemma reallocate_ok v l c : rep v l -> vsize v <= c -> 0 < c ->
    exists w, reallocate true v c = Done w /\ rep w l /\ vcap w = c /\ vsize w = vsize v.
  Proof.
    intros R Hs Hc. destruct (rep_buf _ _ R) as (b & Eb & Lb).
    destruct R as ((H1 & H2) & H3 & H4). unfold reallocate. rewrite Eb.
    rewrite memcpy_eq by (rewrite ?repeat_length; lia).
    destruct (fill_visible b (vsize v) c) as (S1 & S2); try lia.
    eexists; split; [reflexivity|]. split; [|split; reflexivity]. split; auto. split; auto.
    rewrite S2. unfold visible, bufcells in H4. rewrite Eb in H4. auto.
  Qed.

  Lemma store_rep v l k (s x : cell) : rep v l -> k < vsize v -> cell_ok s x ->
    exists w, store v k x = Some w /\ rep w (set_nth l k s).
  Proof.
    intros R Hk Hx. pose proof (rep_len _ _ R) as Ll.
    destruct (rep_buf _ _ R) as (b & Eb & Lb).
    destruct R as ((H1 & H2) & H3 & H4).
    unfold store, visible, bufcells in *. rewrite Eb in *.
    destruct (Nat.ltb_spec k (length b)); [|lia].
    eexists; split; [reflexivity|].
    assert (Lw : length (firstn k b ++ x :: skipn (S k) b) = vcap v).
    { rewrite app_length, firstn_length; cbn [length]; rewrite skipn_length. lia. }
    split; [split; cbn [vsize vcap bufcells buf]; auto|]. split; auto.
    unfold visible; cbn [vsize bufcells buf].
    replace (firstn (vsize v) (firstn k b ++ x :: skipn (S k) b))
      with (set_nth (firstn (vsize v) b) k x).
    - unfold set_nth. apply Forall2_app.
      + apply Forall2_firstn; auto.
      + constructor; auto. apply Forall2_skipn; auto.
    - unfold set_nth. rewrite firstn_firstn, firstn_app, firstn_firstn, firstn_length.
      rewrite (Nat.min_l k (vsize v)) by lia. rewrite (Nat.min_l k (length b)) by lia.
      rewrite (Nat.min_r (vsize v) k) by lia. f_equal.
      replace (vsize v - k) with (S (vsize v - S k)) by lia. cbn [firstn]. f_equal.
      rewrite skipn_firstn_comm. reflexivity.
  Qed.

  Lemma push_end_ok v l (s x : cell) : rep v l -> vsize v < vcap v -> cell_ok s x ->
    exists w, push_end v x = Done w /\ rep w (l ++ [s]).
  Proof.
    intros R Hk Hx. destruct (rep_buf _ _ R) as (b & Eb & Lb).
    destruct R as ((H1 & H2) & H3 & H4).
    unfold push_end, store, visible, bufcells in *. rewrite Eb in *.
    destruct (Nat.ltb_spec (vsize v) (length b)); [|lia].
    eexists; split; [reflexivity|]. cbn [vsize vcap buf].
    split; [split; cbn [vsize vcap bufcells buf]; [lia|]|].
    { rewrite app_length, firstn_length; cbn [length]; rewrite skipn_length. lia. }
    split; auto. unfold visible; cbn [vsize bufcells buf].
    replace (firstn (S (vsize v)) (firstn (vsize v) b ++ x :: skipn (S (vsize v)) b))
      with (firstn (vsize v) b ++ [x]).
    - apply Forall2_app; auto.
    - rewrite firstn_app, firstn_firstn, firstn_length.
      rewrite (Nat.min_r (S (vsize v)) (vsize v)) by lia. f_equal.
      replace (S (vsize v) - Nat.min (vsize v) (length b)) with 1 by lia. reflexivity.
  Qed.

  Lemma push_back_ok v l (s x : cell) : rep v l -> cell_ok s x ->
    exists w, push_back true v x = Done w /\ rep w (l ++ [s]).
  Proof.
    intros R Hx. unfold push_back. pose proof R as ((H1 & _) & H3 & _).
    destruct (Nat.eqb_spec (vsize v) (vcap v)).
    - destruct (reallocate_ok v l (2 * vcap v) R) as (w & E & Rw & Cw & Sw); try lia.
      rewrite E. apply push_end_ok; auto. lia.
    - apply push_end_ok; auto. lia.
  Qed.

  Lemma extend_ok v l (s s' : list cell) n b :
    rep v l -> buf v = Some b -> n <= length s -> vsize v + n <= vcap v ->
    Forall2 cell_ok s' (firstn n s) ->
    exists b', memcpy b (vsize v) (Some s) n = Some b' /\
               rep (mkVec (Some b') (vsize v + n) (vcap v)) (l ++ s').
  Proof.
    intros R Eb Hn Hc Hs. destruct R as ((H1 & H2) & H3 & H4).
    unfold visible, bufcells in *. rewrite Eb in *.
    rewrite memcpy_eq by lia. eexists; split; [reflexivity|].
    split; [split; cbn [vsize vcap bufcells buf]; [lia|]|].
    { rewrite !app_length, !firstn_length, skipn_length. lia. }
    split; auto. unfold visible; cbn [vsize bufcells buf].
    rewrite app_assoc, firstn_app, app_length, !firstn_length.
    replace (vsize v + n - (Nat.min (vsize v) (length b) + Nat.min n (length s))) with 0 by lia.
    cbn [firstn]. rewrite app_nil_r, firstn_all2.
    - apply Forall2_app; auto.
    - rewrite app_length, !firstn_length. lia.
  Qed.

  Lemma append_ok v l s s' n : rep v l -> n <= length s -> Forall2 cell_ok s' (firstn n s) ->
    exists w, append true v (Some s) n = Done w /\ rep w (l ++ s').
  Proof.
    intros R Hn Hs. unfold append. pose proof R as ((H1 & _) & H3 & _).
    destruct (Nat.ltb_spec (vcap v) (vsize v + n)).
    - destruct (grow_ok (vsize v + n) (vcap v) (vsize v + n)) as (c & Ec & ? & ?); try lia.
      rewrite Ec.
      destruct (reallocate_ok v l c R) as (w & E & Rw & Cw & Sw); try lia.
      rewrite E. destruct (rep_buf _ _ Rw) as (b & Eb & Lb). rewrite Eb.
      destruct (extend_ok w l s s' n b) as (b' & Eb' & R'); auto; try lia.
      rewrite Eb'. eauto.
    - destruct (rep_buf _ _ R) as (b & Eb & Lb). rewrite Eb.
      destruct (extend_ok v l s s' n b) as (b' & Eb' & R'); auto; try lia.
      rewrite Eb'. eauto.
  Qed.

  Lemma append_none v l : rep v l -> append true v None 0 = Done v.
  Proof.
    intros R. unfold append. pose proof R as ((H1 & _) & H3 & _). rewrite Nat.add_0_r.
    destruct (Nat.ltb_spec (vcap v) (vsize v)); [lia|].
    destruct (rep_buf _ _ R) as (b & Eb & Lb). rewrite Eb. cbn.
    destruct v; cbn in *; subst. auto.
  Qed.

  Lemma append_self_ok v l : rep v l -> exists w, append_self true v = Done w /\ rep w (l ++ l).
  Proof.
    intros R. unfold append_self. pose proof R as ((H1 & _) & H3 & _).
    destruct (Nat.ltb_spec (vcap v) (vsize v + vsize v)).
    - destruct (grow_ok (vsize v + vsize v) (vcap v) (vsize v + vsize v))
        as (c & Ec & ? & ?); try lia.
      rewrite Ec.
      destruct (reallocate_ok v l c R) as (w & E & Rw & Cw & Sw); try lia.
      rewrite E. destruct (rep_buf _ _ Rw) as (b & Eb & Lb). rewrite Eb.
      destruct (extend_ok w l b l (vsize v) b) as (b' & Eb' & R'); auto; try lia.
      { destruct Rw as (_ & _ & Hf). unfold visible, bufcells in Hf. rewrite Eb, Sw in Hf. auto. }
      rewrite Eb'. eauto.
    - destruct (rep_buf _ _ R) as (b & Eb & Lb). rewrite Eb.
      destruct (extend_ok v l b l (vsize v) b) as (b' & Eb' & R'); auto; try lia.
      { destruct R as (_ & _ & Hf). unfold visible, bufcells in Hf. rewrite Eb in Hf. auto. }
      rewrite Eb'. eauto.
  Qed.

  Lemma reserve_ok v l n : rep v l ->
    exists w, reserve true v n = Done w /\ rep w l /\ n <= vcap w.
  Proof.
    intros R. unfold reserve. pose proof R as ((H1 & _) & H3 & _).
    destruct (Nat.ltb_spec (vcap v) n).
    - destruct (grow_ok n (vcap v) n) as (c & Ec & ? & ?); try lia. rewrite Ec.
      destruct (reallocate_ok v l c R) as (w & E & Rw & Cw & Sw); try lia.
      exists w. rewrite E. subst. auto.
    - eauto.
  Qed.

  Lemma Forall2_none n (l : list cell) : length l = n -> Forall2 cell_ok (repeat None n) l.
  Proof.
    intros <-. induction l; simpl; constructor; auto. left; auto.
  Qed.

  Lemma resize_ok v l n : rep v l -> exists w, resize true v n = Done w /\ rep w (resized l n).
  Proof.
    intros R. unfold resize. destruct (reserve_ok v l n R) as (w & E & Rw & Hn). rewrite E.
    eexists; split; [reflexivity|]. pose proof (rep_len _ _ Rw) as Ll.
    destruct Rw as ((H1 & H2) & H3 & H4).
    split; [split; auto|]. split; auto.
    unfold visible, resized in *. cbn [vsize]. change (bufcells _) with (bufcells w).
    destruct (Nat.le_gt_cases n (vsize w)) as [Hle|Hgt].
    - replace (n - length l) with 0 by lia. simpl. rewrite app_nil_r.
      replace (firstn n (bufcells w)) with (firstn n (firstn (vsize w) (bufcells w)))
        by (rewrite firstn_firstn; f_equal; lia).
      clear -H4. revert n. induction H4; intros [|n]; simpl; auto.
    - rewrite (firstn_all2 l) by lia.
      replace (firstn n (bufcells w)) with
        (firstn (vsize w) (bufcells w) ++ firstn (n - vsize w) (skipn (vsize w) (bufcells w))).
      + apply Forall2_app; auto. apply Forall2_none. rewrite firstn_length, skipn_length. lia.
      + rewrite <- (firstn_skipn (vsize w) (firstn n (bufcells w))).
        rewrite firstn_firstn, skipn_firstn_comm. f_equal. f_equal. lia.
  Qed.

  Lemma at_ok v l k s : rep v l -> nth_error l k = Some s ->
    exists c, at_ v k = Some c /\ cell_ok s c.
  Proof.
    intros R Hs. pose proof (rep_len _ _ R) as Ll. destruct R as ((H1 & H2) & H3 & H4).
    assert (Hk : k < length l) by (apply nth_error_Some; congruence).
    unfold at_. unfold visible in H4.
    assert (E : nth_error (firstn (vsize v) (bufcells v)) k = nth_error (bufcells v) k).
    { rewrite <- (firstn_skipn (vsize v) (bufcells v)) at 2.
      rewrite nth_error_app1; auto. rewrite firstn_length. lia. }
    rewrite <- E. clear -H4 Hs. revert k Hs. induction H4; intros [|k] Hs; cbn in *; try discriminate.
    - inversion Hs; subst. eauto.
    - eauto.
  Qed.

  Definition rel (e : env T) (a : aenv T) : Prop :=
    forall i, match a i with Some l => rep (e i) l | None => e i = moved_from end.

  Lemma rel_upd e a i v l : rel e a -> rep v l -> rel (upd e i v) (aupd a i (Some l)).
  Proof.
    intros R H j. unfold upd, aupd. destruct (j =? i); auto. apply R.
  Qed.

  Lemma rep_fresh n c : n <= c -> 0 < c ->
    rep (mkVec (malloc T c) n c) (repeat None n).
  Proof.
    intros Hn Hc. split; [split; cbn; auto; apply repeat_length|]. split; auto.
    apply Forall2_none. unfold visible. cbn. rewrite firstn_length, repeat_length. lia.
  Qed.

  Lemma rep_copy v l : rep v l -> forall this,
    exists w, copy_assign true this v = Done w /\ rep w l.
  Proof.
    intros R this. destruct (rep_buf _ _ R) as (b & Eb & Lb).
    destruct R as ((H1 & H2) & H3 & H4). unfold copy_assign. rewrite Eb.
    destruct (Nat.ltb_spec 0 (vcap v)); [|lia].
    rewrite memcpy_eq by (rewrite ?repeat_length; lia).
    destruct (fill_visible b (vsize v) (vcap v)) as (S1 & S2); try lia.
    eexists; split; [reflexivity|]. split; auto. split; auto.
    rewrite S2. unfold visible, bufcells in H4. rewrite Eb in H4. auto.
  Qed.

  Definition out_ok (s c : option cell) : Prop :=
    match s, c with
    | None, None => True
    | Some x, Some y => cell_ok x y
    | _, _ => False
    end.

  Lemma step_ok e a o a' out : rel e a -> astep o a = Some (a', out) ->
    exists e' out', step true o e = Running e' out' /\ rel e' a' /\ out_ok out out'.
  Proof.
    intros R H. destruct o as [i|i n|i j|i j|i|i x|i j k|i j|i l0|i n|i n|i k x|i k];
      cbn [astep step] in *.
    - inversion H; subst. do 2 eexists; repeat split. apply rel_upd; auto.
      apply (rep_fresh 0); unfold init_capacity; lia.
    - inversion H; subst. unfold vnew_sized.
      destruct (grow_ok n init_capacity n) as (c & E & ? & ?); unfold init_capacity in *; try lia.
      rewrite E. do 2 eexists; repeat split. apply rel_upd; auto.
      apply rep_fresh; lia.
    - destruct (i =? j) eqn:Eij.
      + inversion H; subst. do 2 eexists; repeat split. auto.
      + inversion H; subst. cbn. do 2 eexists; repeat split.
        intros k. unfold upd, aupd. destruct (k =? j); [reflexivity|].
        destruct (k =? i); [apply (R j)|apply R].
    - destruct (i =? j) eqn:Eij.
      + apply Nat.eqb_eq in Eij. inversion H; subst. do 2 eexists; repeat split.
        intros k. unfold aupd. destruct (Nat.eqb_spec k j) as [->|]; apply R.
      + inversion H; subst. pose proof (R j) as Rj. destruct (a j) as [l|] eqn:Ej.
        * destruct (rep_copy _ _ Rj (e i)) as (w & E & Rw). rewrite E. cbn.
          do 2 eexists; repeat split. apply rel_upd; auto.
        * rewrite Rj. cbn. do 2 eexists; repeat split.
          intros k. unfold upd, aupd. destruct (k =? i); [reflexivity|apply R].
    - inversion H; subst. cbn. do 2 eexists; repeat split. apply rel_upd; auto.
      apply (rep_fresh 0); unfold init_capacity; lia.
    - pose proof (R i) as Ri. destruct (a i) as [l|] eqn:Ei; [|discriminate].
      inversion H; subst. destruct (push_back_ok (e i) l (Some x) (Some x) Ri) as (w & E & Rw).
      { right; auto. }
      rewrite E. do 2 eexists; repeat split. apply rel_upd; auto.
    - destruct (i =? j); [discriminate|]. pose proof (R i) as Ri.
      destruct (a i) as [l|] eqn:Ei; [|discriminate].
      destruct (nth_error (contents (a j)) k) as [s|] eqn:En; [|discriminate].
      inversion H; subst. pose proof (R j) as Rj.
      destruct (a j) as [lj|]; [|destruct k; discriminate].
      destruct (at_ok _ _ _ _ Rj En) as (c & Ec & Oc). rewrite Ec.
      destruct (push_back_ok (e i) l s c Ri Oc) as (w & E & Rw).
      rewrite E. do 2 eexists; repeat split. apply rel_upd; auto.
    - pose proof (R i) as Ri. destruct (i =? j) eqn:Eij.
      + apply Nat.eqb_eq in Eij. subst j. destruct (a i) as [l|] eqn:Ei.
        * inversion H; subst. destruct (append_self_ok _ _ Ri) as (w & E & Rw). rewrite E.
          do 2 eexists; repeat split. apply rel_upd; auto.
        * cbn in H. inversion H; subst. rewrite Ri. cbn. do 2 eexists; repeat split.
          intros k. unfold upd. destruct (Nat.eqb_spec k i) as [->|]; [rewrite Ei; auto|apply R].
      + pose proof (R j) as Rj. destruct (a i) as [l|] eqn:Ei.
        * inversion H; subst. destruct (a j) as [lj|] eqn:Ej.
          -- destruct (rep_buf _ _ Rj) as (b & Eb & Lb). rewrite Eb.
             destruct (append_ok (e i) l b lj (vsize (e j)) Ri) as (w & E & Rw).
             ++ destruct Rj as ((? & ?) & _). lia.
             ++ destruct Rj as (_ & _ & Hf). unfold visible, bufcells in Hf.
                rewrite Eb in Hf. auto.
             ++ rewrite E. do 2 eexists; repeat split. apply rel_upd; auto.
          -- rewrite Rj. cbn [buf vsize moved_from]. rewrite (append_none _ _ Ri).
             do 2 eexists; repeat split. apply rel_upd; auto. cbn. rewrite app_nil_r. auto.
        * destruct (Nat.eqb_spec (length (contents (a j))) 0) as [El|]; [|discriminate].
          inversion H; subst. assert (Es : vsize (e j) = 0).
          { destruct (a' j) as [lj|]; [rewrite <- (rep_len _ _ Rj); exact El|rewrite Rj; auto]. }
          rewrite Es, Ri. cbn. do 2 eexists; repeat split.
          intros k. unfold upd. destruct (Nat.eqb_spec k i) as [->|]; [rewrite Ei; auto|apply R].
    - pose proof (R i) as Ri. destruct (a i) as [l|] eqn:Ei; [|discriminate].
      inversion H; subst.
      destruct (append_ok (e i) l (map Some l0) (map Some l0) (length l0) Ri) as (w & E & Rw).
      + rewrite map_length. lia.
      + rewrite firstn_all2 by (rewrite map_length; lia).
        clear. induction l0; simpl; constructor; auto. right; auto.
      + rewrite E. do 2 eexists; repeat split. apply rel_upd; auto.
    - pose proof (R i) as Ri. destruct (a i) as [l|] eqn:Ei; [|discriminate].
      inversion H; subst. destruct (resize_ok (e i) l n Ri) as (w & E & Rw).
      rewrite E. do 2 eexists; repeat split. apply rel_upd; auto.
    - pose proof (R i) as Ri. destruct (a i) as [l|] eqn:Ei; [|discriminate].
      inversion H; subst. destruct (reserve_ok (e i) l n Ri) as (w & E & Rw & _).
      rewrite E. do 2 eexists; repeat split.
      intros k. unfold upd. destruct (Nat.eqb_spec k i) as [->|]; [rewrite Ei; auto|apply R].
    - destruct (Nat.ltb_spec k (length (contents (a i)))); [|discriminate].
      inversion H; subst. pose proof (R i) as Ri.
      destruct (a i) as [l|] eqn:Ei; [|cbn in *; lia]. cbn [contents] in *.
      destruct (store_rep (e i) l k (Some x) (Some x) Ri) as (w & E & Rw).
      { rewrite <- (rep_len _ _ Ri). auto. } { right; auto. }
      rewrite E. do 2 eexists; repeat split. apply rel_upd; auto.
    - destruct (nth_error (contents (a i)) k) as [s|] eqn:En; [|discriminate].
      inversion H; subst. pose proof (R i) as Ri.
      destruct (a' i) as [l|] eqn:Ei; [|destruct k; discriminate].
      destruct (at_ok _ _ _ _ Ri En) as (c & Ec & Oc). rewrite Ec.
      do 2 eexists; repeat split; auto.
  Qed.

  Lemma run_ok h : forall e a a' outs, rel e a -> arun h a = Some (a', outs) ->
    exists e' outs', run (map (pair true) h) e = (Running e' None, outs') /\
                     rel e' a' /\ Forall2 cell_ok outs outs'.
  Proof.
    induction h as [|o h IH]; intros e a a' outs R H; cbn [arun run map] in *.
    - inversion H; subst. do 2 eexists; repeat split; auto.
    - destruct (astep o a) as [[a1 o1]|] eqn:E1; [|discriminate].
      destruct (arun h a1) as [[a2 o2]|] eqn:E2; [|discriminate]. inversion H; subst.
      destruct (step_ok _ _ _ _ _ R E1) as (e1 & o1' & S1 & R1 & O1).
      destruct (IH _ _ _ _ R1 E2) as (e2 & o2' & S2 & R2 & O2).
      rewrite S1, S2. do 2 eexists; split; [reflexivity|]. split; auto.
      destruct o1, o1'; cbn in O1; try contradiction; auto.
  Qed.

  Lemma rel_start : rel start astart.
  Proof. intros i. cbn. apply (rep_fresh 0); unfold init_capacity; lia. Qed.

  Lemma behaves_as_list (h : list (op T)) a outs : arun h astart = Some (a, outs) ->
    exists (e : env T) outs', run (map (pair true) h) start = (Running e None, outs') /\
      Forall2 cell_ok outs outs' /\
      forall i, sound (e i) /\ vsize (e i) = length (contents (a i)) /\
                Forall2 cell_ok (contents (a i)) (visible (e i)).
  Proof.
    intros H. destruct (run_ok _ _ _ _ _ rel_start H) as (e & o & E & R & O).
    exists e, o. repeat split; auto; pose proof (R i) as Ri; destruct (a i) as [l|];
      try (rewrite Ri; cbn; auto; fail).
    - apply Ri. - apply Ri. - symmetry. apply rep_len. auto. - apply Ri.
  Qed.

  (** Moved-from arrays. *)
  Lemma moved_push x : push_back true (@moved_from T) x = Oob.
  Proof. reflexivity. Qed.
  Lemma moved_resize ok n : resize ok (@moved_from T) (S n) = Hang.
  Proof.
    unfold resize, reserve. cbn [vcap moved_from].
    destruct (Nat.ltb_spec 0 (S n)); [|lia]. rewrite grow_diverges by lia. auto.
  Qed.

  (** Failed growth. *)
  Lemma step_fails (e : env T) a o i (e' : env T) : rel e a -> a i <> None -> growing o = Some i ->
    step false o e = Thrown e' ->
    (forall j, visible (e' j) = visible (e j) /\ vsize (e' j) = vsize (e j)) /\
    (forall j, j <> i -> e' j = e j).
  Proof.
    intros R Hi G H. pose proof (R i) as Ri. destruct (a i) as [l|] eqn:Ei; [|congruence].
    assert (Key : forall c, Thrown (upd e i (mkVec (buf (e i)) (vsize (e i)) c)) = Thrown e' ->
      (forall j, visible (e' j) = visible (e j) /\ vsize (e' j) = vsize (e j)) /\
      (forall j, j <> i -> e' j = e j)).
    { intros c Ec. inversion Ec; subst. split; intros j; unfold upd;
        destruct (Nat.eqb_spec j i) as [->|]; auto. congruence. }
    destruct (rep_buf _ _ Ri) as (b & Eb & Lb).
    destruct o; inversion G; subst i0; cbn [step] in H; unfold lift in H.
    - unfold push_back in H. destruct (vsize (e i) =? vcap (e i)).
      + cbn [reallocate] in H. eapply Key; eauto.
      + unfold push_end in H. destruct (store _ _ _); discriminate.
    - unfold append in H. destruct (vcap (e i) <? vsize (e i) + length l0).
      + destruct (grow _ _ _); [|discriminate]. cbn [reallocate] in H. eapply Key; eauto.
      + rewrite Eb in H. destruct (memcpy _ _ _ _); discriminate.
    - unfold resize, reserve in H. destruct (vcap (e i) <? n); [|discriminate].
      destruct (grow _ _ _); [|discriminate]. cbn [reallocate] in H. eapply Key; eauto.
    - unfold reserve in H. destruct (vcap (e i) <? n); [|discriminate].
      destruct (grow _ _ _); [|discriminate]. cbn [reallocate] in H. eapply Key; eauto.
  Qed.

  Lemma failed_growth h a outs (e : env T) outs' o i (e' : env T) :
    arun h astart = Some (a, outs) ->
    run (map (pair true) h) start = (Running e None, outs') ->
    a i <> None -> growing o = Some i -> step false o e = Thrown e' ->
    (forall j, visible (e' j) = visible (e j) /\ vsize (e' j) = vsize (e j)) /\
    (forall j, j <> i -> e' j = e j).
  Proof.
    intros H1 H2 H3 H4 H5. destruct (run_ok _ _ _ _ _ rel_start H1) as (e0 & o0 & E & R & O).
    rewrite H2 in E. inversion E; subst. eapply step_fails; eauto.
  Qed.

  (** Pushing an element of the array itself. *)
  Lemma own_element h a outs (e : env T) outs' i k l s :
    arun h astart = Some (a, outs) ->
    run (map (pair true) h) start = (Running e None, outs') ->
    a i = Some l -> nth_error l k = Some s -> vsize (e i) < vcap (e i) ->
    exists e', step true (OpPushElem i i k) e = Running e' None /\
      Forall2 cell_ok (l ++ [s]) (visible (e' i)) /\ (forall j, j <> i -> e' j = e j).
  Proof.
    intros H1 H2 H3 H4 H5. destruct (run_ok _ _ _ _ _ rel_start H1) as (e0 & o0 & E & R & O).
    rewrite H2 in E. inversion E; subst. pose proof (R i) as Ri. rewrite H3 in Ri.
    cbn [step]. rewrite Nat.eqb_refl. unfold push_own.
    destruct (Nat.eqb_spec (vsize (e0 i)) (vcap (e0 i))); [lia|].
    destruct (at_ok _ _ _ _ Ri H4) as (c & Ec & Oc). rewrite Ec.
    destruct (push_end_ok _ _ _ _ Ri H5 Oc) as (w & Ew & Rw). rewrite Ew. cbn.
    eexists; split; [reflexivity|]. unfold upd. rewrite Nat.eqb_refl. split; [apply Rw|].
    intros j Hj. destruct (Nat.eqb_spec j i); congruence.
  Qed.

  Lemma run_app h1 : forall h2 (e : env T), run (h1 ++ h2) e =
    match run h1 e with
    | (Running e1 _, o1) => let '(r, o2) := run h2 e1 in (r, o1 ++ o2)
    | x => x
    end.
  Proof.
    induction h1 as [|[ok o] h1 IH]; intros h2 e; cbn [run app].
    - destruct (run h2 e). reflexivity.
    - destruct (step ok o e); try reflexivity.
      + rewrite IH. destruct (run h1 e0) as [[] o1]; auto.
        destruct (run h2 e1). destruct out; auto.
      + rewrite IH. destruct (run h1 e0) as [[] o1]; auto.
  Qed.

  Lemma upd_same (e : env T) i v : upd e i v i = v.
  Proof. unfold upd. rewrite Nat.eqb_refl. auto. Qed.

  (** After a move, whatever came before. *)
  Lemma moved_fails (h : list (op T)) a outs i j (x : T) n : arun h astart = Some (a, outs) -> i <> j ->
    (exists o1, run (map (pair true) (h ++ [OpMove i j; OpPush j x])) start = (Undefined, o1)) /\
    (exists o2, run (map (pair true) (h ++ [OpMove i j; OpResize j (S n)])) start = (Looping, o2)).
  Proof.
    intros H Hij. destruct (run_ok _ _ _ _ _ rel_start H) as (e & o & E & R & O).
    split; rewrite map_app, run_app, E; cbn [map run step];
      (destruct (Nat.eqb_spec i j); [congruence|]); cbn [move_assign];
      rewrite upd_same.
    - rewrite moved_push. cbn. eauto.
    - rewrite moved_resize. cbn. eauto.
  Qed.

  Lemma arun_app h1 : forall h2 (a : aenv T), arun (h1 ++ h2) a =
    match arun h1 a with
    | Some (a1, o1) =>
        match arun h2 a1 with Some (a2, o2) => Some (a2, o1 ++ o2) | None => None end
    | None => None
    end.
  Proof.
    induction h1 as [|o h1 IH]; intros h2 a; cbn [arun app].
    - destruct (arun h2 a) as [[]|]; auto.
    - destruct (astep o a) as [[a1 o1]|]; auto. rewrite IH.
      destruct (arun h1 a1) as [[a2 o2]|]; auto. destruct (arun h2 a2) as [[a3 o3]|]; auto.
      destruct o1; auto.
  Qed.

  Lemma astep_ext o (a b : aenv T) : (forall i, a i = b i) ->
    match astep o a, astep o b with
    | Some (a', x), Some (b', y) => x = y /\ forall i, a' i = b' i
    | None, None => True
    | _, _ => False
    end.
  Proof.
    intros H. assert (U : forall i v k, aupd a i v k = aupd b i v k).
    { intros. unfold aupd. destruct (k =? i); auto. }
    destruct o; cbn [astep]; try (split; auto; fail); repeat rewrite !H; auto;
      try (destruct (b i); auto; fail).
    - destruct (i =? j); [split; auto|]. split; auto. intros k. unfold aupd.
      destruct (k =? j); auto. destruct (k =? i); auto.
    - destruct (i =? j); auto. destruct (b i); auto. destruct (nth_error _ _); auto.
    - destruct (b i); auto. destruct (_ =? _); auto.
    - destruct (k <? _); auto.
    - destruct (nth_error _ _); auto.
  Qed.

  Lemma arun_ext h : forall a b : aenv T, (forall i, a i = b i) ->
    match arun h a, arun h b with
    | Some (a', x), Some (b', y) => x = y /\ forall i, a' i = b' i
    | None, None => True
    | _, _ => False
    end.
  Proof.
    induction h as [|o h IH]; intros a b H; cbn [arun]; auto.
    pose proof (astep_ext o a b H) as HS.
    destruct (astep o a) as [[a1 o1]|], (astep o b) as [[b1 o1']|]; try contradiction; auto.
    destruct HS as (-> & HS). specialize (IH a1 b1 HS).
    destruct (arun h a1) as [[a2 o2]|], (arun h b1) as [[b2 o2']|]; try contradiction; auto.
    destruct IH as (-> & IH). auto.
  Qed.

  Lemma moved_then_cleared (h h' : list (op T)) a a' outs outs' i j :
    arun h astart = Some (a, outs) -> i <> j ->
    arun h' (aupd (aupd a i (a j)) j (Some [])) = Some (a', outs') ->
    exists (e : env T) out,
      run (map (pair true) (h ++ OpMove i j :: OpClear j :: h')) start = (Running e None, out) /\
      Forall2 cell_ok (outs ++ outs') out /\
      forall k, Forall2 cell_ok (contents (a' k)) (visible (e k)).
  Proof.
    intros H1 Hij H2.
    set (b := aupd (aupd (aupd a i (a j)) j None) j (Some [])).
    assert (Hb : forall k, aupd (aupd a i (a j)) j (Some []) k = b k).
    { intros k. unfold b, aupd. destruct (k =? j); auto. }
    pose proof (arun_ext h' _ _ Hb) as HE. rewrite H2 in HE.
    destruct (arun h' b) as [[b' o]|] eqn:Eb; [|contradiction]. destruct HE as (<- & HE).
    assert (H : arun (h ++ OpMove i j :: OpClear j :: h') astart = Some (b', outs ++ outs')).
    { rewrite arun_app, H1. cbn [arun astep]. destruct (Nat.eqb_spec i j); [congruence|].
      fold b. rewrite Eb. reflexivity. }
    destruct (behaves_as_list _ _ _ H) as (e & out & E & O & S).
    exists e, out. repeat split; auto. intros k. rewrite HE. apply S.
  Qed.
End VecProofs.
