(** Adding columns and rows keeps the representation. *)
From Coq Require Import ZArith List Bool Lia Arith Permutation.
From Verif Require Import Base ListFacts IntervalModel StoreModel StoreSpec StoreProofs.
Import ListNotations.
Local Open Scope Z_scope.

Section Concat.
  Variable V : Type.
  Implicit Types (h : list (node V)) (l : list (nat * Z)) (s : store V) (a : mat V)
                 (it : item) (its : list item).

  Lemma item_ok_frame : forall h h' cf cf' ht it,
    (forall x, In x (ids (ich it)) -> at_node h' x = at_node h x) ->
    (forall i j, 0 <= i < ht -> ilo it <= j < ilo it + iw it -> cf' i j = cf i j) ->
    item_ok h cf ht it -> item_ok h' cf' ht it.
  Proof.
    intros h h' cf cf' ht it S C (W & HD & LK & NR). split; auto. split; auto. split.
    - eapply links_same; eauto.
    - rewrite Forall_forall in *. intros (x & ox) I.
      destruct (NR _ I) as (nd & A & T & O1 & O2 & D). exists nd. simpl in *.
      split. { rewrite S; auto. unfold ids. apply in_map_iff. exists (x, ox). auto. }
      split; auto. split; auto. split; auto. intros r j RR RJ. rewrite D by auto.
      symmetry. apply C; auto. destruct (links_in _ _ _ _ _ _ _ LK I) as (nd' & A' & _ & G & Q).
      rewrite A in A'. inversion A'; subst. lia.
  Qed.

  (** ** Columns *)
  Lemma share_snoc_new : forall its it x, sharing its -> icl it = false -> ich it = [(x, 0)] ->
    (forall t, In t its -> ich t <> [] /\ ~ In x (ids (ich t))) -> sharing (its ++ [it]).
  Proof.
    intros its it x S C E F. assert (O : ownids it = [x]) by (unfold ownids; rewrite C, E; auto).
    constructor.
    - rewrite flat_map_app. apply nodup_app; [apply (sh_own _ S)| |].
      + simpl. rewrite O. simpl. constructor; [tauto|constructor].
      + intros y I J. simpl in J. rewrite O in J. simpl in J. destruct J as [J|[]]. subst y.
        apply in_flat_map in I. destruct I as (t & I & J). apply ownids_in in J.
        destruct (F t I) as (_ & G). auto.
    - intros t t' I I' CT. apply in_app_or in I. destruct I as [I|[I|[]]]; [|subst; congruence].
      apply in_app_or in I'. destruct I' as [I'|[I'|[]]]; [apply (sh_tail _ S); auto|]. subst t'.
      rewrite O. intros [J|[]]. destruct (F t I) as (N & G). apply G. rewrite J. apply lastid_in; auto.
    - assert (B : forall p t, In t its -> In p (ich t) -> fst p <> x).
      { intros p t I J Q. destruct (F t I) as (_ & G). apply G. subst x. apply in_map. auto. }
      intros p q I J Q. rewrite flat_map_app in I, J. simpl in I, J. rewrite E in I, J. simpl in I, J.
      apply in_app_or in I. apply in_app_or in J.
      destruct I as [I|[I|[]]], J as [J|[J|[]]].
      + apply (sh_same _ S); auto.
      + subst q. simpl in Q. apply in_flat_map in I. destruct I as (t & I & I2).
        exfalso. eapply B; eauto.
      + subst p. simpl in Q. apply in_flat_map in J. destruct J as (t & J & J2).
        exfalso. eapply B; eauto.
      + congruence.
  Qed.

  Lemma rep_facts : forall s a its k g2 it, rep_with s a its k g2 -> In it its ->
    ich it <> [] /\ forall x, In x (ids (ich it)) -> (x < length (heap s))%nat.
  Proof.
    intros s a its k g2 it R I. destruct (rep_item _ _ _ _ _ _ _ R I) as (ht & (_ & HD & LK & _) & _).
    split; [eapply headid_ne; eauto|]. intros x J. eapply ids_bound; eauto.
  Qed.

  Lemma concat_columns_ok : forall s a mc nc ty rm dat, rep s a ->
    match add_columns mc nc ty rm dat a with
    | Irregular => True
    | Refuse st => concat_columns mc nc ty rm dat s = (st, s)
    | Accept a' => exists s', concat_columns mc nc ty rm dat s = (st_success, s') /\ rep s' a'
    end.
  Proof.
    intros s a mc nc ty rm dat (its & k & g2 & R). unfold add_columns, concat_columns.
    pose proof (r_fill _ _ _ _ _ _ R) as W. unfold fill_rep in W.
    destruct (filling a) as [[k' hg]|] eqn:FN.
    { destruct W as (W & _). rewrite W. reflexivity. }
    destruct W as (W1 & W2 & W3). subst k g2. rewrite W1, (r_m _ _ _ _ _ _ R).
    destruct (Z.leb_spec mc 0); [reflexivity|]. destruct (Z.leb_spec nc 0); [reflexivity|].
    cbn [orb]. destruct ((0 <? rows a) && negb (rows a =? mc)) eqn:B; [reflexivity|].
    eexists; split; [reflexivity|].
    assert (M : rows a = 0 \/ rows a = mc).
    { pose proof (r_pos _ _ _ _ _ _ R). destruct (Z.ltb_spec 0 (rows a)); [|lia]. simpl in B.
      apply negb_false_iff in B. apply Z.eqb_eq in B. lia. }
    assert (EM : (if rows a =? 0 then mc else rows a) = mc).
    { destruct (Z.eqb_spec (rows a) 0); lia. }
    rewrite EM.
    assert (HM : its <> [] -> rows a = mc).
    { intros N. destruct its as [|it its']; [congruence|].
      destruct (rep_item _ _ _ _ _ _ it R (or_introl eq_refl)) as (ht & (_ & HD & LK & _) & _ & HT).
      specialize (HT FN). subst ht. apply links_lt in LK; [lia|]. eapply headid_ne; eauto. }
    set (x := length (heap s)).
    set (it := mkItem (n s) nc ty false x [(x, 0)]).
    assert (FW := rep_widths _ _ _ _ _ _ R).
    assert (NN := rep_ncols _ _ _ _ _ _ R).
    assert (NB : n_cols a = n s) by (symmetry; apply (r_n _ _ _ _ _ _ R)).
    assert (IN : iwidths its = n s) by auto.
    assert (UP : forall t, In t its -> ilo t + iw t <= n s).
    { intros t I. apply in_split in I. destruct I as (u & w & E).
      pose proof (r_cont _ _ _ _ _ _ R) as C. rewrite E in C, IN, FW.
      apply contig_app in C. destruct C as (_ & C). simpl in C. destruct C as (C & _).
      rewrite iwidths_app in IN. unfold iwidths in IN at 2. simpl in IN. fold (iwidths w) in IN.
      apply Forall_app in FW. destruct FW as (_ & FW). inversion FW as [|? ? _ FW2]; subst.
      pose proof (iwidths_nonneg _ FW2). lia. }
    exists (its ++ [it]), O, mc. constructor; simpl.
    - rewrite map_app, (r_cmap _ _ _ _ _ _ R). reflexivity.
    - rewrite map_app, (r_cols _ _ _ _ _ _ R). reflexivity.
    - apply contig_app. split; [apply (r_cont _ _ _ _ _ _ R)|]. simpl. rewrite IN. auto.
    - reflexivity.
    - rewrite NN. unfold n_cols. simpl. rewrite (r_cols _ _ _ _ _ _ R).
      pose proof (iwidths_app its [it]) as WA. unfold iwidths in *. rewrite map_app in WA.
      change (widths (map col_of its ++ [mkCol nc ty false])) with (widths (map col_of its ++ map col_of [it])).
      rewrite WA. simpl. lia.
    - lia.
    - unfold fill_rep. simpl. auto.
    - constructor.
    - apply Forall_app. split.
      + apply Forall_forall. intros t I.
        destruct (rep_item _ _ _ _ _ _ t R I) as (ht & OK & _ & HT). specialize (HT FN). subst ht.
        rewrite HM in OK by (intro Q; subst; destruct I).
        eapply item_ok_frame; [| |exact OK].
        * intros y J. destruct (rep_facts _ _ _ _ _ _ R I) as (_ & G). specialize (G y J).
          unfold at_node. apply nth_error_app1. auto.
        * intros i j RI RJ. specialize (UP t I). destruct (Z.ltb_spec j (n_cols a)); auto. lia.
      + constructor; [|constructor]. split; [simpl; lia|]. split; [reflexivity|]. split.
        * simpl. split; auto. exists (mkNode (mkBlk mc nc ty rm dat) (n s) None None).
          split; [apply at_app_new|]. simpl. split; [lia|]. auto.
        * simpl. constructor; [|constructor].
          exists (mkNode (mkBlk mc nc ty rm dat) (n s) None None). simpl.
          split; [apply at_app_new|]. split; auto. split; [lia|]. split; [lia|].
          intros r j RR RJ. destruct (Z.ltb_spec j (n_cols a)); [lia|].
          unfold cell_pos, in_array. simpl. rewrite NB. destruct rm; f_equal; lia.
    - apply (share_snoc_new its it x (r_share _ _ _ _ _ _ R)); auto. intros t I.
      destruct (rep_facts _ _ _ _ _ _ R I) as (N & G). split; auto. intro J. specialize (G x J).
      unfold x in G. lia.
  Qed.

  (** ** Rows *)
  Definition semi h0 h (nw : nat) (D : list nat) : Prop :=
    length h = length h0 /\ forall y, y <> nw ->
      at_node h y = if in_dec Nat.eq_dec y D
                    then option_map (fun nd => with_next nd (Some nw)) (at_node h0 y)
                    else at_node h0 y.
  Definition chids it : list nat := ids (ich it).
  Definition lasts its : list nat := map (fun it => lastid (ich it)) its.
  Definition good h0 (ht : Z) it : Prop :=
    0 < iw it /\ headid (ich it) = Some (ib it) /\ links h0 (ich it) 0 ht
    /\ exists nd, at_node h0 (ib it) = Some nd /\ bty (nb nd) = ity it.

  Lemma lastid_node : forall h l o e, links h l o e -> l <> [] ->
    exists nd, at_node h (lastid l) = Some nd /\ nnext nd = None.
  Proof.
    intros h. induction l as [|[x ox] l IH]; intros o e L N; [congruence|].
    simpl in L. destruct L as (E & nd & A & P & X & L).
    destruct l as [|[y oy] l].
    - exists nd. auto.
    - destruct (IH _ _ L ltac:(discriminate)) as (nd' & Q). exists nd'. auto.
  Qed.

  Lemma headid_in : forall l b, headid l = Some b -> In b (ids l).
  Proof. intros [|p l] b E; [discriminate|]. injection E as E. left. auto. Qed.

  Lemma link_ok : forall ty nw h0 z0 ht its, contig 0 its -> Forall (fun it => 0 < iw it) its ->
    nleft z0 = None -> (nw < length h0)%nat ->
    forall todo pre fuel h D nr,
      its = pre ++ todo -> Forall (good h0 ht) todo -> NoDup (flat_map chids todo) ->
      ~ In nw (flat_map chids todo) -> (forall x, In x D -> ~ In x (flat_map chids todo)) ->
      semi h0 h nw D -> at_node h nw = Some (with_left z0 (hd_error D)) ->
      0 <= nr <= iwidths todo -> (length todo < fuel)%nat ->
      let last := iwidths pre + nr - 1 in
      match covers (map col_of todo) nr ty with
      | Some c => exists h', link fuel (map entry its) ty nw last (iwidths pre - 1) h = Linked h'
          /\ semi h0 h' nw (D ++ lasts (firstn c todo))
          /\ at_node h' nw = Some (with_left z0 (hd_error (D ++ lasts (firstn c todo))))
          /\ iwidths (firstn c todo) = nr /\ (c <= length todo)%nat
          /\ Forall (fun it => ity it = ty) (firstn c todo)
      | None => exists h' c z, link fuel (map entry its) ty nw last (iwidths pre - 1) h = LinkErr h'
          /\ semi h0 h' nw (D ++ lasts (firstn c todo)) /\ at_node h' nw = Some z
          /\ iwidths (firstn c todo) <= nr
      end.
  Proof.
    intros ty nw h0 z0 ht its C FW Z0 LN. induction todo as [|it todo IH];
      intros pre fuel h D nr E G ND NW DD SM AN R F last.
    - assert (nr = 0) by (unfold iwidths in R; simpl in R; lia). subst nr. simpl.
      exists h. destruct fuel as [|f]; [simpl in F; lia|]. simpl.
      destruct (Z.ltb_spec (iwidths pre - 1) last); [unfold last in *; lia|].
      rewrite app_nil_r. split; auto.
    - inversion G as [|? ? G1 G2]; subst x l. destruct G1 as (IW & HD & LK & nd0 & A0 & T0).
      destruct fuel as [|f]; [simpl in F; lia|]. cbn [link].
      cbn [covers map]. destruct (Z.leb_spec nr 0).
      { exists h. destruct (Z.ltb_spec (iwidths pre - 1) last); [unfold last in *; lia|].
        simpl. rewrite app_nil_r. assert (nr = 0) by lia. subst nr.
        split; auto. split; auto. split; auto. split; auto. split; auto. lia. }
      destruct (Z.ltb_spec (iwidths pre - 1) last); [|unfold last in *; lia].
      replace (iwidths pre - 1 + 1) with (iwidths pre) by lia.
      assert (CI : ilo it = iwidths pre).
      { rewrite E in C. apply contig_app in C. destruct C as (_ & C). simpl in C. tauto. }
      assert (FE : find_col (iwidths pre) (map entry its)
              = Some (mkI (ilo it) (ilo it + iw it - 1), ib it)).
      { rewrite E in C, FW |- *. apply (find_entry pre it todo 0); auto. lia. }
      rewrite FE.
      assert (HI : In (ib it) (chids it)) by (apply headid_in; auto).
      assert (IS : forall x, In x (chids it) -> at_node h x = at_node h0 x).
      { intros x J. destruct SM as (_ & SM). rewrite SM.
        - destruct (in_dec Nat.eq_dec x D) as [K|K]; auto. exfalso. apply (DD x K). simpl.
          apply in_or_app. auto.
        - intro Q. subst. apply NW. simpl. apply in_or_app. auto. }
      rewrite (IS _ HI), A0, T0. cbn [col_of ctype width].
      replace (last <? upper (mkI (ilo it) (ilo it + iw it - 1))) with (negb (iw it <=? nr)).
      2:{ simpl. unfold last. destruct (Z.leb_spec (iw it) nr), (Z.ltb_spec (iwidths pre + nr - 1) (ilo it + iw it - 1)); auto; lia. }
      rewrite <- negb_andb.
      destruct (btype_eqb ty (ity it) && (iw it <=? nr)) eqn:B; cbn [negb].
      2:{ exists h, O, (with_left z0 (hd_error D)). simpl. rewrite app_nil_r. split; auto. split; auto.
          split; auto. unfold iwidths; simpl; lia. }
      apply andb_true_iff in B. destruct B as (B1 & B2). apply btype_eqb_eq in B1.
      apply Z.leb_le in B2.
      assert (LKh : links h (ich it) 0 ht) by (eapply links_same; eauto).
      assert (NDi : NoDup (ids (ich it))).
      { simpl in ND. eapply nodup_app_l; eauto. }
      pose proof (headid_ne _ _ HD) as NE.
      rewrite (last_of_ok _ (ich it) (S (length h)) h (ib it) 0 ht LKh HD)
        by (pose proof (chain_short _ _ _ _ _ LKh NDi); lia).
      destruct (lastid_node _ _ _ _ LKh NE) as (y & AY & NY). rewrite AY.
      set (li := lastid (ich it)) in *.
      assert (LI : In li (chids it)) by (apply lastid_in; auto).
      assert (NL : nw <> li).
      { intro Q. apply NW. rewrite Q. simpl. apply in_or_app. auto. }
      rewrite at_set_ne by auto. rewrite AN. cbn [with_left nleft].
      assert (LEN : length h = length h0) by apply SM.
      (* the heap after this column block *)
      set (hA := set_node h li (with_next y (Some nw))).
      match goal with |- context[link f _ _ _ _ _ ?X] => set (hB := X) end.
      assert (SB : semi h0 hB nw (D ++ [li]) /\ at_node hB nw = Some (with_left z0 (hd_error (D ++ [li])))).
      { assert (SA : forall u, u <> nw -> at_node hA u =
            if in_dec Nat.eq_dec u (D ++ [li])
            then option_map (fun nd => with_next nd (Some nw)) (at_node h0 u) else at_node h0 u).
        { intros u NU. unfold hA. destruct (Nat.eq_dec u li).
          - subst u. rewrite at_set_eq by (eapply at_lt; eauto).
            destruct (in_dec Nat.eq_dec li (D ++ [li])) as [K|K].
            + rewrite <- (IS li LI), AY. reflexivity.
            + exfalso. apply K. apply in_or_app. right. left. auto.
          - rewrite at_set_ne by auto. destruct SM as (_ & SM). rewrite SM by auto.
            destruct (in_dec Nat.eq_dec u D) as [K|K], (in_dec Nat.eq_dec u (D ++ [li])) as [K2|K2]; auto.
            + exfalso. apply K2. apply in_or_app. auto.
            + exfalso. apply in_app_or in K2. simpl in K2. destruct K2 as [K2|[K2|[]]]; congruence. }
        unfold hB. destruct D as [|d D']; simpl hd_error; cbn [with_left nleft].
        - split.
          + split; [rewrite set_node_len; unfold hA; rewrite set_node_len; auto|].
            intros u NU. rewrite at_set_ne by auto. apply SA. auto.
          + rewrite at_set_eq; [simpl; reflexivity|]. unfold hA. rewrite set_node_len. lia.
        - split.
          + split; [unfold hA; rewrite set_node_len; auto|]. exact SA.
          + unfold hA. rewrite at_set_ne by auto. exact AN. }
      destruct SB as (SB & AB).
      assert (E2 : its = (pre ++ [it]) ++ todo) by (rewrite <- app_assoc; exact E).
      assert (PW : iwidths (pre ++ [it]) = iwidths pre + iw it).
      { rewrite iwidths_app. unfold iwidths at 2. simpl. lia. }
      assert (TW : iwidths (it :: todo) = iw it + iwidths todo) by reflexivity.
      simpl in ND.
      specialize (IH (pre ++ [it]) f hB (D ++ [li]) (nr - iw it) E2 G2 (nodup_app_r _ _ ND)).
      assert (Q1 : ~ In nw (flat_map chids todo)) by (intro Q; apply NW; simpl; apply in_or_app; auto).
      assert (Q2 : forall x, In x (D ++ [li]) -> ~ In x (flat_map chids todo)).
      { intros x J K. apply in_app_or in J. destruct J as [J|[J|[]]].
        - apply (DD x J). simpl. apply in_or_app. auto.
        - subst x. eapply nodup_app_disj; eauto. }
      specialize (IH Q1 Q2 SB AB ltac:(lia) ltac:(simpl in F; lia)). cbv zeta in IH.
      rewrite PW in IH.
      replace (iwidths pre + iw it + (nr - iw it) - 1) with last in IH by (unfold last; lia).
      replace (iwidths pre + iw it - 1) with (upper (mkI (ilo it) (ilo it + iw it - 1))) in IH
        by (simpl; lia).
      destruct (covers (map col_of todo) (nr - iw it) ty) as [c|].
      + cbn [option_map]. destruct IH as (h' & I1 & I2 & I3 & I4 & I5 & I6). exists h'.
        rewrite <- app_assoc in I2, I3. simpl in I2, I3. cbn [firstn lasts map]. fold (lasts (firstn c todo)).
        fold li. split; auto. split; auto. split; auto. split.
        { unfold iwidths in *. simpl. lia. }
        split; [simpl; lia|]. constructor; auto.
      + cbn [option_map]. destruct IH as (h' & c & z & I1 & I2 & I3 & I4). exists h', (S c), z.
        rewrite <- app_assoc in I2. simpl in I2. cbn [firstn lasts map]. fold (lasts (firstn c todo)).
        fold li. split; auto. split; auto. split; auto. unfold iwidths in *. simpl. lia.
  Qed.

  Lemma unlink_walk_ok : forall l fuel h0 h nw b o e (lk : bool), links h0 l o e -> headid l = Some b ->
    NoDup (ids l) -> ~ In nw (ids l) -> (length l <= fuel)%nat ->
    (forall x nd, In x (ids l) -> at_node h0 x = Some nd ->
       at_node h x = Some (if lk && Nat.eqb x (lastid l) then with_next nd (Some nw) else nd)) ->
    forall ndl, at_node h0 (lastid l) = Some ndl ->
    unlink_walk fuel nw h b = Some (if lk then set_node h (lastid l) ndl else h).
  Proof.
    induction l as [|[x ox] l IH]; intros fuel h0 h nw b o e lk L H N W F S ndl AL; [discriminate|].
    unfold headid in H; simpl in H. injection H as H; subst b. simpl in L.
    destruct L as (E & nd & A & P & X & L). subst ox. simpl in F. destruct fuel as [|f]; [lia|].
    assert (SX := S x nd (or_introl eq_refl) A). cbn [unlink_walk]. rewrite SX.
    destruct l as [|[y oy] l].
    - unfold lastid in *; simpl in *. rewrite Nat.eqb_refl, andb_true_r in *.
      rewrite A in AL. injection AL as AL. subst ndl. destruct lk.
      + simpl. rewrite Nat.eqb_refl. f_equal. destruct nd as [b1 b2 b3 b4]. simpl in *. subst b3. auto.
      + rewrite X. reflexivity.
    - inversion N as [|? ? N1 N2]; subst.
      assert (LE : lastid ((x, o) :: (y, oy) :: l) = lastid ((y, oy) :: l)) by reflexivity.
      assert (NE : Nat.eqb x (lastid ((x, o) :: (y, oy) :: l)) = false).
      { apply Nat.eqb_neq. rewrite LE. intro Q. apply N1. rewrite Q. apply lastid_in. discriminate. }
      rewrite NE, andb_false_r. rewrite X. cbn [option_map hd_error fst].
      destruct (Nat.eqb_spec y nw) as [Q|Q].
      { exfalso. apply W. right. left. auto. }
      rewrite LE in *. eapply IH; eauto.
      + intro Q2. apply W. right. auto.
      + simpl in *. lia.
      + intros z nz I B. apply S; auto. right. auto.
  Qed.

  Lemma unlink_ok : forall nw h0 ht its, contig 0 its -> Forall (fun it => 0 < iw it) its ->
    forall todo pre fuel h c nr,
      its = pre ++ todo -> Forall (good h0 ht) todo -> NoDup (flat_map chids todo) ->
      ~ In nw (flat_map chids todo) ->
      semi h0 h nw (lasts (firstn c todo)) ->
      0 <= nr <= iwidths todo -> iwidths (firstn c todo) <= nr -> (length todo < fuel)%nat ->
      exists h', unlink fuel (map entry its) nw (iwidths pre + nr - 1) (iwidths pre - 1) h = Some h'
        /\ semi h0 h' nw [] /\ at_node h' nw = at_node h nw.
  Proof.
    intros nw h0 ht its C FW. induction todo as [|it todo IH];
      intros pre fuel h c nr E G ND NW SM R CW F.
    - assert (nr = 0) by (unfold iwidths in R; simpl in R; lia). subst nr.
      rewrite firstn_nil in SM. exists h. destruct fuel as [|f]; [simpl in F; lia|]. simpl.
      destruct (Z.ltb_spec (iwidths pre - 1) (iwidths pre + 0 - 1)); [lia|]. auto.
    - inversion G as [|? ? G1 G2]; subst x l. destruct G1 as (IW & HD & LK & nd0 & A0 & T0).
      destruct fuel as [|f]; [simpl in F; lia|]. cbn [unlink].
      destruct (Z.ltb_spec (iwidths pre - 1) (iwidths pre + nr - 1)) as [B|B].
      2:{ assert (nr = 0) by lia. subst nr. exists h. split; auto. split; auto.
          destruct c as [|c]; auto. exfalso. cbn [firstn] in CW. unfold iwidths in CW; simpl in CW.
          fold (iwidths (firstn c todo)) in CW.
          assert (0 <= iwidths (firstn c todo)).
          { apply iwidths_nonneg. apply Forall_forall. intros t J. rewrite Forall_forall in G2.
            apply in_firstn in J. apply G2 in J. destruct J as (J & _). auto. }
          lia. }
      replace (iwidths pre - 1 + 1) with (iwidths pre) by lia.
      assert (CI : ilo it = iwidths pre).
      { rewrite E in C. apply contig_app in C. destruct C as (_ & C). simpl in C. tauto. }
      assert (FE : find_col (iwidths pre) (map entry its)
              = Some (mkI (ilo it) (ilo it + iw it - 1), ib it)).
      { rewrite E in C, FW |- *. apply (find_entry pre it todo 0); auto. lia. }
      rewrite FE.
      assert (NDi : NoDup (ids (ich it))) by (simpl in ND; eapply nodup_app_l; eauto).
      pose proof (headid_ne _ _ HD) as NE.
      destruct (lastid_node _ _ _ _ LK NE) as (ndl & AL & _).
      assert (NWi : ~ In nw (ids (ich it))) by (intro Q; apply NW; simpl; apply in_or_app; auto).
      set (lk := match c with O => false | S _ => true end).
      assert (LSub : forall c' x, In x (lasts (firstn c' todo)) -> In x (flat_map chids todo)).
      { intros c' x J. unfold lasts in J. apply in_map_iff in J. destruct J as (t & Q & J).
        apply in_firstn in J. apply in_flat_map. exists t. split; auto. subst x. apply lastid_in.
        rewrite Forall_forall in G2. apply G2 in J. destruct J as (_ & J & _). eapply headid_ne; eauto. }
      assert (LEN : length h = length h0) by apply SM.
      rewrite (unlink_walk_ok (ich it) (S (length h)) h0 h nw (ib it) 0 ht lk LK HD NDi NWi) with (ndl := ndl).
      4: exact AL. 2: pose proof (chain_short _ _ _ _ _ LK NDi); lia.
      2:{ intros x nd J A. destruct SM as (_ & SM). rewrite SM by (intro Q; subst; auto). rewrite A.
          destruct c as [|c]; cbn [firstn lasts map] in *; unfold lk; cbn [andb].
          - destruct (in_dec Nat.eq_dec x []) as [[]|]; auto.
          - destruct (in_dec Nat.eq_dec x (lastid (ich it) :: map (fun it => lastid (ich it)) (firstn c todo)))
              as [K|K]; destruct (Nat.eqb_spec x (lastid (ich it))) as [K2|K2]; auto.
            + exfalso. simpl in K. destruct K as [K|K]; [congruence|].
              eapply nodup_app_disj; [exact ND|exact J|]. eapply LSub; exact K.
            + exfalso. apply K. left. auto. }
      assert (E2 : its = (pre ++ [it]) ++ todo) by (rewrite <- app_assoc; exact E).
      assert (PW : iwidths (pre ++ [it]) = iwidths pre + iw it).
      { rewrite iwidths_app. unfold iwidths at 2. simpl. lia. }
      assert (TW : iwidths (it :: todo) = iw it + iwidths todo) by reflexivity.
      set (h1 := if lk then set_node h (lastid (ich it)) ndl else h).
      assert (S1 : semi h0 h1 nw (lasts (firstn (pred c) todo)) /\ at_node h1 nw = at_node h nw).
      { unfold h1, lk. destruct c as [|c]; simpl pred; [cbn [firstn] in *; auto|].
        cbn [firstn lasts map] in SM. fold (lasts (firstn c todo)) in SM. split.
        - split; [rewrite set_node_len; auto|]. intros y NY. destruct SM as (_ & SM).
          destruct (Nat.eq_dec y (lastid (ich it))).
          + subst y. rewrite at_set_eq by (rewrite LEN; eapply at_lt; eauto).
            destruct (in_dec Nat.eq_dec (lastid (ich it)) (lasts (firstn c todo))) as [K|K]; auto.
            exfalso. eapply nodup_app_disj; [exact ND|apply lastid_in; exact NE|]. eapply LSub; exact K.
          + rewrite at_set_ne by auto. rewrite SM by auto.
            destruct (in_dec Nat.eq_dec y (lastid (ich it) :: lasts (firstn c todo))) as [K|K],
              (in_dec Nat.eq_dec y (lasts (firstn c todo))) as [K2|K2]; auto.
            * exfalso. simpl in K. destruct K as [K|K]; congruence.
            * exfalso. apply K. right. auto.
        - apply at_set_ne. intro Q. apply NWi. rewrite Q. apply lastid_in. auto. }
      destruct S1 as (S1 & A1).
      destruct (Z_le_gt_dec (iw it) nr) as [WL|WG].
      + destruct (IH (pre ++ [it]) f h1 (pred c) (nr - iw it) E2 G2 (nodup_app_r _ _ ND)) as (h' & U & S' & A').
        * intro Q; apply NW; simpl; apply in_or_app; auto.
        * exact S1.
        * lia.
        * destruct c as [|c]; simpl pred; [unfold iwidths; simpl; lia|]. cbn [firstn] in CW.
          unfold iwidths in *. simpl in CW. lia.
        * simpl in F; lia.
        * exists h'. rewrite PW in U.
          replace (iwidths pre + iw it + (nr - iw it) - 1) with (iwidths pre + nr - 1) in U by lia.
          replace (iwidths pre + iw it - 1) with (upper (mkI (ilo it) (ilo it + iw it - 1))) in U
            by (simpl; lia).
          split; auto. split; auto. congruence.
      + (* the block ends here *)
        assert (c = O).
        { destruct c as [|c]; auto. exfalso. cbn [firstn] in CW. unfold iwidths in CW; simpl in CW.
          fold (iwidths (firstn c todo)) in CW.
          assert (0 <= iwidths (firstn c todo)).
          { apply iwidths_nonneg. apply Forall_forall. intros t J. rewrite Forall_forall in G2.
            apply in_firstn in J. apply G2 in J. destruct J as (J & _). auto. }
          lia. }
        subst c. unfold h1, lk in *. exists h. cbn [firstn lasts map] in S1. split; [|auto].
        destruct f as [|f]; simpl;
          destruct (Z.ltb_spec (ilo it + iw it - 1) (iwidths pre + nr - 1)); auto; lia.
  Qed.

  Definition ext (nw : nat) (o : Z) (cl : bool) it : item :=
    mkItem (ilo it) (iw it) (ity it) (cl || icl it) (ib it) (ich it ++ [(nw, o)]).
  Lemma ids_snoc : forall l p, ids (l ++ [p]) = ids l ++ [fst p].
  Proof. intros. unfold ids. rewrite map_app. reflexivity. Qed.
  Lemma own_ext : forall nw o cl it, icl it = false ->
    ownids (ext nw o cl it) = if cl then ids (ich it) else ids (ich it) ++ [nw].
  Proof.
    intros nw o cl it C. unfold ownids, ext. simpl. rewrite C, orb_false_r, ids_snoc. simpl.
    destruct cl; auto. apply removelast_last.
  Qed.

  Lemma share_extend : forall pre cov post nw o cl, sharing (pre ++ cov ++ post) ->
    (forall t, In t (pre ++ cov ++ post) -> ich t <> [] /\ ~ In nw (ids (ich t))) ->
    (forall t, In t cov -> icl t = false) -> (cl = false -> (length cov <= 1)%nat) ->
    sharing (pre ++ map (ext nw o cl) cov ++ post).
  Proof.
    intros pre cov post nw o cl S F OP CL.
    assert (INS : forall t, In t (pre ++ map (ext nw o cl) cov ++ post) ->
              (In t (pre ++ cov ++ post)) \/
              (exists u, In u cov /\ In u (pre ++ cov ++ post) /\ icl u = false /\ t = ext nw o cl u)).
    { intros t I. apply in_app_or in I. destruct I as [I|I]; [left; apply in_or_app; auto|].
      apply in_app_or in I. destruct I as [I|I].
      - right. apply in_map_iff in I. destruct I as (u & E & I). exists u.
        split; auto. split; [apply in_or_app; right; apply in_or_app; auto|]. split; auto.
      - left. apply in_or_app; right; apply in_or_app; auto. }
    assert (NWO : forall t, In t (pre ++ cov ++ post) -> ~ In nw (ownids t)).
    { intros t I J. apply ownids_in in J. destruct (F t I); auto. }
    constructor.
    - destruct cl.
      + replace (flat_map ownids (pre ++ map (ext nw o true) cov ++ post))
          with (flat_map ownids (pre ++ cov ++ post)); [apply (sh_own _ S)|].
        rewrite !flat_map_app. f_equal. f_equal. clear - OP. induction cov as [|c cov IH]; simpl; auto.
        rewrite own_ext by (apply OP; left; auto). f_equal.
        * unfold ownids. rewrite OP; auto. left. auto.
        * apply IH. intros t I. apply OP. right. auto.
      + specialize (CL eq_refl). destruct cov as [|c [|? ?]]; [apply (sh_own _ S)| |simpl in CL; lia].
        simpl. rewrite flat_map_app. simpl. rewrite own_ext by (apply OP; left; auto).
        pose proof (sh_own _ S) as N. rewrite flat_map_app in N. simpl in N.
        unfold ownids in N at 2. rewrite (OP c (or_introl eq_refl)) in N.
        eapply Permutation_NoDup with (l := nw :: flat_map ownids pre ++ ids (ich c) ++ flat_map ownids post).
        * rewrite !app_assoc. rewrite <- (app_assoc (flat_map ownids pre ++ ids (ich c)) [nw]). simpl.
          apply (Permutation_middle (flat_map ownids pre ++ ids (ich c)) (flat_map ownids post) nw).
        * constructor; auto. intro I. apply in_app_or in I. destruct I as [I|I].
          { apply in_flat_map in I. destruct I as (t & I & J). apply (NWO t); auto. apply in_or_app; auto. }
          apply in_app_or in I. destruct I as [I|I].
          { destruct (F c) as (_ & G); auto. apply in_or_app; right; left; auto. }
          apply in_flat_map in I. destruct I as (t & I & J). apply (NWO t); auto.
          apply in_or_app; right; right; auto.
    - intros t t' I I' CT J.
      assert (LT : lastid (ich t) <> nw -> exists u, In u (pre ++ cov ++ post) /\ In (lastid (ich t)) (ownids u)).
      { intros NL. destruct (INS t' I') as [K|(u & K1 & K2 & K3 & K4)]; [exists t'; auto|].
        subst t'. rewrite own_ext in J by auto. exists u. split; auto. unfold ownids. rewrite K3.
        destruct cl; auto. apply in_app_or in J. destruct J as [J|[J|[]]]; auto. congruence. }
      destruct (INS t I) as [K|(u & K1 & K2 & K3 & K4)].
      + destruct (F t K) as (NE & NN).
        destruct LT as (u & U1 & U2).
        { intro Q. apply NN. rewrite <- Q. apply lastid_in; auto. }
        eapply (sh_tail _ S t u); eauto.
      + subst t. unfold ext in CT, J. simpl in CT, J. rewrite K3, orb_false_r in CT. subst cl.
        rewrite lastid_snoc in J. simpl in J.
        destruct (INS t' I') as [K|(u' & K1' & K2' & K3' & K4')]; [eapply NWO; eauto|].
        subst t'. rewrite own_ext in J by auto. destruct (F u' K2'); auto.
    - assert (PS : forall p, In p (flat_map ich (pre ++ map (ext nw o cl) cov ++ post)) ->
              (In p (flat_map ich (pre ++ cov ++ post)) /\ fst p <> nw) \/ p = (nw, o)).
      { intros p I. apply in_flat_map in I. destruct I as (t & I & J).
        assert (Q : forall u, In u (pre ++ cov ++ post) -> In p (ich u) ->
                  In p (flat_map ich (pre ++ cov ++ post)) /\ fst p <> nw).
        { intros u U1 U2. split; [apply in_flat_map; exists u; auto|]. intro Q. destruct (F u U1) as (_ & G).
          apply G. rewrite <- Q. apply in_map. auto. }
        destruct (INS t I) as [K|(u & K1 & K2 & K3 & K4)]; [left; eauto|]. subst t. simpl in J.
        apply in_app_or in J. destruct J as [J|[J|[]]]; [left; eauto|]. right. auto. }
      intros p q I J Q. destruct (PS p I) as [(P1 & P2)|P1], (PS q J) as [(Q1 & Q2)|Q1].
      + apply (sh_same _ S); auto.
      + subst q. simpl in Q. congruence.
      + subst p. simpl in Q. congruence.
      + congruence.
  Qed.

  Lemma heap_eq : forall h g, length h = length g -> (forall y, at_node h y = at_node g y) -> h = g.
  Proof.
    induction h as [|x h IH]; intros [|y g] L S; simpl in *; try lia; auto.
    f_equal.
    - specialize (S O). simpl in S. congruence.
    - apply IH; [lia|]. intros z. apply (S (Datatypes.S z)).
  Qed.

  Lemma firstn_map' : forall (A B : Type) (f : A -> B) k (l : list A), firstn k (map f l) = map f (firstn k l).
  Proof. intros A B f. induction k as [|k IH]; intros [|x l]; simpl; auto. f_equal. auto. Qed.
  Lemma skipn_map' : forall (A B : Type) (f : A -> B) k (l : list A), skipn k (map f l) = map f (skipn k l).
  Proof. intros A B f. induction k as [|k IH]; intros [|x l]; simpl; auto. Qed.

  Lemma contig_map : forall f its lo, (forall it, ilo (f it) = ilo it /\ iw (f it) = iw it) ->
    contig lo its -> contig lo (map f its).
  Proof.
    intros f. induction its as [|it its IH]; intros lo H C; simpl in *; auto.
    destruct (H it) as (H1 & H2). destruct C as (C1 & C2). rewrite H1, H2. split; auto.
  Qed.
  Lemma contig_bound : forall its lo it, contig lo its -> Forall (fun t => 0 < iw t) its -> In it its ->
    lo <= ilo it /\ ilo it + iw it <= lo + iwidths its.
  Proof.
    induction its as [|t its IH]; intros lo it C F I; [destruct I|].
    simpl in C. destruct C as (C1 & C2). inversion F as [|? ? F1 F2]; subst.
    assert (W : iwidths (t :: its) = iw t + iwidths its) by reflexivity.
    pose proof (iwidths_nonneg _ F2). destruct I as [I|I].
    - subst. lia.
    - destruct (IH _ _ C2 F2 I). lia.
  Qed.

  Lemma same_store_refl : forall s, same_store s s.
  Proof. intros s. unfold same_store. intuition. exists []. rewrite app_nil_r. auto. Qed.

  Lemma concat_rows_ok : forall s a mr nr ty rm dat, rep s a ->
    match add_rows mr nr ty rm dat a with
    | Irregular => True
    | Refuse st => exists s', concat_rows mr nr ty rm dat s = Some (st, s') /\ rep s' a /\ same_store s s'
    | Accept a' => exists s', concat_rows mr nr ty rm dat s = Some (st_success, s') /\ rep s' a'
    end.
  Proof.
    intros s a mr nr ty rm dat RR. assert (RR0 := RR). destruct RR as (its & k & g2 & R).
    unfold add_rows, concat_rows.
    assert (FW := rep_widths _ _ _ _ _ _ R). assert (NN := rep_ncols _ _ _ _ _ _ R).
    assert (EC := r_cols _ _ _ _ _ _ R). assert (CT := r_cont _ _ _ _ _ _ R).
    destruct (cols a) as [|cb cbs] eqn:ECO.
    { symmetry in EC. apply map_eq_nil in EC. subst its. unfold iwidths in NN; simpl in NN.
      rewrite NN. simpl. pose proof (concat_columns_ok s a mr nr ty rm dat RR0) as Q.
      destruct (add_columns mr nr ty rm dat a).
      - destruct Q as (s' & Q1 & Q2). exists s'. rewrite Q1. auto.
      - exists s. rewrite Q. split; auto. split; auto. apply same_store_refl.
      - auto. }
    assert (NZ : its <> []) by (intro Q; subst its; discriminate EC).
    rewrite <- ECO in EC |- *. clear ECO cb cbs.
    assert (NP : 0 < n s).
    { rewrite NN. destruct its as [|it its']; [congruence|]. inversion FW as [|? ? F1 F2]; subst.
      pose proof (iwidths_nonneg _ F2). change (iwidths (it :: its')) with (iw it + iwidths its'). lia. }
    destruct (Z.leb_spec (n s) 0); [lia|].
    set (kk := match filling a with Some (k0, _) => k0 | None => O end).
    assert (KK : kk = k).
    { pose proof (r_fill _ _ _ _ _ _ R) as W. unfold fill_rep in W. unfold kk.
      destruct (filling a) as [[k' hg]|]; destruct W as (_ & W & _); auto. }
    rewrite KK. clear KK kk. rewrite EC. rewrite firstn_map', skipn_map'.
    set (pre := firstn k its). set (todo := skipn k its).
    assert (SP : its = pre ++ todo) by (symmetry; apply firstn_skipn).
    fold (iwidths pre). set (st := iwidths pre).
    assert (IST : (if pend s then pidx s else 0) = st).
    { pose proof (r_fill _ _ _ _ _ _ R) as W. unfold fill_rep in W.
      destruct (filling a) as [[k' hg]|].
      - destruct W as (W1 & W2 & W3 & W4 & _). rewrite W1, W4, EC, firstn_map'. subst k'. reflexivity.
      - destruct W as (W1 & W2 & _). rewrite W1. unfold st, pre. rewrite W2. reflexivity. }
    rewrite IST. rewrite <- (r_n _ _ _ _ _ _ R).
    destruct (Z.leb_spec mr 0) as [M0|M0].
    { exists s. split; auto. split; auto. apply same_store_refl. }
    destruct (Z.leb_spec nr 0) as [N0|N0].
    { exists s. split; auto. split; auto. apply same_store_refl. }
    cbn [orb]. replace (0 <? n s) with true by (symmetry; apply Z.ltb_lt; auto). cbn [andb].
    rewrite (Z.add_comm nr st).
    destruct (Z.ltb_spec (n s) (st + nr)) as [NL|NL].
    { exists s. split; auto. split; auto. apply same_store_refl. }
    destruct (existsb closed (map col_of todo)) eqn:CLO; [exact I|].
    assert (OP : forall t, In t todo -> icl t = false).
    { intros t J. destruct (icl t) eqn:Q; auto. exfalso.
      assert (existsb closed (map col_of todo) = true); [|congruence].
      apply existsb_exists. exists (col_of t). split; [apply in_map; auto|auto]. }
    set (nw := length (heap s)). set (z0 := mkNode (mkBlk mr nr ty rm dat) st None None).
    set (h0 := heap s ++ [z0]).
    assert (ITI : forall t, In t todo -> In t its) by (intros t J; rewrite SP; apply in_or_app; auto).
    assert (PRI : forall t, In t pre -> In t its) by (intros t J; rewrite SP; apply in_or_app; auto).
    assert (FR : forall t, In t its -> ich t <> [] /\ ~ In nw (ids (ich t))).
    { intros t J. destruct (rep_facts _ _ _ _ _ _ R J) as (Q1 & Q2). split; auto. intro Q. specialize (Q2 _ Q).
      unfold nw in Q2. lia. }
    assert (OLD : forall t x, In t its -> In x (ids (ich t)) -> at_node h0 x = at_node (heap s) x).
    { intros t x J1 J2. destruct (rep_facts _ _ _ _ _ _ R J1) as (_ & Q2). unfold at_node, h0.
      apply nth_error_app1. auto. }
    assert (TD := r_todo _ _ _ _ _ _ R). assert (DN := r_done _ _ _ _ _ _ R). fold todo in TD. fold pre in DN.
    assert (GD : Forall (good h0 g2) todo).
    { rewrite Forall_forall in *. intros t J. destruct (TD t J) as (W & HD & LK & NR).
      split; auto. split; auto. split.
      - eapply links_same; [|exact LK]. intros x Q. apply (OLD t); auto.
      - rewrite Forall_forall in NR. assert (HI := headid_in _ _ HD).
        rewrite (OLD t) by auto. unfold ids in HI. apply in_map_iff in HI.
        destruct HI as ((y & oy) & E1 & E2). destruct (NR _ E2) as (nd & A & T & _). exists nd.
        simpl in *. subst y. auto. }
    assert (OWN : flat_map chids todo = flat_map ownids todo).
    { clear - OP. induction todo as [|t todo IH]; simpl; auto. f_equal.
      - unfold chids, ownids. rewrite OP; auto. left; auto.
      - apply IH. intros u J. apply OP. right; auto. }
    assert (NDT : NoDup (flat_map chids todo)).
    { rewrite OWN. pose proof (sh_own _ (r_share _ _ _ _ _ _ R)) as Q. rewrite SP, flat_map_app in Q.
      eapply nodup_app_r; eauto. }
    assert (NWT : ~ In nw (flat_map chids todo)).
    { intro Q. apply in_flat_map in Q. destruct Q as (t & Q1 & Q2). destruct (FR t (ITI t Q1)); auto. }
    assert (SM0 : semi h0 h0 nw []).
    { split; auto. }
    assert (AN0 : at_node h0 nw = Some (with_left z0 (hd_error []))) by apply at_app_new.
    assert (IWT : n s = st + iwidths todo) by (rewrite NN, SP, iwidths_app; auto).
    assert (LNW : (nw < length h0)%nat) by (unfold nw, h0; rewrite app_length; simpl; lia).
    assert (FU : (length todo < S (length (cmap s)))%nat).
    { rewrite (r_cmap _ _ _ _ _ _ R), map_length, SP, app_length. lia. }
    pose proof (link_ok ty nw h0 z0 g2 its CT FW eq_refl LNW todo pre (S (length (cmap s))) h0 [] nr
                  SP GD NDT NWT ltac:(intros ? []) SM0 AN0 ltac:(lia) FU) as LK.
    cbv zeta in LK. fold st in LK. rewrite (r_cmap _ _ _ _ _ _ R) in LK |- *. cbn [app] in LK.
    destruct (covers (map col_of todo) nr ty) as [c|] eqn:CV.
    2:{ destruct (filling a) as [f|] eqn:FN; [exact I|].
        destruct LK as (h' & c & z & LK & SM & AN & CW). rewrite LK.
        destruct (unlink_ok nw h0 g2 its CT FW todo pre (S (length (map entry its))) h' c nr SP GD NDT NWT SM
                    ltac:(lia) CW ltac:(rewrite <- (r_cmap _ _ _ _ _ _ R); auto)) as (h'' & UL & SM' & AN').
        fold st in UL. rewrite UL. eexists; split; [reflexivity|].
        assert (HE : exists z1, h'' = heap s ++ [z1]).
        { exists z. apply heap_eq.
          - destruct SM' as (L & _). rewrite L. unfold h0. rewrite !app_length. auto.
          - intros y. destruct (Nat.eq_dec y nw).
            + subst y. rewrite AN', AN. symmetry. apply at_app_new.
            + destruct SM' as (_ & SM'). rewrite SM' by auto. simpl. unfold h0, at_node.
              destruct (Nat.lt_ge_cases y (length (heap s))).
              * rewrite !nth_error_app1; auto.
              * rewrite (proj2 (nth_error_None _ _)), (proj2 (nth_error_None _ _)); auto;
                  rewrite app_length; simpl; unfold nw in *; lia. }
        destruct HE as (z1 & HE). subst h''.
        assert (W := r_fill _ _ _ _ _ _ R). unfold fill_rep in W. rewrite FN in W.
        destruct W as (W1 & W2 & W3). rewrite W1.
        split.
        - exists its, k, g2. constructor; simpl; auto.
          + rewrite (r_m _ _ _ _ _ _ R). lia.
          + apply (r_n _ _ _ _ _ _ R).
          + apply (r_pos _ _ _ _ _ _ R).
          + unfold fill_rep. rewrite FN. auto.
          + subst k. constructor.
          + fold todo. rewrite Forall_forall in *. intros t J. eapply item_ok_frame; [| |apply TD; auto]; auto.
            intros x Q. unfold at_node. apply nth_error_app1.
            destruct (rep_facts _ _ _ _ _ _ R (ITI t J)) as (_ & Q2). auto.
          + apply (r_share _ _ _ _ _ _ R).
        - unfold same_store; simpl. rewrite (r_cmap _ _ _ _ _ _ R), W1.
          split; [lia|]. repeat (split; [reflexivity|]). exists [z1]. reflexivity. }
    destruct (match filling a with Some (_, h1) => negb (mr =? h1) | None => false end) eqn:FH; [exact I|].
    destruct LK as (h' & LK & SM & AN & CW & CL & CTY). rewrite LK. eexists; split; [reflexivity|].
    set (rows' := match filling a with Some _ => rows a | None => rows a + mr end).
    assert (BASE : rows' - mr = g2).
    { pose proof (r_fill _ _ _ _ _ _ R) as W. unfold fill_rep in W. unfold rows'.
      destruct (filling a) as [[k' hg]|].
      - apply negb_false_iff in FH. apply Z.eqb_eq in FH. lia.
      - lia. }
    assert (MS : (if pend s then m s else m s + mr) = rows').
    { pose proof (r_fill _ _ _ _ _ _ R) as W. unfold fill_rep in W. unfold rows'.
      rewrite (r_m _ _ _ _ _ _ R). destruct (filling a) as [[k' hg]|]; destruct W as (W & _); rewrite W; auto. }
    rewrite MS.
    set (cov := firstn c todo) in *. set (post := skipn c todo).
    assert (SPT : todo = cov ++ post) by (symmetry; apply firstn_skipn).
    set (cl := 1 <? Z.of_nat c).
    assert (LCOV : length cov = c) by (unfold cov; rewrite firstn_length; lia).
    assert (CPOS : (0 < c)%nat).
    { destruct c; [|lia]. unfold cov in CW; simpl in CW. unfold iwidths in CW; simpl in CW. lia. }
    assert (LITS : length its = (length pre + (c + length post))%nat).
    { rewrite SP, SPT, !app_length, LCOV. lia. }
    assert (KLEN : length pre = k).
    { assert (K : (k <= length its)%nat).
      { pose proof (r_fill _ _ _ _ _ _ R) as W. unfold fill_rep in W.
        destruct (filling a) as [[k' hg]|]; [|lia]. destruct W as (_ & W2 & W3 & _).
        rewrite EC, map_length in W3. lia. }
      unfold pre. rewrite firstn_length. lia. }
    assert (IPOST : forall t, In t post -> In t todo).
    { intros t J. rewrite SPT. apply in_or_app; auto. }
    assert (ICOV : forall t, In t cov -> In t todo).
    { intros t J. rewrite SPT. apply in_or_app; auto. }
    assert (FWS := FW). rewrite SP, SPT in FWS. apply Forall_app in FWS. destruct FWS as (FWP & FWS).
    apply Forall_app in FWS. destruct FWS as (FWC & FWO).
    assert (CTS := CT). rewrite SP, SPT in CTS. apply contig_app in CTS. destruct CTS as (CTP & CTS).
    apply contig_app in CTS. destruct CTS as (CTC & CTO). rewrite Z.add_0_l in CTC, CTO. fold st in CTC, CTO.
    rewrite CW in CTO.
    set (cell' := fun i j => if (rows' - mr <=? i) && (st <=? j) && (j <? st + nr)
                             then in_array rm mr nr dat (i - (rows' - mr)) (j - st) else cell a i j).
    set (nwn := with_left z0 (hd_error (lasts cov))) in *.
    (* nodes of blocks that are not covered are untouched *)
    assert (DSUB : forall x, In x (lasts cov) -> exists t, In t cov /\ In x (ownids t)).
    { intros x J. unfold lasts in J. apply in_map_iff in J. destruct J as (t & Q & J). exists t.
      split; auto. unfold ownids. rewrite (OP t (ICOV t J)). subst x. apply lastid_in.
      destruct (FR t (ITI t (ICOV t J))); auto. }
    assert (NDI : NoDup (flat_map ownids pre ++ flat_map ownids cov ++ flat_map ownids post)).
    { pose proof (sh_own _ (r_share _ _ _ _ _ _ R)) as Q. rewrite SP, SPT, !flat_map_app in Q. auto. }
    assert (UNT : forall t x, (In t pre \/ In t post) -> In x (ids (ich t)) -> at_node h' x = at_node (heap s) x).
    { intros t x J Q. assert (JI : In t its) by (destruct J; auto).
      destruct SM as (_ & SM). rewrite SM.
      - destruct (in_dec Nat.eq_dec x (lasts cov)) as [K|K]; [|apply (OLD t); auto]. exfalso.
        destruct (DSUB x K) as (u & U1 & U2).
        destruct (icl t) eqn:ICL.
        + destruct (FR t JI) as (NE & _). destruct (last_split _ NE) as (l' & o & EL).
          rewrite EL, ids_snoc in Q. apply in_app_or in Q. simpl in Q. destruct Q as [Q|[Q|[]]].
          * assert (QO : In x (ownids t)).
            { unfold ownids. rewrite ICL, EL, ids_snoc, removelast_last. auto. }
            destruct J as [J|J].
            { eapply nodup_app_disj; [exact NDI|apply in_flat_map; exists t; eauto|].
              apply in_or_app. left. apply in_flat_map. exists u. auto. }
            apply nodup_app_r in NDI.
            eapply nodup_app_disj; [exact NDI|apply in_flat_map; exists u; eauto|].
            apply in_flat_map. exists t. auto.
          * subst x. eapply (sh_tail _ (r_share _ _ _ _ _ _ R) t u); eauto.
        + assert (QO : In x (ownids t)) by (unfold ownids; rewrite ICL; auto).
          destruct J as [J|J].
          { eapply nodup_app_disj; [exact NDI|apply in_flat_map; exists t; eauto|].
            apply in_or_app. left. apply in_flat_map. exists u. auto. }
          apply nodup_app_r in NDI.
          eapply nodup_app_disj; [exact NDI|apply in_flat_map; exists u; eauto|].
          apply in_flat_map. exists t. auto.
      - intro K. subst x. destruct (FR t JI); auto. }
    assert (OKP : Forall (item_ok h' cell' rows') pre).
    { rewrite Forall_forall in *. intros t J.
      assert (HP : item_ok (heap s) (cell a) rows' t).
      { pose proof (r_fill _ _ _ _ _ _ R) as W. unfold fill_rep in W. unfold rows'.
        destruct (filling a) as [[k' hg]|]; auto. destruct W as (_ & W & _). unfold pre in J. rewrite W in J. destruct J. }
      eapply item_ok_frame; [| |exact HP].
      - intros x Q. eapply UNT; eauto.
      - intros i j RI RJ. unfold cell'.
        destruct (contig_bound _ _ _ CTP (proj2 (Forall_forall _ _) FWP) J). fold st in H1.
        destruct (Z.leb_spec st j); [lia|]. rewrite andb_false_r. reflexivity. }
    assert (OKO : Forall (item_ok h' cell' g2) post).
    { rewrite Forall_forall in *. intros t J. eapply item_ok_frame; [| |apply TD; auto].
      - intros x Q. eapply UNT; eauto.
      - intros i j RI RJ. unfold cell'.
        destruct (contig_bound _ _ _ CTO (proj2 (Forall_forall _ _) FWO) J).
        destruct (Z.ltb_spec j (st + nr)); [lia|]. rewrite andb_false_r. reflexivity. }
    assert (OKC : Forall (item_ok h' cell' rows') (map (ext nw g2 cl) cov)).
    { apply Forall_forall. intros t' J'. apply in_map_iff in J'. destruct J' as (t & E & J). subst t'.
      assert (JI := ITI t (ICOV t J)). rewrite Forall_forall in TD, CTY. specialize (CTY t J).
      destruct (TD t (ICOV t J)) as (W & HD & LKS & NR).
      assert (NDt := chain_nodup _ _ (r_share _ _ _ _ _ _ R) JI (headid_ne _ _ HD)).
      assert (NWt : ~ In nw (ids (ich t))) by (destruct (FR t JI); auto).
      assert (ATS : forall x nd, In x (ids (ich t)) -> at_node (heap s) x = Some nd ->
        at_node h' x = Some (if Nat.eqb x (lastid (ich t)) then with_next nd (Some nw) else nd)).
      { intros x nd Q A. destruct SM as (_ & SM). rewrite SM by (intro K; apply NWt; rewrite <- K; auto).
        rewrite (OLD t) by auto. rewrite A. simpl.
        destruct (in_dec Nat.eq_dec x (lasts cov)) as [K|K], (Nat.eqb_spec x (lastid (ich t))) as [K2|K2]; auto.
        - exfalso. unfold lasts in K. apply in_map_iff in K. destruct K as (u & U1 & U2).
          assert (u = t).
          { pose proof NDI as N2. apply nodup_app_r in N2. apply nodup_app_l in N2.
            assert (XU : In x (ownids u)).
            { unfold ownids. rewrite (OP u (ICOV u U2)). subst x. apply lastid_in.
              destruct (FR u (ITI u (ICOV u U2))); auto. }
            assert (XT : In x (ownids t)) by (unfold ownids; rewrite (OP t (ICOV t J)); auto).
            clear - N2 U2 J XU XT. induction cov as [|v cov IH]; [destruct J|]. simpl in N2.
            destruct U2 as [U2|U2], J as [J|J].
            - congruence.
            - subst v. exfalso. eapply nodup_app_disj; [exact N2|exact XU|]. apply in_flat_map. exists t. auto.
            - subst v. exfalso. eapply nodup_app_disj; [exact N2|exact XT|]. apply in_flat_map. exists u. auto.
            - apply IH; auto. eapply nodup_app_r; eauto. }
          subst u. congruence.
        - exfalso. apply K. unfold lasts. apply in_map_iff. exists t. auto. }
      split; [exact W|]. split.
      { unfold ext; simpl. destruct (ich t) as [|p r]; [discriminate|]. exact HD. }
      split.
      - unfold ext; simpl. replace rows' with (g2 + bm (nb nwn)) by (unfold nwn; simpl; lia).
        eapply links_extend; eauto. eapply headid_ne; eauto.
      - unfold ext; simpl. apply Forall_app. split.
        + rewrite Forall_forall in NR |- *. intros (x & ox) Q.
          destruct (NR _ Q) as (nd & A & T & O1 & O2 & D). simpl in A.
          assert (XI : In x (ids (ich t))) by (apply in_map_iff; exists (x, ox); auto).
          unfold node_rep. cbn [fst snd] in *. rewrite (ATS x nd XI A). eexists; split; [reflexivity|].
          assert (NBE : nb (if Nat.eqb x (lastid (ich t)) then with_next nd (Some nw) else nd) = nb nd
                        /\ noff (if Nat.eqb x (lastid (ich t)) then with_next nd (Some nw) else nd) = noff nd).
          { destruct (Nat.eqb x (lastid (ich t))); auto. }
          destruct NBE as (NB1 & NB2). rewrite NB1, NB2. split; auto. split; auto. split; auto.
          intros r j Q1 Q2. rewrite D by auto. unfold cell'.
          destruct (links_in _ _ _ _ _ _ _ LKS Q) as (nd' & A' & _ & B1 & B2). rewrite A in A'.
          inversion A'; subst nd'. destruct (Z.leb_spec (rows' - mr) (ox + r)); [lia|]. reflexivity.
        + constructor; [|constructor]. exists nwn. simpl. split; auto. split; auto.
          destruct (contig_bound _ _ _ CTC FWC J) as (B1 & B2). rewrite CW in B2.
          split; [lia|]. split; [lia|]. intros r j Q1 Q2. unfold cell'.
          destruct (Z.leb_spec (rows' - mr) (g2 + r)); [|lia]. destruct (Z.leb_spec st j); [|lia].
          destruct (Z.ltb_spec j (st + nr)); [|lia]. simpl. unfold cell_pos, in_array. simpl.
          replace (g2 + r - (rows' - mr)) with r by lia. destruct rm; reflexivity. }
    set (its' := pre ++ map (ext nw g2 cl) cov ++ post).
    assert (LI' : length its' = length its).
    { unfold its'. rewrite !app_length, map_length. lia. }
    assert (FN' : firstn (k + c) its' = pre ++ map (ext nw g2 cl) cov).
    { unfold its'. rewrite app_assoc. rewrite firstn_app.
      replace (k + c - length (pre ++ map (ext nw g2 cl) cov))%nat with O
        by (rewrite app_length, map_length; lia).
      simpl. rewrite app_nil_r. apply firstn_all2. rewrite app_length, map_length. lia. }
    assert (SN' : skipn (k + c) its' = post).
    { unfold its'. rewrite app_assoc. rewrite skipn_app.
      replace (k + c - length (pre ++ map (ext nw g2 cl) cov))%nat with O
        by (rewrite app_length, map_length; lia).
      rewrite skipn_all2; [reflexivity|]. rewrite app_length, map_length. lia. }
    assert (COLS' : map col_of pre ++ map (close cl) (firstn c (map col_of todo))
                    ++ skipn c (map col_of todo) = map col_of its').
    { unfold its'. rewrite !map_app, firstn_map', skipn_map', !map_map. reflexivity. }
    assert (IWX : iwidths (map (ext nw g2 cl) cov) = iwidths cov).
    { unfold iwidths. rewrite map_map. clear. induction cov; simpl; auto. rewrite IHcov. auto. }
    assert (ENT : map entry its = map entry its').
    { unfold its'. rewrite SP, SPT, !map_app, map_map. reflexivity. }
    assert (MORE : (st + nr <? n s) = (k + c <? length (map col_of its))%nat).
    { rewrite map_length, LITS, IWT, SPT, iwidths_app, CW.
      destruct post as [|t post'] eqn:EP.
      - unfold iwidths. simpl. destruct (Z.ltb_spec (st + nr) (st + (nr + 0))), (Nat.ltb_spec (k + c) (length pre + (c + 0))); auto; lia.
      - apply Forall_cons_iff in FWO. destruct FWO as (F1 & F2). pose proof (iwidths_nonneg _ F2).
        change (iwidths (t :: post')) with (iw t + iwidths post').
        destruct (Z.ltb_spec (st + nr) (st + (nr + (iw t + iwidths post')))),
          (Nat.ltb_spec (k + c) (length pre + (c + length (t :: post')))); auto; simpl in *; lia. }
    exists its', (if (k + c <? length (map col_of its))%nat then (k + c)%nat else O),
           (if (k + c <? length (map col_of its))%nat then g2 else rows').
    constructor; cbn [cmap heap m n pend pidx cols rows filling cell].
    - exact ENT.
    - exact COLS'.
    - unfold its'. apply contig_app. split; auto. apply contig_app. fold st. rewrite Z.add_0_l, IWX, CW.
      split; [|exact CTO]. apply contig_map; auto.
    - reflexivity.
    - unfold n_cols. cbn [cols]. rewrite COLS'. fold (iwidths its'). unfold its'.
      rewrite !iwidths_app, IWX. rewrite NN, SP, SPT, !iwidths_app. reflexivity.
    - unfold rows'. pose proof (r_pos _ _ _ _ _ _ R). destruct (filling a); lia.
    - unfold fill_rep. cbn [filling rows cols pend pidx]. rewrite MORE.
      destruct (Nat.ltb_spec (k + c) (length (map col_of its))) as [L|L].
      + split; auto. split; auto. split.
        { rewrite COLS', map_length, LI'. rewrite map_length in L. lia. }
        split; [|lia]. rewrite COLS', firstn_map', FN'. fold (iwidths (pre ++ map (ext nw g2 cl) cov)).
        rewrite iwidths_app, IWX, CW. reflexivity.
      + auto.
    - destruct (Nat.ltb_spec (k + c) (length (map col_of its))) as [L|L]; [|constructor].
      rewrite FN'. apply Forall_app. auto.
    - destruct (Nat.ltb_spec (k + c) (length (map col_of its))) as [L|L].
      + rewrite SN'. exact OKO.
      + simpl. unfold its'. apply Forall_app. split; auto. apply Forall_app. split; auto.
        replace post with (@nil item); [constructor|]. rewrite map_length in L.
        destruct post; auto. simpl in LITS. lia.
    - apply share_extend.
      + rewrite <- SPT, <- SP. apply (r_share _ _ _ _ _ _ R).
      + intros t J. rewrite <- SPT, <- SP in J. auto.
      + intros t J. apply OP. auto.
      + intros Q. unfold cl in Q. apply Z.ltb_ge in Q. lia.
  Qed.
End Concat.
