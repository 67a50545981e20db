(** Representation of a matrix by a data store; concatenation, reading and writing elements. *)
From Coq Require Import ZArith List Bool Lia Arith.
From Verif Require Import Base ListFacts IntervalModel StoreModel StoreSpec.
Import ListNotations.
Local Open Scope Z_scope.

Lemma btype_eqb_eq : forall a b, btype_eqb a b = true <-> a = b.
Proof. intros [] []; simpl; split; congruence. Qed.

Section Rep.
  Variable V : Type.
  Implicit Types (h : list (node V)) (l : list (nat * Z)) (s : store V) (a : mat V).

  (** ** Heaps *)
  Lemma set_node_len : forall h i x, length (set_node h i x) = length h.
  Proof. induction h as [|y h IH]; intros [|i] x; simpl; auto. Qed.
  Lemma at_set_eq : forall h i x, (i < length h)%nat -> at_node (set_node h i x) i = Some x.
  Proof.
    induction h as [|y h IH]; intros [|i] x L; simpl in *; try lia; try reflexivity.
    all: apply IH; lia.
  Qed.
  Lemma at_set_ne : forall h i x j, j <> i -> at_node (set_node h i x) j = at_node h j.
  Proof.
    induction h as [|y h IH]; intros [|i] x [|j] N; simpl; try congruence; try reflexivity.
    all: apply IH; congruence.
  Qed.
  Lemma at_lt : forall h i x, at_node h i = Some x -> (i < length h)%nat.
  Proof. intros h i x E. apply nth_error_Some. unfold at_node in E. congruence. Qed.
  Lemma at_app_l : forall h g i x, at_node h i = Some x -> at_node (h ++ g) i = Some x.
  Proof.
    intros h g i x E. unfold at_node in *. rewrite nth_error_app1; auto. apply (at_lt h i x E).
  Qed.
  Lemma at_app_new : forall h x, at_node (h ++ [x]) (length h) = Some x.
  Proof. intros. unfold at_node. rewrite nth_error_app2, Nat.sub_diag; auto. Qed.

  (** ** Chains *)
  Fixpoint links h l (o e : Z) : Prop :=
    match l with
    | [] => o = e
    | (x, o') :: r =>
        o' = o /\ exists nd, at_node h x = Some nd /\ 0 < bm (nb nd)
                  /\ nnext nd = option_map fst (hd_error r) /\ links h r (o + bm (nb nd)) e
    end.
  Definition ids l : list nat := map fst l.
  Definition headid l : option nat := option_map fst (hd_error l).
  Definition lastid l : nat := last (ids l) O.

  Lemma links_le : forall h l o e, links h l o e -> o <= e.
  Proof.
    intros h. induction l as [|[x o'] l IH]; simpl; intros o e L; [lia|].
    destruct L as (_ & nd & _ & P & _ & L). apply IH in L. lia.
  Qed.
  Lemma links_lt : forall h l o e, links h l o e -> l <> [] -> o < e.
  Proof.
    intros h [|[x o'] l] o e L N; [congruence|]. simpl in L.
    destruct L as (_ & nd & _ & P & _ & L). apply links_le in L. lia.
  Qed.
  Lemma links_same : forall h h' l o e,
    (forall x, In x (ids l) -> at_node h' x = at_node h x) -> links h l o e -> links h' l o e.
  Proof.
    intros h h'. induction l as [|[x o'] l IH]; simpl; intros o e S L; auto.
    destruct L as (E & nd & A & P & X & L). split; auto. exists nd.
    rewrite S by auto. repeat split; auto.
  Qed.
  (** only heights and links matter *)
  Lemma links_same' : forall h h' l o e,
    (forall x nd, In x (ids l) -> at_node h x = Some nd ->
       exists nd', at_node h' x = Some nd' /\ bm (nb nd') = bm (nb nd) /\ nnext nd' = nnext nd) ->
    links h l o e -> links h' l o e.
  Proof.
    intros h h'. induction l as [|[x o'] l IH]; simpl; intros o e S L; auto.
    destruct L as (E & nd & A & P & X & L). split; auto.
    destruct (S x nd (or_introl eq_refl) A) as (nd' & A' & B' & N'). exists nd'.
    rewrite B', N'. repeat split; auto. 
  Qed.
  Lemma links_in : forall h l o e x ox, links h l o e -> In (x, ox) l ->
    exists nd, at_node h x = Some nd /\ 0 < bm (nb nd) /\ o <= ox /\ ox + bm (nb nd) <= e.
  Proof.
    intros h. induction l as [|[y oy] l IH]; simpl; intros o e x ox L I; [tauto|].
    destruct L as (E & nd & A & P & X & L). destruct I as [I|I].
    - inversion I; subst. exists nd. apply links_le in L. repeat split; auto; lia.
    - destruct (IH _ _ _ _ L I) as (nd' & A' & P' & G & Q). exists nd'. repeat split; auto; lia.
  Qed.
  Lemma links_unique : forall h l o e x ox y oy i nx ny, links h l o e ->
    In (x, ox) l -> In (y, oy) l -> at_node h x = Some nx -> at_node h y = Some ny ->
    ox <= i < ox + bm (nb nx) -> oy <= i < oy + bm (nb ny) -> (x, ox) = (y, oy).
  Proof.
    intros h. induction l as [|[z oz] l IH]; simpl; intros o e x ox y oy i nx ny L I J AX AY RX RY;
      [tauto|].
    destruct L as (E & nd & A & P & X & L). subst oz. destruct I as [I|I], J as [J|J].
    - congruence.
    - inversion I; subst. destruct (links_in _ _ _ _ _ _ L J) as (n2 & A2 & P2 & G & Q).
      rewrite AX in A; inversion A; subst. lia.
    - inversion J; subst. destruct (links_in _ _ _ _ _ _ L I) as (n2 & A2 & P2 & G & Q).
      rewrite AY in A; inversion A; subst. lia.
    - eapply IH; eauto.
  Qed.
  Lemma links_row : forall h l o e i, links h l o e -> o <= i < e ->
    exists x ox nd, In (x, ox) l /\ at_node h x = Some nd /\ ox <= i < ox + bm (nb nd).
  Proof.
    intros h. induction l as [|[z oz] l IH]; simpl; intros o e i L R; [lia|].
    destruct L as (E & nd & A & P & X & L). subst oz.
    destruct (Z_lt_ge_dec i (o + bm (nb nd))).
    - exists z, o, nd. repeat split; auto; lia.
    - destruct (IH _ _ i L ltac:(lia)) as (x & ox & n2 & I & A2 & Q). exists x, ox, n2. auto.
  Qed.

  Lemma ids_bound : forall h l o e, links h l o e -> forall x, In x (ids l) -> (x < length h)%nat.
  Proof.
    intros h l o e L x I. unfold ids in I. apply in_map_iff in I. destruct I as ((y & oy) & E & I).
    simpl in E; subst. destruct (links_in _ _ _ _ _ _ L I) as (nd & A & _). eapply at_lt; eauto.
  Qed.
  Lemma chain_short : forall h l o e, links h l o e -> NoDup (ids l) -> (length l <= length h)%nat.
  Proof.
    intros h l o e L N. rewrite <- (map_length fst l), <- (seq_length (length h) 0).
    apply NoDup_incl_length; auto. intros x I. apply in_seq.
    pose proof (ids_bound _ _ _ _ L x I). lia.
  Qed.

  Lemma last_of_ok : forall l fuel h b o e, links h l o e -> headid l = Some b ->
    (length l <= fuel)%nat -> last_of fuel h b = Some (lastid l).
  Proof.
    induction l as [|[x ox] l IH]; intros fuel h b o e L H F; [discriminate|].
    unfold headid in H; simpl in H. inversion H; subst b. simpl in L.
    destruct L as (E & nd & A & P & X & L). simpl in F. destruct fuel as [|f]; [lia|].
    simpl. rewrite A, X. destruct l as [|[y oy] l]; [reflexivity|].
    cbn [option_map hd_error fst]. rewrite (IH f h y _ _ L eq_refl) by lia. reflexivity.
  Qed.
  Lemma last_split : forall l, l <> [] -> exists l' o, l = l' ++ [(lastid l, o)].
  Proof.
    intros l N. destruct (exists_last N) as (l' & (x & o) & E). exists l', o. subst.
    unfold lastid, ids. rewrite map_app. simpl. rewrite last_last. reflexivity.
  Qed.
  Lemma lastid_in : forall l, l <> [] -> In (lastid l) (ids l).
  Proof.
    intros l N. destruct (last_split l N) as (l' & o & E). rewrite E at 2.
    unfold ids. rewrite map_app. apply in_or_app. right. simpl. auto.
  Qed.
  Lemma lastid_snoc : forall l p, lastid (l ++ [p]) = fst p.
  Proof. intros. unfold lastid, ids. rewrite map_app. simpl. apply last_last. Qed.

  (** the last node gets a successor *)
  Lemma links_extend : forall h h' nw nx l o e, links h l o e -> l <> [] -> NoDup (ids l) ->
    (forall x nd, In x (ids l) -> at_node h x = Some nd ->
       at_node h' x = Some (if Nat.eqb x (lastid l) then with_next nd (Some nw) else nd)) ->
    at_node h' nw = Some nx -> nnext nx = None -> 0 < bm (nb nx) ->
    links h' (l ++ [(nw, e)]) o (e + bm (nb nx)).
  Proof.
    intros h h' nw nx. induction l as [|[x ox] l IH]; intros o e L N D S A X P; [congruence|].
    simpl in L. destruct L as (E & nd & A1 & P1 & X1 & L). subst ox.
    assert (SX := S x nd (or_introl eq_refl) A1).
    destruct l as [|[y oy] l].
    - simpl in L. subst e. unfold lastid in SX. simpl in SX. rewrite Nat.eqb_refl in SX.
      simpl. split; auto. exists (with_next nd (Some nw)). simpl. repeat split; auto.
      exists nx. repeat split; auto.
    - inversion D as [|? ? D1 D2]; subst.
      assert (LE : lastid ((x, o) :: (y, oy) :: l) = lastid ((y, oy) :: l)) by reflexivity.
      assert (NE : Nat.eqb x (lastid ((x, o) :: (y, oy) :: l)) = false).
      { apply Nat.eqb_neq. rewrite LE. intro Q. apply D1. rewrite Q. apply lastid_in. discriminate. }
      rewrite NE in SX. change (((x, o) :: (y, oy) :: l) ++ [(nw, e)])
        with ((x, o) :: (((y, oy) :: l) ++ [(nw, e)])).
      cbn [links]. split; auto. exists nd. split; [exact SX|]. split; [exact P1|].
      split; [exact X1|]. apply IH; auto; [discriminate|].
      intros z nz I B. rewrite <- LE. apply S; auto. right. auto.
  Qed.

  Lemma row_walk_ok : forall l fuel h b o e i, links h l o e -> headid l = Some b -> o <= i < e ->
    (length l <= fuel)%nat ->
    exists x ox nd, row_walk fuel h b i o = Some (x, i - ox) /\ In (x, ox) l
                    /\ at_node h x = Some nd /\ ox <= i < ox + bm (nb nd).
  Proof.
    induction l as [|[x ox] l IH]; intros fuel h b o e i L H R F; [discriminate|].
    unfold headid in H; simpl in H. inversion H; subst b. simpl in L.
    destruct L as (E & nd & A & P & X & L). subst ox. simpl in F. destruct fuel as [|f]; [lia|].
    simpl. rewrite A. destruct (Z.leb_spec (bm (nb nd) + o) i).
    - destruct l as [|[y oy] l].
      + simpl in L. lia.
      + rewrite X. cbn [option_map hd_error fst].
        destruct (IH f h y _ _ i L eq_refl ltac:(lia) ltac:(simpl in *; lia))
          as (x' & ox' & nd' & W & I & A' & R'). exists x', ox', nd'. auto.
    - exists x, o, nd. repeat split; auto; lia.
  Qed.

  (** ** Column blocks *)
  Record item := mkItem { ilo : Z; iw : Z; ity : btype; icl : bool; ib : nat; ich : list (nat * Z) }.
  Implicit Types (it : item) (its : list item).

  Definition node_rep h (cf : Z -> Z -> V) (lo w : Z) (ty : btype) (p : nat * Z) : Prop :=
    exists nd, at_node h (fst p) = Some nd /\ bty (nb nd) = ty /\ noff nd <= lo
      /\ lo + w <= noff nd + bn (nb nd)
      /\ forall r j, 0 <= r < bm (nb nd) -> lo <= j < lo + w ->
           bdat (nb nd) (cell_pos (nb nd) r (j - noff nd)) = cf (snd p + r) j.
  Definition item_ok h cf (ht : Z) it : Prop :=
    0 < iw it /\ headid (ich it) = Some (ib it) /\ links h (ich it) 0 ht
    /\ Forall (node_rep h cf (ilo it) (iw it) (ity it)) (ich it).
  Fixpoint contig (lo : Z) its : Prop :=
    match its with [] => True | it :: r => ilo it = lo /\ contig (lo + iw it) r end.
  Definition col_of it : colblock := mkCol (iw it) (ity it) (icl it).
  Definition entry it : interval * nat := (mkI (ilo it) (ilo it + iw it - 1), ib it).
  Definition iwidths its : Z := widths (map col_of its).
  Definition ownids it : list nat := if icl it then removelast (ids (ich it)) else ids (ich it).
  Record sharing its : Prop := {
    sh_own : NoDup (flat_map ownids its);
    sh_tail : forall it it', In it its -> In it' its -> icl it = true ->
                ~ In (lastid (ich it)) (ownids it');
    sh_same : forall p q, In p (flat_map ich its) -> In q (flat_map ich its) -> fst p = fst q -> p = q }.

  Definition fill_rep s a (k : nat) (g2 : Z) : Prop :=
    match filling a with
    | None => pend s = false /\ k = O /\ g2 = rows a
    | Some (k', hg) => pend s = true /\ k = k' /\ (0 < k' < length (cols a))%nat
                       /\ pidx s = widths (firstn k' (cols a)) /\ g2 = rows a - hg /\ 0 < hg
    end.
  Record rep_with s a its (k : nat) (g2 : Z) : Prop := {
    r_cmap : cmap s = map entry its;
    r_cols : cols a = map col_of its;
    r_cont : contig 0 its;
    r_m : m s = rows a; r_n : n s = n_cols a; r_pos : 0 <= rows a;
    r_fill : fill_rep s a k g2;
    r_done : Forall (item_ok (heap s) (cell a) (rows a)) (firstn k its);
    r_todo : Forall (item_ok (heap s) (cell a) g2) (skipn k its);
    r_share : sharing its }.
  Definition rep s a : Prop := exists its k g2, rep_with s a its k g2.

  Lemma iwidths_app : forall x y, iwidths (x ++ y) = iwidths x + iwidths y.
  Proof.
    unfold iwidths. induction x as [|c x IH]; intros y; simpl; [lia|]. rewrite IH. lia.
  Qed.
  Lemma contig_app : forall x y lo, contig lo (x ++ y) <-> contig lo x /\ contig (lo + iwidths x) y.
  Proof.
    unfold iwidths. induction x as [|c x IH]; intros y lo; simpl.
    - rewrite Z.add_0_r. tauto.
    - rewrite IH. rewrite Z.add_assoc. tauto.
  Qed.
  Lemma iwidths_nonneg : forall its, Forall (fun it => 0 < iw it) its -> 0 <= iwidths its.
  Proof. unfold iwidths. induction 1; simpl; lia. Qed.

  Lemma find_entry_out : forall its lo j, contig lo its -> Forall (fun it => 0 < iw it) its ->
    lo + iwidths its <= j -> find_col j (map entry its) = None.
  Proof.
    induction its as [|it its IH]; intros lo j C F R; simpl; auto.
    inversion F as [|? ? F1 F2]; subst. simpl in C. destruct C as (C1 & C2).
    unfold iwidths in R; simpl in R. fold (iwidths its) in R.
    assert (0 <= iwidths its) by (apply iwidths_nonneg; auto).
    unfold contains; simpl. destruct (Z.leb_spec j (ilo it + iw it - 1)); [lia|].
    rewrite andb_false_r. apply (IH (lo + iw it)); auto. lia.
  Qed.
  Lemma find_entry_low : forall its lo j, contig lo its -> Forall (fun it => 0 < iw it) its ->
    j < lo -> find_col j (map entry its) = None.
  Proof.
    induction its as [|it its IH]; intros lo j C F R; simpl; auto.
    inversion F as [|? ? F1 F2]; subst. simpl in C. destruct C as (C1 & C2).
    unfold contains; simpl. destruct (Z.leb_spec (ilo it) j); [lia|]. simpl.
    apply (IH (lo + iw it)); auto. lia.
  Qed.
  Lemma find_entry : forall x it y lo j, contig lo (x ++ it :: y) ->
    Forall (fun it => 0 < iw it) (x ++ it :: y) -> ilo it <= j < ilo it + iw it ->
    find_col j (map entry (x ++ it :: y)) = Some (entry it).
  Proof.
    induction x as [|c x IH]; intros it y lo j C F R; simpl.
    - unfold contains; simpl. destruct (Z.leb_spec (ilo it) j); [|lia].
      destruct (Z.leb_spec j (ilo it + iw it - 1)); [|lia]. reflexivity.
    - inversion F as [|? ? F1 F2]; subst. simpl in C. destruct C as (C1 & C2).
      assert (G : lo + iw c <= ilo it).
      { apply contig_app in C2. destruct C2 as (_ & C2). simpl in C2. destruct C2 as (C2 & _).
        apply Forall_app in F2. destruct F2 as (F2 & _). pose proof (iwidths_nonneg _ F2). lia. }
      unfold contains; simpl. destruct (Z.leb_spec j (ilo c + iw c - 1)); [lia|].
      rewrite andb_false_r. eapply IH; eauto.
  Qed.
  Lemma item_at : forall its lo j, contig lo its -> Forall (fun it => 0 < iw it) its ->
    lo <= j < lo + iwidths its ->
    exists x it y, its = x ++ it :: y /\ ilo it <= j < ilo it + iw it.
  Proof.
    induction its as [|it its IH]; intros lo j C F R.
    - unfold iwidths in R; simpl in R. lia.
    - inversion F as [|? ? F1 F2]; subst. simpl in C. destruct C as (C1 & C2).
      unfold iwidths in R; simpl in R. fold (iwidths its) in R.
      destruct (Z_lt_ge_dec j (lo + iw it)).
      + exists [], it, its. split; auto. lia.
      + destruct (IH (lo + iw it) j C2 F2 ltac:(lia)) as (x & t & y & E & Q).
        exists (it :: x), t, y. rewrite E. auto.
  Qed.
  Lemma type_in_item : forall x it y lo j, contig lo (x ++ it :: y) ->
    Forall (fun it => 0 < iw it) (x ++ it :: y) -> ilo it <= j < ilo it + iw it ->
    type_in (map col_of (x ++ it :: y)) (j - lo) = Some (ity it).
  Proof.
    induction x as [|c x IH]; intros it y lo j C F R; simpl in *.
    - destruct C as (C1 & C2). destruct (Z.leb_spec 0 (j - lo)); [|lia].
      destruct (Z.ltb_spec (j - lo) (iw it)); [|lia]. reflexivity.
    - inversion F as [|? ? F1 F2]; subst. destruct C as (C1 & C2).
      assert (G : lo + iw c <= ilo it).
      { apply contig_app in C2. destruct C2 as (_ & C2). simpl in C2. destruct C2 as (C2 & _).
        apply Forall_app in F2. destruct F2 as (F2 & _). pose proof (iwidths_nonneg _ F2). lia. }
      destruct (Z.ltb_spec (j - lo) (iw c)); [lia|]. rewrite andb_false_r.
      replace (j - lo - iw c) with (j - (lo + iw c)) by lia. eapply IH; eauto.
  Qed.
  Lemma type_in_out : forall its j, Forall (fun it => 0 < iw it) its ->
    (j < 0 \/ iwidths its <= j) -> type_in (map col_of its) j = None.
  Proof.
    induction its as [|it its IH]; intros j F R; simpl; auto.
    inversion F as [|? ? F1 F2]; subst. unfold iwidths in R; simpl in R. fold (iwidths its) in R.
    pose proof (iwidths_nonneg _ F2).
    destruct (Z.leb_spec 0 j); simpl; [|apply IH; auto; lia].
    destruct (Z.ltb_spec j (iw it)); [lia|]. apply IH; auto; lia.
  Qed.

  (** every column block of a represented matrix, with its height *)
  Definition height its (k : nat) (g1 g2 : Z) it (ht : Z) : Prop :=
    (In it (firstn k its) /\ ht = g1) \/ (In it (skipn k its) /\ ht = g2).
  Lemma rep_item : forall s a its k g2 it, rep_with s a its k g2 -> In it its ->
    exists ht, item_ok (heap s) (cell a) ht it /\ ht <= rows a
               /\ (filling a = None -> ht = rows a).
  Proof.
    intros s a its k g2 it R I. rewrite <- (firstn_skipn k its) in I. apply in_app_or in I.
    destruct I as [I|I].
    - exists (rows a). split; [|split; auto; lia]. pose proof (r_done _ _ _ _ _ R) as D.
      rewrite Forall_forall in D. auto.
    - pose proof (r_todo _ _ _ _ _ R) as D. rewrite Forall_forall in D. exists g2.
      pose proof (r_fill _ _ _ _ _ R) as W. unfold fill_rep in W. split; auto.
      destruct (filling a) as [[k' hg]|].
      + split; [lia|discriminate].
      + split; [lia|tauto].
  Qed.
  Lemma rep_widths : forall s a its k g2, rep_with s a its k g2 -> Forall (fun it => 0 < iw it) its.
  Proof.
    intros s a its k g2 R. apply Forall_forall. intros it I.
    destruct (rep_item _ _ _ _ _ _ R I) as (ht & (W & _) & _). auto.
  Qed.
  Lemma rep_ncols : forall s a its k g2, rep_with s a its k g2 -> n s = iwidths its.
  Proof.
    intros s a its k g2 R. rewrite (r_n _ _ _ _ _ R). unfold n_cols, iwidths.
    rewrite (r_cols _ _ _ _ _ R). auto.
  Qed.
  Lemma nodup_flat : forall (A B : Type) (f : A -> list B) (l : list A) x, NoDup (flat_map f l) -> In x l ->
    NoDup (f x).
  Proof.
    intros A B f. induction l as [|y l IH]; simpl; intros x N I; [tauto|].
    destruct I as [I|I].
    - subst. eapply nodup_app_l; eauto.
    - apply IH; auto. eapply nodup_app_r; eauto.
  Qed.
  Lemma ownids_in : forall it x, In x (ownids it) -> In x (ids (ich it)).
  Proof.
    intros it x I. unfold ownids in I. destruct (icl it); auto.
    destruct (ids (ich it)) as [|y r] eqn:E; [simpl in I; tauto|].
    rewrite (app_removelast_last (l := y :: r) O); [|discriminate]. apply in_or_app. auto.
  Qed.
  Lemma chain_nodup : forall its it, sharing its -> In it its -> ich it <> [] ->
    NoDup (ids (ich it)).
  Proof.
    intros its it S I N. pose proof (nodup_flat _ _ _ _ _ (sh_own _ S) I) as D.
    unfold ownids in D. destruct (icl it) eqn:C; auto.
    destruct (last_split _ N) as (l & o & E).
    assert (E2 : ids (ich it) = ids l ++ [lastid (ich it)]).
    { rewrite E at 1. unfold ids. rewrite map_app. reflexivity. }
    pose proof (sh_tail _ S it it I I C) as T. unfold ownids in T. rewrite C, E2 in T.
    rewrite E2 in *. rewrite removelast_last in *. apply nodup_app; auto.
    - constructor; [tauto|constructor].
    - intros x J K. simpl in K. destruct K as [K|[]]. subst. auto.
  Qed.
  Lemma headid_ne : forall l b, headid l = Some b -> l <> [].
  Proof. intros [|p l] b E; [discriminate|congruence]. Qed.

  Lemma cell_pos_range : forall (b : blk V) r c, 0 <= r < bm b -> 0 <= c < bn b ->
    0 <= cell_pos b r c < bm b * bn b.
  Proof. intros b r c R C. unfold cell_pos. destruct (brow b); nia. Qed.
  Lemma cell_pos_inj : forall (b : blk V) r c r' c', 0 <= r < bm b -> 0 <= c < bn b ->
    0 <= r' < bm b -> 0 <= c' < bn b -> cell_pos b r c = cell_pos b r' c' -> r = r' /\ c = c'.
  Proof.
    intros b r c r' c' R C R' C' E. unfold cell_pos in E. destruct (brow b).
    - assert (r = r') by nia. split; [auto|nia].
    - assert (c = c') by nia. split; [nia|auto].
  Qed.
  Lemma elem_pos_cell : forall (b : blk V) r c, 0 <= c < bn b -> elem_pos b r c = Some (cell_pos b r c).
  Proof.
    intros b r c C. unfold elem_pos, get_col, cell_pos.
    destruct (Z.ltb_spec c 0); [lia|]. destruct (Z.leb_spec (bn b) c); [lia|]. simpl.
    destruct (brow b); f_equal; lia.
  Qed.

  (** ** Locating an element *)
  Definition loc_result s a (ty : btype) (i j : Z) : Prop :=
    (0 <= i < rows a /\ type_of a j = Some ty /\
     exists its x ox nd it, rep_with s a its O (rows a) /\ In it its /\ In (x, ox) (ich it)
       /\ at_node (heap s) x = Some nd /\ ox <= i < ox + bm (nb nd)
       /\ ilo it <= j < ilo it + iw it /\ noff nd <= j < noff nd + bn (nb nd)
       /\ locate ty i j s = Some (inr (x, cell_pos (nb nd) (i - ox) (j - noff nd)))
       /\ bdat (nb nd) (cell_pos (nb nd) (i - ox) (j - noff nd)) = cell a i j)
    \/ ((~ (0 <= i < rows a) \/ type_of a j <> Some ty) /\ locate ty i j s = Some (inl st_invalid_input)).

  Lemma locate_ok : forall s a ty i j, rep s a -> filling a = None -> loc_result s a ty i j.
  Proof.
    intros s a ty i j (its & k & g2 & R) FN. unfold loc_result, locate, type_of.
    pose proof (r_fill _ _ _ _ _ R) as W. unfold fill_rep in W. rewrite FN in W.
    destruct W as (W1 & W2 & W3). subst k g2.
    pose proof (rep_widths _ _ _ _ _ R) as FW. pose proof (r_cont _ _ _ _ _ R) as C.
    rewrite (r_m _ _ _ _ _ R), (rep_ncols _ _ _ _ _ R), (r_cols _ _ _ _ _ R).
    destruct (Z.ltb_spec i 0); [right; split; auto; left; lia|].
    destruct (Z.leb_spec (rows a) i); [right; split; auto; left; lia|]. cbn [orb].
    destruct (Z.ltb_spec j 0).
    { right. split; auto. right. rewrite type_in_out; auto; congruence. }
    destruct (Z.leb_spec (iwidths its) j).
    { right. split; auto. right. rewrite type_in_out; auto; congruence. }
    cbn [orb]. destruct (item_at its 0 j C FW ltac:(lia)) as (x & it & y & E & RJ).
    assert (I : In it its) by (rewrite E; apply in_or_app; right; left; auto).
    destruct (rep_item _ _ _ _ _ _ R I) as (ht & (IW & HD & LK & NR) & _ & HT). specialize (HT FN).
    subst ht.
    assert (TY : type_in (map col_of its) j = Some (ity it)).
    { rewrite E in C, FW |- *. rewrite <- (Z.sub_0_r j). apply (type_in_item x it y 0 j C FW RJ). }
    assert (FE : find_col j (map entry its) = Some (entry it)).
    { rewrite E in C, FW |- *. apply (find_entry x it y 0 j); auto. }
    rewrite TY, (r_cmap _ _ _ _ _ R), FE. unfold entry at 1 2. cbv beta iota.
    pose proof (headid_ne _ _ HD) as NE.
    destruct (ich it) as [|[x0 o0] r0] eqn:EC; [congruence|]. rewrite <- EC in *.
    assert (NRa := NR). rewrite Forall_forall in NR.
    assert (HI : In (x0, o0) (ich it)) by (rewrite EC; left; auto).
    assert (x0 = ib it) by (rewrite EC in HD; unfold headid in HD; simpl in HD; congruence). subst x0.
    destruct (NR _ HI) as (nd0 & A0 & T0 & _). simpl in A0. rewrite A0, T0.
    destruct (btype_eqb (ity it) ty) eqn:EB; simpl negb; cbv iota.
    2:{ right. split; auto. right. intro Q. injection Q as Q1. rewrite Q1 in EB.
        rewrite (proj2 (btype_eqb_eq ty ty) eq_refl) in EB. discriminate EB. }
    apply btype_eqb_eq in EB. left. split; [lia|]. split; [congruence|].
    assert (ND := chain_nodup _ _ (r_share _ _ _ _ _ R) I NE).
    destruct (row_walk_ok (ich it) (S (length (heap s)) + Z.to_nat i) (heap s) (ib it) 0 (rows a) i
                LK HD ltac:(lia) ltac:(pose proof (chain_short _ _ _ _ LK ND); lia))
      as (z & oz & nd & W & IZ & AZ & RZ).
    exists its, z, oz, nd, it. rewrite W, AZ. destruct (NR _ IZ) as (nd' & A' & T' & O1 & O2 & DT).
    simpl in A'. rewrite AZ in A'. inversion A'; subst nd'. clear A'.
    rewrite elem_pos_cell by lia.
    split; auto. split; auto. split; auto. split; auto. split; auto. split; auto. split; [lia|].
    split; auto. rewrite DT by lia. simpl. f_equal. lia.
  Qed.

  Lemma get_element_ok : forall s a ty i j, rep s a -> filling a = None ->
    get_element ty i j s = Some (spec_get a ty i j).
  Proof.
    intros s a ty i j R FN. unfold get_element, spec_get.
    destruct (locate_ok s a ty i j R FN)
      as [(RI & TY & its & x & ox & nd & it & _ & _ & _ & A & RO & _ & RN & L & D)|(N & L)]; rewrite L.
    - rewrite A. destruct (Z.leb_spec 0 i); [|lia]. destruct (Z.ltb_spec i (rows a)); [|lia].
      simpl. rewrite TY. replace (btype_eqb ty ty) with true by (destruct ty; auto).
      unfold read_at. pose proof (cell_pos_range (nb nd) (i - ox) (j - noff nd) ltac:(lia) ltac:(lia)).
      destruct (Z.leb_spec 0 (cell_pos (nb nd) (i - ox) (j - noff nd))); [|lia].
      destruct (Z.ltb_spec (cell_pos (nb nd) (i - ox) (j - noff nd)) (bm (nb nd) * bn (nb nd))); [|lia].
      simpl. rewrite D. reflexivity.
    - destruct (Z.leb_spec 0 i); simpl; auto. destruct (Z.ltb_spec i (rows a)); simpl; auto.
      destruct (type_of a j) as [t|] eqn:T; auto. destruct (btype_eqb t ty) eqn:B; auto.
      apply btype_eqb_eq in B. subst. exfalso. destruct N as [N|N]; [lia|congruence].
  Qed.

  Lemma set_element_ok : forall s a ty i j v, rep s a ->
    match set_cell ty i j v a with
    | Irregular => True
    | Refuse st => set_element ty i j v s = Some (st, s)
    | Accept a' => exists s', set_element ty i j v s = Some (st_success, s') /\ rep s' a'
    end.
  Proof.
    intros s a ty i j v R. unfold set_cell, set_element.
    destruct (filling a) as [f|] eqn:FN; [exact I|].
    destruct (locate_ok s a ty i j R FN)
      as [(RI & TY & its & x & ox & nd & it & RW & II & IX & A & RO & RJ & RN & L & D)|(N & L)];
      rewrite L.
    - destruct (Z.leb_spec 0 i); [|lia]. destruct (Z.ltb_spec i (rows a)); [|lia].
      simpl. rewrite TY. replace (btype_eqb ty ty) with true by (destruct ty; auto). rewrite A.
      set (p := cell_pos (nb nd) (i - ox) (j - noff nd)).
      assert (PR : 0 <= p < bm (nb nd) * bn (nb nd)) by (apply cell_pos_range; lia).
      unfold read_at. destruct (Z.leb_spec 0 p); [|lia].
      destruct (Z.ltb_spec p (bm (nb nd) * bn (nb nd))); [|lia]. simpl.
      eexists; split; [reflexivity|]. exists its, O, (rows a).
      set (nd' := mkNode (upd_blk (nb nd) p v) (noff nd) (nnext nd) (nleft nd)).
      assert (LX : (x < length (heap s))%nat) by (eapply at_lt; eauto).
      assert (OK : forall t, In t its ->
        item_ok (set_node (heap s) x nd')
          (fun i' j' => if (i' =? i) && (j' =? j) then v else cell a i' j') (rows a) t).
      { intros t IT. destruct (rep_item _ _ _ _ _ _ RW IT) as (ht & (IW & HD & LK & NR) & _ & HT).
        specialize (HT FN). subst ht. split; auto. split; auto. split.
        - eapply links_same'; [|exact LK]. intros y ny IY AY. destruct (Nat.eq_dec y x).
          + subst. rewrite at_set_eq by auto. exists nd'. rewrite AY in A. inversion A; subst. auto.
          + rewrite at_set_ne by auto. exists ny. auto.
        - rewrite Forall_forall in *. intros (y & oy) IY. destruct (NR _ IY) as (ny & AY & TY' & O1 & O2 & DT).
          simpl in AY. unfold node_rep. cbn [fst snd] in *.
          assert (SM : fst (y, oy) = fst (x, ox) -> (y, oy) = (x, ox)).
          { apply (sh_same _ (r_share _ _ _ _ _ RW)); apply in_flat_map; [exists t|exists it]; auto. }
          destruct (Nat.eq_dec y x).
          + subst y. specialize (SM eq_refl). inversion SM; subst oy. clear SM.
            rewrite A in AY. inversion AY; subst ny. clear AY.
            rewrite at_set_eq by auto. exists nd'. simpl. split; auto. split; auto. split; auto.
            split; auto. intros r j' RR RJ'.
            change (cell_pos (upd_blk (nb nd) p v) r (j' - noff nd))
              with (cell_pos (nb nd) r (j' - noff nd)).
            destruct (Z.eqb_spec (cell_pos (nb nd) r (j' - noff nd)) p) as [Q|Q].
            * unfold p in Q. apply cell_pos_inj in Q; try lia. destruct Q.
              destruct (Z.eqb_spec (ox + r) i); [|lia]. destruct (Z.eqb_spec j' j); [|lia]. auto.
            * rewrite DT by auto. destruct (Z.eqb_spec (ox + r) i); simpl; auto.
              destruct (Z.eqb_spec j' j); auto. exfalso. apply Q. unfold p. f_equal; lia.
          + rewrite at_set_ne by auto. exists ny. split; auto. split; auto. split; auto. split; auto.
            intros r j' RR RJ'. rewrite DT by auto.
            destruct (Z.eqb_spec (oy + r) i); simpl; auto. destruct (Z.eqb_spec j' j); auto.
            exfalso. subst j'.
            assert (t = it).
            { destruct (in_split _ _ IT) as (u & w & E).
              assert (FW := rep_widths _ _ _ _ _ RW). assert (C := r_cont _ _ _ _ _ RW).
              destruct (in_split _ _ II) as (u' & w' & E').
              pose proof (find_entry u t w 0 j) as F1. pose proof (find_entry u' it w' 0 j) as F2.
              rewrite <- E in F1. rewrite <- E' in F2. specialize (F1 C FW RJ'). specialize (F2 C FW RJ).
              rewrite F1 in F2. unfold entry in F2. inversion F2 as [[Q1 Q2 Q3]].
              assert (HX : ich it <> []) by (intro Q; rewrite Q in IX; destruct IX).
              clear - E E' Q1 Q2 Q3 C FW RJ RJ'. subst its. 
              assert (J : In it (u ++ t :: w)) by (rewrite E'; apply in_or_app; right; left; auto).
              apply in_app_or in J. destruct J as [J|[J|J]]; auto; exfalso.
              - apply in_split in J. destruct J as (u1 & u2 & J). subst u.
                rewrite <- app_assoc in C, FW. simpl in C, FW. apply contig_app in C.
                destruct C as (_ & C). simpl in C. destruct C as (C0 & C). apply contig_app in C.
                destruct C as (_ & C). simpl in C. destruct C as (C & _).
                apply Forall_app in FW. destruct FW as (_ & FW). inversion FW; subst.
                apply Forall_app in H2. destruct H2 as (FW2 & _). pose proof (iwidths_nonneg _ FW2). lia.
              - apply in_split in J. destruct J as (u1 & u2 & J). subst w.
                apply contig_app in C. destruct C as (_ & C). simpl in C. destruct C as (C0 & C).
                apply contig_app in C. destruct C as (_ & C). simpl in C. destruct C as (C & _).
                apply Forall_app in FW. destruct FW as (_ & FW). inversion FW; subst.
                apply Forall_app in H2. destruct H2 as (FW2 & _). pose proof (iwidths_nonneg _ FW2). lia. }
            subst t. assert (Q : (x, ox) = (y, oy)).
            { apply (links_unique (heap s) (ich it) 0 (rows a) x ox y oy i nd ny); auto; lia. }
            congruence. }
      constructor; simpl.
      + apply (r_cmap _ _ _ _ _ RW).
      + apply (r_cols _ _ _ _ _ RW).
      + apply (r_cont _ _ _ _ _ RW).
      + apply (r_m _ _ _ _ _ RW).
      + apply (r_n _ _ _ _ _ RW).
      + apply (r_pos _ _ _ _ _ RW).
      + pose proof (r_fill _ _ _ _ _ RW) as W. unfold fill_rep in *. rewrite FN in W. exact W.
      + constructor.
      + apply Forall_forall. exact OK.
      + apply (r_share _ _ _ _ _ RW).
    - destruct (Z.leb_spec 0 i); simpl; auto. destruct (Z.ltb_spec i (rows a)); simpl; auto.
      destruct (type_of a j) as [t|] eqn:T; auto. destruct (btype_eqb t ty) eqn:B; auto.
      apply btype_eqb_eq in B. subst. exfalso. destruct N as [N|N]; [lia|congruence].
  Qed.
End Rep.
Arguments links {V}. Arguments node_rep {V}. Arguments item_ok {V}. Arguments fill_rep {V}.
Arguments rep_with {V}. Arguments rep {V}.
