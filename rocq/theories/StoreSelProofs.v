(** Selections: histories, missing rows, extraction. *)
From Coq Require Import ZArith List Bool Lia Arith Sorted.
From Verif Require Import Base ListFacts IntervalModel IntervalSpec IntervalProofs StoreModel StoreSpec StoreSelSpec
  StoreProofs StoreConcatProofs StoreReadProofs.
Import ListNotations.
Local Open Scope Z_scope.

(** ** Sorted lists *)
Lemma sorted_unique : forall l1 l2, StronglySorted Z.lt l1 -> StronglySorted Z.lt l2 ->
  (forall x, In x l1 <-> In x l2) -> l1 = l2.
Proof.
  induction l1 as [|x l1 IH]; intros [|y l2] S1 S2 H; auto.
  - exfalso. apply (H y). left. auto.
  - exfalso. apply (H x). left. auto.
  - apply StronglySorted_inv in S1. apply StronglySorted_inv in S2.
    destruct S1 as (S1 & F1), S2 as (S2 & F2). rewrite Forall_forall in F1, F2.
    assert (x = y).
    { destruct (proj1 (H x) (or_introl eq_refl)) as [Q|Q]; auto.
      destruct (proj2 (H y) (or_introl eq_refl)) as [Q2|Q2]; auto.
      apply F2 in Q. apply F1 in Q2. lia. }
    subst y. f_equal. apply IH; auto. intros z. split; intros Q.
    + destruct (proj1 (H z) (or_intror Q)) as [E|E]; auto. subst z. apply F1 in Q. lia.
    + destruct (proj2 (H z) (or_intror Q)) as [E|E]; auto. subst z. apply F2 in Q. lia.
Qed.
Lemma irange_sorted : forall k lo, StronglySorted Z.lt (irange lo k).
Proof.
  induction k as [|k IH]; intros lo; simpl; constructor; auto.
  apply Forall_forall. intros x I. apply in_irange in I. lia.
Qed.
Lemma upto_irange : forall z, upto z = irange 0 (Z.to_nat z).
Proof.
  intros z. unfold upto. generalize (Z.to_nat z) as k.
  assert (H : forall k s, map Z.of_nat (seq s k) = irange (Z.of_nat s) k).
  { induction k as [|k IH]; intros s; simpl; auto. f_equal. rewrite IH. f_equal. lia. }
  intros k. apply (H k O).
Qed.
Lemma in_upto : forall z x, In x (upto z) <-> 0 <= x < z.
Proof. intros. rewrite upto_irange, in_irange. lia. Qed.
Lemma filter_sorted : forall (f : Z -> bool) l, StronglySorted Z.lt l -> StronglySorted Z.lt (filter f l).
Proof.
  intros f. induction l as [|x l IH]; intros S; simpl; [constructor|].
  apply StronglySorted_inv in S. destruct S as (S & F).
  destruct (f x); [|apply IH; auto]. constructor; [apply IH; auto|].
  rewrite Forall_forall in *. intros y I. apply filter_In in I. apply F. tauto.
Qed.
Lemma sorted_app : forall l1 l2, StronglySorted Z.lt l1 -> StronglySorted Z.lt l2 ->
  (forall x y, In x l1 -> In y l2 -> x < y) -> StronglySorted Z.lt (l1 ++ l2).
Proof.
  induction l1 as [|x l1 IH]; intros l2 S1 S2 H; simpl; auto.
  apply StronglySorted_inv in S1. destruct S1 as (S1 & F1). constructor.
  - apply IH; auto. intros y z I J. apply H; auto. right. auto.
  - apply Forall_app. split; auto. apply Forall_forall. intros y I. apply H; auto. left. auto.
Qed.

(** ** Sets of indices *)
Definition elems (r : iset) : list Z := flat_map span r.
Lemma in_span : forall i x, In x (span i) <-> lower i <= x <= upper i.
Proof. intros i x. unfold span. rewrite in_irange. lia. Qed.
Lemma in_elems : forall r x, In x (elems r) <-> mem r x.
Proof.
  intros r x. unfold elems, mem. rewrite in_flat_map. split; intros (i & I & Q); exists i; split; auto;
    apply in_span; auto.
Qed.
Lemma elems_sorted : forall r, wf r -> StronglySorted Z.lt (elems r).
Proof.
  induction r as [|i r IH]; intros W; [constructor|].
  apply wf_cons_iff in W. destruct W as (A & B & C). simpl. apply sorted_app; auto.
  - apply irange_sorted.
  - intros x y I J. apply in_span in I. apply in_elems in J. destruct J as (b & J & Q).
    apply C in J. unfold lt_gap in J. lia.
Qed.

Record set_rep (size : Z) (r : iset) (f : bset) : Prop := {
  sr_wf : wf r; sr_mem : forall x, mem r x <-> f x = true; sr_in : forall x, f x = true -> 0 <= x < size }.

Lemma elems_filter : forall size r f, set_rep size r f -> elems r = filter f (upto size).
Proof.
  intros size r f [W M I]. apply sorted_unique.
  - apply elems_sorted; auto.
  - apply filter_sorted. rewrite upto_irange. apply irange_sorted.
  - intros x. rewrite in_elems, M, filter_In, in_upto. split; intros Q; [split; auto|tauto].
Qed.
Lemma set_rep_nil : forall size, set_rep size [] none_chosen.
Proof.
  intros size. constructor; [apply wf_nil| |discriminate].
  intros x. rewrite mem_nil. unfold none_chosen. split; [tauto|discriminate].
Qed.
Lemma set_rep_mono : forall z z' r f, set_rep z r f -> z <= z' -> set_rep z' r f.
Proof. intros z z' r f [W M I] L. constructor; auto. intros x Q. apply I in Q. lia. Qed.
Lemma ok_range_iff : forall i z, ok_range i z = true <-> 0 <= lower i /\ lower i <= upper i < z.
Proof. intros i z. unfold ok_range. lia. Qed.
Lemma ok_valid : forall i z, is_valid_idx i z = ok_range i z.
Proof.
  intros i z. unfold is_valid_idx, ok_range.
  destruct (Z.ltb_spec (upper i) (lower i)), (Z.ltb_spec (lower i) 0), (Z.leb_spec z (upper i)),
    (Z.leb_spec 0 (lower i)), (Z.leb_spec (lower i) (upper i)), (Z.ltb_spec (upper i) z); simpl; auto; lia.
Qed.
Lemma within_iff : forall i x, within i x = true <-> lower i <= x <= upper i.
Proof. intros i x. unfold within. lia. Qed.

Lemma set_rep_add : forall z r f i, set_rep z r f -> ok_range i z = true ->
  set_rep z (snd (IntervalModel.insert i r)) (add i f).
Proof.
  intros z r f i [W M I] O. apply ok_range_iff in O.
  destruct (IntervalModel.insert i r) as [st r'] eqn:E. apply insert_ok in E; auto; [|lia].
  destruct E as (_ & W' & M'). simpl. unfold add. constructor; auto.
  - intros x. rewrite M', M, orb_true_iff, within_iff. tauto.
  - intros x Q. apply orb_true_iff in Q. destruct Q as [Q|Q]; [apply I; auto|]. apply within_iff in Q. lia.
Qed.
Lemma encloses_iff : forall i f z r, set_rep z r f ->
  encloses i f z = true <-> strictly_encloses (lower i) (upper i) (mem r).
Proof.
  intros i f z r [W M I]. unfold encloses, strictly_encloses. rewrite andb_true_iff, existsb_exists, forallb_forall.
  split.
  - intros ((x & Q1 & Q2) & F). split; [exists x; apply M; auto|]. intros y Q. apply M in Q.
    specialize (F y). rewrite Q in F. simpl in F.
    assert (In y (upto z)) by (apply in_upto; auto). specialize (F H). lia.
  - intros ((x & Q) & F). split.
    + exists x. apply M in Q. split; auto. apply in_upto. auto.
    + intros y J. destruct (f y) eqn:E; auto. simpl. apply M in E. apply F in E. lia.
Qed.
Lemma set_rep_del : forall z r f i, set_rep z r f -> ok_range i z = true -> encloses i f z = false ->
  set_rep z (snd (IntervalModel.erase i r)) (del i f).
Proof.
  intros z r f i R O E. assert (R0 := R). destruct R as [W M I]. apply ok_range_iff in O.
  assert (NE : ~ strictly_encloses (lower i) (upper i) (mem r)).
  { intro Q. apply (encloses_iff i f z r R0) in Q. congruence. }
  destruct (step_ok r (OErase i) (mem r) W ltac:(tauto)) as (W' & M'). simpl in W', M'.
  replace (upper i <? lower i) with false in M' by lia. unfold del. constructor; auto.
  - intros x. rewrite M'. unfold s_remove. rewrite andb_true_iff, negb_true_iff, <- M.
    assert (B : within i x = false <-> ~ (lower i <= x <= upper i)).
    { rewrite <- within_iff. destruct (within i x); split; congruence. }
    tauto.
  - intros x Q. apply andb_true_iff in Q. apply I. tauto.
Qed.

(** ** Tables *)
Definition entry_rep (mr nc : Z) (x : key * (iset * iset)) (y : key * (bset * bset)) : Prop :=
  fst x = fst y /\ set_rep mr (fst (snd x)) (fst (snd y)) /\ set_rep nc (snd (snd x)) (snd (snd y)).
Definition tab_rep (mr nc : Z) (l : list (key * (iset * iset))) (t : table) : Prop :=
  Forall2 (entry_rep mr nc) l t.
Lemma tab_find : forall mr nc k l t, tab_rep mr nc l t ->
  match sel_find k l, lookup k t with
  | None, None => True
  | Some (r, c), Some (fr, fc) => set_rep mr r fr /\ set_rep nc c fc
  | _, _ => False
  end.
Proof.
  intros mr nc k l t H. induction H as [|[k1 [r c]] [k2 [fr fc]] l t E H IH]; simpl; auto.
  destruct E as (E1 & E2 & E3). simpl in *. subst k2. destruct (key_eqb k k1); auto.
Qed.
Lemma tab_put : forall mr nc k r c fr fc l t, tab_rep mr nc l t -> set_rep mr r fr -> set_rep nc c fc ->
  tab_rep mr nc (sel_put k (r, c) l) (assign k (fr, fc) t).
Proof.
  intros mr nc k r c fr fc l t H A B. induction H as [|[k1 [r1 c1]] [k2 [f1 g1]] l t E H IH]; simpl.
  - constructor; [|constructor]. split; auto.
  - destruct E as (E1 & E2 & E3). simpl in *. subst k2. destruct (key_eqb k k1).
    + constructor; auto. split; auto.
    + constructor; auto. split; auto.
Qed.
Lemma tab_mono : forall mr nc mr' nc' l t, tab_rep mr nc l t -> mr <= mr' -> nc <= nc' -> tab_rep mr' nc' l t.
Proof.
  intros mr nc mr' nc' l t H A B. induction H as [|x y l t (E1 & E2 & E3) H IH]; constructor; auto.
  split; auto. split; eapply set_rep_mono; eauto.
Qed.
Lemma key_eqb_refl : forall k, key_eqb k k = true.
Proof. intros [x| |]; simpl; auto. apply str_eqb_refl. Qed.
Lemma sel_find_put : forall k x l, sel_find k (sel_put k x l) = Some x.
Proof.
  intros k x. induction l as [|[k' y] l IH]; simpl.
  - rewrite key_eqb_refl. auto.
  - destruct (key_eqb k k') eqn:E; simpl; rewrite E; auto.
Qed.
Lemma sel_put_put : forall k x y l, sel_put k x (sel_put k y l) = sel_put k x l.
Proof.
  intros k x y. induction l as [|[k' z] l IH]; simpl.
  - rewrite key_eqb_refl. auto.
  - destruct (key_eqb k k') eqn:E; simpl; rewrite E; auto. f_equal. auto.
Qed.

Section Sel.
  Variable V : Type.
  Variable is_missing : V -> bool.
  Implicit Types (s : store V) (a : mat V) (v : view V).

  Definition vrep s v : Prop :=
    rep s (dat v) /\ tab_rep (rows (dat v)) (n_cols (dat v)) (sels s) (chosen v).

  Lemma rep_mn : forall s a, rep s a -> m s = rows a /\ n s = n_cols a /\ 0 <= rows a /\ 0 <= n_cols a.
  Proof.
    intros s a (its & k & g2 & R). rewrite <- (r_n _ _ _ _ _ _ R).
    split; [apply (r_m _ _ _ _ _ _ R)|]. split; auto. split; [apply (r_pos _ _ _ _ _ _ R)|].
    rewrite (rep_ncols _ _ _ _ _ _ R). apply iwidths_nonneg. eapply rep_widths; eauto.
  Qed.
  Lemma rep_pend : forall s a, rep s a -> pend s = match filling a with Some _ => true | None => false end.
  Proof.
    intros s a (its & k & g2 & R). pose proof (r_fill _ _ _ _ _ _ R) as W. unfold fill_rep in W.
    destruct (filling a) as [[k' hg]|]; tauto.
  Qed.
  Lemma rep_sels : forall s a l, rep s a -> rep (with_sels s l) a.
  Proof.
    intros s a l (its & k & g2 & R). exists its, k, g2. destruct R. constructor; auto.
  Qed.

  Lemma call_grows : forall c s s', call_store c s = Some (st_success, s') -> 0 <= m s ->
    sels s' = sels s /\ m s <= m s' /\ n s <= n s'.
  Proof.
    assert (CC : forall mc nc ty rm (d : Z -> V) s s', concat_columns mc nc ty rm d s = (st_success, s') ->
              0 <= m s -> sels s' = sels s /\ m s <= m s' /\ n s <= n s').
    { intros mc nc ty rm d s s' E P. unfold concat_columns in E. destruct (pend s); [discriminate|].
      destruct (Z.leb_spec mc 0); [discriminate|]. destruct (Z.leb_spec nc 0); [discriminate|].
      destruct ((0 <? m s) && negb (m s =? mc)); [discriminate|]. injection E as E. subst s'. simpl.
      split; auto. destruct (Z.eqb_spec (m s) 0); lia. }
    intros [mc nc ty rm d|mr nr ty rm d|ty i j x] s s' E P; simpl in E.
    - injection E as E. eapply CC; eauto.
    - unfold concat_rows in E. destruct (n s <=? 0); [injection E as E; eapply CC; eauto|].
      destruct (Z.leb_spec mr 0); [discriminate|]. destruct (Z.leb_spec nr 0); [discriminate|].
      destruct ((0 <? n s) && (n s <? nr + (if pend s then pidx s else 0))); [discriminate|].
      destruct (link _ _ _ _ _ _ _) as [h'|h'|]; [| |discriminate].
      + injection E as E. subst s'. simpl. split; auto. destruct (pend s); lia.
      + destruct (unlink _ _ _ _ _ _); discriminate.
    - unfold set_element in E. destruct (locate ty i j s) as [[st|[b p]]|]; [| |discriminate].
      + injection E as E1 E2. subst. split; auto; lia.
      + destruct (at_node (heap s) b); [|discriminate]. destruct (read_at (nb n) p); [|discriminate].
        injection E as E. subst s'. simpl. split; auto; lia.
  Qed.

  (** ** Rows with missing values *)
  Definition miss (cf : Z -> Z -> V) (ty : btype) (lc uc r : Z) : Prop :=
    lossless ty = false /\ exists c, lc <= c <= uc /\ is_missing (cf r c) = true.

  Lemma mark_rows_ok : forall cf lo w ty lcol uc lrow urow size l fuel h first e lr valid,
    links h l first e -> Forall (node_rep h cf lo w ty) l ->
    lo <= lcol <= uc -> uc < lo + w -> 0 <= first <= lr -> lr <= Z.max first lrow -> urow < e -> e <= size ->
    (length l <= fuel)%nat ->
    exists valid', mark_rows is_missing fuel h (headid l) lcol uc urow lr first size valid = Some valid' /\
      (forall r, valid' r = true -> valid r = true) /\
      (forall r, valid' r = false -> valid r = false \/ (r <= urow /\ miss cf ty lcol uc r)) /\
      (forall r, Z.max first lrow <= r <= urow -> miss cf ty lcol uc r -> valid' r = false).
  Proof.
    intros cf lo w ty lcol uc lrow urow size.
    induction l as [|[x ox] l IH]; intros fuel h first e lr valid L F C1 C2 F0 LR U S FU.
    - simpl in L. subst e.
      assert (N : (urow - lr >=? 0) = false).
      { rewrite Z.geb_leb. apply Z.leb_gt. lia. }
      exists valid. split; [destruct fuel; cbn [mark_rows]; rewrite N; reflexivity|].
      split; auto. split; auto. intros r R. lia.
    - simpl in L. destruct L as (E & nd & A & P & X & L). subst ox.
      apply Forall_cons_iff in F. destruct F as ((nd' & A' & T & O1 & O2 & D) & F).
      cbn [fst snd] in *. rewrite A in A'. injection A' as A'. subst nd'.
      destruct fuel as [|f]; [simpl in FU; lia|]. cbn [mark_rows headid hd_error option_map fst].
      destruct (urow - lr >=? 0) eqn:GE; rewrite Z.geb_leb in GE.
      2:{ apply Z.leb_gt in GE. exists valid. split; auto. split; auto. split; auto. intros r R. lia. }
      apply Z.leb_le in GE. rewrite A. cbn [lower upper].
      pose proof (links_le _ _ _ _ _ L) as LE.
      set (ur := Z.min urow (first + bm (nb nd) - 1)).
      rewrite X. fold (headid l).
      assert (TL : forall vv,
        exists valid', mark_rows is_missing f h (headid l) lcol uc urow (ur + 1) (ur + 1) size vv = Some valid' /\
          (forall r, valid' r = true -> vv r = true) /\
          (forall r, valid' r = false -> vv r = false \/ (r <= urow /\ miss cf ty lcol uc r)) /\
          (forall r, first + bm (nb nd) <= r -> Z.max (first + bm (nb nd)) lrow <= r <= urow ->
                     miss cf ty lcol uc r -> valid' r = false)).
      { intros vv. destruct (Z_le_gt_dec (first + bm (nb nd)) urow) as [G|G].
        - replace (ur + 1) with (first + bm (nb nd)) by lia.
          destruct (IH f h (first + bm (nb nd)) e (first + bm (nb nd)) vv L F C1 C2) as (v' & M1 & M2 & M3 & M4);
            try lia; [simpl in FU; lia|].
          exists v'. split; auto.
        - exists vv. split.
          + assert (N : (urow - (ur + 1) >=? 0) = false) by (rewrite Z.geb_leb; apply Z.leb_gt; lia).
            destruct f; cbn [mark_rows]; rewrite N; reflexivity.
          + split; auto. split; auto. intros r R1 R2. lia. }
      destruct (Z.leb_spec (lr - first) (ur - first)) as [B|B].
      + unfold missing_rows. cbn [lower upper]. unfold is_valid_idx. cbn [lower upper].
        destruct (Z.ltb_spec (uc - noff nd) (lcol - noff nd)); [lia|].
        destruct (Z.ltb_spec (lcol - noff nd) 0); [lia|].
        destruct (Z.leb_spec (bn (nb nd)) (uc - noff nd)); [lia|].
        destruct (Z.ltb_spec (ur - first) (lr - first)); [lia|].
        destruct (Z.ltb_spec (lr - first) 0); [lia|].
        destruct (Z.leb_spec (bm (nb nd)) (ur - first)); [lia|].
        destruct (Z.ltb_spec size (lr + (ur - first - (lr - first) + 1))); [lia|].
        destruct (Z.ltb_spec lr 0); [lia|]. cbn [orb negb].
        assert (EX : forall r, lr <= r <= ur ->
          (existsb (fun j => is_missing (bdat (nb nd) (cell_pos (nb nd) (lr - first + (r - lr)) j)))
                   (span (mkI (lcol - noff nd) (uc - noff nd))) = true
           <-> exists c, lcol <= c <= uc /\ is_missing (cf r c) = true)).
        { intros r RR. rewrite existsb_exists. split.
          - intros (j & J1 & J2). apply in_span in J1. cbn [lower upper] in J1.
            exists (j + noff nd). split; [lia|].
            rewrite <- J2. f_equal. symmetry. replace r with (first + (lr - first + (r - lr))) at 2 by lia.
            rewrite <- D by lia. do 2 f_equal. lia.
          - intros (c & R1 & R2). exists (c - noff nd). split; [apply in_span; simpl; lia|].
            rewrite <- R2. f_equal. rewrite D by lia. f_equal. lia. }
        rewrite T. destruct (lossless ty) eqn:LL.
        * destruct (TL valid) as (v' & M1 & M2 & M3 & M4). exists v'. rewrite M1. split; auto.
          split; auto. split; auto. intros r R (Q & _). congruence.
        * match goal with |- context[mark_rows _ _ _ _ _ _ _ _ _ _ ?Y] => set (vv := Y) end.
          assert (VV : forall r, vv r = false <-> valid r = false \/ (lr <= r <= ur /\ exists c, lcol <= c <= uc /\ is_missing (cf r c) = true)).
          { intros r. unfold vv. cbv zeta.
            destruct (Z.leb_spec 0 (r - lr)); [|cbn [andb]; split; [auto|intros [Q|Q]; auto; lia]].
            destruct (Z.leb_spec (r - lr) (ur - first - (lr - first)));
              [|cbn [andb]; split; [auto|intros [Q|Q]; auto; lia]].
            cbn [andb]. specialize (EX r ltac:(lia)).
            destruct (existsb _ _).
            - split; auto. intros _. right. split; [lia|]. apply EX. auto.
            - split; [auto|]. intros [Q|(_ & Q)]; auto. apply EX in Q. discriminate. }
          destruct (TL vv) as (v' & M1 & M2 & M3 & M4). exists v'. rewrite M1. split; auto. split; [|split].
          { intros r Q. apply M2 in Q. destruct (valid r) eqn:Q2; auto.
            assert (vv r = false) by (apply VV; auto). congruence. }
          { intros r Q. apply M3 in Q. destruct Q as [Q|Q]; auto. apply VV in Q. destruct Q as [Q|(Q1 & Q2)]; auto.
            right. split; [lia|]. split; auto. }
          { intros r R Q. destruct (Z_le_gt_dec r ur) as [G|G].
            - destruct (v' r) eqn:Q2; auto. apply M2 in Q2.
              assert (vv r = false); [|congruence]. apply VV. right. split; [lia|]. apply Q.
            - apply M4; auto; lia. }
      + destruct (TL valid) as (v' & M1 & M2 & M3 & M4). exists v'. rewrite M1. split; auto.
        split; auto. split; auto. intros r R Q. apply M4; auto; lia.
  Qed.

  Definition missp a (lc uc r : Z) : Prop :=
    exists c t, lc <= c <= uc /\ type_of a c = Some t /\ lossless t = false /\ is_missing (cell a r c) = true.

  Lemma mark_cols_ok : forall s a its rws ucol, rep_with s a its O (rows a) -> filling a = None ->
    0 <= lower rws -> lower rws <= upper rws < rows a -> ucol < n s ->
    forall post pre lcol fuel valid,
      its = pre ++ post -> (lcol <= ucol -> lcol = iwidths pre \/
         exists it r, post = it :: r /\ ilo it <= lcol < ilo it + iw it) ->
      0 <= lcol -> (length post < fuel)%nat ->
      exists valid', mark_cols is_missing fuel s rws lcol ucol valid = Some valid' /\
      (forall r, valid' r = true -> valid r = true) /\
      (forall r, valid' r = false -> valid r = false \/ (r <= upper rws /\ missp a lcol ucol r)) /\
      (forall r, lower rws <= r <= upper rws -> missp a lcol ucol r -> valid' r = false).
  Proof.
    intros s a its rws ucol R FN R0 R1 U.
    assert (FW := rep_widths _ _ _ _ _ _ R). assert (NN := rep_ncols _ _ _ _ _ _ R).
    assert (CT := r_cont _ _ _ _ _ _ R).
    induction post as [|it post IH]; intros pre lcol fuel valid SP PL L0 FU.
    - assert (N : (ucol - lcol >=? 0) = false).
      { rewrite Z.geb_leb. apply Z.leb_gt. destruct (Z_le_gt_dec lcol ucol) as [Q|Q]; [|lia]. exfalso.
        rewrite app_nil_r in SP. subst pre. destruct (PL Q) as [Q1|(t & r & Q1 & _)]; [lia|discriminate]. }
      exists valid. destruct fuel as [|f]; [simpl in FU; lia|]. cbn [mark_cols]. rewrite N.
      split; auto. rewrite Z.geb_leb in N. apply Z.leb_gt in N. split; auto. split; auto.
      intros r _ (c & t & Q & _). lia.
    - destruct fuel as [|f]; [simpl in FU; lia|]. cbn [mark_cols].
      destruct (ucol - lcol >=? 0) eqn:GE; rewrite Z.geb_leb in GE.
      2:{ apply Z.leb_gt in GE. exists valid. split; auto. split; auto. split; auto.
          intros r _ (c & t & Q & _). lia. }
      apply Z.leb_le in GE.
      assert (CI : ilo it = iwidths pre).
      { rewrite SP in CT. apply contig_app in CT. destruct CT as (_ & CT). simpl in CT. tauto. }
      assert (I : In it its) by (rewrite SP; apply in_or_app; right; left; auto).
      destruct (rep_item _ _ _ _ _ _ _ R I) as (ht & (IW & HD & LK & NR) & _ & HT). specialize (HT FN). subst ht.
      assert (RL : ilo it <= lcol < ilo it + iw it).
      { destruct (PL ltac:(lia)) as [Q|(t & r & Q1 & Q2)]; [lia|]. injection Q1 as Q1 _. subst t. auto. }
      assert (FE : find_col lcol (cmap s) = Some (mkI (ilo it) (ilo it + iw it - 1), ib it)).
      { rewrite (r_cmap _ _ _ _ _ _ R). rewrite SP in CT, FW |- *. apply (find_entry pre it post 0 lcol); auto. }
      assert (TYJ : forall j, ilo it <= j < ilo it + iw it -> type_of a j = Some (ity it)).
      { intros j RJ. unfold type_of. rewrite (r_cols _ _ _ _ _ _ R). rewrite SP in CT, FW |- *.
        rewrite <- (Z.sub_0_r j). apply (type_in_item pre it post 0 j CT FW RJ). }
      rewrite FE. cbn [upper].
      set (uc := Z.min ucol (ilo it + iw it - 1)).
      destruct (mark_rows_ok (cell a) (ilo it) (iw it) (ity it) lcol uc (lower rws) (upper rws) (m s)
                  (ich it) (S (length (heap s))) (heap s) 0 (rows a) (lower rws) valid LK NR
                  ltac:(lia) ltac:(lia) ltac:(lia) ltac:(lia) ltac:(lia)
                  ltac:(rewrite (r_m _ _ _ _ _ _ R); lia)
                  ltac:(pose proof (chain_short _ _ _ _ _ LK
                          (chain_nodup _ _ (r_share _ _ _ _ _ _ R) I (headid_ne _ _ HD))); lia))
        as (v1 & S1 & A1 & A2 & A3).
      rewrite HD in S1. rewrite S1.
      assert (SP2 : its = (pre ++ [it]) ++ post) by (rewrite <- app_assoc; exact SP).
      assert (PW : iwidths (pre ++ [it]) = iwidths pre + iw it).
      { rewrite iwidths_app. unfold iwidths at 2. simpl. lia. }
      destruct (IH (pre ++ [it]) (uc + 1) f v1 SP2) as (v2 & S2 & B1 & B2 & B3).
      { intros Q. left. rewrite PW. lia. }
      { lia. } { simpl in FU. lia. }
      exists v2. split; auto. split; [|split].
      + intros r Q. apply A1, B1, Q.
      + intros r Q. apply B2 in Q. destruct Q as [Q|(Q1 & c & t & Q2 & Q3)].
        * apply A2 in Q. destruct Q as [Q|(Q1 & LL & c & Q2 & Q3)]; auto. right. split; auto.
          exists c, (ity it). split; [lia|]. split; [apply TYJ; lia|auto].
        * right. split; auto. exists c, t. split; [lia|auto].
      + intros r RR (c & t & Q1 & Q2 & Q3 & Q4). destruct (Z_le_gt_dec c uc) as [G|G].
        * destruct (v2 r) eqn:Q; auto. apply B1 in Q. rewrite A3 in Q; auto; [lia|].
          rewrite TYJ in Q2 by lia. injection Q2 as Q2. split; [congruence|]. exists c. split; [lia|auto].
        * apply B3; auto. exists c, t. split; [lia|auto].
  Qed.

  Lemma mark_missing_ok : forall s a rws cls valid, rep s a -> filling a = None ->
    ok_range rws (rows a) = true -> ok_range cls (n_cols a) = true ->
    exists valid', mark_missing is_missing s rws cls valid = Some valid' /\
      (forall r, valid' r = true -> valid r = true) /\
      (forall r, valid' r = false -> valid r = false \/ (r <= upper rws /\ missp a (lower cls) (upper cls) r)) /\
      (forall r, lower rws <= r <= upper rws -> missp a (lower cls) (upper cls) r -> valid' r = false).
  Proof.
    intros s a rws cls valid RP FN OR OC.
    destruct (rep_mn s a RP) as (M1 & M2 & _). destruct RP as (its & k & g2 & R).
    assert (W := r_fill _ _ _ _ _ _ R). unfold fill_rep in W. rewrite FN in W. destruct W as (W1 & W2 & W3).
    subst k g2. unfold mark_missing. rewrite !ok_valid, M1, M2, OR, OC. cbn [orb negb].
    apply ok_range_iff in OR. apply ok_range_iff in OC. rewrite <- M2 in OC.
    destruct (rep_column _ _ _ _ _ _ (lower cls) R ltac:(lia)) as (x & it & y & E & RI & _).
    apply (mark_cols_ok s a its rws (upper cls) R FN ltac:(lia) ltac:(lia) ltac:(lia) (it :: y) x); auto.
    - intros _. right. exists it, y. auto.
    - lia.
    - rewrite (r_cmap _ _ _ _ _ _ R), map_length, E, app_length. lia.
  Qed.

  Lemma mark_all_ok : forall s a cls, rep s a -> filling a = None -> ok_range cls (n_cols a) = true ->
    forall rs valid, Forall (fun i => ok_range i (rows a) = true) rs ->
    exists valid', mark_all is_missing s rs cls valid = Some valid' /\
      (forall r, valid' r = true -> valid r = true) /\
      (forall r, valid' r = false -> valid r = false \/
         ((exists i, In i rs /\ r <= upper i) /\ missp a (lower cls) (upper cls) r)) /\
      (forall r, mem rs r -> missp a (lower cls) (upper cls) r -> valid' r = false).
  Proof.
    intros s a cls R FN OC. induction rs as [|i rs IH]; intros valid F; simpl.
    - exists valid. split; auto. split; auto. split; auto. intros r Q. apply mem_nil in Q. tauto.
    - apply Forall_cons_iff in F. destruct F as (F1 & F2).
      destruct (mark_missing_ok s a i cls valid R FN F1 OC) as (v1 & S1 & A1 & A2 & A3). rewrite S1.
      destruct (IH v1 F2) as (v2 & S2 & B1 & B2 & B3). exists v2. split; auto. split; [|split].
      + intros r Q. apply A1, B1, Q.
      + intros r Q. apply B2 in Q. destruct Q as [Q|((j & Q1 & Q2) & Q3)].
        * apply A2 in Q. destruct Q as [Q|(Q1 & Q2)]; auto. right. split; auto. exists i. auto.
        * right. split; auto. exists j. auto.
      + intros r Q1 Q2. apply mem_cons in Q1. destruct Q1 as [Q1|Q1].
        * destruct (v2 r) eqn:Q; auto. apply B1 in Q. rewrite A3 in Q; auto.
        * apply B3; auto.
  Qed.

  Lemma mark_sel_ok : forall s a rs, rep s a -> filling a = None -> Forall (fun i => ok_range i (rows a) = true) rs ->
    forall cs valid, Forall (fun i => ok_range i (n_cols a) = true) cs ->
    exists valid', mark_sel is_missing s rs cs valid = Some valid' /\
      (forall r, valid' r = true -> valid r = true) /\
      (forall r, valid' r = false -> valid r = false \/
         ((exists i, In i rs /\ r <= upper i) /\ has_missing is_missing a (elems cs) r = true)) /\
      (forall r, mem rs r -> has_missing is_missing a (elems cs) r = true -> valid' r = false).
  Proof.
    intros s a rs R FN FR. induction cs as [|c cs IH]; intros valid F; simpl.
    - exists valid. split; auto. split; auto. split; auto. unfold has_missing. simpl. intros; discriminate.
    - apply Forall_cons_iff in F. destruct F as (F1 & F2).
      destruct (mark_all_ok s a c R FN F1 rs valid FR) as (v1 & S1 & A1 & A2 & A3). rewrite S1.
      destruct (IH v1 F2) as (v2 & S2 & B1 & B2 & B3). exists v2. split; auto.
      assert (HM : forall r, has_missing is_missing a (span c ++ elems cs) r = true <->
                 missp a (lower c) (upper c) r \/ has_missing is_missing a (elems cs) r = true).
      { intros r. unfold has_missing. rewrite existsb_app, orb_true_iff. apply or_iff_compat_r.
        rewrite existsb_exists. split.
        - intros (j & J1 & J2). apply in_span in J1. destruct (type_of a j) as [t|] eqn:T; [|discriminate].
          apply andb_true_iff in J2. destruct J2 as (J2 & J3). apply negb_true_iff in J2. exists j, t. auto.
        - intros (j & t & J1 & J2 & J3 & J4). exists j. split; [apply in_span; auto|]. rewrite J2, J3, J4. auto. }
      split; [|split].
      + intros r Q. apply A1, B1, Q.
      + intros r Q. apply B2 in Q. destruct Q as [Q|(Q1 & Q2)].
        * apply A2 in Q. destruct Q as [Q|(Q1 & Q2)]; auto. right. split; auto. apply HM. auto.
        * right. split; auto. apply HM. auto.
      + intros r Q1 Q2. apply HM in Q2. destruct Q2 as [Q2|Q2].
        * destruct (v2 r) eqn:Q; auto. apply B1 in Q. rewrite A3 in Q; auto.
        * apply B3; auto.
  Qed.

  Lemma run_end_spec : forall valid m0 fuel i, 0 <= i -> (Z.to_nat (m0 - i) <= fuel)%nat ->
    let e := run_end valid m0 i fuel in
    i <= e /\ (i <= m0 -> e <= m0) /\ (forall r, i <= r < e -> valid r = false) /\ (e < m0 -> valid e = true).
  Proof.
    intros valid m0. induction fuel as [|f IH]; intros i I0 F; simpl.
    - split; [lia|]. split; [auto|]. split; [intros; lia|]. intros; lia.
    - destruct (Z.ltb_spec i m0).
      + destruct (valid i) eqn:E.
        * split; [lia|]. split; [lia|]. split; [intros; lia|auto].
        * destruct (IH (i + 1) ltac:(lia) ltac:(lia)) as (Q1 & Q2 & Q3 & Q4). split; [lia|]. split; [lia|]. split.
          { intros r R. destruct (Z.eq_dec r i); [subst; auto|]. apply Q3. lia. }
          auto.
      + split; [lia|]. split; [lia|]. split; intros; lia.
  Qed.

  Lemma erase_runs_ok : forall valid m0 rows0 U, (forall r, 0 <= r < m0 -> valid r = false -> r <= U) ->
    mem rows0 U -> U < m0 ->
    forall fuel i rs oob, 0 <= i -> (Z.to_nat (m0 - i) < fuel)%nat -> wf rs ->
      (forall r, mem rs r <-> mem rows0 r /\ (0 <= r < i -> r < m0 -> valid r = true)) ->
      wf (fst (erase_runs valid m0 fuel i rs oob)) /\
      (forall r, mem (fst (erase_runs valid m0 fuel i rs oob)) r
                 <-> mem rows0 r /\ (0 <= r < m0 -> valid r = true)) /\
      (snd (erase_runs valid m0 fuel i rs oob) = true <-> oob = true \/ (i < m0 /\ valid (m0 - 1) = false)).
  Proof.
    intros valid m0 rows0 U HU MU UM. induction fuel as [|f IH]; intros i rs oob I0 F W M; [lia|].
    cbn [erase_runs]. destruct (Z.ltb_spec i m0) as [L|L].
    2:{ simpl. split; auto. split.
        - intros r. rewrite M. split; intros (Q1 & Q2); (split; [exact Q1|intros; apply Q2; lia]).
        - split; auto. intros [Q|Q]; auto. lia. }
    destruct (valid i) eqn:VI.
    - destruct (IH (i + 1) rs oob ltac:(lia) ltac:(lia) W) as (J1 & J2 & J3).
      { intros r. rewrite M. split; intros (Q1 & Q2); split; auto; intros A B.
        - destruct (Z.eq_dec r i); [subst; auto|]. apply Q2; lia.
        - apply Q2; lia. }
      split; auto. split; auto. rewrite J3. split; intros [Q|Q]; auto.
      + right. split; [lia|tauto].
      + destruct (Z.eq_dec (i + 1) m0).
        * replace (m0 - 1) with i in Q by lia. destruct Q; congruence.
        * right. split; [lia|tauto].
    - destruct (run_end_spec valid m0 (Z.to_nat m0) i I0 ltac:(lia)) as (E1 & E2 & E3 & E4).
      set (stop := run_end valid m0 i (Z.to_nat m0)) in *. specialize (E2 ltac:(lia)).
      assert (E5 : i < stop).
      { destruct (Z.eq_dec i stop); [|lia]. rewrite <- e in E4. rewrite E4 in VI by lia. discriminate. }
      destruct (step_ok rs (OErase (mkI i (stop - 1))) (mem rs) W ltac:(tauto)) as (W' & M').
      simpl in W', M'. replace (stop - 1 <? i) with false in M' by lia.
      assert (NE : ~ strictly_encloses i (stop - 1) (mem rs)).
      { intros (_ & Q). assert (U2 : stop - 1 <= U) by (apply HU; [lia|apply E3; lia]).
        assert (MR : mem rs U) by (apply M; split; auto; intros; lia). apply Q in MR. lia. }
      destruct (IH stop (snd (IntervalModel.erase (mkI i (stop - 1)) rs)) (oob || (m0 <=? stop))
                  ltac:(lia) ltac:(lia) W') as (J1 & J2 & J3).
      { intros r. rewrite M'. unfold s_remove. split.
        - intros [(Q1 & Q2)|(Q & _)]; [|tauto]. apply M in Q1. destruct Q1 as (Q1 & Q3). split; auto.
          intros A B. destruct (Z_lt_ge_dec r i); [apply Q3; lia|]. exfalso. apply Q2. lia.
        - intros (Q1 & Q2). left. split.
          + apply M. split; auto. intros A B. apply Q2; lia.
          + intros A. assert (valid r = true) by (apply Q2; lia). rewrite E3 in H; [discriminate|lia]. }
      split; auto. split; auto. rewrite J3, orb_true_iff, Z.leb_le. split.
      + intros [[Q|Q]|Q]; auto.
        * right. split; auto. apply E3. lia.
        * right. split; auto. tauto.
      + intros [Q|(Q1 & Q2)]; auto. destruct (Z_le_gt_dec m0 stop); auto. right. split; auto. lia.
  Qed.

  Lemma set_ranges : forall z r f, set_rep z r f -> Forall (fun i => ok_range i z = true) r.
  Proof.
    intros z r f [W M I]. apply Forall_forall. intros i J. apply ok_range_iff.
    pose proof (wf_in _ _ W J) as L.
    assert (0 <= lower i < z) by (apply I, M; exists i; split; auto; lia).
    assert (0 <= upper i < z) by (apply I, M; exists i; split; auto; lia). lia.
  Qed.
  Lemma full_rep : forall z, 0 < z -> set_rep z [mkI 0 (z - 1)] (fun x => (0 <=? x) && (x <? z)).
  Proof.
    intros z P. constructor.
    - constructor; [constructor; [constructor|constructor]|constructor; [simpl; lia|constructor]].
    - intros x. rewrite mem_cons, mem_nil. simpl. lia.
    - intros x. lia.
  Qed.
  Lemma filter_upto_full : forall z, filter (fun x => (0 <=? x) && (x <? z)) (upto z) = upto z.
  Proof.
    intros z. assert (H : forall l, (forall x, In x l -> 0 <= x < z) ->
      filter (fun x => (0 <=? x) && (x <? z)) l = l).
    { induction l as [|x l IH]; intros H; simpl; auto. pose proof (H x (or_introl eq_refl)).
      destruct (Z.leb_spec 0 x); [|lia]. destruct (Z.ltb_spec x z); [|lia]. simpl. f_equal. apply IH.
      intros y I. apply H. right. auto. }
    apply H. intros x. apply in_upto.
  Qed.

  (** the row or column set actually used *)
  Definition orfull (r : iset) (z : Z) : iset := match r with [] => [mkI 0 (z - 1)] | _ => r end.
  Lemma orfull_rep : forall z r f, 0 < z -> set_rep z r f ->
    exists g, set_rep z (orfull r z) g /\ elems (orfull r z) = picked f z.
  Proof.
    intros z r f P R. pose proof (elems_filter z r f R) as E. unfold picked. rewrite <- E.
    destruct r as [|i r]; simpl orfull.
    - exists (fun x => (0 <=? x) && (x <? z)). split; [apply full_rep; auto|].
      rewrite (elems_filter z _ _ (full_rep z P)). apply filter_upto_full.
    - exists f. split; auto. destruct (elems (i :: r)) eqn:Q; auto.
      exfalso. pose proof (wf_in _ i (sr_wf _ _ _ R) (or_introl eq_refl)) as L.
      assert (IN : In (lower i) (elems (i :: r))) by (apply in_elems; exists i; split; [left; auto|lia]).
      rewrite Q in IN. destruct IN.
  Qed.

  Lemma select_non_missing_ok : forall s v k (full : bool), vrep s v -> filling (dat v) = None ->
    0 < rows (dat v) -> 0 < n_cols (dat v) ->
    let a := dat v in
    let '(fr, fc) := chosen_or_none k (chosen v) in
    let cs := if full then upto (n_cols a) else picked fc (n_cols a) in
    let keep := filter (fun r => negb (has_missing is_missing a cs r)) (picked fr (rows a)) in
    let fc' := match lookup k (chosen v) with None => none_chosen | Some _ => fc end in
    exists s' oob, select_non_missing is_missing k full s = Some (st_success, s', oob)
      /\ vrep s' (mkView a (assign k (fun x => existsb (Z.eqb x) keep, fc') (chosen v)))
      /\ (oob = true <-> In (rows a - 1) (picked fr (rows a)) /\ has_missing is_missing a cs (rows a - 1) = true).
  Proof.
    intros s v k full (R & T) FN PR PC a. fold a in R, T, FN, PR, PC.
    destruct (rep_mn s a R) as (M1 & M2 & _).
    assert (PD : pend s = false) by (rewrite (rep_pend s a R), FN; auto).
    unfold chosen_or_none, select_non_missing. rewrite PD.
    pose proof (tab_find _ _ k _ _ T) as TF.
    set (created := match sel_find k (sels s) with None => true | Some _ => false end).
    set (s1 := if created then snd (select_slice k (mkI 0 (m s - 1)) (mkI 0 (n s - 1)) s) else s).
    assert (OF1 : ok_range (mkI 0 (m s - 1)) (rows a) = true) by (apply ok_range_iff; simpl; lia).
    assert (OF2 : ok_range (mkI 0 (n s - 1)) (n_cols a) = true) by (apply ok_range_iff; simpl; lia).
    assert (SC : forall i, snd (IntervalModel.insert i []) = if upper i <? lower i then [] else [i]).
    { intros [lo up]. unfold IntervalModel.insert. simpl. destruct (up <? lo); reflexivity. }
    (* the selection after it has been created *)
    assert (S1 : exists r0 c0 fr0 fc0, sel_find k (sels s1) = Some (r0, c0)
        /\ set_rep (rows a) r0 fr0 /\ set_rep (n_cols a) c0 fc0
        /\ (forall x, sel_put k x (sels s1) = sel_put k x (sels s))
        /\ rep s1 a /\ heap s1 = heap s
        /\ (let '(fr, fc) := match lookup k (chosen v) with Some x => x | None => (none_chosen, none_chosen) end in
            picked fr0 (rows a) = picked fr (rows a) /\ picked fc0 (n_cols a) = picked fc (n_cols a)
            /\ (created = false -> lookup k (chosen v) = Some (fr, fc) /\ fc0 = fc)
            /\ (created = true -> lookup k (chosen v) = None))).
    { unfold s1, created. destruct (sel_find k (sels s)) as [[r0 c0]|] eqn:SF.
      - destruct (lookup k (chosen v)) as [[fr fc]|] eqn:LK; [|contradiction]. destruct TF as (T1 & T2).
        exists r0, c0, fr, fc. split; auto. split; auto. split; auto. split; auto. split; auto. split; auto.
        split; auto. split; auto. split; auto. discriminate.
      - destruct (lookup k (chosen v)) as [[fr fc]|] eqn:LK; [contradiction|].
        unfold select_slice. rewrite PD, !ok_valid, M1, M2. rewrite M1 in OF1. rewrite M2 in OF2.
        rewrite OF1, OF2. cbn [orb negb]. unfold sel_of. rewrite SF.
        rewrite !SC. cbn [lower upper snd fst].
        replace (rows a - 1 <? 0) with false by lia. replace (n_cols a - 1 <? 0) with false by lia.
        cbn [sels with_sels]. rewrite sel_find_put. do 4 eexists. split; [reflexivity|].
        split; [apply full_rep; auto|]. split; [apply full_rep; auto|].
        split; [intros x; apply sel_put_put|]. split; [apply rep_sels; auto|]. split; auto.
        unfold picked. rewrite !filter_upto_full.
        assert (NF : forall z, filter none_chosen (upto z) = []).
        { intros z. generalize (upto z). induction l; simpl; auto. }
        rewrite !NF. split; [destruct (upto (rows a)); auto|]. split; [destruct (upto (n_cols a)); auto|].
        split; [discriminate|auto]. }
    destruct S1 as (r0 & c0 & fr0 & fc0 & SF & RR & RC & PP & R1 & H1 & PK).
    destruct (match lookup k (chosen v) with Some x => x | None => (none_chosen, none_chosen) end)
      as [fr fc] eqn:LKE. destruct PK as (PK1 & PK2 & PK3 & PK4). cbv zeta.
    rewrite SF.
    set (rows0 := match r0 with [] => snd (IntervalModel.insert (mkI 0 (m s - 1)) r0) | _ :: _ => r0 end).
    assert (RO : rows0 = orfull r0 (rows a)).
    { unfold rows0, orfull. destruct r0; auto. rewrite SC. simpl. replace (m s - 1 <? 0) with false by lia.
      rewrite M1. auto. }
    rewrite RO. clear RO rows0.
    destruct (orfull_rep (rows a) r0 fr0 PR RR) as (g & GR & GE). rewrite PK1 in GE.
    set (cols0 := if full then [mkI 0 (n s - 1)] else match c0 with [] => [mkI 0 (n s - 1)] | _ :: _ => c0 end).
    set (cs := if full then upto (n_cols a) else picked fc (n_cols a)).
    assert (CO : exists gc, set_rep (n_cols a) cols0 gc /\ elems cols0 = cs).
    { unfold cols0, cs. rewrite M2. destruct full.
      - exists (fun x => (0 <=? x) && (x <? n_cols a)). split; [apply full_rep; auto|].
        rewrite (elems_filter _ _ _ (full_rep (n_cols a) PC)). apply filter_upto_full.
      - destruct (orfull_rep (n_cols a) c0 fc0 PC RC) as (gc & G1 & G2). exists gc. rewrite PK2 in G2. auto. }
    destruct CO as (gc & CR & CE).
    destruct (mark_sel_ok s1 a (orfull r0 (rows a)) R1 FN (set_ranges _ _ _ GR) cols0 (fun _ => true) (set_ranges _ _ _ CR))
      as (valid & MS & V1 & V2 & V3).
    rewrite MS. rewrite CE in V2, V3.
    (* the largest selected row *)
    assert (UX : exists U, mem (orfull r0 (rows a)) U /\ forall r, mem (orfull r0 (rows a)) r -> r <= U).
    { assert (NE : exists x, mem (orfull r0 (rows a)) x).
      { destruct r0 as [|i r0]; simpl.
        - exists 0. exists (mkI 0 (rows a - 1)). split; [left; auto|simpl; lia].
        - exists (lower i), i. split; [left; auto|]. pose proof (wf_in _ i (sr_wf _ _ _ RR) (or_introl eq_refl)). lia. }
      assert (BD : forall r, mem (orfull r0 (rows a)) r -> 0 <= r < rows a) by (intros r Q; apply (sr_in _ _ _ GR), (sr_mem _ _ _ GR); auto).
      assert (MX : forall n0 x, mem (orfull r0 (rows a)) x -> (Z.to_nat (rows a - x) <= n0)%nat ->
                exists U, mem (orfull r0 (rows a)) U /\ forall r, mem (orfull r0 (rows a)) r -> r <= U).
      { induction n0 as [|n0 IHn]; intros x Q L.
        - apply BD in Q. lia.
        - destruct (existsb (fun y => g y && (x <? y)) (upto (rows a))) eqn:EX.
          + apply existsb_exists in EX. destruct EX as (y & Y1 & Y2). apply andb_true_iff in Y2.
            destruct Y2 as (Y2 & Y3). apply Z.ltb_lt in Y3. apply (IHn y).
            * apply (sr_mem _ _ _ GR). auto.
            * pose proof (BD x Q). lia.
          + exists x. split; auto. intros r Q2. destruct (Z_le_gt_dec r x); auto.
            assert (existsb (fun y => g y && (x <? y)) (upto (rows a)) = true); [|congruence].
            apply existsb_exists. exists r. split; [apply in_upto; auto|].
            apply andb_true_iff. split; [apply (sr_mem _ _ _ GR); auto|]. apply Z.ltb_lt. lia. }
      destruct NE as (x & NE). apply (MX _ x NE (le_n _)). }
    destruct UX as (U & U1 & U2).
    assert (VB : forall r, valid r = false -> r <= U).
    { intros r Q. apply V2 in Q. destruct Q as [Q|((i & Q1 & Q2) & _)]; [discriminate|].
      assert (mem (orfull r0 (rows a)) (upper i)).
      { exists i. split; auto. pose proof (wf_in _ i (sr_wf _ _ _ GR) Q1). lia. }
      apply U2 in H. lia. }
    assert (UB : 0 <= U < rows a) by (apply (sr_in _ _ _ GR), (sr_mem _ _ _ GR); auto).
    destruct (erase_runs valid (m s) (S (Z.to_nat (m s))) 0 (orfull r0 (rows a)) false) as [rows' oob] eqn:ER.
    destruct (erase_runs_ok valid (m s) (orfull r0 (rows a)) U ltac:(intros; apply VB; auto) U1 ltac:(lia)
                (S (Z.to_nat (m s))) 0 (orfull r0 (rows a)) false ltac:(lia) ltac:(lia) (sr_wf _ _ _ GR))
      as (J1 & J2 & J3).
    { intros r. split; [|tauto]. intros Q. split; auto. intros; lia. }
    rewrite ER in J1, J2, J3. cbn [fst snd] in J1, J2, J3.
    set (keep := filter (fun r => negb (has_missing is_missing a cs r)) (picked fr (rows a))).
    set (fc' := match lookup k (chosen v) with Some _ => fc | None => none_chosen end).
    exists (with_sels s1 (sel_put k (rows', if created || (negb full && match c0 with [] => true | _ :: _ => false end)
                                           then [] else c0) (sels s1))), oob.
    assert (KM : forall x, existsb (Z.eqb x) keep = true <-> mem rows' x).
    { intros x. rewrite existsb_exists, J2. unfold keep. split.
      - intros (y & Y1 & Y2). apply Z.eqb_eq in Y2. subst y. apply filter_In in Y1. destruct Y1 as (Y1 & Y2).
        rewrite <- GE in Y1. apply in_elems in Y1. split; auto. intros _.
        destruct (valid x) eqn:Q; auto. apply V2 in Q. destruct Q as [Q|(_ & Q)]; [discriminate|].
        rewrite Q in Y2. discriminate.
      - intros (Q1 & Q2). exists x. split; [|apply Z.eqb_refl]. apply filter_In. rewrite <- GE. split; [apply in_elems; auto|].
        apply negb_true_iff. destruct (has_missing is_missing a cs x) eqn:Q; auto.
        rewrite (V3 x Q1 Q) in Q2. rewrite M1 in Q2. symmetry. apply Q2.
        apply (sr_in _ _ _ GR), (sr_mem _ _ _ GR). auto. }
    split; auto. split.
    - split; [apply rep_sels; auto|]. cbn [dat chosen sels with_sels]. rewrite PP. apply tab_put; auto.
      + constructor; auto.
        * intros x. symmetry. apply KM.
        * intros x Q. apply KM in Q. apply J2 in Q. destruct Q as (Q & _).
          apply (sr_in _ _ _ GR), (sr_mem _ _ _ GR). auto.
      + unfold fc'. destruct created.
        * cbn [orb]. rewrite (PK4 eq_refl). apply set_rep_nil.
        * destruct (PK3 eq_refl) as (Q1 & Q2). rewrite Q1. subst fc0. cbn [orb].
          destruct c0 as [|c c0]; [|rewrite andb_false_r; auto]. destruct (negb full && true); auto.
    - rewrite J3. rewrite <- GE. rewrite in_elems, M1. split.
      + intros [Q|(_ & Q)]; [discriminate|]. pose proof (VB _ Q). 
        assert (rows a - 1 = U) by lia. apply V2 in Q. destruct Q as [Q|(_ & Q)]; [discriminate|].
        split; auto. rewrite H0. auto.
      + intros (Q1 & Q2). right. split; [lia|]. apply V3; auto.
  Qed.

  (** ** Histories *)
  Lemma scall_ok : forall c s v, vrep s v ->
    match spec_scall is_missing c v with
    | SIrregular => True
    | SRefuse st => exists s', scall_store is_missing c s = Some (st, s') /\ vrep s' v /\ same_store s s'
    | SAccept v' => exists s', scall_store is_missing c s = Some (st_success, s') /\ vrep s' v'
    end.
  Proof.
    intros c s v (R & T). destruct (rep_mn s (dat v) R) as (M1 & M2 & M3 & M4).
    pose proof (rep_pend s (dat v) R) as PD.
    assert (SV : vrep s v) by (split; auto).
    assert (KEEP : forall (st : da_status) (s2 : store V), s2 = s ->
       exists s', Some (st, s2) = Some (st, s') /\ vrep s' v /\ same_store s s').
    { intros st s2 E. subst s2. exists s. split; auto. split; auto. apply same_store_refl. }
    assert (TF := fun k => tab_find _ _ k _ _ T).
    assert (SO : forall k, set_rep (rows (dat v)) (fst (sel_of k s)) (fst (chosen_or_none k (chosen v)))
                        /\ set_rep (n_cols (dat v)) (snd (sel_of k s)) (snd (chosen_or_none k (chosen v)))).
    { intros k. specialize (TF k). unfold sel_of, chosen_or_none.
      destruct (sel_find k (sels s)) as [[r0 c0]|], (lookup k (chosen v)) as [[fr fc]|]; try contradiction; auto.
      simpl. split; apply set_rep_nil. }
    destruct c as [c|k r c|k c|k r|k c|k r|k full]; cbn [spec_scall scall_store].
    - pose proof (call_ok V c s (dat v) R) as Q. destruct (spec_call c (dat v)) as [a'|st|]; auto.
      + destruct Q as (s' & Q1 & Q2). exists s'. split; auto.
        destruct (call_grows c s s' Q1 ltac:(lia)) as (G1 & G2 & G3).
        destruct (rep_mn s' a' Q2) as (N1 & N2 & _). split; auto. simpl. rewrite G1.
        eapply tab_mono; eauto; lia.
      + destruct Q as (s' & Q1 & Q2 & Q3). exists s'. split; auto. split; auto. split; auto.
        destruct Q3 as (_ & _ & _ & _ & _ & Q3 & _). rewrite Q3. auto.
    - destruct (filling (dat v)) as [fl|] eqn:FN.
      { unfold select_slice. rewrite PD. apply KEEP. auto. }
      destruct (chosen_or_none k (chosen v)) as [fr fc] eqn:CN. specialize (SO k). rewrite CN in SO.
      unfold select_slice. rewrite PD, !ok_valid, M1, M2.
      destruct (ok_range c (n_cols (dat v))) eqn:O1; [|cbn [orb negb andb]; apply KEEP; auto].
      destruct (ok_range r (rows (dat v))) eqn:O2; [|cbn [orb negb andb]; apply KEEP; auto].
      cbn [orb negb andb]. destruct (sel_of k s) as [r0 c0] eqn:SE. cbn [fst snd] in SO. destruct SO as (SO1 & SO2).
      eexists; split; [reflexivity|]. split; [apply rep_sels; auto|]. cbn [dat chosen sels with_sels].
      apply tab_put; auto; apply set_rep_add; auto.
    - destruct (filling (dat v)) as [fl|] eqn:FN.
      { unfold select_columns. rewrite PD. apply KEEP. auto. }
      destruct (chosen_or_none k (chosen v)) as [fr fc] eqn:CN. specialize (SO k). rewrite CN in SO.
      unfold select_columns. rewrite PD, !ok_valid, M2.
      destruct (ok_range c (n_cols (dat v))) eqn:O1; [|cbn [orb negb andb]; apply KEEP; auto].
      cbn [orb negb andb]. destruct (sel_of k s) as [r0 c0] eqn:SE. cbn [fst snd] in SO. destruct SO as (SO1 & SO2).
      eexists; split; [reflexivity|]. split; [apply rep_sels; auto|]. cbn [dat chosen sels with_sels].
      apply tab_put; auto; apply set_rep_add; auto.
    - destruct (filling (dat v)) as [fl|] eqn:FN.
      { unfold select_rows. rewrite PD. apply KEEP. auto. }
      destruct (chosen_or_none k (chosen v)) as [fr fc] eqn:CN. specialize (SO k). rewrite CN in SO.
      unfold select_rows. rewrite PD, !ok_valid, M1.
      destruct (ok_range r (rows (dat v))) eqn:O1; [|cbn [orb negb andb]; apply KEEP; auto].
      cbn [orb negb andb]. destruct (sel_of k s) as [r0 c0] eqn:SE. cbn [fst snd] in SO. destruct SO as (SO1 & SO2).
      eexists; split; [reflexivity|]. split; [apply rep_sels; auto|]. cbn [dat chosen sels with_sels].
      apply tab_put; auto; apply set_rep_add; auto.
    - destruct (filling (dat v)) as [fl|] eqn:FN.
      { unfold remove_columns. rewrite PD. apply KEEP. auto. }
      unfold remove_columns. rewrite PD, !ok_valid, M2.
      destruct (ok_range c (n_cols (dat v))) eqn:O1; [|cbn [orb negb andb]; apply KEEP; auto].
      cbn [negb]. specialize (TF k).
      destruct (lookup k (chosen v)) as [[fr fc]|], (sel_find k (sels s)) as [[r0 c0]|]; try contradiction.
      + destruct TF as (T1 & T2). destruct (encloses c fc (n_cols (dat v))) eqn:EN; auto.
        eexists; split; [reflexivity|]. split; [apply rep_sels; auto|]. cbn [dat chosen sels with_sels].
        apply tab_put; auto; apply set_rep_del; auto.
      + apply KEEP; auto.
    - destruct (filling (dat v)) as [fl|] eqn:FN.
      { unfold remove_rows. rewrite PD. apply KEEP. auto. }
      unfold remove_rows. rewrite PD, !ok_valid, M1.
      destruct (ok_range r (rows (dat v))) eqn:O1; [|cbn [orb negb andb]; apply KEEP; auto].
      cbn [negb]. specialize (TF k).
      destruct (lookup k (chosen v)) as [[fr fc]|], (sel_find k (sels s)) as [[r0 c0]|]; try contradiction.
      + destruct TF as (T1 & T2). destruct (encloses r fr (rows (dat v))) eqn:EN; auto.
        eexists; split; [reflexivity|]. split; [apply rep_sels; auto|]. cbn [dat chosen sels with_sels].
        apply tab_put; auto; apply set_rep_del; auto.
      + apply KEEP; auto.
    - destruct (filling (dat v)) as [fl|] eqn:FN.
      { unfold select_non_missing. rewrite PD. simpl. apply KEEP. auto. }
      destruct (Z.leb_spec (rows (dat v)) 0); [exact I|]. destruct (Z.leb_spec (n_cols (dat v)) 0); [exact I|].
      cbn [orb]. pose proof (select_non_missing_ok s v k full SV FN ltac:(lia) ltac:(lia)) as Q. cbv zeta in Q.
      destruct (chosen_or_none k (chosen v)) as [fr fc] eqn:CN.
      destruct Q as (s' & oob & Q1 & Q2 & _). cbv zeta.
      match goal with |- context[filter ?F (picked fr (rows (dat v)))] =>
        destruct (filter F (picked fr (rows (dat v)))) as [|z0 zs] eqn:KE end; [exact I|].
      exists s'. rewrite Q1. split; auto.
      destruct (lookup k (chosen v)); exact Q2.
  Qed.

  Lemma srun_ok : forall hs s v l w, vrep s v -> spec_srun is_missing hs v = Some (l, w) ->
    exists t, srun_store is_missing hs s = Some (l, t) /\ vrep t w.
  Proof.
    induction hs as [|c hs IH]; intros s v l w R E; simpl in *.
    - injection E as E1 E2; subst. exists s. auto.
    - pose proof (scall_ok c s v R) as Q. destruct (spec_scall is_missing c v) as [v'|st|]; [| |discriminate].
      + destruct (spec_srun is_missing hs v') as [[l' b']|] eqn:E'; [|discriminate]. injection E as E1 E2; subst.
        destruct Q as (s' & Q1 & Q2). destruct (IH _ _ _ _ Q2 E') as (t & T1 & T2).
        exists t. rewrite Q1, T1. auto.
      + destruct (spec_srun is_missing hs v) as [[l' b']|] eqn:E'; [|discriminate]. injection E as E1 E2; subst.
        destruct Q as (s' & Q1 & Q2 & _). destruct (IH _ _ _ _ Q2 E') as (t & T1 & T2).
        exists t. rewrite Q1, T1. auto.
  Qed.
  Lemma vrep_empty : forall c0 : Z -> Z -> V, vrep empty_store (mkView (mkMat 0 [] c0 None) []).
  Proof. intros c0. split; [apply rep_empty|constructor]. Qed.
End Sel.
Arguments vrep {V}.
