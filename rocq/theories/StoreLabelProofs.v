From Coq Require Import ZArith List Bool Lia Arith.
From Verif Require Import Base ListFacts IntervalModel StoreModel StoreSpec StoreSelSpec StoreLabelSpec.
Import ListNotations.
Local Open Scope Z_scope.

Section Label.
  Variable V : Type.
  Variable is_missing : V -> bool.
  Implicit Types (s : store V).

  (** a call other than labelling keeps names and labels, except that columns may be added *)
  Definition grown s s' : Prop :=
    names s' = names s /\ n s <= n s' /\
    labels s' = firstn (Z.to_nat (n s')) (labels s) ++ repeat None (Z.to_nat (n s') - length (labels s)).
  Definition lab_inv s : Prop := 0 <= n s /\ length (labels s) = Z.to_nat (n s).

  Lemma grown_same : forall s s', lab_inv s -> names s' = names s -> n s' = n s -> labels s' = labels s -> grown s s'.
  Proof.
    intros s s' (I1 & I2) A B C. unfold grown. rewrite A, B, C. split; auto. split; [lia|].
    rewrite I2, Nat.sub_diag, <- I2, firstn_all. simpl. rewrite app_nil_r. auto.
  Qed.
  Lemma columns_grown : forall mc nc ty rm (d : Z -> V) s, lab_inv s -> grown s (snd (concat_columns mc nc ty rm d s)).
  Proof.
    intros mc nc ty rm d s I. unfold concat_columns.
    destruct (pend s); [apply grown_same; auto|]. destruct (Z.leb_spec mc 0); [apply grown_same; auto|].
    destruct (Z.leb_spec nc 0); [apply grown_same; auto|].
    destruct ((0 <? m s) && negb (m s =? mc)); [apply grown_same; auto|].
    unfold grown. simpl. split; auto. split; [lia|auto].
  Qed.
  Lemma sels_grown : forall s l, lab_inv s -> grown s (with_sels s l).
  Proof. intros s l I. apply grown_same; auto. Qed.
  Lemma scall_grown : forall c s st s', lab_inv s -> scall_store is_missing c s = Some (st, s') -> grown s s'.
  Proof.
    intros c s st s' I E. assert (SS := grown_same s s I eq_refl eq_refl eq_refl).
    destruct c as [[mc nc ty rm d|mr nr ty rm d|ty i j x]|k r c|k c|k r|k c|k r|k full]; cbn [scall_store call_store] in E.
    - injection E as E. pose proof (columns_grown mc nc ty rm d s I) as Q. rewrite E in Q. auto.
    - unfold concat_rows in E. destruct (n s <=? 0).
      { injection E as E. pose proof (columns_grown mr nr ty rm d s I) as Q. rewrite E in Q. auto. }
      destruct (mr <=? 0); [injection E as _ E; subst; auto|]. destruct (nr <=? 0); [injection E as _ E; subst; auto|].
      destruct ((0 <? n s) && (n s <? nr + (if pend s then pidx s else 0))); [injection E as _ E; subst; auto|].
      destruct (link _ _ _ _ _ _ _) as [h'|h'|]; [| |discriminate].
      + injection E as _ E. subst s'. apply grown_same; auto.
      + destruct (unlink _ _ _ _ _ _); [|discriminate]. injection E as _ E. subst s'. apply grown_same; auto.
    - unfold set_element in E. destruct (locate ty i j s) as [[st'|[b p]]|]; [| |discriminate].
      + injection E as _ E. subst; auto.
      + destruct (at_node (heap s) b); [|discriminate]. destruct (read_at (nb n) p); [|discriminate].
        injection E as _ E. subst s'. apply grown_same; auto.
    - unfold select_slice in E. destruct (pend s); [injection E as _ E; subst; auto|].
      destruct (_ || _); [injection E as _ E; subst; auto|]. destruct (sel_of k s).
      injection E as _ E. subst s'. apply sels_grown; auto.
    - unfold select_columns in E. destruct (pend s); [injection E as _ E; subst; auto|].
      destruct (negb _); [injection E as _ E; subst; auto|]. destruct (sel_of k s).
      injection E as _ E. subst s'. apply sels_grown; auto.
    - unfold select_rows in E. destruct (pend s); [injection E as _ E; subst; auto|].
      destruct (negb _); [injection E as _ E; subst; auto|]. destruct (sel_of k s).
      injection E as _ E. subst s'. apply sels_grown; auto.
    - unfold remove_columns in E. destruct (pend s); [injection E as _ E; subst; auto|].
      destruct (negb _); [injection E as _ E; subst; auto|]. destruct (sel_find k (sels s)) as [[r0 c0]|].
      + injection E as _ E. subst s'. apply sels_grown; auto.
      + injection E as _ E; subst; auto.
    - unfold remove_rows in E. destruct (pend s); [injection E as _ E; subst; auto|].
      destruct (negb _); [injection E as _ E; subst; auto|]. destruct (sel_find k (sels s)) as [[r0 c0]|].
      + injection E as _ E. subst s'. apply sels_grown; auto.
      + injection E as _ E; subst; auto.
    - unfold select_non_missing in E. destruct (pend s); [injection E as _ E; subst; auto|].
      assert (S1 : forall x : bool, exists l,
         (if x then snd (select_slice k (mkI 0 (m s - 1)) (mkI 0 (n s - 1)) s) else s) = with_sels s l).
      { assert (SID : with_sels s (sels s) = s) by (destruct s; reflexivity).
        intros [|]; [|exists (sels s); auto]. unfold select_slice. destruct (pend s); [exists (sels s); auto|].
        destruct (_ || _); [exists (sels s); auto|]. destruct (sel_of k s). eexists; reflexivity. }
      cbv zeta in E.
      destruct (S1 (match sel_find k (sels s) with Some _ => false | None => true end)) as (l & SL). rewrite SL in E.
      destruct (sel_find k (sels (with_sels s l))) as [[r0 c0]|]; [|discriminate].
      destruct (mark_sel _ _ _ _ _); [|discriminate].
      destruct (erase_runs _ _ _ _ _ _) as [rows' oob]. simpl in E. injection E as _ E. subst s'. apply grown_same; auto.
  Qed.

  Lemma set_label_len : forall l i x, length (set_label l i x) = length l.
  Proof. induction l as [|y l IH]; intros [|i] x; simpl; auto. Qed.
  Lemma set_label_nth : forall l i x j, nth_error (set_label l i x) j =
    if Nat.eqb j i then (if j <? length l then Some x else None)%nat else nth_error l j.
  Proof.
    induction l as [|y l IH]; intros [|i] x [|j]; simpl; auto.
    - destruct (j =? i)%nat; auto.
    - rewrite IH. reflexivity.
  Qed.

  (** names and labels agree with the accepted labellings [e] *)
  Record lab_rep s (e : list (str * Z)) : Prop := {
    lr_inv : lab_inv s;
    lr_names : forall x, name_find x (names s) = first_column x e;
    lr_range : forall x i, In (x, i) e -> 0 <= i < n s;
    lr_labels : forall i, 0 <= i < n s -> nth_error (labels s) (Z.to_nat i) = Some (last_label i e) }.

  Lemma last_label_none : forall i e, (forall x j, In (x, j) e -> j <> i) -> last_label i e = None.
  Proof.
    intros i e H. unfold last_label. destruct (List.find _ (rev e)) as [[x j]|] eqn:E; auto.
    apply List.find_some in E. destruct E as (E1 & E2). apply in_rev in E1. simpl in E2. apply Z.eqb_eq in E2.
    exfalso. apply (H x j E1). auto.
  Qed.
  Lemma first_snoc : forall x e y i, first_column x (e ++ [(y, i)]) =
    match first_column x e with Some j => Some j | None => if str_eqb x y then Some i else None end.
  Proof.
    intros x e y i. unfold first_column. induction e as [|[z k] e IH]; simpl.
    - destruct (str_eqb x y); auto.
    - destruct (str_eqb x z); auto.
  Qed.
  Lemma last_snoc : forall i e y j, last_label i (e ++ [(y, j)]) = if i =? j then Some y else last_label i e.
  Proof. intros i e y j. unfold last_label. rewrite rev_app_distr. simpl. destruct (i =? j); auto. Qed.

  Lemma lrep_grown : forall s s' e, lab_rep s e -> grown s s' -> lab_rep s' e.
  Proof.
    intros s s' e [(I1 & I2) N R L] (G1 & G2 & G3).
    constructor.
    - split; [lia|]. rewrite G3, app_length, firstn_length, repeat_length. lia.
    - intros x. rewrite G1. auto.
    - intros x i I. apply R in I. lia.
    - intros i RI. rewrite G3. destruct (Z_lt_ge_dec i (n s)) as [Q|Q].
      + rewrite firstn_all2 by lia. rewrite nth_error_app1 by lia. apply L. lia.
      + rewrite firstn_all2 by lia. rewrite nth_error_app2 by lia.
        rewrite (nth_error_nth' _ None) by (rewrite repeat_length; lia).
        rewrite nth_repeat. f_equal. symmetry. apply last_label_none. intros x j I E. apply R in I. lia.
  Qed.

  Lemma lrun_ok : forall hs s e sts t, lab_rep s e -> lrun_store is_missing hs s = Some (sts, t) ->
    lab_rep t (e ++ accepted hs sts).
  Proof.
    induction hs as [|c hs IH]; intros s e sts t R E; simpl in E.
    - injection E as E1 E2. subst. simpl. rewrite app_nil_r. auto.
    - destruct (lcall_store is_missing c s) as [[st s']|] eqn:C; [|discriminate].
      destruct (lrun_store is_missing hs s') as [[l t']|] eqn:E'; [|discriminate]. injection E as E1 E2. subst.
      destruct c as [c|x i]; simpl in C.
      + apply scall_grown in C; [|apply R]. simpl. eapply IH; [|exact E']. eapply lrep_grown; eauto.
      + injection C as C. unfold label_column in C.
        destruct (Z.ltb_spec i 0); [injection C as C1 C2; subst; simpl; eapply IH; eauto|].
        destruct (Z.leb_spec (n s) i); [injection C as C1 C2; subst; simpl; eapply IH; eauto|]. cbn [orb] in C.
        destruct (negb _); [injection C as C1 C2; subst; simpl; eapply IH; eauto|].
        injection C as C1 C2. subst st s'. cbn [accepted].
        replace (e ++ (x, i) :: accepted hs l) with ((e ++ [(x, i)]) ++ accepted hs l) by (rewrite <- app_assoc; auto).
        eapply IH; [|exact E']. destruct R as [(I1 & I2) N R L]. constructor.
        * split; simpl; [lia|]. rewrite set_label_len. auto.
        * intros y. cbn [names]. rewrite first_snoc, <- !N. pose proof (N x) as NX.
          destruct (name_find x (names s)) as [j|] eqn:F; cbn [name_find].
          { destruct (name_find y (names s)) eqn:FY; auto. destruct (str_eqb y x) eqn:Q; auto.
            apply str_eqb_eq in Q. subst. congruence. }
          { destruct (str_eqb y x) eqn:Q; [|destruct (name_find y (names s)); auto].
            apply str_eqb_eq in Q. subst. rewrite F. auto. }
        * intros y j I. simpl. apply in_app_or in I. destruct I as [I|[I|[]]]; [eapply R; eauto|].
          injection I as _ I. subst. lia.
        * intros j J. cbn [n labels] in *. rewrite set_label_nth, last_snoc.
          destruct (Z.eqb_spec j i).
          { subst. rewrite Nat.eqb_refl. replace (Z.to_nat i <? length (labels s))%nat with true; auto.
            symmetry. apply Nat.ltb_lt. lia. }
          { replace (Z.to_nat j =? Z.to_nat i)%nat with false; [apply L; auto|].
            symmetry. apply Nat.eqb_neq. lia. }
  Qed.
  Lemma lrep_empty : lab_rep empty_store [].
  Proof.
    constructor.
    - split; simpl; [lia|auto].
    - intros x. auto.
    - intros x i [].
    - intros i J. simpl in J. lia.
  Qed.

  Lemma labels_ok : forall hs sts t, lrun_store is_missing hs empty_store = Some (sts, t) ->
    (forall x, get_col_idx x t = match first_column x (accepted hs sts) with
                                 | Some i => (st_success, Some i)
                                 | None => (st_invalid_input, None)
                                 end)
    /\ (forall i, get_col_label i t = Some (if (0 <=? i) && (i <? n t)
                                            then (st_success, match last_label i (accepted hs sts) with
                                                              | Some x => x | None => [] end)
                                            else (st_invalid_input, []))).
  Proof.
    intros hs sts t E. destruct (lrun_ok hs empty_store [] sts t lrep_empty E) as [I N R L]. simpl in *. split.
    - intros x. unfold get_col_idx. rewrite N. auto.
    - intros i. unfold get_col_label.
      destruct (Z.ltb_spec i 0); destruct (Z.leb_spec 0 i); try lia; auto. cbn [orb andb].
      destruct (Z.leb_spec (n t) i); destruct (Z.ltb_spec i (n t)); try lia; auto.
      rewrite L by lia. destruct (last_label i (accepted hs sts)); auto.
  Qed.
  Lemma once_first : forall x i e, In (x, i) e -> (forall j, In (x, j) e -> j = i) -> first_column x e = Some i.
  Proof.
    intros x i e I H. unfold first_column. destruct (List.find _ e) as [[y j]|] eqn:E.
    - apply List.find_some in E. destruct E as (E1 & E2). simpl in *. apply str_eqb_eq in E2. subst y.
      simpl. f_equal. auto.
    - exfalso. apply (List.find_none _ _ E) in I. simpl in I. rewrite str_eqb_refl in I. discriminate.
  Qed.
  Lemma last_is : forall x i e1 e2, (forall y j, In (y, j) e2 -> j <> i) -> last_label i (e1 ++ (x, i) :: e2) = Some x.
  Proof.
    intros x i e1 e2. induction e2 as [|[y j] e2 IH] using rev_ind; intros H.
    - rewrite last_snoc, Z.eqb_refl. auto.
    - rewrite app_comm_cons, app_assoc, last_snoc. destruct (Z.eqb_spec i j).
      + subst. exfalso. apply (H y j); auto. apply in_or_app. right. left. auto.
      + apply IH. intros y' j' I. apply (H y' j'). apply in_or_app. auto.
  Qed.
  (** the property: a label given to one column only *)
  Lemma label_found : forall hs sts t x i e1 e2, lrun_store is_missing hs empty_store = Some (sts, t) ->
    accepted hs sts = e1 ++ (x, i) :: e2 ->
    (forall j, In (x, j) (accepted hs sts) -> j = i) -> (forall y j, In (y, j) e2 -> j <> i) ->
    get_col_idx x t = (st_success, Some i) /\ get_col_label i t = Some (st_success, x).
  Proof.
    intros hs sts t x i e1 e2 E A O L. destruct (labels_ok hs sts t E) as (Q1 & Q2).
    destruct (lrun_ok hs empty_store [] sts t lrep_empty E) as [I N R LB]. simpl in R. split.
    - rewrite Q1, (once_first x i); auto. rewrite A. apply in_or_app. right. left. auto.
    - rewrite Q2. assert (RI : 0 <= i < n t) by (apply (R x); rewrite A; apply in_or_app; right; left; auto).
      rewrite A, last_is by auto. destruct (Z.leb_spec 0 i), (Z.ltb_spec i (n t)); auto; lia.
  Qed.
End Label.
