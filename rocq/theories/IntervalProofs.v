From Coq Require Import ZArith List Bool Lia Sorted.
From Verif Require Import IntervalModel IntervalSpec.
Import ListNotations.
Local Open Scope Z_scope.

Definition lt_gap (a b : interval) : Prop := upper a + 1 < lower b.

Record wf (s : iset) : Prop := mkwf {
  wf_sorted : StronglySorted lt_gap s;
  wf_valid : Forall (fun a => lower a <= upper a) s }.

Definition mem (s : iset) (k : Z) : Prop := exists i, In i s /\ lower i <= k <= upper i.

Lemma ieqb_refl a : ieqb a a = true.
Proof. unfold ieqb. rewrite !Z.eqb_refl. reflexivity. Qed.

Lemma ieqb_eq a b : ieqb a b = true <-> a = b.
Proof.
  unfold ieqb. rewrite andb_true_iff, !Z.eqb_eq. destruct a, b; simpl. split.
  - intros [-> ->]; reflexivity.
  - intros H; inversion H; auto.
Qed.

Lemma oeqb_eq a b : oeqb a b = true <-> a = b.
Proof.
  destruct a, b; simpl; try (split; congruence).
  rewrite ieqb_eq. split; congruence.
Qed.

Lemma ss_app (l1 l2 : iset) :
  StronglySorted lt_gap (l1 ++ l2) <->
  StronglySorted lt_gap l1 /\ StronglySorted lt_gap l2 /\
  (forall a b, In a l1 -> In b l2 -> lt_gap a b).
Proof.
  induction l1 as [|x l1 IH]; simpl.
  - split; [intros; repeat split; auto; try constructor; tauto | tauto].
  - split.
    + intros H. inversion H as [|? ? H1 H2]; subst. apply IH in H1 as (A & B & C).
      rewrite Forall_app in H2. destruct H2 as [H2 H3]. repeat split; auto.
      * constructor; auto.
      * intros a b [->|Ha] Hb; auto. rewrite Forall_forall in H3; auto.
    + intros (H1 & H2 & H3). inversion H1; subst. constructor.
      * apply IH; repeat split; auto.
      * rewrite Forall_app; split; auto. rewrite Forall_forall. auto.
Qed.

Lemma ss_cons x (l : iset) :
  StronglySorted lt_gap (x :: l) <->
  StronglySorted lt_gap l /\ (forall b, In b l -> lt_gap x b).
Proof.
  split.
  - intros H; inversion H; subst. rewrite Forall_forall in *. auto.
  - intros [A B]; constructor; auto. rewrite Forall_forall; auto.
Qed.

(** Characterisation of the search. *)
Inductive search_shape (lb ub : Z) (s : iset) : option interval -> option interval -> Prop :=
| ss_none pre suf :
    s = pre ++ suf ->
    (forall a, In a pre -> upper a < ub) ->
    (forall a, hd_error suf = Some a -> ub <= upper a) ->
    (forall a, In a s -> lb < lower a) ->
    search_shape lb ub s None (hd_error suf)
| ss_low pre x mid suf :
    s = pre ++ x :: mid ++ suf ->
    (forall a, In a pre -> upper a < ub) ->
    upper x < ub -> lower x <= lb ->
    (forall a, In a mid -> upper a < ub) ->
    (forall a, hd_error suf = Some a -> ub <= upper a) ->
    (forall a, In a (mid ++ suf) -> lb < lower a) ->
    search_shape lb ub s (Some x) (hd_error suf)
| ss_same pre x suf :
    s = pre ++ x :: suf ->
    (forall a, In a pre -> upper a < ub) ->
    ub <= upper x -> lower x <= lb ->
    search_shape lb ub s (Some x) (Some x).

Lemma wf_app s1 s2 : wf (s1 ++ s2) -> wf s1 /\ wf s2.
Proof.
  intros [A B]. apply ss_app in A as (A1 & A2 & _). apply Forall_app in B as [B1 B2].
  split; constructor; auto.
Qed.

Lemma wf_cons_inv x s : wf (x :: s) ->
  wf s /\ lower x <= upper x /\ (forall b, In b s -> lt_gap x b /\ lower b <= upper b).
Proof.
  intros [A B]. apply ss_cons in A as [A1 A2]. inversion B; subst.
  rewrite Forall_forall in *. split; [constructor; auto; rewrite Forall_forall; auto|].
  split; auto.
Qed.

Lemma wf_all_low x s lb : wf (x :: s) -> lb < lower x -> forall a, In a (x :: s) -> lb < lower a.
Proof.
  intros H L a [->|Ha]; auto. apply wf_cons_inv in H as (_ & H1 & H2).
  apply H2 in Ha as [G _]. unfold lt_gap in G. lia.
Qed.


Lemma search_loop_shape lb ub :
  forall suf il su il',
    search_loop lb ub suf il = (su, il') ->
    exists pre, suf = pre ++ su /\
      (forall a, In a pre -> upper a < ub) /\
      (forall a, hd_error su = Some a -> ub <= upper a) /\
      ((il' = il /\ forall a, In a (tl (pre ++ firstn 1 su)) -> lb < lower a) \/
       (exists y, il' = Some y /\ lower y <= lb /\
          ((exists r, su = y :: r) \/
           (exists p m, pre = p ++ y :: m /\ forall a, In a (m ++ firstn 1 su) -> lb < lower a)))).
Proof.
  induction suf as [|x r IH]; intros il su il' H; simpl in H.
  - inversion H; subst. exists []. simpl. repeat split; try tauto; try discriminate.
  - destruct (upper x <? ub) eqn:E.
    + apply IH in H as (pre & H1 & H2 & H3 & H4).
      exists (x :: pre). subst r. split; [reflexivity|]. split.
      { intros a [->|Ha]; auto. lia. }
      split; [exact H3|].
      destruct H4 as [[H4 H5]|(y & H4 & H5 & H6)].
      * destruct (pre ++ su) as [|y q] eqn:Ep.
        { left. split; auto. simpl. destruct pre; [|discriminate]. simpl in Ep. subst su.
          simpl. tauto. }
        destruct (lower y <=? lb) eqn:Ey.
        -- right. exists y. split; [congruence|]. split; [lia|].
           destruct pre as [|z pre].
           ++ simpl in Ep. left. eauto.
           ++ simpl in Ep. inversion Ep; subst. right. exists [x], pre. split; [reflexivity|].
              simpl in H5. exact H5.
        -- left. split; [congruence|]. simpl.
           intros a Ha.
           destruct pre as [|z pre]; simpl in Ep.
           ++ subst su. simpl in Ha. destruct Ha as [->|[]]. lia.
           ++ inversion Ep; subst. simpl in Ha, H5. destruct Ha as [->|Ha]; [lia|auto].
      * right. exists y. split; auto. split; auto.
        destruct H6 as [H6|(p & m & -> & H6)]; [left; auto|].
        right. exists (x :: p), m. auto.
    + inversion H; subst. exists []. split; [reflexivity|]. split; [simpl; tauto|]. split.
      * intros a Ha. inversion Ha; subst. lia.
      * left. split; auto. simpl. tauto.
Qed.

Lemma low_rest lb m su : wf (m ++ su) ->
  (forall a, In a (m ++ firstn 1 su) -> lb < lower a) ->
  forall a, In a (m ++ su) -> lb < lower a.
Proof.
  intros W H a Ha. apply in_app_iff in Ha as [Ha|Ha].
  - apply H, in_app_iff; auto.
  - destruct su as [|y su]; [destruct Ha|].
    apply wf_app in W as [_ W]. eapply wf_all_low; eauto.
    apply H, in_app_iff. simpl. auto.
Qed.

Lemma search_shape_ok lb ub s il iu :
  wf s -> search lb ub s = (il, iu) -> search_shape lb ub s il iu.
Proof.
  intros W H. unfold search in H.
  destruct (search_loop lb ub s (hd_error s)) as [su il'] eqn:E.
  apply search_loop_shape in E as (pre & Hs & H2 & H3 & H4).
  inversion H; subst il iu; clear H.
  destruct H4 as [[-> H4]|(y & -> & H5 & H6)].
  - destruct s as [|h t].
    + simpl. apply (ss_none lb ub [] pre su); auto. simpl; tauto.
    + simpl. destruct (lb <? lower h) eqn:L.
      * apply (ss_none lb ub _ pre su); auto. apply wf_all_low; auto. lia.
      * destruct pre as [|z pre]; simpl in Hs.
        -- subst su. simpl. apply (ss_same lb ub _ [] h t); simpl; auto; try tauto; try lia.
        -- inversion Hs; subst z t. simpl in H4.
           apply (ss_low lb ub _ [] h pre su);
             [reflexivity | simpl; tauto | apply H2; simpl; auto | lia
             | intros; apply H2; simpl; auto | exact H3 | ].
           apply low_rest; auto. change (wf ((h :: pre) ++ su)) in W.
           rewrite <- app_comm_cons in W. apply wf_cons_inv in W. tauto.
  - replace (lb <? lower y) with false by lia.
    destruct H6 as [(r & ->)|(p & m & -> & H6)].
    + simpl. apply (ss_same lb ub _ pre y r); auto.
    + rewrite <- app_assoc in Hs. simpl in Hs.
      apply (ss_low lb ub _ p y m su); auto.
      * intros; apply H2, in_app_iff; auto.
      * apply H2, in_app_iff; simpl; auto.
      * intros; apply H2, in_app_iff; simpl; auto.
      * apply low_rest; auto. subst s. apply wf_app in W as [_ W].
        apply wf_cons_inv in W. tauto.
Qed.

(** Set primitives at a known position. *)
Lemma ieqb_neq a b : a <> b -> ieqb a b = false.
Proof. intros H. destruct (ieqb a b) eqn:E; auto. apply ieqb_eq in E. contradiction. Qed.

Lemma erase_until_none suf pre : (forall a, In a pre -> Some a <> hd_error suf) ->
  erase_until (hd_error suf) (pre ++ suf) = suf.
Proof.
  induction pre as [|x pre IH]; intros H.
  - simpl. destruct suf; simpl; auto. rewrite ieqb_refl. reflexivity.
  - cbn [app erase_until]. destruct (oeqb (Some x) (hd_error suf)) eqn:E.
    + apply oeqb_eq in E. exfalso. apply (H x); simpl; auto.
    + apply IH. intros; apply H; simpl; auto.
Qed.

Lemma erase_after_at x stop : forall pre t, ~ In x pre ->
  erase_after x stop (pre ++ x :: t) = pre ++ x :: erase_until stop t.
Proof.
  induction pre as [|y pre IH]; intros t H; simpl.
  - rewrite ieqb_refl. reflexivity.
  - rewrite ieqb_neq; [|intros ->; apply H; simpl; auto].
    rewrite IH; auto. intro; apply H; simpl; auto.
Qed.

Lemma set_erase_at x : forall pre t, ~ In x pre -> set_erase x (pre ++ x :: t) = pre ++ t.
Proof.
  induction pre as [|y pre IH]; intros t H; simpl.
  - rewrite ieqb_refl. reflexivity.
  - rewrite ieqb_neq; [|intros ->; apply H; simpl; auto].
    rewrite IH; auto. intro; apply H; simpl; auto.
Qed.

Lemma set_insert_at x : forall pre t,
  (forall a, In a pre -> lower a < lower x) ->
  (forall a, hd_error t = Some a -> lower x < lower a) ->
  set_insert x (pre ++ t) = pre ++ x :: t.
Proof.
  induction pre as [|y pre IH]; intros t H1 H2; simpl.
  - destruct t as [|b t]; simpl; auto. specialize (H2 b eq_refl).
    unfold iltb. replace (lower x =? lower b) with false by lia.
    replace (lower x <? lower b) with true by lia. reflexivity.
  - assert (lower y < lower x) by (apply H1; simpl; auto).
    unfold iltb. replace (lower x =? lower y) with false by lia.
    replace (lower x <? lower y) with false by lia.
    replace (lower y =? lower x) with false by lia.
    replace (lower y <? lower x) with true by lia.
    rewrite IH; auto. intros; apply H1; simpl; auto.
Qed.

Lemma wf_intro3 pre t :
  wf pre -> wf t -> (forall a b, In a pre -> In b t -> lt_gap a b) -> wf (pre ++ t).
Proof.
  intros [A B] [C D] E. constructor.
  - apply ss_app; auto.
  - apply Forall_app; auto.
Qed.

Lemma wf_cons x t : lower x <= upper x -> wf t -> (forall b, In b t -> lt_gap x b) -> wf (x :: t).
Proof.
  intros A [B C] D. constructor; auto. apply ss_cons; auto.
Qed.

Lemma wf_app_iff pre t :
  wf (pre ++ t) <-> wf pre /\ wf t /\ (forall a b, In a pre -> In b t -> lt_gap a b).
Proof.
  split.
  - intros W. destruct (wf_app _ _ W). repeat split; try apply H; try apply H0.
    destruct W as [A _]. apply ss_app in A. tauto.
  - intros (A & B & C). apply wf_intro3; auto.
Qed.

Lemma wf_cons_iff x t :
  wf (x :: t) <-> lower x <= upper x /\ wf t /\ (forall b, In b t -> lt_gap x b).
Proof.
  split.
  - intros W. apply wf_cons_inv in W as (A & B & C). repeat split; auto; try apply A.
    intros b Hb. apply C in Hb. tauto.
  - intros (A & B & C). apply wf_cons; auto.
Qed.

Lemma wf_in s a : wf s -> In a s -> lower a <= upper a.
Proof. intros [_ B] H. rewrite Forall_forall in B. auto. Qed.

Lemma wf_nil : wf [].
Proof. constructor; constructor. Qed.

Lemma mem_app s t k : mem (s ++ t) k <-> mem s k \/ mem t k.
Proof.
  unfold mem. split.
  - intros (i & H & H1). apply in_app_iff in H as [H|H]; eauto.
  - intros [(i & H & H1)|(i & H & H1)]; exists i; rewrite in_app_iff; auto.
Qed.

Lemma mem_cons x t k : mem (x :: t) k <-> (lower x <= k <= upper x) \/ mem t k.
Proof.
  unfold mem. split.
  - intros (i & [->|H] & H1); eauto.
  - intros [H|(i & H & H1)]; [exists x|exists i]; simpl; auto.
Qed.

Lemma mem_nil k : mem [] k <-> False.
Proof. unfold mem. split; [intros (i & [] & _)|tauto]. Qed.

Lemma mem_range s k lb ub :
  (forall a, In a s -> lb < lower a) -> (forall a, In a s -> upper a < ub) ->
  mem s k -> lb <= k <= ub.
Proof. intros H1 H2 (i & Hi & H). apply H1 in Hi as ?. apply H2 in Hi. lia. Qed.

Ltac memsolve := intros k; repeat (rewrite mem_app || rewrite mem_cons || rewrite mem_nil); simpl.

Lemma insert_ok b s st s' :
  wf s -> lower b <= upper b -> insert b s = (st, s') ->
  st = success /\ wf s' /\ forall k, mem s' k <-> mem s k \/ lower b <= k <= upper b.
Proof.
  intros W Hb H. unfold insert in H. destruct b as [lb ub]; simpl in *.
  replace (ub <? lb) with false in H by lia.
  destruct (search lb ub s) as [il iu] eqn:E.
  apply search_shape_ok in E; auto.
  destruct E as [pre suf Hs Hp Hh Hl | pre x mid suf Hs Hp Hx Hxl Hm Hh Hl | pre x suf Hs Hp Hx Hxl].
  - (* no interval starts at or before lb *)
    assert (EB : erase_between None (hd_error suf) s = suf).
    { simpl. rewrite Hs. apply erase_until_none. intros a Ha Heq.
      symmetry in Heq. apply Hh in Heq. apply Hp in Ha. lia. }
    assert (Wsuf : wf suf) by (rewrite Hs in W; apply wf_app in W; tauto).
    assert (Mpre : forall k, mem pre k -> lb <= k <= ub).
    { intros k. apply mem_range; auto. intros; apply Hl. rewrite Hs, in_app_iff. auto. }
    destruct suf as [|y r].
    + simpl hd_error in *. cbv beta iota delta [covers orb] in H.
      rewrite EB in H. inversion H. subst st s'. split; auto. split.
      { simpl. apply wf_cons; simpl; auto. tauto. }
      rewrite Hs. memsolve. specialize (Mpre k). intuition lia.
    + simpl hd_error in *.
      assert (lb < lower y) by (apply Hl; rewrite Hs, in_app_iff; simpl; auto).
      specialize (Hh y eq_refl).
      unfold covers in H. replace (lower y <=? lb) with false in H by lia. simpl orb in H.
      cbv iota in H. rewrite EB in H.
      apply wf_cons_iff in Wsuf as (Wy & Wr & Wyr).
      destruct (lower y <=? ub + 1) eqn:Em.
      * replace (y :: r) with ([] ++ y :: r) in H by reflexivity.
        rewrite set_erase_at in H by (simpl; tauto). simpl app in H.
        replace r with ([] ++ r) in H by reflexivity.
        rewrite set_insert_at in H; cycle 1.
        { simpl; tauto. }
        { intros a Ha. simpl. destruct r; inversion Ha; subst.
          assert (lt_gap y a) by (apply Wyr; simpl; auto). unfold lt_gap in *. lia. }
        inversion H. subst st s'. split; auto. split.
        { simpl. apply wf_cons; simpl; auto; try lia. }
        rewrite Hs. memsolve. specialize (Mpre k). intuition lia.
      * replace (y :: r) with ([] ++ y :: r) in H by reflexivity.
        rewrite set_insert_at in H; cycle 1.
        { simpl; tauto. }
        { intros a Ha. inversion Ha; subst. simpl. lia. }
        inversion H. subst st s'. split; auto. split.
        { simpl. apply wf_cons; simpl; auto; try lia. apply wf_cons; auto.
          intros c [->|Hc]; [unfold lt_gap; simpl; lia|].
          apply Wyr in Hc. unfold lt_gap in *. simpl. lia. }
        rewrite Hs. memsolve. specialize (Mpre k). intuition lia.
  - (* it_lower = x strictly before it_upper *)
    assert (W0 := W). rewrite Hs in W0.
    apply wf_app_iff in W0 as (Wpre & Wt & Wpt).
    apply wf_cons_iff in Wt as (Wx & Wms & Wxms).
    assert (Wms' := Wms). apply wf_app_iff in Wms' as (Wm & Wsuf & Wmsuf).
    assert (Nx : ~ In x pre).
    { intros Hin. specialize (Wpt x x Hin (or_introl eq_refl)). unfold lt_gap in Wpt. lia. }
    assert (EB : erase_between (Some x) (hd_error suf) s = pre ++ x :: suf).
    { simpl. rewrite Hs. rewrite erase_after_at; auto. rewrite erase_until_none; auto.
      intros a Ha Heq. symmetry in Heq. apply Hh in Heq. apply Hm in Ha. lia. }
    assert (Mmid : forall k, mem mid k -> lb <= k <= ub).
    { intros k. apply mem_range; auto. intros; apply Hl. rewrite in_app_iff. auto. }
    assert (Wps : forall a b, In a pre -> In b suf -> lt_gap a b).
    { intros; apply Wpt; auto. simpl. rewrite in_app_iff. auto. }
    assert (Wxs : forall b, In b suf -> lt_gap x b).
    { intros; apply Wxms. rewrite in_app_iff; auto. }
    assert (Wpx : forall a, In a pre -> lt_gap a x).
    { intros; apply Wpt; simpl; auto. }
    assert (Plow : forall a, In a pre -> lower a < lower x).
    { intros a Ha. assert (L := wf_in _ _ Wpre Ha). apply Wpx in Ha. unfold lt_gap in Ha. lia. }
    assert (C1 : covers (Some x) lb ub = false).
    { unfold covers. replace (ub <=? upper x) with false by lia. apply andb_false_r. }
    assert (C2 : covers (hd_error suf) lb ub = false).
    { unfold covers. destruct suf as [|y r]; simpl; auto.
      assert (lb < lower y) by (apply Hl; rewrite in_app_iff; simpl; auto).
      replace (lower y <=? lb) with false by lia. reflexivity. }
    rewrite C1, C2 in H. cbv beta iota delta [orb] in H. rewrite EB in H.
    destruct (lb - 1 <=? upper x) eqn:Em1.
    + rewrite set_erase_at in H by auto.
      destruct suf as [|y r]; simpl hd_error in H; cbv iota beta in H.
      * rewrite set_insert_at in H; cycle 1. { simpl; auto. } { intros ? Hd; discriminate Hd. }
        inversion H; subst st s'. split; auto. split.
        { apply wf_app_iff. split; auto. split.
          - apply wf_cons; simpl; auto; try lia; tauto.
          - intros a b Ha [<-|[]]. apply Wpx in Ha. exact Ha. }
        rewrite Hs. memsolve. specialize (Mmid k). intuition lia.
      * assert (lb < lower y) by (apply Hl; rewrite in_app_iff; simpl; auto).
        specialize (Hh y eq_refl).
        apply wf_cons_iff in Wsuf as (Wy & Wr & Wyr).
        assert (Wpr : forall a b, In a pre -> In b r -> lt_gap a b).
        { intros; apply Wps; simpl; auto. }
        assert (Lxy : upper x + 1 < lower y) by (apply Wxs; simpl; auto).
        assert (Wxr : forall b, In b r -> lt_gap x b).
        { intros; apply Wxs; simpl; auto. }
        assert (Ny : ~ In y pre).
        { intros Hin. assert (lt_gap y y) by (apply Wps; simpl; auto). unfold lt_gap in *. lia. }
        destruct (lower y <=? ub + 1) eqn:Em.
        -- rewrite set_erase_at in H by auto.
           rewrite set_insert_at in H; cycle 1. { simpl; auto. }
           { intros a Ha. simpl. destruct r; inversion Ha; subst.
             assert (lt_gap x a) by (apply Wxr; simpl; auto). unfold lt_gap in *. lia. }
           inversion H; subst st s'. split; auto. split.
           { apply wf_app_iff. split; auto. split.
             - apply wf_cons; simpl; auto; try lia. 
             - intros a b Ha [<-|Hb']; auto. apply Wpx in Ha. exact Ha. }
           rewrite Hs. memsolve. specialize (Mmid k). intuition lia.
        -- rewrite set_insert_at in H; cycle 1. { simpl; auto. }
           { intros a Ha. inversion Ha; subst. simpl. lia. }
           inversion H; subst st s'. split; auto. split.
           { apply wf_app_iff. split; auto. split.
             - apply wf_cons; simpl; auto; try lia.
               + apply wf_cons; auto.
               + intros c [<-|Hc]; [unfold lt_gap; simpl; lia|].
                 apply Wyr in Hc. unfold lt_gap in *. simpl. lia.
             - intros a b Ha [<-|Hb']; auto. apply Wpx in Ha. exact Ha. }
           rewrite Hs. memsolve. specialize (Mmid k). intuition lia.
    + replace (pre ++ x :: suf) with ((pre ++ [x]) ++ suf) in H
        by (rewrite <- app_assoc; reflexivity).
      assert (Plow' : forall a, In a (pre ++ [x]) -> upper a + 1 < lb).
      { intros a Ha. apply in_app_iff in Ha as [Ha|[->|[]]]; [|lia].
        apply Wpx in Ha. unfold lt_gap in Ha. lia. }
      assert (Wpx1 : wf (pre ++ [x])).
      { apply wf_app_iff. split; auto. split.
        - apply wf_cons; auto. apply wf_nil. simpl; tauto.
        - intros a b Ha [<-|[]]; auto. }
      assert (Pl2 : forall a, In a (pre ++ [x]) -> lower a < lb).
      { intros a Ha. assert (lower a <= upper a) by (eapply wf_in; eauto).
        apply Plow' in Ha. lia. }
      destruct suf as [|y r]; simpl hd_error in H; cbv iota beta in H.
      * rewrite set_insert_at in H; cycle 1. { simpl; auto. } { intros ? Hd; discriminate Hd. }
        inversion H; subst st s'. split; auto. split.
        { apply wf_app_iff. split; auto. split.
          - apply wf_cons; simpl; auto; try lia; tauto.
          - intros a b Ha [<-|[]]. apply Plow' in Ha. exact Ha. }
        rewrite Hs. memsolve. specialize (Mmid k). intuition lia.
      * assert (lb < lower y) by (apply Hl; rewrite in_app_iff; simpl; auto).
        specialize (Hh y eq_refl).
        apply wf_cons_iff in Wsuf as (Wy & Wr & Wyr).
        assert (Ny : ~ In y (pre ++ [x])).
        { intros Hin. apply Plow' in Hin. lia. }
        destruct (lower y <=? ub + 1) eqn:Em.
        -- rewrite set_erase_at in H by auto.
           rewrite set_insert_at in H; cycle 1. { simpl; auto. }
           { intros a Ha. simpl. destruct r; inversion Ha; subst.
             assert (lt_gap y a) by (apply Wyr; simpl; auto). unfold lt_gap in *. lia. }
           inversion H; subst st s'. split; auto. split.
           { apply wf_app_iff. split; auto. split.
             - apply wf_cons; simpl; auto; try lia. 
             - intros a b Ha [<-|Hb'].
               + apply Plow' in Ha. exact Ha.
               + apply Plow' in Ha. apply Wyr in Hb'. unfold lt_gap in *. lia. }
           rewrite Hs. memsolve. specialize (Mmid k). intuition lia.
        -- rewrite set_insert_at in H; cycle 1. { simpl; auto. }
           { intros a Ha. inversion Ha; subst. simpl. lia. }
           inversion H; subst st s'. split; auto. split.
           { apply wf_app_iff. split; auto. split.
             - apply wf_cons; simpl; auto; try lia.
               + apply wf_cons; auto.
               + intros c [<-|Hc]; [unfold lt_gap; simpl; lia|].
                 apply Wyr in Hc. unfold lt_gap in *. simpl. lia.
             - intros a b Ha [<-|[<-|Hb']].
               + apply Plow' in Ha. exact Ha.
               + apply Plow' in Ha. unfold lt_gap. lia.
               + apply Plow' in Ha. apply Wyr in Hb'. unfold lt_gap in *. lia. }
           rewrite Hs. memsolve. specialize (Mmid k). intuition lia.
  - assert (C1 : covers (Some x) lb ub = true).
    { unfold covers. rewrite andb_true_iff. lia. }
    rewrite C1 in H. simpl in H. inversion H; subst st s'. split; auto. split; auto.
    rewrite Hs. memsolve. intuition lia.
Qed.

Lemma wf_replace pre x suf ps :
  wf (pre ++ x :: suf) -> wf ps ->
  (forall p, In p ps -> lower x <= lower p /\ upper p <= upper x) ->
  wf (pre ++ ps ++ suf).
Proof.
  intros W Wp Hp. apply wf_app_iff in W as (A & B & C). apply wf_cons_iff in B as (B1 & B2 & B3).
  apply wf_app_iff. split; auto. split.
  - apply wf_app_iff. split; auto. split; auto.
    intros a b Ha Hb. apply Hp in Ha. apply B3 in Hb. unfold lt_gap in *. lia.
  - intros a b Ha Hb. apply in_app_iff in Hb as [Hb|Hb].
    + apply Hp in Hb. specialize (C a x Ha (or_introl eq_refl)). unfold lt_gap in *. lia.
    + apply C; simpl; auto.
Qed.

Lemma trim_ok lb ub pre x suf :
  wf (pre ++ x :: suf) -> lb <= ub -> lb <= upper x -> lower x <= ub ->
  exists ps, trim lb ub x (pre ++ x :: suf) = pre ++ ps ++ suf /\ wf (pre ++ ps ++ suf) /\
    (forall p, In p ps -> lower x <= lower p /\ upper p <= upper x) /\
    (forall k, mem ps k <-> lower x <= k <= upper x /\ ~ (lb <= k <= ub)).
Proof.
  intros W Hb H1 H2.
  exists ((if lower x + 1 <=? lb then [mkI (lower x) (lb - 1)] else []) ++
          (if ub <=? upper x - 1 then [mkI (ub + 1) (upper x)] else [])).
  assert (W0 := W).
  apply wf_app_iff in W as (A & B & C). apply wf_cons_iff in B as (B1 & B2 & B3).
  assert (Nx : ~ In x pre).
  { intros Hin. specialize (C x x Hin (or_introl eq_refl)). unfold lt_gap in C. lia. }
  assert (Pl : forall a, In a pre -> lower a < lower x).
  { intros a Ha. assert (L := wf_in _ _ A Ha). specialize (C a x Ha (or_introl eq_refl)).
    unfold lt_gap in C. lia. }
  assert (Sl : forall a, hd_error suf = Some a -> upper x + 1 < lower a).
  { intros a Ha. destruct suf; inversion Ha; subst. apply B3; simpl; auto. }
  unfold trim. rewrite set_erase_at by auto.
  assert (EQ : (let s := pre ++ suf in
    let s := if lower x + 1 <=? lb then set_insert (mkI (lower x) (lb - 1)) s else s in
    if ub <=? upper x - 1 then set_insert (mkI (ub + 1) (upper x)) s else s) =
    pre ++ ((if lower x + 1 <=? lb then [mkI (lower x) (lb - 1)] else []) ++
          (if ub <=? upper x - 1 then [mkI (ub + 1) (upper x)] else [])) ++ suf).
  { destruct (lower x + 1 <=? lb) eqn:E1; cbv zeta.
    - rewrite set_insert_at; simpl; auto.
      2:{ intros a Ha. apply Sl in Ha. lia. }
      destruct (ub <=? upper x - 1) eqn:E2; simpl; auto.
      replace (pre ++ mkI (lower x) (lb - 1) :: suf)
        with ((pre ++ [mkI (lower x) (lb - 1)]) ++ suf) by (rewrite <- app_assoc; reflexivity).
      rewrite set_insert_at; simpl; auto.
      + rewrite <- app_assoc. reflexivity.
      + intros a Ha. apply in_app_iff in Ha as [Ha|[<-|[]]]; simpl; try lia.
        apply Pl in Ha. lia.
      + intros a Ha. apply Sl in Ha. lia.
    - destruct (ub <=? upper x - 1) eqn:E2; simpl; auto.
      rewrite set_insert_at; simpl; auto.
      + intros a Ha. apply Pl in Ha. lia.
      + intros a Ha. apply Sl in Ha. lia. }
  split; [exact EQ|].
  assert (Hp : forall p, In p ((if lower x + 1 <=? lb then [mkI (lower x) (lb - 1)] else []) ++
          (if ub <=? upper x - 1 then [mkI (ub + 1) (upper x)] else [])) ->
          lower x <= lower p /\ upper p <= upper x).
  { intros p Hp. destruct (lower x + 1 <=? lb) eqn:E1, (ub <=? upper x - 1) eqn:E2; simpl in Hp;
      repeat destruct Hp as [<-|Hp]; simpl; try lia; tauto. }
  split; [|split]; auto.
  - apply (wf_replace pre x); auto.
    destruct (lower x + 1 <=? lb) eqn:E1, (ub <=? upper x - 1) eqn:E2; simpl;
      repeat (apply wf_cons; simpl; try lia); try apply wf_nil; simpl; try tauto.
    intros b [<-|[]]. unfold lt_gap. simpl. lia.
  - intros k. destruct (lower x + 1 <=? lb) eqn:E1, (ub <=? upper x - 1) eqn:E2; simpl;
      repeat (rewrite mem_cons || rewrite mem_nil); simpl; lia.
Qed.

Lemma erase_noop b s :
  lower b <= upper b -> wf s ->
  (forall a, In a s -> lower b < lower a) -> (forall a, In a s -> upper a < upper b) ->
  erase b s = (success, s).
Proof.
  intros Hb W H1 H2. unfold erase. destruct b as [lb ub]; simpl in *.
  replace (ub <? lb) with false by lia.
  destruct (search lb ub s) as [il iu] eqn:E.
  apply search_shape_ok in E; auto.
  destruct E as [pre suf Hs Hp Hh Hl | pre x mid suf Hs Hp Hx Hxl Hm Hh Hl | pre x suf Hs Hp Hx Hxl].
  - destruct suf as [|y r]; [simpl; auto|].
    specialize (Hh y eq_refl). assert (upper y < ub).
    { apply H2. rewrite Hs, in_app_iff. simpl. auto. } lia.
  - assert (lb < lower x) by (apply H1; rewrite Hs, in_app_iff; simpl; auto). lia.
  - assert (lb < lower x) by (apply H1; rewrite Hs, in_app_iff; simpl; auto). lia.
Qed.

Lemma erase_ok b s st s' :
  wf s -> lower b <= upper b ->
  (exists a, In a s /\ (lower a <= lower b \/ upper b <= upper a)) ->
  erase b s = (st, s') ->
  st = success /\ wf s' /\ forall k, mem s' k <-> mem s k /\ ~ (lower b <= k <= upper b).
Proof.
  intros W Hb Hg H. unfold erase in H. destruct b as [lb ub]; simpl in *.
  replace (ub <? lb) with false in H by lia.
  destruct (search lb ub s) as [il iu] eqn:E.
  apply search_shape_ok in E; auto.
  destruct E as [pre suf Hs Hp Hh Hl | pre x mid suf Hs Hp Hx Hxl Hm Hh Hl | pre x suf Hs Hp Hx Hxl].
  - destruct suf as [|y r].
    { exfalso. destruct Hg as (a & Ha & Hg). rewrite app_nil_r in Hs. subst pre.
      apply Hl in Ha as ?. apply Hp in Ha. lia. }
    simpl hd_error in *. simpl oeqb in H. cbv iota in H.
    assert (EB : erase_between None (Some y) s = y :: r).
    { simpl. rewrite Hs. apply (erase_until_none (y :: r)). intros a Ha Heq.
      symmetry in Heq. apply Hh in Heq. apply Hp in Ha. lia. }
    rewrite EB in H. specialize (Hh y eq_refl).
    assert (Wsuf : wf (y :: r)) by (rewrite Hs in W; apply wf_app in W; tauto).
    assert (Mpre : forall k, mem pre k -> lb <= k <= ub).
    { intros k. apply mem_range; auto. intros; apply Hl. rewrite Hs, in_app_iff. auto. }
    assert (Mr : forall k, mem r k -> ub < k).
    { intros k (i & Hi & Hk). apply wf_cons_iff in Wsuf as (_ & _ & G). apply G in Hi.
      unfold lt_gap in Hi. lia. }
    simpl negb in H. cbv beta in H. simpl andb in H.
    destruct (lower y <=? ub) eqn:El; inversion H; subst st s'; clear H.
    + assert (lb < lower y) by (apply Hl; rewrite Hs, in_app_iff; simpl; auto).
      destruct (trim_ok lb ub [] y r) as (ps & Hps & Wps & _ & Mps); auto; try lia.
      simpl app in Hps, Wps. rewrite Hps. split; auto. split; auto.
      rewrite Hs. memsolve. rewrite Mps. specialize (Mpre k). specialize (Mr k). intuition lia.
    + split; auto. split; auto. rewrite Hs. memsolve. specialize (Mpre k). specialize (Mr k).
      intuition lia.
  - assert (W0 := W). rewrite Hs in W0.
    apply wf_app_iff in W0 as (Wpre & Wt & Wpt).
    apply wf_cons_iff in Wt as (Wx & Wms & Wxms).
    assert (Wms' := Wms). apply wf_app_iff in Wms' as (Wm & Wsuf & Wmsuf).
    assert (Nx : ~ In x pre).
    { intros Hin. specialize (Wpt x x Hin (or_introl eq_refl)). unfold lt_gap in Wpt. lia. }
    assert (EB : erase_between (Some x) (hd_error suf) s = pre ++ x :: suf).
    { simpl. rewrite Hs. rewrite erase_after_at; auto. rewrite erase_until_none; auto.
      intros a Ha Heq. symmetry in Heq. apply Hh in Heq. apply Hm in Ha. lia. }
    assert (Mmid : forall k, mem mid k -> lb <= k <= ub).
    { intros k. apply mem_range; auto. intros; apply Hl. rewrite in_app_iff. auto. }
    assert (Mpre : forall k, mem pre k -> k < lb).
    { intros k (i & Hi & Hk). specialize (Wpt i x Hi (or_introl eq_refl)).
      unfold lt_gap in Wpt. lia. }
    assert (Wxs : wf (pre ++ x :: suf)).
    { apply wf_app_iff. split; auto. split.
      - apply wf_cons; auto. intros; apply Wxms, in_app_iff; auto.
      - intros a b Ha Hb'. apply Wpt; auto. simpl in *. rewrite in_app_iff. tauto. }
    assert (Hoe : oeqb (Some x) (hd_error suf) = false).
    { destruct (oeqb (Some x) (hd_error suf)) eqn:Eo; auto. apply oeqb_eq in Eo.
      symmetry in Eo. apply Hh in Eo. lia. }
    rewrite Hoe in H. rewrite EB in H. cbv iota in H.
    (* first trim *)
    set (s1 := if lb <=? upper x then trim lb ub x (pre ++ x :: suf) else pre ++ x :: suf) in H.
    assert (T1 : exists ps, s1 = (pre ++ ps) ++ suf /\ wf ((pre ++ ps) ++ suf) /\
        (forall k, mem ps k <-> lower x <= k <= upper x /\ ~ (lb <= k <= ub))).
    { unfold s1. destruct (lb <=? upper x) eqn:E1.
      - destruct (trim_ok lb ub pre x suf) as (ps & Hps & Wps & _ & Mps); auto; try lia.
        exists ps. rewrite <- app_assoc. auto.
      - exists [x]. rewrite <- app_assoc. simpl. split; auto. split; auto.
        memsolve. lia. }
    destruct T1 as (ps & Hs1 & Ws1 & Mps). rewrite Hs1 in H. clearbody s1. clear Hs1 s1.
    destruct suf as [|y r]; simpl hd_error in *; cbv iota in H.
    + inversion H; subst st s'. split; auto. split; auto.
      rewrite Hs. memsolve. rewrite Mps. specialize (Mpre k). specialize (Mmid k). intuition lia.
    + specialize (Hh y eq_refl). simpl negb in H. simpl andb in H.
      assert (Mr : forall k, mem r k -> ub < k).
      { intros k (i & Hi & Hk). apply wf_cons_iff in Wsuf as (_ & _ & G). apply G in Hi.
        unfold lt_gap in Hi. lia. }
      assert (lb < lower y) by (apply Hl; rewrite in_app_iff; simpl; auto).
      destruct (lower y <=? ub) eqn:El; inversion H; subst st s'; clear H.
      * destruct (trim_ok lb ub (pre ++ ps) y r) as (qs & Hqs & Wqs & _ & Mqs); auto; try lia.
        rewrite Hqs. split; auto. split; auto.
        rewrite Hs. memsolve. rewrite Mps, Mqs. specialize (Mpre k). specialize (Mmid k).
        specialize (Mr k). intuition lia.
      * split; auto. split; auto.
        rewrite Hs. memsolve. rewrite Mps. specialize (Mpre k). specialize (Mmid k).
        specialize (Mr k). intuition lia.
  - assert (Hoe : oeqb (Some x) (Some x) = true) by (apply oeqb_eq; auto).
    rewrite Hoe in H. simpl negb in H. simpl andb in H. cbv iota in H.
    assert (W0 := W). rewrite Hs in W0.
    assert (Mpre : forall k, mem pre k -> k < lb).
    { intros k (i & Hi & Hk). apply wf_app_iff in W0 as (_ & _ & G).
      specialize (G i x Hi (or_introl eq_refl)). unfold lt_gap in G. lia. }
    assert (Mr : forall k, mem suf k -> ub < k).
    { intros k (i & Hi & Hk). apply wf_app_iff in W0 as (_ & G & _).
      apply wf_cons_iff in G as (_ & _ & G). apply G in Hi. unfold lt_gap in Hi. lia. }
    replace (lb <=? upper x) with true in H by lia.
    destruct (trim_ok lb ub pre x suf) as (ps & Hps & Wps & _ & Mps); auto; try lia.
    rewrite Hs in H. rewrite Hps in H. inversion H; subst st s'. split; auto. split; auto.
    rewrite Hs. memsolve. rewrite Mps. specialize (Mpre k). specialize (Mr k). intuition lia.
Qed.

(** ** find *)
Lemma upper_bound_shape k : forall s prev p suf,
  upper_bound k prev s = (p, suf) ->
  exists pre, s = pre ++ suf /\ (forall a, In a pre -> iltb k a = false) /\
    (forall a, hd_error suf = Some a -> iltb k a = true) /\
    ((pre = [] /\ p = prev) \/ (exists q x, pre = q ++ [x] /\ p = Some x)).
Proof.
  induction s as [|x r IH]; intros prev p suf H; simpl in H.
  - inversion H; subst. exists []. simpl. repeat split; try tauto; try discriminate.
  - destruct (iltb k x) eqn:E.
    + inversion H; subst. exists []. split; [reflexivity|]. split; [simpl; tauto|]. split.
      * intros a Ha. inversion Ha; subst; auto.
      * auto.
    + apply IH in H as (pre & -> & H1 & H2 & H3). exists (x :: pre). split; [reflexivity|].
      split. { intros a [->|Ha]; auto. } split; auto. right.
      destruct H3 as [[-> ->]|(q & y & -> & ->)].
      * exists [], x; auto.
      * exists (x :: q), y; auto.
Qed.

Lemma iltb_key_false k a : iltb (mkI k k) a = false -> lower a <= upper a ->
  lower a < k \/ (lower a = k /\ upper a = k).
Proof.
  unfold iltb; simpl. destruct (k =? lower a) eqn:E; lia.
Qed.

Lemma iltb_key_true k a : iltb (mkI k k) a = true -> k < lower a \/ (lower a = k /\ k < upper a).
Proof.
  unfold iltb; simpl. destruct (k =? lower a) eqn:E; lia.
Qed.

Lemma contains_iff i k : contains i k = true <-> lower i <= k <= upper i.
Proof. unfold contains. rewrite andb_true_iff. lia. Qed.

Lemma contains_false i k : contains i k = false <-> ~ (lower i <= k <= upper i).
Proof. rewrite <- contains_iff. destruct (contains i k); split; congruence. Qed.

Lemma find_ok key s : wf s ->
  match find key s with
  | Found i => In i s /\ lower i <= key <= upper i
  | NotFound => ~ mem s key
  | FindUB => False
  end.
Proof.
  intros W. unfold find. destruct s as [|h t]; [rewrite mem_nil; tauto|].
  destruct (upper_bound (mkI key key) None (h :: t)) as [prev suf] eqn:E.
  apply upper_bound_shape in E as (pre & Hs & H1 & H2 & H3).
  rewrite Hs in W |- *. assert (W0 := W). apply wf_app_iff in W as (Wpre & Wsuf & Wps).
  (* elements strictly before the last of pre, and elements after the head of suf, miss key *)
  assert (Hlast : forall q y, pre = q ++ [y] -> mem q key -> False).
  { intros q y -> (i & Hi & Hk). apply wf_app_iff in Wpre as (_ & Wy & G).
    specialize (G i y Hi (or_introl eq_refl)).
    assert (Hy : In y (q ++ [y])) by (apply in_app_iff; simpl; auto).
    apply H1 in Hy. apply iltb_key_false in Hy; [|eapply wf_in; [exact Wy|simpl; auto]].
    unfold lt_gap in G. lia. }
  destruct suf as [|x r].
  - destruct H3 as [[-> ->]|(q & y & -> & ->)]; [discriminate Hs|].
    destruct (contains y key) eqn:C.
    + apply contains_iff in C. split; auto. rewrite !in_app_iff. simpl; auto.
    + apply contains_false in C. rewrite mem_app, mem_app, mem_cons, mem_nil.
      specialize (Hlast q y eq_refl). intuition.
  - specialize (H2 x eq_refl). apply iltb_key_true in H2.
    apply wf_cons_iff in Wsuf as (Wx & Wr & Wxr).
    assert (Mr : ~ mem r key).
    { intros (i & Hi & Hk). apply Wxr in Hi. unfold lt_gap in Hi. lia. }
    destruct (contains x key) eqn:C.
    + apply contains_iff in C. split; auto. rewrite in_app_iff. simpl; auto.
    + apply contains_false in C.
      destruct H3 as [[-> ->]|(q & y & -> & ->)].
      * simpl. rewrite mem_cons. tauto.
      * replace (key <? lower x) with true by lia.
        destruct (contains y key) eqn:Cy.
        -- apply contains_iff in Cy. split; auto. rewrite !in_app_iff. simpl; auto.
        -- apply contains_false in Cy. rewrite mem_app, mem_app, mem_cons, mem_cons, mem_nil.
           specialize (Hlast q y eq_refl). intuition.
Qed.

(** ** Histories *)
Lemma strictly_encloses_mem lb ub s : wf s ->
  (strictly_encloses lb ub (mem s) <->
   (exists a, In a s) /\ (forall a, In a s -> lb < lower a /\ upper a < ub)).
Proof.
  intros W. unfold strictly_encloses. split.
  - intros ((k & i & Hi & _) & H). split; eauto. intros a Ha.
    assert (L := wf_in _ _ W Ha). split.
    + assert (lb < lower a < ub); [|lia]. apply H. exists a. split; auto; lia.
    + assert (lb < upper a < ub); [|lia]. apply H. exists a. split; auto; lia.
  - intros ((a & Ha) & H). split.
    + exists (lower a), a. assert (L := wf_in _ _ W Ha). split; auto; lia.
    + intros k (i & Hi & Hk). apply H in Hi. lia.
Qed.

Lemma step_ok s o A : wf s -> (forall k, mem s k <-> A k) ->
  wf (step s o) /\ forall k, mem (step s o) k <-> abs_step A o k.
Proof.
  intros W HA. destruct o as [b|b|]; simpl.
  - destruct (insert b s) as [st s'] eqn:E. simpl.
    destruct (upper b <? lower b) eqn:L.
    + unfold insert in E. rewrite L in E. inversion E; subst. auto.
    + apply insert_ok in E as (_ & W' & M); auto; try lia. split; auto.
      intros k. rewrite M. unfold s_add. rewrite HA. tauto.
  - destruct (erase b s) as [st s'] eqn:E. simpl.
    destruct (upper b <? lower b) eqn:L.
    + unfold erase in E. rewrite L in E. inversion E; subst. auto.
    + assert (SE : strictly_encloses (lower b) (upper b) A <->
                   strictly_encloses (lower b) (upper b) (mem s)).
      { unfold strictly_encloses. split; intros ((k & Hk) & H); (split; [exists k; apply HA; auto|]);
          intros; apply H, HA; auto. }
      destruct (existsb (fun a => (lower a <=? lower b) || (upper b <=? upper a)) s) eqn:X.
      * apply existsb_exists in X as (a & Ha & X).
        assert (Hg : lower a <= lower b \/ upper b <= upper a) by lia.
        apply erase_ok in E as (_ & W' & M); eauto; try lia. split; auto.
        intros k. rewrite M, HA. unfold s_remove. split; [tauto|].
        intros [H|[H HAk]]; auto. rewrite SE, strictly_encloses_mem in H by auto.
        destruct H as [_ H]. apply H in Ha. lia.
      * assert (X' : forall a, In a s -> lower b < lower a /\ upper a < upper b).
        { intros a Ha. assert (Y : existsb (fun a => (lower a <=? lower b) || (upper b <=? upper a)) s <> true)
            by congruence.
          destruct ((lower a <=? lower b) || (upper b <=? upper a)) eqn:Z; [|lia].
          exfalso. apply Y. apply existsb_exists. eauto. }
        rewrite erase_noop in E; auto; try lia; try (intros a Ha; apply X' in Ha; lia).
        inversion E; subst. split; auto. intros k. rewrite HA. split.
        -- intros Hk. right. split; auto. apply SE, strictly_encloses_mem; auto. split; auto.
           apply HA in Hk as (i & Hi & _). eauto.
        -- unfold s_remove. tauto.
  - split; [apply wf_nil|]. intros k. rewrite mem_nil. unfold s_empty. tauto.
Qed.

Lemma run_ok_gen ops : forall s A, wf s -> (forall k, mem s k <-> A k) ->
  wf (fold_left step ops s) /\ forall k, mem (fold_left step ops s) k <-> fold_left abs_step ops A k.
Proof.
  induction ops as [|o ops IH]; intros s A W H; simpl; auto.
  destruct (step_ok s o A W H). apply IH; auto.
Qed.

Lemma run_ok ops :
  wf (run ops) /\ forall k, mem (run ops) k <-> fold_left abs_step ops s_empty k.
Proof.
  apply run_ok_gen; [apply wf_nil|]. intros k. rewrite mem_nil. unfold s_empty. tauto.
Qed.

Lemma wf_canonical_from s : wf s -> forall lo,
  (match lo with Some x => forall b, In b s -> x + 1 < lower b | None => True end) ->
  canonical_from lo (pairs s).
Proof.
  induction s as [|x s IH]; intros W lo Hlo; simpl; auto.
  apply wf_cons_iff in W as (A & B & C). split; [|split; auto].
  destruct lo; auto. apply Hlo; simpl; auto.
Qed.

Lemma wf_canonical s : wf s -> canonical (pairs s).
Proof. intros W. apply wf_canonical_from; simpl; auto. Qed.

Lemma find_iff_mem s k : wf s -> ((exists i, find k s = Found i) <-> mem s k).
Proof.
  intros W. assert (F := find_ok k s W). split.
  - intros (i & H). rewrite H in F. exists i. auto.
  - intros M. destruct (find k s); [eauto|contradiction|contradiction].
Qed.

Lemma abs_spec_no_erase ops : forall A, existsb is_erase ops = false ->
  fold_left abs_step ops A = fold_left spec_step ops A.
Proof.
  induction ops as [|o ops IH]; intros A H; simpl in *; auto.
  apply orb_false_iff in H as [H1 H2]. rewrite IH; auto.
  destruct o; simpl in H1; try discriminate; reflexivity.
Qed.

Lemma selection_union_lemma :
  forall ops, existsb is_erase ops = false ->
    canonical (pairs (run ops)) /\
    forall k,
      match find k (run ops) with
      | Found i => fold_left spec_step ops s_empty k /\ In i (run ops) /\ lower i <= k <= upper i
      | NotFound => ~ fold_left spec_step ops s_empty k
      | FindUB => False
      end.
Proof.
  intros ops H. destruct (run_ok ops) as [W M]. rewrite abs_spec_no_erase in M by auto.
  split; [apply wf_canonical; auto|]. intros k. assert (F := find_ok k _ W).
  destruct (find k (run ops)).
  - split; auto. apply M. exists i; auto.
  - rewrite <- M. auto.
  - auto.
Qed.

Lemma insert_status_lemma :
  forall b s, fst (insert b s) = if upper b <? lower b then invalid_input else success.
Proof.
  intros b s. unfold insert. destruct (upper b <? lower b); auto.
  destruct (search (lower b) (upper b) s) as [il iu].
  destruct (covers il (lower b) (upper b) || covers iu (lower b) (upper b)); auto.
  destruct il as [x|], iu as [y|];
    repeat match goal with |- context [if ?c then _ else _] => destruct c end; reflexivity.
Qed.

Lemma selection_history_lemma :
  forall ops,
    canonical (pairs (run ops)) /\
    forall k, (exists i, find k (run ops) = Found i) <-> fold_left abs_step ops s_empty k.
Proof.
  intros ops. destruct (run_ok ops) as [W M]. split; [apply wf_canonical; auto|].
  intros k. rewrite find_iff_mem by auto. apply M.
Qed.

Lemma strictly_encloses_ext lb ub A B : (forall k, A k <-> B k) ->
  strictly_encloses lb ub A -> strictly_encloses lb ub B.
Proof.
  intros E ((k & Hk) & H). split; [exists k; apply E; auto|]. intros; apply H, E; auto.
Qed.

Lemma run_app ops o : run (ops ++ [o]) = step (run ops) o.
Proof. unfold run. rewrite fold_left_app. reflexivity. Qed.

Lemma removal_exact_lemma :
  forall ops lb ub, lb <= ub ->
    ~ strictly_encloses lb ub (fun k => exists i, find k (run ops) = Found i) ->
    forall k,
      (exists i, find k (run (ops ++ [OErase (mkI lb ub)])) = Found i) <->
      ((exists i, find k (run ops) = Found i) /\ ~ (lb <= k <= ub)).
Proof.
  intros ops lb ub Hb HN k. destruct (run_ok ops) as [W _].
  destruct (step_ok (run ops) (OErase (mkI lb ub)) (mem (run ops)) W) as [W' M]; [tauto|].
  rewrite run_app. rewrite find_iff_mem by auto. rewrite find_iff_mem by auto.
  rewrite M. simpl. replace (ub <? lb) with false by lia. unfold s_remove.
  split; [|tauto]. intros [H|[H _]]; auto. exfalso. apply HN.
  eapply strictly_encloses_ext; [|exact H]. intros; symmetry; apply find_iff_mem; auto.
Qed.

Lemma removal_ignored_lemma :
  forall ops lb ub, lb <= ub ->
    strictly_encloses lb ub (fun k => exists i, find k (run ops) = Found i) ->
    erase (mkI lb ub) (run ops) = (success, run ops).
Proof.
  intros ops lb ub Hb H. destruct (run_ok ops) as [W _].
  assert (S : strictly_encloses lb ub (mem (run ops))).
  { eapply strictly_encloses_ext; [|exact H]. intros; apply find_iff_mem; auto. }
  apply strictly_encloses_mem in S as [_ S]; auto.
  apply erase_noop; simpl; auto; intros a Ha; apply S in Ha; lia.
Qed.

Lemma removal_refuted_lemma :
  exists ops lb ub k i,
    lb <= k <= ub /\ fst (erase (mkI lb ub) (run ops)) = success /\
    find k (run (ops ++ [OErase (mkI lb ub)])) = Found i.
Proof.
  exists [OInsert (mkI 5 6)], 0, 10, 5, (mkI 5 6). split; [lia|]. split; reflexivity.
Qed.
