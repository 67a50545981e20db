(** Proofs about the support vector machine trainer. *)
From Coq Require Import QArith Qabs List Bool Arith Lia Lqa Sorting Permutation Setoid Morphisms.
From Verif Require Import SvmModel SvmSpec.
Import ListNotations.
Local Open Scope Q_scope.

(** ** Comparisons *)
Lemma Qlt_bool_iff a b : Qlt_bool a b = true <-> a < b.
Proof.
  unfold Qlt_bool. rewrite negb_true_iff. split; intro H.
  - apply Qnot_le_lt. intro L. apply Qle_bool_iff in L. congruence.
  - destruct (Qle_bool b a) eqn:E; [|reflexivity].
    apply Qle_bool_iff in E. lra.
Qed.
Lemma Qlt_bool_false a b : Qlt_bool a b = false <-> b <= a.
Proof.
  unfold Qlt_bool. rewrite negb_false_iff. apply Qle_bool_iff.
Qed.
Lemma Qle_bool_false a b : Qle_bool a b = false <-> b < a.
Proof.
  split; intro H.
  - apply Qnot_le_lt. intro L. apply Qle_bool_iff in L. congruence.
  - destruct (Qle_bool a b) eqn:E; [|reflexivity]. apply Qle_bool_iff in E. lra.
Qed.
Lemma Qmin_case a b : (Qmin a b = a /\ a <= b) \/ (Qmin a b = b /\ b < a).
Proof.
  unfold Qmin. destruct (Qle_bool a b) eqn:E; [left|right]; split; auto.
  - apply Qle_bool_iff; auto.
  - apply Qle_bool_false; auto.
Qed.
Lemma Qmax_case a b : (Qmax a b = b /\ a <= b) \/ (Qmax a b = a /\ b < a).
Proof.
  unfold Qmax. destruct (Qle_bool a b) eqn:E; [left|right]; split; auto.
  - apply Qle_bool_iff; auto.
  - apply Qle_bool_false; auto.
Qed.

Lemma tab_at n f k : (k < n)%nat -> tab n f k = f k.
Proof.
  intro H. unfold tab. rewrite (nth_indep _ 0 (f 0%nat)) by (rewrite map_length, seq_length; auto).
  rewrite map_nth, seq_nth by auto. reflexivity.
Qed.

(** ** Sums *)
Lemma sum_ext f g l : (forall k, In k l -> f k == g k) -> sum f l == sum g l.
Proof.
  induction l as [|a l IH]; simpl; intro H; [reflexivity|].
  rewrite (H a) by auto. rewrite IH by auto. reflexivity.
Qed.
Lemma sum_plus f g l : sum (fun k => f k + g k) l == sum f l + sum g l.
Proof. induction l as [|a l IH]; simpl; [reflexivity|]. rewrite IH. ring. Qed.
Lemma sum_minus f g l : sum (fun k => f k - g k) l == sum f l - sum g l.
Proof. induction l as [|a l IH]; simpl; [reflexivity|]. rewrite IH. ring. Qed.
Lemma sum_scale c f l : sum (fun k => c * f k) l == c * sum f l.
Proof. induction l as [|a l IH]; simpl; [ring|]. rewrite IH. ring. Qed.
Lemma sum_zero f l : (forall k, In k l -> f k == 0) -> sum f l == 0.
Proof.
  induction l as [|a l IH]; simpl; intro H; [reflexivity|].
  rewrite (H a), IH by auto. reflexivity.
Qed.
Lemma sum_le f g l : (forall k, In k l -> f k <= g k) -> sum f l <= sum g l.
Proof.
  induction l as [|a l IH]; simpl; intro H; [lra|].
  pose proof (H a (or_introl eq_refl)). assert (sum f l <= sum g l) by auto. lra.
Qed.
Lemma sum_const c l : sum (fun _ => c) l == inject_Z (Z.of_nat (length l)) * c.
Proof.
  induction l as [|a l IH]; [simpl; ring|].
  cbn [sum length]. rewrite IH, Nat2Z.inj_succ, <- Z.add_1_r, inject_Z_plus. ring.
Qed.
Lemma sum_app f l m : sum f (l ++ m) == sum f l + sum f m.
Proof. induction l as [|a l IH]; simpl; [ring|]. rewrite IH. ring. Qed.
Lemma sum_perm f l m : Permutation l m -> sum f l == sum f m.
Proof.
  induction 1; simpl; try reflexivity.
  - rewrite IHPermutation. reflexivity.
  - ring.
  - rewrite IHPermutation1. auto.
Qed.
Lemma sum_swap (f : nat -> nat -> Q) l m :
  sum (fun a => sum (f a) m) l == sum (fun b => sum (fun a => f a b) l) m.
Proof.
  induction l as [|a l IH]; simpl.
  - symmetry. apply sum_zero. reflexivity.
  - rewrite IH. symmetry. rewrite <- sum_plus. reflexivity.
Qed.
Lemma sum_map f (h : nat -> nat) l : sum f (map h l) = sum (fun k => f (h k)) l.
Proof. induction l as [|a l IH]; simpl; [reflexivity|]. rewrite IH. reflexivity. Qed.
Lemma map_nth_seq (l : list nat) : map (fun q => nth q l 0%nat) (seq 0 (length l)) = l.
Proof.
  induction l as [|a l IH]; [reflexivity|].
  cbn [length seq map nth]. f_equal. rewrite <- seq_shift, map_map. exact IH.
Qed.

Lemma chosen_iff sel k : chosen sel k = true <-> In k sel.
Proof.
  unfold chosen. rewrite existsb_exists. split.
  - intros (x & H & E). apply Nat.eqb_eq in E. subst. exact H.
  - intro H. exists k. split; [exact H|apply Nat.eqb_refl].
Qed.

(* A sum over the whole range of something that vanishes off a working set. *)
Lemma sum_support f l n :
  NoDup l -> (forall k, In k l -> (k < n)%nat) ->
  (forall k, (k < n)%nat -> ~ In k l -> f k == 0) ->
  sum f (seq 0 n) == sum f l.
Proof.
  intros ND Hin Hz.
  set (rest := filter (fun k => negb (chosen l k)) (seq 0 n)).
  assert (P : Permutation (seq 0 n) (l ++ rest)).
  { apply NoDup_Permutation.
    - apply seq_NoDup.
    - assert (Hr : NoDup rest) by (apply NoDup_filter, seq_NoDup).
      assert (D : forall k, In k l -> ~ In k rest).
      { intros k Hk Hr'. apply filter_In in Hr'. destruct Hr' as [_ E].
        apply negb_true_iff in E. apply chosen_iff in Hk. congruence. }
      clear Hin Hz. induction l as [|a l IH]; [exact Hr|].
      inversion ND; subst. simpl. constructor.
      + rewrite in_app_iff. intros [X|X]; [auto|]. apply (D a (or_introl eq_refl) X).
      + clear IH. revert D Hr. generalize rest. clear rest. intros rest D Hr.
        assert (D' : forall k, In k l -> ~ In k rest) by (intros; apply D; right; auto).
        clear D H1 ND. induction l as [|b l IH]; [exact Hr|].
        inversion H2; subst. simpl. constructor.
        * rewrite in_app_iff. intros [X|X]; [auto|]. apply (D' b (or_introl eq_refl) X).
        * apply IH; auto. intros; apply D'; right; auto.
    - intro k. rewrite in_app_iff, in_seq. split.
      + intros [_ Hk]. destruct (chosen l k) eqn:E.
        * left. apply chosen_iff; auto.
        * right. apply filter_In. split; [apply in_seq; lia|]. rewrite E. reflexivity.
      + intros [H|H]; [specialize (Hin k H); lia|].
        apply filter_In in H. destruct H as [H _]. apply in_seq in H. lia. }
  rewrite (sum_perm f _ _ P), sum_app.
  rewrite (sum_zero f rest); [ring|].
  intros k H. apply filter_In in H. destruct H as [H E]. apply in_seq in H.
  apply Hz; [lia|]. intro X. apply chosen_iff in X. rewrite X in E. discriminate.
Qed.

(** ** Which variables may move *)
Lemma y_pos p k : well_posed p -> (k < size p)%nat ->
  (y p k = 1 /\ Qlt_bool 0 (y p k) = true) \/ (y p k = -(1) /\ Qlt_bool 0 (y p k) = false).
Proof.
  intros W H. destruct (wp_y p W k H) as [E|E]; rewrite E; [left|right]; split; reflexivity.
Qed.
Lemma upper_iff p al k : well_posed p -> (k < size p)%nat ->
  (is_upper p (al k) (y p k) = true <-> can_rise p al k).
Proof.
  intros W H. unfold is_upper, can_rise.
  destruct (y_pos p k W H) as [[E B]|[E B]]; rewrite B, E, Qlt_bool_iff;
    (split; [intro; auto|]); intros [[X Y]|[X Y]]; try discriminate; auto.
Qed.
Lemma lower_iff p al k : well_posed p -> (k < size p)%nat ->
  (is_lower p (al k) (y p k) = true <-> can_fall p al k).
Proof.
  intros W H. unfold is_lower, can_fall.
  destruct (y_pos p k W H) as [[E B]|[E B]]; rewrite B, E, Qlt_bool_iff;
    (split; [intro; auto|]); intros [[X Y]|[X Y]]; try discriminate; auto.
Qed.
Lemma rise_or_fall p al k : well_posed p -> (k < size p)%nat -> 0 <= al k <= C p ->
  can_rise p al k \/ can_fall p al k.
Proof.
  intros W H B. pose proof (wp_C p W) as HC. unfold can_rise, can_fall.
  destruct (wp_y p W k H) as [E|E].
  - destruct (Qlt_le_dec 0 (al k)); [right; left; auto|left; left; split; auto; lra].
  - destruct (Qlt_le_dec 0 (al k)); [left; right; auto|right; right; split; auto; lra].
Qed.

(** ** Outer working set *)
Lemma skip_suffix t l : exists s, l = s ++ skip t l /\ forall k, In k s -> t k = false.
Proof.
  induction l as [|a l (s & E & H)]; simpl.
  - exists []. split; [reflexivity|]. intros k [].
  - destruct (t a) eqn:T.
    + exists []. split; [reflexivity|]. intros k [].
    + exists (a :: s). split; [simpl; f_equal; exact E|].
      intros k [<-|K]; auto.
Qed.
Lemma skip_head t l k r : skip t l = k :: r -> t k = true.
Proof.
  induction l as [|a l IH]; simpl; [discriminate|].
  destruct (t a) eqn:T; [|exact IH]. intro E. injection E; intros; subst; auto.
Qed.

(* What one pick does to the invariant "everything already passed over is
   chosen or not a member". *)
Definition passed (member : nat -> bool) (order l sel : list nat) : Prop :=
  exists s, order = s ++ l /\ forall k, In k s -> In k sel \/ member k = false.

Lemma passed_mono m order l sel sel' :
  (forall k, In k sel -> In k sel') -> passed m order l sel -> passed m order l sel'.
Proof. intros I (s & E & H). exists s. split; auto. intros k K. destruct (H k K); auto. Qed.

Lemma pick_spec m l sel l' sel' order :
  pick m l sel = (l', sel') -> passed m order l sel ->
  passed m order l' sel' /\
  ((sel' = sel /\ l' = []) \/
   exists k, sel' = sel ++ [k] /\ ~ In k sel /\ m k = true /\ In k order /\
     (exists s r, order = s ++ k :: r /\ forall x, In x s -> In x sel \/ m x = false)).
Proof.
  unfold pick. intros E (s & Eo & Hs).
  set (t := fun k => negb (chosen sel k) && m k) in *.
  destruct (skip_suffix t l) as (s' & El & Hs').
  assert (P : forall k, In k (s ++ s') -> In k sel \/ m k = false).
  { intros k K. apply in_app_iff in K. destruct K as [K|K]; [apply Hs; auto|].
    specialize (Hs' k K). unfold t in Hs'. apply andb_false_iff in Hs'.
    destruct Hs' as [X|X]; [|auto]. apply negb_false_iff in X. left. apply chosen_iff; auto. }
  destruct (skip t l) as [|k r] eqn:Sk.
  - injection E as <- <-. split.
    + exists (s ++ s'). split; [rewrite Eo, El, app_assoc; reflexivity|exact P].
    + left. auto.
  - injection E as <- <-.
    pose proof (skip_head t l k r Sk) as T. unfold t in T. apply andb_true_iff in T.
    destruct T as [T1 T2]. apply negb_true_iff in T1.
    split.
    + exists (s ++ s'). split; [rewrite Eo, El, app_assoc; reflexivity|].
      intros x X. destruct (P x X); [left; apply in_app_iff; auto|auto].
    + right. exists k. split; [reflexivity|]. split.
      { intro X. apply chosen_iff in X. congruence. }
      split; [exact T2|]. split.
      { rewrite Eo, El. apply in_app_iff. right. apply in_app_iff. right. left. reflexivity. }
      exists (s ++ s'), r. split; [rewrite Eo, El, app_assoc; reflexivity|exact P].
Qed.

Definition grown (order sel sel' : list nat) : Prop :=
  exists add, sel' = sel ++ add /\ (NoDup sel -> NoDup sel') /\ forall k, In k add -> In k order.

Lemma grown_refl o s : grown o s s.
Proof. exists []. rewrite app_nil_r. repeat split; auto. intros k []. Qed.
Lemma grown_trans o a b c : grown o a b -> grown o b c -> grown o a c.
Proof.
  intros (x & -> & N1 & I1) (z & -> & N2 & I2). exists (x ++ z).
  rewrite app_assoc. repeat split; auto. intros k K. apply in_app_iff in K. destruct K; auto.
Qed.
Lemma NoDup_snoc (l : list nat) k : NoDup l -> ~ In k l -> NoDup (l ++ [k]).
Proof.
  intros N H. apply (Permutation_NoDup (l := k :: l)).
  - apply Permutation_cons_append.
  - constructor; auto.
Qed.
Lemma grown_one o s k : ~ In k s -> In k o -> grown o s (s ++ [k]).
Proof.
  intros H1 H2. exists [k]. split; [reflexivity|]. split.
  - intro. apply NoDup_snoc; auto.
  - intros x [<-|[]]; auto.
Qed.
Lemma grown_in o a b : grown o a b -> forall k, In k a -> In k b.
Proof. intros (x & -> & _) k K. apply in_app_iff; auto. Qed.

Lemma NoDup_count (l u : list nat) : NoDup u -> (forall k, In k u -> In k l) ->
  (length u <= length l)%nat.
Proof. intros N I. apply NoDup_incl_length; auto. Qed.

Section Wss.
Variables (w : nat) (up low : nat -> bool) (order : list nat).
Hypothesis cover : forall k, In k order -> up k = true \/ low k = true.
Hypothesis nd : NoDup order.
Hypothesis enough : (w <= length order)%nat.

Lemma wss_grown fuel l r sel :
  passed up order l sel -> passed low (rev order) r sel ->
  grown order sel (wss_loop fuel w up low l r sel).
Proof.
  revert l r sel. induction fuel as [|f IH]; intros l r sel PL PR; [apply grown_refl|].
  cbn [wss_loop]. destruct (_ && _); [|apply grown_refl].
  destruct (pick up l sel) as [l' s1] eqn:E1.
  destruct (pick_spec _ _ _ _ _ _ E1 PL) as [PL' D1].
  assert (G1 : grown order sel s1).
  { destruct D1 as [[-> _]|(k & -> & N & _ & I & _)]; [apply grown_refl|apply grown_one; auto]. }
  destruct (w <=? length s1)%nat; [exact G1|].
  destruct (pick low r s1) as [r' s2] eqn:E2.
  destruct (pick_spec _ _ _ _ _ _ E2 (passed_mono _ _ _ _ _ (grown_in _ _ _ G1) PR)) as [PR' D2].
  assert (G2 : grown order s1 s2).
  { destruct D2 as [[-> _]|(k & -> & N & _ & I & _)]; [apply grown_refl|].
    apply grown_one; auto. rewrite <- in_rev in I. exact I. }
  eapply grown_trans; [exact G1|]. eapply grown_trans; [exact G2|].
  apply IH; [eapply passed_mono; [apply (grown_in _ _ _ G2)|exact PL']|exact PR'].
Qed.

(* When both ends are used up everything has been chosen. *)
Lemma exhausted sel : passed up order [] sel -> passed low (rev order) [] sel ->
  (length order <= length sel)%nat.
Proof.
  intros (s & E & H) (s' & E' & H'). rewrite app_nil_r in E, E'. subst s.
  apply NoDup_count; [exact nd|].
  intros k K. destruct (cover k K) as [U|L].
  - destruct (H k K); congruence.
  - assert (K' : In k s') by (rewrite <- E', <- in_rev; exact K).
    destruct (H' k K'); congruence.
Qed.

Lemma wss_full fuel l r sel :
  passed up order l sel -> passed low (rev order) r sel ->
  (length sel <= w)%nat -> (w - length sel < fuel)%nat ->
  length (wss_loop fuel w up low l r sel) = w.
Proof.
  revert l r sel. induction fuel as [|f IH]; intros l r sel PL PR Hl Hf; [lia|].
  cbn [wss_loop].
  destruct (length sel <? w)%nat eqn:Lt; cbn [andb].
  2: { apply Nat.ltb_ge in Lt. lia. }
  apply Nat.ltb_lt in Lt.
  destruct (match l, r with [], [] => true | _, _ => false end) eqn:Em; cbn [negb].
  - destruct l; [|discriminate]. destruct r; [|discriminate].
    pose proof (exhausted sel PL PR). lia.
  - destruct (pick up l sel) as [l' s1] eqn:E1.
    destruct (pick_spec _ _ _ _ _ _ E1 PL) as [PL' D1].
    assert (L1 : (length s1 = length sel /\ l' = [] /\ s1 = sel) \/ length s1 = S (length sel)).
    { destruct D1 as [[-> ->]|(k & -> & _)]; [auto|right; rewrite app_length; simpl; lia]. }
    assert (I1 : forall k, In k sel -> In k s1).
    { destruct D1 as [[-> _]|(k & -> & _)]; auto. intros; apply in_app_iff; auto. }
    destruct (w <=? length s1)%nat eqn:Ge.
    { apply Nat.leb_le in Ge. destruct L1 as [[A _]|A]; lia. }
    apply Nat.leb_gt in Ge.
    destruct (pick low r s1) as [r' s2] eqn:E2.
    destruct (pick_spec _ _ _ _ _ _ E2 (passed_mono _ _ _ _ _ I1 PR)) as [PR' D2].
    assert (I2 : forall k, In k s1 -> In k s2).
    { destruct D2 as [[-> _]|(k & -> & _)]; auto. intros; apply in_app_iff; auto. }
    assert (L2 : (length s2 = length s1 /\ r' = [] /\ s2 = s1) \/ length s2 = S (length s1)).
    { destruct D2 as [[-> ->]|(k & -> & _)]; [auto|right; rewrite app_length; simpl; lia]. }
    destruct (Nat.eq_dec (length s2) (length sel)) as [Eq|Ne].
    + exfalso. destruct L1 as [[A [-> ->]]|A]; [|lia].
      destruct L2 as [[B [-> ->]]|B]; [|lia].
      pose proof (exhausted sel PL' PR'). lia.
    + apply IH; [eapply passed_mono; [exact I2|exact PL']|exact PR'|lia|lia].
Qed.

(* The first picks of the first turn. *)
Lemma wss_extremes fuel sel (g : nat -> Q) :
  StronglySorted (fun a b => g a <= g b) order ->
  (2 + length sel <= w)%nat -> (0 < fuel)%nat ->
  let res := wss_loop fuel w up low order (rev order) sel in
  (forall u, In u order -> up u = true -> exists i, In i res /\ (In i order \/ i = u) /\ up i = true /\ g i <= g u) /\
  (forall v, In v order -> low v = true -> exists j, In j res /\ (In j order \/ j = v) /\ low j = true /\ g v <= g j).
Proof.
  intros Sd Hw Hf. destruct fuel as [|f]; [lia|]. cbn [wss_loop].
  assert (Lt : (length sel <? w)%nat = true) by (apply Nat.ltb_lt; lia).
  rewrite Lt. cbn [andb].
  destruct order as [|o os] eqn:Eo.
  { simpl in enough. lia. }
  cbn [negb]. rewrite <- Eo in *.
  assert (PL : passed up order order sel) by (exists []; split; [reflexivity|intros ? []]).
  assert (PR : passed low (rev order) (rev order) sel) by (exists []; split; [reflexivity|intros ? []]).
  destruct (pick up order sel) as [l' s1] eqn:E1.
  destruct (pick_spec _ _ _ _ _ _ E1 PL) as [PL' D1].
  assert (L1 : (length s1 <= S (length sel))%nat).
  { destruct D1 as [[-> _]|(k & -> & _)]; [lia|rewrite app_length; simpl; lia]. }
  assert (Ge : (w <=? length s1)%nat = false) by (apply Nat.leb_gt; lia).
  rewrite Ge.
  assert (I1 : forall k, In k sel -> In k s1).
  { destruct D1 as [[-> _]|(k & -> & _)]; auto. intros; apply in_app_iff; auto. }
  destruct (pick low (rev order) s1) as [r' s2] eqn:E2.
  destruct (pick_spec _ _ _ _ _ _ E2 (passed_mono _ _ _ _ _ I1 PR)) as [PR' D2].
  assert (I2 : forall k, In k s1 -> In k s2).
  { destruct D2 as [[-> _]|(k & -> & _)]; auto. intros; apply in_app_iff; auto. }
  assert (G : grown order s2 (wss_loop f w up low l' r' s2)).
  { apply wss_grown; [eapply passed_mono; [exact I2|exact PL']|exact PR']. }
  pose proof (grown_in _ _ _ G) as I3.
  assert (srt : forall s k r, order = s ++ k :: r -> forall x, In x r -> g k <= g x).
  { intros s k r E. rewrite E in Sd. clear - Sd. induction s as [|a s IH]; simpl in Sd.
    - inversion Sd; subst. rewrite Forall_forall in H2. exact H2.
    - inversion Sd; subst. apply IH; auto. }
  split.
  - intros u Hu Hup.
    destruct D1 as [[-> El]|(k & -> & N & M & I & s & r & E & P)].
    + subst l'. destruct PL' as (s & E & H). rewrite app_nil_r in E. subst s.
      destruct (H u Hu) as [X|X]; [|congruence].
      exists u. repeat split; auto. lra.
    + assert (X : In u s \/ In u (k :: r)) by (apply in_app_iff; rewrite <- E; exact Hu).
      destruct X as [X|[X|X]].
      * destruct (P u X) as [Z|Z]; [|congruence].
        exists u. repeat split; auto. lra.
      * subst k. exists u. split; [apply I3, I2, in_app_iff; right; left; reflexivity|].
        repeat split; auto. lra.
      * exists k. split; [apply I3, I2, in_app_iff; right; left; reflexivity|].
        repeat split; auto. eapply srt; eauto.
  - intros v Hv Hlow. assert (Hv' : In v (rev order)) by (rewrite <- in_rev; exact Hv).
    destruct D2 as [[-> El]|(k & -> & N & M & I & s & r & E & P)].
    + subst r'. destruct PR' as (s & E & H). rewrite app_nil_r in E.
      rewrite E in Hv'. destruct (H v Hv') as [X|X]; [|congruence].
      exists v. repeat split; auto. lra.
    + assert (X : In v s \/ In v (k :: r)) by (apply in_app_iff; rewrite <- E; exact Hv').
      rewrite <- in_rev in I.
      destruct X as [X|[X|X]].
      * destruct (P v X) as [Z|Z]; [|congruence].
        exists v. repeat split; auto. lra.
      * subst k. exists v. split; [apply I3, in_app_iff; right; left; reflexivity|].
        repeat split; auto. lra.
      * exists k. split; [apply I3, in_app_iff; right; left; reflexivity|].
        repeat split; auto.
        assert (E' : order = rev r ++ k :: rev s).
        { rewrite <- (rev_involutive order), E, rev_app_distr. simpl. rewrite <- app_assoc. reflexivity. }
        assert (Hr : In v (rev r)) by (rewrite <- in_rev; exact X).
        clear - Sd E' Hr. rewrite E' in Sd. clear E'. induction (rev r) as [|a l IH]; [destruct Hr|].
        simpl in Sd. inversion Sd; subst. destruct Hr as [->|Hr].
        -- rewrite Forall_forall in H2. apply H2. apply in_app_iff. right. left. reflexivity.
        -- apply IH; auto.
Qed.
End Wss.

(** ** Size of the working set *)
Lemma pow_loop_le f power n : (power <= n)%nat -> (pow_loop f power n <= n)%nat.
Proof.
  revert power. induction f as [|f IH]; intros power H; simpl; [exact H|].
  destruct (power * 2 <=? n)%nat eqn:E; [|exact H]. apply IH. apply Nat.leb_le; exact E.
Qed.
Lemma pow_loop_ge f power n : (power <= pow_loop f power n)%nat.
Proof.
  revert power. induction f as [|f IH]; intros power; simpl; [lia|].
  destruct (power * 2 <=? n)%nat; [|lia]. specialize (IH (power * 2)%nat). lia.
Qed.
Lemma ws_size_le p : (0 < size p)%nat -> (ws_size p <= size p)%nat.
Proof.
  intro H. unfold ws_size, maxpowtwo. pose proof (pow_loop_le (size p) 1 (size p) ltac:(lia)). lia.
Qed.
Lemma ws_size_ge p : (4 <= size p)%nat -> (3 <= max_ws p)%nat -> (3 <= ws_size p)%nat.
Proof.
  intros H1 H2. unfold ws_size. apply Nat.min_glb; [|exact H2]. unfold maxpowtwo.
  destruct (size p) as [|[|[|[|n]]]]; try lia. set (m := S (S (S (S n)))).
  change (pow_loop m 1 m) with
    (if (1 * 2 <=? m)%nat then (if (1 * 2 * 2 <=? m)%nat then pow_loop (S (S n)) (1 * 2 * 2) m else (1 * 2)%nat) else 1%nat).
  assert (E1 : (1 * 2 <=? m)%nat = true) by (apply Nat.leb_le; lia).
  assert (E2 : (1 * 2 * 2 <=? m)%nat = true) by (apply Nat.leb_le; lia).
  rewrite E1, E2. pose proof (pow_loop_ge (S (S n)) (1 * 2 * 2) m). lia.
Qed.

Section Outer.
Variables (p : problem) (srt : sorter).
Hypothesis W : well_posed p.
Hypothesis S : sorts p srt.
Hypothesis pos : (0 < size p)%nat.

Lemma order_facts g : NoDup (srt g) /\ length (srt g) = size p /\
  (forall k, In k (srt g) <-> (k < size p)%nat) /\
  StronglySorted (fun a b => g a <= g b) (srt g).
Proof.
  destruct (S g) as [P Sd]. repeat split; auto.
  - eapply Permutation_NoDup; [apply Permutation_sym; exact P|apply seq_NoDup].
  - rewrite (Permutation_length P), seq_length. reflexivity.
  - intro H. apply (Permutation_in _ P) in H. apply in_seq in H. lia.
  - intro H. apply (Permutation_in _ (Permutation_sym P)). apply in_seq. lia.
Qed.

Lemma outer_full al g kp :
  in_box p al -> working_set p kp -> (length kp <= ws_size p)%nat ->
  working_set p (outer_wss p srt al g kp) /\ length (outer_wss p srt al g kp) = ws_size p.
Proof.
  intros B (ND & In_) L. destruct (order_facts g) as (O1 & O2 & O3 & O4).
  unfold outer_wss.
  set (up := fun k => is_upper p (al k) (y p k)). set (low := fun k => is_lower p (al k) (y p k)).
  assert (PL : passed up (srt g) (srt g) kp) by (exists []; split; [reflexivity|intros ? []]).
  assert (PR : passed low (rev (srt g)) (rev (srt g)) kp) by (exists []; split; [reflexivity|intros ? []]).
  split.
  - destruct (wss_grown (ws_size p) up low (srt g) (Datatypes.S (ws_size p)) _ _ kp PL PR)
      as (add & E & N & I).
    split; [auto|]. rewrite E. intros k K. apply in_app_iff in K. destruct K as [K|K]; auto.
    apply O3. auto.
  - apply wss_full with (order := srt g); auto; try lia.
    + intros k K. apply O3 in K. destruct (rise_or_fall p al k W K (B k K)) as [H|H].
      * left. apply upper_iff; auto.
      * right. apply lower_iff; auto.
    + rewrite O2. apply ws_size_le; auto.
Qed.

Lemma outer_extremes al g kp :
  in_box p al -> working_set p kp -> (2 + length kp <= ws_size p)%nat ->
  holds_extremes p al g (outer_wss p srt al g kp).
Proof.
  intros B (ND & In_) L. destruct (order_facts g) as (O1 & O2 & O3 & O4).
  set (up := fun k => is_upper p (al k) (y p k)). set (low := fun k => is_lower p (al k) (y p k)).
  assert (En : (ws_size p <= length (srt g))%nat) by (rewrite O2; apply ws_size_le; auto).
  assert (Cv : forall k, In k (srt g) -> up k = true \/ low k = true).
  { intros k K. apply O3 in K. destruct (rise_or_fall p al k W K (B k K)) as [H|H].
    - left. apply upper_iff; auto.
    - right. apply lower_iff; auto. }
  destruct (wss_extremes (ws_size p) up low (srt g) Cv O1 En (Datatypes.S (ws_size p)) kp g O4 L
    ltac:(lia)) as [H1 H2].
  change (wss_loop (Datatypes.S (ws_size p)) (ws_size p) up low (srt g) (rev (srt g)) kp)
    with (outer_wss p srt al g kp) in *.
  split.
  - intros u Hu R. apply O3 in Hu as Hu'. destruct (H1 u Hu') as (i & I1 & I2 & I3 & I4).
    { apply upper_iff; auto. }
    exists i. assert (i < size p)%nat by (destruct I2 as [X|X]; [apply O3; auto|subst; auto]).
    split; [auto|]. split; [apply upper_iff; auto|auto].
  - intros u Hu R. apply O3 in Hu as Hu'. destruct (H2 u Hu') as (i & I1 & I2 & I3 & I4).
    { apply lower_iff; auto. }
    exists i. assert (i < size p)%nat by (destruct I2 as [X|X]; [apply O3; auto|subst; auto]).
    split; [auto|]. split; [apply lower_iff; auto|auto].
Qed.
End Outer.

(** ** The two scans of the local solver *)
Lemma wssi_some up lg l b i : wssi up lg l b = Some i ->
  ((In i l /\ up i = true) \/ b = Some i) /\
  (forall q, In q l -> up q = true -> lg i <= lg q) /\
  (forall c, b = Some c -> lg i <= lg c).
Proof.
  revert b. induction l as [|a l IH]; intros b E.
  - simpl in E. subst b. split; [auto|]. split; [intros ? []|]. intros c Ec. injection Ec as <-. lra.
  - cbn [wssi] in E. destruct (up a) eqn:U; cbn [andb] in E.
    + destruct (match b with None => true | Some c => Qlt_bool (lg a) (lg c) end) eqn:B.
      * destruct (IH _ E) as (H1 & H2 & H3). specialize (H3 a eq_refl).
        split; [|split].
        -- destruct H1 as [[H1 H1']|H1]; [left; split; [right; auto|auto]|].
           injection H1 as <-. left. split; [left; reflexivity|exact U].
        -- intros q [<-|Q] Uq; auto.
        -- intros c ->. apply Qlt_bool_iff in B. lra.
      * destruct b as [c|]; [|discriminate]. apply Qlt_bool_false in B.
        destruct (IH _ E) as (H1 & H2 & H3). specialize (H3 c eq_refl).
        split; [|split].
        -- destruct H1 as [[H1 H1']|H1]; [left; split; [right; auto|auto]|auto].
        -- intros q [<-|Q] Uq; [lra|auto].
        -- intros c' Ec. injection Ec as <-. exact H3.
    + destruct (IH _ E) as (H1 & H2 & H3). split; [|split].
      * destruct H1 as [[H1 H1']|H1]; [left; split; [right; auto|auto]|auto].
      * intros q [<-|Q] Uq; [congruence|auto].
      * exact H3.
Qed.
Lemma wssi_none up lg l b : wssi up lg l b = None ->
  b = None /\ forall q, In q l -> up q = false.
Proof.
  revert b. induction l as [|a l IH]; intros b E.
  - simpl in E. split; [exact E|intros ? []].
  - cbn [wssi] in E. destruct (IH _ E) as [H1 H2].
    destruct (up a) eqn:U; cbn [andb] in H1.
    + destruct b as [c|]; [|discriminate]. destruct (Qlt_bool (lg a) (lg c)); discriminate.
    + split; [exact H1|]. intros q [<-|Q]; auto.
Qed.

Section Scan.
Variables (low : nat -> bool) (lg : vec) (curv : nat -> Q) (gmin ta : Q).
Definition denom q : Q := if Qle_bool (curv q) 0 then ta else curv q.
Definition slope q : Q := (lg q - gmin) / denom q.
Definition gain q : Q := slope q * (lg q - gmin).

Definition scanned (seen : list nat) (s : scan) : Prop :=
  match top s with
  | None => forall q, In q seen -> low q = false
  | Some m => (exists q, In q seen /\ low q = true /\ m = lg q) /\
              forall q, In q seen -> low q = true -> lg q <= m
  end /\
  match best s with
  | None => forall q, In q seen -> low q = true -> lg q - gmin < 0
  | Some (j, f, ratio) =>
      In j seen /\ low j = true /\ 0 <= lg j - gmin /\ ratio = slope j /\ f = gain j /\
      forall q, In q seen -> low q = true -> 0 <= lg q - gmin -> gain q <= f
  end.

Lemma scan_step seen s q : scanned seen s ->
  scanned (q :: seen)
      (if low q then
         let t := match top s with None => lg q | Some m => Qmax m (lg q) end in
         let b := lg q - gmin in
         if Qlt_bool b 0 then Scan (Some t) (best s) else
         let a := if Qle_bool (curv q) 0 then ta else curv q in
         let ratio := b / a in
         let f := ratio * b in
         if match best s with None => true | Some (_, f', _) => Qlt_bool f' f end
         then Scan (Some t) (Some (q, f, ratio)) else Scan (Some t) (best s)
       else s).
Proof.
  intros (T & B). destruct (low q) eqn:Lq.
  2: { split.
       - destruct (top s) as [m|].
         + destruct T as ((x & X1 & X2 & X3) & T). split.
           * exists x. repeat split; auto. right; auto.
           * intros r [<-|R] Lr; [congruence|auto].
         + intros r [<-|R]; auto.
       - destruct (best s) as [[[j f] ratio]|].
         + destruct B as (B1 & B2 & B3 & B4 & B5 & B6). repeat split; auto; [right; auto|].
           intros r [<-|R] Lr; [congruence|auto].
         + intros r [<-|R] Lr; [congruence|auto]. }
  cbn zeta.
  set (t := match top s with None => lg q | Some m => Qmax m (lg q) end).
  assert (T' : (exists r, In r (q :: seen) /\ low r = true /\ t = lg r) /\
               forall r, In r (q :: seen) -> low r = true -> lg r <= t).
  { unfold t. destruct (top s) as [m|].
    - destruct T as ((x & X1 & X2 & X3) & T).
      destruct (Qmax_case m (lg q)) as [[-> H]|[-> H]].
      + split; [exists q; repeat split; auto; left; auto|].
        intros r [<-|R] Lr; [lra|]. specialize (T r R Lr). lra.
      + split; [exists x; repeat split; auto; right; auto|].
        intros r [<-|R] Lr; [lra|auto].
    - split; [exists q; repeat split; auto; left; auto|].
      intros r [<-|R] Lr; [lra|]. rewrite T in Lr by auto. discriminate. }
  destruct (Qlt_bool (lg q - gmin) 0) eqn:N.
  - apply Qlt_bool_iff in N. split; [exact T'|]. cbn [best].
    destruct (best s) as [[[j f] ratio]|].
    + destruct B as (B1 & B2 & B3 & B4 & B5 & B6). repeat split; auto; [right; auto|].
      intros r [<-|R] Lr P; [lra|auto].
    + intros r [<-|R] Lr; auto.
  - apply Qlt_bool_false in N.
    fold (denom q). fold (slope q). fold (gain q).
    destruct (best s) as [[[j f] ratio]|].
    + destruct B as (B1 & B2 & B3 & B4 & B5 & B6).
      destruct (Qlt_bool f (gain q)) eqn:G; (split; [exact T'|]); cbn [best].
      * apply Qlt_bool_iff in G. do 2 (split; [simpl; auto|]). do 3 (split; [auto|]).
        intros r [<-|R] Lr P; [lra|]. specialize (B6 r R Lr P). lra.
      * apply Qlt_bool_false in G. do 5 (split; [simpl; auto|]).
        intros r [<-|R] Lr P; [lra|auto].
    + split; [exact T'|]. cbn [best]. do 5 (split; [simpl; auto|]).
      intros r [<-|R] Lr P; [lra|]. specialize (B r R Lr). lra.
Qed.

Lemma wssj_scanned l seen s : scanned seen s ->
  exists seen', (forall q, In q seen' <-> In q seen \/ In q l) /\
    scanned seen' (wssj low lg curv gmin ta l s).
Proof.
  revert seen s. induction l as [|a l IH]; intros seen s H.
  - exists seen. split; [simpl; tauto|exact H].
  - cbn [wssj]. destruct (IH _ _ (scan_step seen s a H)) as (seen' & I & R).
    exists seen'. split; [|exact R]. intro q. rewrite I. simpl. intuition.
Qed.
Lemma wssj_spec l : scanned l (wssj low lg curv gmin ta l (Scan None None)).
Proof.
  destruct (wssj_scanned l [] (Scan None None)) as (seen & I & R).
  { split; simpl; intros ? []. }
  assert (I' : forall q, In q seen <-> In q l) by (intro q; rewrite I; simpl; tauto).
  destruct R as [T B]. split.
  - destruct (top _) as [m|].
    + destruct T as ((x & X1 & X2 & X3) & T). split.
      * exists x. rewrite <- I'. auto.
      * intros q Q. apply T. apply I'. exact Q.
    + intros q Q. apply T. apply I'. exact Q.
  - destruct (best _) as [[[j f] ratio]|].
    + destruct B as (B1 & B2 & B3 & B4 & B5 & B6). rewrite <- I'. repeat split; auto.
      intros q Q. apply B6. apply I'. exact Q.
    + intros q Q. apply B. apply I'. exact Q.
Qed.
End Scan.
