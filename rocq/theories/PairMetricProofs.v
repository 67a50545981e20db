From Coq Require Import ZArith List Bool Lia Reals Lra.
From Verif Require Import Par PairModel PairSpec PairProofs.
Import ListNotations.
Local Open Scope Z_scope.

Section Any.
Context {T : Type} (O : ops T).
Definition norm_of (nrm2 : list T -> T) (eps : T) (k : Z) (x : Z -> T) : T := safe_norm O nrm2 eps (map x (zrange k)).
Lemma row_of_holds X o ldx m k (x : Z -> Z -> T) i : holds o m k ldx X x -> 0 <= i < m -> row_of O X o ldx k i = map (x i) (zrange k).
Proof.
  intros H Hi. unfold row_of. apply map_ext_in. intros p Hp. apply in_zrange in Hp. specialize (H i p Hi Hp). unfold cell in H.
  destruct o; rewrite H; reflexivity.
Qed.
Lemma after_post_ext mt nx ny nx' ny' same i j v : nx i = nx' i -> ny j = ny' j ->
  after (post_of O mt nx ny same) i j v = after (post_of O mt nx' ny' same) i j v.
Proof. intros H1 H2. destruct mt; cbn; auto. unfold cosine_post. rewrite H1, H2. reflexivity. Qed.
Definition entry (b : sizes) (nrm2 : list T -> T) (eps : T) (mt : @pair_metric T) (same : bool) (k : Z) (x y : Z -> Z -> T) (i j : Z) : T :=
  after (post_of O (resolve O mt) (fun i => norm_of nrm2 eps k (x i)) (fun j => norm_of nrm2 eps k (y j)) same) i (j mod NC b)
    (value (o_zero O) (kernel_of O (resolve O mt)) (KC b) k (x i) (y j)).
Lemma written_ext o rows cols ld (D D' : mem T) d d' : (forall i j, 0 <= i < rows -> 0 <= j < cols -> d i j = d' i j) ->
  written o rows cols ld D D' d -> written o rows cols ld D D' d'.
Proof. intros H [A B]. split; auto. intros i j Hi Hj. rewrite A by assumption. f_equal. auto. Qed.
Lemma pairwise_ok b nrm2 eps g sched p_ok mt o m n k X ldx Y ldy D ldd x y n' :
  good_sizes b -> proper_call b sched p_ok mt o m n k X ldx Y ldy D ldd x y n' ->
  exists D', pairwise O b nrm2 eps g sched mt o m n k X ldx Y ldy D ldd = Some D' /\
    written o m n' ldd D D' (entry b nrm2 eps mt (negb (given Y)) k x y).
Proof.
  intros Hb (Hacc & Hs & HX & HY & HD). unfold accepted in Hacc. rewrite !andb_true_iff in Hacc. destruct Hacc as [[[[H1 H2] H3] H4] _].
  apply Z.leb_le in H1, H2.
  assert (Hgen : forall Yn ldyn same, (given Y = negb same) -> holds o n' k ldyn Yn y -> ld_ok o m n' ldd ->
    exists D', dispatch (o_zero O) b (kernel_of O (resolve O mt))
      (post_of O (resolve O mt) (fun i => safe_norm O nrm2 eps (row_of O X o ldx k i)) (fun j => safe_norm O nrm2 eps (row_of O Yn o ldyn k j)) same)
      g sched o m n' k X ldx Yn ldyn D ldd = Some D' /\ written o m n' ldd D D' (entry b nrm2 eps mt (negb (given Y)) k x y)).
  { intros Yn ldyn same Hsame HYn Hl.
    match goal with |- exists D', dispatch _ _ ?kk ?pp _ _ _ _ _ _ _ _ _ _ _ _ = _ /\ _ =>
      destruct (dispatch_ok (o_zero O) b kk pp g sched o m n' k X ldx Yn ldyn D ldd x y) as [D' [E W]]; auto end.
    exists D'. split; auto. eapply written_ext; [|exact W]. intros i j Hi Hj. unfold entry. rewrite Hsame, negb_involutive.
    destruct Hb as (G1 & G2 & G3 & G4 & _).
    apply after_post_ext; unfold norm_of; f_equal.
    - apply (row_of_holds X o ldx m k x i HX Hi).
    - apply (row_of_holds Yn o ldyn n' k y (j mod NC b) HYn). pose proof (Z.mod_pos_bound j (NC b) G4). pose proof (Z.mod_le j (NC b)). lia. }
  unfold pairwise. destruct Y as [Y|]; cbn [second] in HY; destruct HY as [-> HY].
  - apply (Hgen Y ldy false); auto. cbn [given] in H4. unfold ld_ok. destruct o; rewrite !andb_true_iff, !Z.leb_le in H4; tauto.
  - subst y. apply (Hgen X ldx true); auto. cbn [given] in H4. apply Z.leb_le in H4. unfold ld_ok. destruct o; assumption.
Qed.

(** ** Slices *)
Lemma pairs_ext (x y x' y' : Z -> T) from n : (forall p, from <= p < from + n -> x p = x' p /\ y p = y' p) -> pairs x y from n = pairs x' y' from n.
Proof. intro H. apply map_ext_in. intros r Hr. apply in_zrange in Hr. destruct (H (from + r)) as [-> ->]; [lia|reflexivity]. Qed.
Lemma fold_ext_in {A B} (f f' : A -> B -> A) l a : (forall a b, In b l -> f a b = f' a b) -> fold_left f l a = fold_left f' l a.
Proof.
  revert a. induction l as [|b l IH]; intros a H; cbn; [reflexivity|]. rewrite (H a b) by (left; reflexivity). apply IH. intros. apply H. right; assumption.
Qed.
Lemma slice_in kc k p : 0 < kc -> In p (starts k kc) -> 0 <= p /\ p < k.
Proof. intros Hkc H. apply starts_in in H; auto. lia. Qed.
Lemma value_ext zero kern kc k (x y x' y' : Z -> T) : 0 < kc -> (forall p, 0 <= p < k -> x p = x' p /\ y p = y' p) ->
  value zero kern kc k x y = value zero kern kc k x' y'.
Proof.
  intros Hkc H. rewrite !value_slices. unfold run_slices. apply fold_ext_in. intros v p Hp. apply slice_in in Hp; auto.
  f_equal. apply pairs_ext. intros r Hr. apply H. lia.
Qed.
(** what a kernel respects, all slices respect *)
Lemma value_rel zero kern kc k (x y x' y' : Z -> T) (E : T * T -> T * T -> Prop) :
  0 < kc -> (forall p, 0 <= p < k -> E (x p, y p) (x' p, y' p)) ->
  (forall v ps ps', Forall2 E ps ps' -> kern v ps = kern v ps') ->
  value zero kern kc k x y = value zero kern kc k x' y'.
Proof.
  intros Hkc H HK. rewrite !value_slices. unfold run_slices. apply fold_ext_in. intros v p Hp. apply slice_in in Hp; auto.
  apply HK. unfold pairs. assert (Hin : forall r, In r (zrange (Z.min kc (k - p))) -> 0 <= r < Z.min kc (k - p)) by (intro; apply in_zrange).
  induction (zrange (Z.min kc (k - p))) as [|r l IH]; cbn; constructor.
  - apply H. specialize (Hin r (or_introl eq_refl)). lia.
  - apply IH. intros. apply Hin. right; assumption.
Qed.
Lemma value_inv zero kern kc k (x y : Z -> T) (P : T -> Prop) (E : T * T -> Prop) :
  0 < kc -> P zero -> (forall p, 0 <= p < k -> E (x p, y p)) -> (forall v ps, P v -> Forall E ps -> P (kern v ps)) ->
  P (value zero kern kc k x y).
Proof.
  intros Hkc H0 H HK. rewrite value_slices. unfold run_slices.
  assert (Hl : forall p, In p (starts k kc) -> 0 <= p < k) by (intros p Hp; apply slice_in in Hp; auto).
  revert H0. generalize zero. induction (starts k kc) as [|p l IH]; intros v Hv; cbn; [exact Hv|].
  apply IH; [intros; apply Hl; right; assumption|]. apply HK; auto. apply Forall_forall. intros e He. unfold pairs in He. apply in_map_iff in He.
  destruct He as [r [<- Hr]]. apply in_zrange in Hr. specialize (Hl p (or_introl eq_refl)). apply H. lia.
Qed.
Lemma zrange_app a b : 0 <= a -> 0 <= b -> zrange (a + b) = zrange a ++ map (fun r => a + r) (zrange b).
Proof.
  intros Ha Hb. unfold zrange. rewrite Z2Nat.inj_add, seq_app, map_app by lia. f_equal. cbn [Nat.add].
  rewrite <- (Nat.add_0_r (Z.to_nat a)) at 1. rewrite map_map.
  generalize (Z.to_nat b) as n. intro n. assert (Hgen : forall s, map Z.of_nat (seq (Z.to_nat a + s) n) = map (fun r => a + Z.of_nat r) (seq s n)).
  { induction n as [|n IH]; intro s; cbn; [reflexivity|]. f_equal; [lia|]. rewrite <- Nat.add_succ_r. apply IH. }
  apply Hgen.
Qed.
Lemma pairs_app (x y : Z -> T) from a b : 0 <= a -> 0 <= b -> pairs x y from (a + b) = pairs x y from a ++ pairs x y (from + a) b.
Proof.
  intros Ha Hb. unfold pairs. rewrite zrange_app, map_app, map_map by lia. f_equal. apply map_ext. intro r. f_equal; f_equal; ring.
Qed.
Lemma slices_concat (x y : Z -> T) kc k : 0 < kc -> 0 <= k -> concat (map (fun p => pairs x y p (Z.min kc (k - p))) (starts k kc)) = pairs x y 0 k.
Proof.
  intros Hkc Hk.
  assert (Hgen : forall (n : nat) k from, (Z.to_nat k <= n)%nat -> 0 <= k ->
    concat (map (fun p => pairs x y (from + p) (Z.min kc (k - p))) (starts k kc)) = pairs x y from k).
  { induction n as [|n IH]; intros k0 from Hn Hk0.
    - assert (k0 = 0) by lia. subst. unfold starts. rewrite Z.div_small by lia. reflexivity.
    - destruct (Z.eq_dec k0 0) as [->|Hne]; [unfold starts; rewrite Z.div_small by lia; reflexivity|].
      rewrite starts_cons by lia. cbn [map concat]. rewrite map_map, Z.sub_0_r, Z.add_0_r.
      destruct (Z_le_gt_dec k0 kc).
      + rewrite Z.min_r by lia. replace (starts (k0 - kc) kc) with (@nil Z).
        * cbn. apply app_nil_r.
        * unfold starts. replace (k0 - kc + kc - 1) with (k0 - 1) by ring. rewrite Z.div_small by lia. reflexivity.
      + rewrite Z.min_l by lia. replace (pairs x y from k0) with (pairs x y from (kc + (k0 - kc))) by (f_equal; lia). rewrite pairs_app by lia. f_equal.
        rewrite <- (IH (k0 - kc) (from + kc)) by lia. f_equal. apply map_ext. intro p. f_equal; lia. }
  rewrite <- (Hgen (Z.to_nat k) k 0) by lia. f_equal.
Qed.
Lemma single_concat step (ls : list (list (T * T))) v : fold_left (fun v ps => single step v ps) ls v = single step v (concat ls).
Proof. revert v. induction ls as [|l ls IH]; intro v; cbn; [reflexivity|]. rewrite IH. unfold single. rewrite fold_left_app. reflexivity. Qed.
Lemma fold_map {A B C} (f : A -> C -> A) (h : B -> C) l a : fold_left f (map h l) a = fold_left (fun a b => f a (h b)) l a.
Proof. revert a. induction l; intro a0; cbn; auto. Qed.
Lemma value_single zero step kc k (x y : Z -> T) : 0 < kc -> 0 <= k -> value zero (single step) kc k x y = fold_left step (pairs x y 0 k) zero.
Proof.
  intros Hkc Hk. rewrite value_slices. unfold run_slices.
  rewrite <- (fold_map (fun v ps => single step v ps) (fun p => pairs x y p (Z.min kc (k - p)))). rewrite single_concat, slices_concat by assumption. reflexivity.
Qed.
(** ** Kernels *)
Definition same_step (step : T -> T * T -> T) (e e' : T * T) : Prop := forall g, step g e = step g e'.
Lemma single_rel step v ps ps' : Forall2 (same_step step) ps ps' -> single step v ps = single step v ps'.
Proof. intro H. revert v. induction H as [|e e' ps ps' He _ IH]; intro v; cbn; [reflexivity|]. rewrite He. apply IH. Qed.
Lemma dual_from_rel step add n : forall ps ps' g g2, (length ps <= n)%nat -> Forall2 (same_step step) ps ps' -> dual_from step add g g2 ps = dual_from step add g g2 ps'.
Proof.
  induction n as [|n IH]; intros ps ps' g g2 Hn H.
  - destruct ps; [inversion H; reflexivity|cbn in Hn; lia].
  - destruct H as [|a a' ps ps' Ha H]; [reflexivity|]. destruct H as [|b b' ps ps' Hb H]; [cbn; rewrite Ha; reflexivity|].
    destruct H as [|c c' ps ps' Hc H]; [cbn; rewrite Ha, Hb; reflexivity|]. destruct H as [|d d' ps ps' Hd H]; [cbn; rewrite Ha, Hb, Hc; reflexivity|].
    cbn [dual_from]. rewrite Ha, Hb, Hc, Hd. apply IH; [cbn in Hn; lia|exact H].
Qed.
Lemma dual_rel zero step add v ps ps' : Forall2 (same_step step) ps ps' -> dual zero step add v ps = dual zero step add v ps'.
Proof. intro H. unfold dual. eapply dual_from_rel; [apply le_n|exact H]. Qed.
Lemma single_inv step (P : T -> Prop) (E : T * T -> Prop) : (forall v e, P v -> E e -> P (step v e)) -> forall ps v, P v -> Forall E ps -> P (single step v ps).
Proof. intros H ps. induction ps as [|e ps IH]; intros v Hv HE; cbn; [exact Hv|]. inversion HE; subst. apply IH; auto. Qed.
Lemma dual_from_inv step add (P : T -> Prop) (E : T * T -> Prop) : (forall v e, P v -> E e -> P (step v e)) -> (forall a b, P a -> P b -> P (add a b)) ->
  forall n ps g g2, (length ps <= n)%nat -> P g -> P g2 -> Forall E ps -> P (dual_from step add g g2 ps).
Proof.
  intros Hst Hadd. induction n as [|n IH]; intros ps g g2 Hn Hg Hg2 HE.
  - destruct ps; [cbn; auto|cbn in Hn; lia].
  - destruct ps as [|a [|b [|c [|d ps]]]]; try (exact (single_inv step P E Hst _ (add g g2) (Hadd _ _ Hg Hg2) HE)).
    inversion HE as [|? ? Ea HE1]; subst. inversion HE1 as [|? ? Eb HE2]; subst. inversion HE2 as [|? ? Ec HE3]; subst. inversion HE3 as [|? ? Ed HE4]; subst.
    cbn [dual_from]. apply IH; [cbn in Hn; lia| | |exact HE4]; auto.
Qed.
Lemma dual_inv zero step add (P : T -> Prop) (E : T * T -> Prop) : P zero -> (forall v e, P v -> E e -> P (step v e)) -> (forall a b, P a -> P b -> P (add a b)) ->
  forall v ps, P v -> Forall E ps -> P (dual zero step add v ps).
Proof. intros H0 Hst Hadd v ps Hv HE. unfold dual. eapply dual_from_inv; eauto. Qed.
End Any.

(** ** Real numbers *)
Local Open Scope R_scope.
Lemma dual_real (step : R -> R * R -> R) (t : R * R -> R) : (forall g e, step g e = g + t e) ->
  forall n ps g g2, (length ps <= n)%nat -> dual_from step Rplus g g2 ps = g + g2 + fold_right Rplus 0 (map t ps).
Proof.
  intros Hst. assert (Hs : forall ps v, fold_left step ps v = v + fold_right Rplus 0 (map t ps)).
  { induction ps as [|e ps IH]; intro v; cbn; [ring|]. rewrite IH, Hst. ring. }
  induction n as [|n IH]; intros ps g g2 Hn.
  - destruct ps; [cbn; ring|cbn in Hn; lia].
  - destruct ps as [|a [|b [|c [|d ps]]]]; try (unfold dual_from; rewrite Hs; reflexivity).
    cbn [dual_from]. rewrite IH by (cbn in Hn; lia). cbn [map fold_right]. rewrite !Hst. ring.
Qed.
Lemma value_real kern kc k (x y : Z -> R) (t : R * R -> R) : (0 < kc)%Z -> (0 <= k)%Z ->
  (forall v ps, kern v ps = v + fold_right Rplus 0 (map t ps)) ->
  value 0 kern kc k x y = rsum k (fun p => t (x p, y p)).
Proof.
  intros Hkc Hk HK. rewrite value_slices. unfold run_slices.
  assert (Hall : forall l v, fold_left (fun v p => kern v (pairs x y p (Z.min kc (k - p)))) l v =
     v + fold_right Rplus 0 (map t (concat (map (fun p => pairs x y p (Z.min kc (k - p))) l)))).
  { induction l as [|p l IH]; intro v; cbn; [ring|]. rewrite IH, HK, map_app, fold_right_app.
    assert (Hf : forall l a, fold_right Rplus a l = fold_right Rplus 0 l + a) by (induction l0; intro; cbn; [ring|rewrite IHl0; ring]).
    rewrite (Hf _ (fold_right _ _ _)). ring. }
  rewrite Hall, slices_concat by assumption. unfold rsum, pairs. rewrite map_map. cbn. rewrite Rplus_0_l. f_equal.
Qed.
