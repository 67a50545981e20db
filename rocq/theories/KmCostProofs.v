(** Lloyd's algorithm in exact arithmetic: nearest labels, the cost of a clustering. *)
From Coq Require Import ZArith Reals List Bool Lia Lra Arith Permutation.
From Verif Require Import Base Par UtilModel NnModel RealArith KmModel KmSpec KmKernelProofs KmLloydProofs.
Import ListNotations.
Local Open Scope R_scope.


Lemma square_norm_dot c : square_norm arithR c = dot c c.
Proof.
  unfold square_norm, dot, zero. cbn [of_Z add mul arithR].
  assert (H : forall c s, fold_left (fun s x => s + x * x) c s = s + rsum (map (fun ab => fst ab * snd ab) (combine c c))).
  { induction c0 as [|a c0 IH]; intros s; cbn [fold_left combine map]; [unfold rsum; cbn; lra|].
    rewrite IH. unfold rsum. cbn [fold_right fst snd]. lra. }
  rewrite H. lra.
Qed.

Lemma sqdist_expand x : forall c, length x = length c -> sqdist x c = dot x x + (- 2 * dot x c + dot c c).
Proof.
  unfold sqdist, dot. induction x as [|a x IH]; intros [|b c] E; cbn in E; try discriminate.
  - unfold rsum; cbn; lra.
  - cbn [combine map fst snd]. specialize (IH c ltac:(lia)). unfold rsum in *. cbn [fold_right]. rewrite IH. lra.
Qed.
Lemma sqdist_nonneg x c : 0 <= sqdist x c.
Proof.
  unfold sqdist. induction (combine x c) as [|ab l IH]; unfold rsum in *; cbn [map fold_right]; [lra|].
  pose proof (Rle_0_sqr (fst ab - snd ab)) as Q. unfold Rsqr in Q. lra.
Qed.

Lemma smallest_shift w vals vals' s r : length vals' = length vals ->
  (forall j, (j < length vals)%nat -> nth j vals' 0 = nth j vals 0 + s) -> smallest_in_lanes w vals r -> smallest_in_lanes w vals' r.
Proof.
  intros L E [R H]. split; [lia|]. intros j J. rewrite L in J. rewrite !E by auto. destruct (H j J) as [|[]]; [left; lra|right; split; auto; lra].
Qed.

Section Exact.
Variables (k nf w : nat) (X : list rw) (prod : rw -> rw -> R).
Hypothesis k_pos : k <> 0%nat.
Hypothesis w_pos : w <> 0%nat.
Hypothesis TX : table nf X.
Hypothesis prod_exact : gemm_contract nf prod.
Notation kern := (pick arithR Rltb w).
Notation lab := (label arithR prod kern).
Notation labs := (labels arithR prod kern).

Lemma label_smallest C x : shape k nf C -> length x = nf -> smallest_in_lanes w (map (sqdist x) C) (lab C x).
Proof.
  intros [LC HC] Lx. unfold label.
  assert (P : smallest_in_lanes w (map (fun r => r) (values arithR prod C x)) (kern (values arithR prod C x))).
  { apply (pick_smallest arithR Rltb (fun _ => True) (fun r => r)); auto.
    - intros a b _ _. apply Rltb_true.
    - unfold values. destruct C; [cbn in LC; congruence|discriminate].
    - intros a _. exact I. }
  rewrite map_id in P. apply (smallest_shift w (values arithR prod C x) _ (dot x x)); auto.
  - unfold values. rewrite !map_length. auto.
  - unfold values. rewrite map_length. intros j J. rewrite !(nth_map_in _ C []) by auto.
    assert (Lc : length (nth j C []) = nf) by (apply HC, nth_In; auto).
    rewrite sqdist_expand by congruence. rewrite prod_exact by auto. rewrite square_norm_dot. cbn [add arithR]. lra.
Qed.

Lemma labels_length C : length (labs C X) = length X.
Proof. unfold labels. apply map_length. Qed.
Lemma labels_range C : shape k nf C -> forall l, In l (labs C X) -> (l < k)%nat.
Proof.
  intros SC l Hl. unfold labels in Hl. apply in_map_iff in Hl. destruct Hl as [x [<- Hx]].
  destruct (label_smallest C x SC (TX x Hx)) as [L _]. rewrite map_length in L. destruct SC. lia.
Qed.
Lemma labels_nearest C : shape k nf C -> nearest_labels X C (labs C X).
Proof.
  intros SC. split; [apply labels_length|]. intros i Hi. unfold labels. rewrite (nth_map_in _ X []) by auto.
  destruct (label_smallest C (nth i X []) SC) as [L H]; [apply TX, nth_In; auto|].
  rewrite map_length in *. split; auto. intros j J. specialize (H j J).
  rewrite !(nth_map_in _ C []) in H by auto. destruct H as [|[]]; lra.
Qed.

(** ** nearest labels do not increase the cost *)
Lemma nearest_pointwise C ls ls' : shape k nf C -> nearest_labels X C ls' -> length ls = length X -> (forall l, In l ls -> (l < k)%nat) ->
  forall i, (i < length X)%nat -> sqdist (nth i X []) (nth (nth i ls' O) C []) <= sqdist (nth i X []) (nth (nth i ls O) C []).
Proof.
  intros [LC HC] [L' H'] L H i Hi. destruct (H' i Hi) as [_ Q]. apply Q. rewrite LC. apply H. apply nth_In. lia.
Qed.
Lemma cost_nth C ls : length ls = length X ->
  cost X C ls = rsum (map (fun i => sqdist (nth i X []) (nth (nth i ls O) C [])) (seq 0 (length X))).
Proof.
  intros L. unfold cost. f_equal.
  apply (list_ext _ _ 0).
  - rewrite !map_length, combine_length, seq_length. lia.
  - intros i Hi. rewrite map_length, combine_length in Hi.
    rewrite (nth_map_in _ _ (O, [])) by (rewrite combine_length; lia).
    rewrite combine_nth by auto. cbn [fst snd]. rewrite (nth_map_in _ _ O) by (rewrite seq_length; lia). rewrite seq_nth by lia. reflexivity.
Qed.
Lemma nearest_cost C ls ls' : shape k nf C -> nearest_labels X C ls' -> length ls = length X -> (forall l, In l ls -> (l < k)%nat) ->
  cost X C ls' <= cost X C ls.
Proof.
  intros SC N L H. rewrite !cost_nth by (auto; apply N). apply rsum_map_le. intros i Hi. apply in_seq in Hi.
  apply nearest_pointwise; auto. lia.
Qed.

(** ** the means minimise the cost *)
Lemma rsum_seq_single n j (g : nat -> R) : (j < n)%nat -> rsum (map (fun i => if Nat.eqb j i then g i else 0) (seq 0 n)) = g j.
Proof.
  induction n as [|n IH]; intros J; [lia|]. rewrite seq_S, map_app, rsum_app. cbn [map Nat.add]. unfold rsum at 2. cbn [fold_right].
  destruct (Nat.eqb_spec j n) as [->|].
  - rewrite rsum_map_zero; [lra|]. intros i Hi. apply in_seq in Hi. destruct (Nat.eqb_spec n i); [lia|auto].
  - rewrite IH by lia. lra.
Qed.
Lemma rsum_swap {A B} (g : A -> B -> R) (a : list A) (b : list B) :
  rsum (map (fun x => rsum (map (g x) b)) a) = rsum (map (fun y => rsum (map (fun x => g x y) a)) b).
Proof.
  induction a as [|x a IH]; cbn [map].
  - unfold rsum at 1. cbn [fold_right]. symmetry. apply rsum_map_zero. reflexivity.
  - change (rsum (rsum (map (g x) b) :: map (fun x => rsum (map (g x) b)) a)) with (rsum (map (g x) b) + rsum (map (fun x => rsum (map (g x) b)) a)).
    rewrite IH, <- rsum_map_add. apply rsum_map_ext. intros y _. reflexivity.
Qed.
(** the samples by clusters *)
Lemma cost_by_cluster (g : nat -> rw -> R) ls : length ls = length X -> (forall l, In l ls -> (l < k)%nat) ->
  rsum (map (fun lx => g (fst lx) (snd lx)) (combine ls X)) = rsum (map (fun j => rsum (map (g j) (members ls X j))) (seq 0 k)).
Proof.
  intros L H.
  rewrite (rsum_map_ext _ (fun lx => rsum (map (fun j => if Nat.eqb (fst lx) j then g j (snd lx) else 0) (seq 0 k)))).
  - rewrite (rsum_swap (fun lx j => if Nat.eqb (fst lx) j then g j (snd lx) else 0)). apply rsum_map_ext. intros j _.
    unfold members. induction (combine ls X) as [|a l IH]; [reflexivity|]. cbn [map filter].
    destruct (Nat.eqb (fst a) j); cbn [map]; unfold rsum in *; cbn [fold_right]; rewrite IH; lra.
  - intros [l x] Hlx. cbn [fst snd]. symmetry. apply (rsum_seq_single k l (fun j => g j x)). apply H. eapply in_combine_l; eauto.
Qed.

(** one coordinate *)
Lemma mean_minimises (v : list R) (c : R) : v <> [] ->
  let m := rsum v / INR (length v) in
  rsum (map (fun a => (a - m) * (a - m)) v) <= rsum (map (fun a => (a - c) * (a - c)) v).
Proof.
  intros NE m.
  assert (E : forall v, rsum (map (fun a => (a - c) * (a - c)) v) =
    rsum (map (fun a => (a - m) * (a - m)) v) + 2 * (m - c) * (rsum v - m * INR (length v)) + (m - c) * (m - c) * INR (length v)).
  { clearbody m. clear. induction v as [|a v IH]; [unfold rsum; cbn; ring|]. cbn [map length]. rewrite S_INR. unfold rsum in *. cbn [fold_right]. rewrite IH. ring. }
  assert (P : 0 < INR (length v)) by (apply lt_0_INR; destruct v; [congruence|cbn; lia]).
  rewrite E. assert (Z : rsum v - m * INR (length v) = 0) by (unfold m; field; lra). rewrite Z.
  pose proof (Rle_0_sqr (m - c)) as Q. unfold Rsqr in Q. pose proof (Rmult_le_pos _ _ Q (Rlt_le _ _ P)). lra.
Qed.

Lemma sqdist_coordinates x c : length x = nf -> length c = nf ->
  sqdist x c = rsum (map (fun f => (nth f x 0 - nth f c 0) * (nth f x 0 - nth f c 0)) (seq 0 nf)).
Proof.
  intros Lx Lc. unfold sqdist. f_equal. apply (list_ext _ _ 0).
  - rewrite !map_length, combine_length, seq_length. lia.
  - intros i Hi. rewrite map_length, combine_length in Hi.
    rewrite (nth_map_in _ _ (0, 0)) by (rewrite combine_length; lia). rewrite combine_nth by lia. cbn [fst snd].
    rewrite (nth_map_in _ _ O) by (rewrite seq_length; lia). rewrite seq_nth by lia. reflexivity.
Qed.

Lemma in_members ls j x : In x (members ls X j) -> In x X.
Proof.
  unfold members. intros H. apply in_map_iff in H. destruct H as [[l y] [<- H]]. apply filter_In in H. destruct H as [H _].
  eapply in_combine_r; eauto.
Qed.

Theorem means_minimise C ls : shape k nf C -> length ls = length X -> (forall l, In l ls -> (l < k)%nat) ->
  cost X (means k nf ls X) ls <= cost X C ls.
Proof.
  intros [LC HC] L H. unfold cost.
  rewrite (cost_by_cluster (fun l x => sqdist x (nth l (means k nf ls X) []))) by auto.
  rewrite (cost_by_cluster (fun l x => sqdist x (nth l C []))) by auto.
  apply rsum_map_le. intros j Hj. apply in_seq in Hj. destruct (means_shape k nf ls X) as [LM HM].
  assert (Lc : length (nth j C []) = nf) by (apply HC, nth_In; lia).
  assert (Lm : length (nth j (means k nf ls X) []) = nf) by (apply HM, nth_In; lia).
  set (xs := members ls X j) in *.
  assert (Lxs : forall x, In x xs -> length x = nf) by (intros x Hx; apply TX; eapply in_members; eauto).
  rewrite (rsum_map_ext _ (fun x => rsum (map (fun f => (nth f x 0 - nth f (nth j (means k nf ls X) []) 0) * (nth f x 0 - nth f (nth j (means k nf ls X) []) 0)) (seq 0 nf))))
    by (intros x Hx; apply sqdist_coordinates; auto).
  rewrite (rsum_map_ext (fun x => sqdist x (nth j C [])) (fun x => rsum (map (fun f => (nth f x 0 - nth f (nth j C []) 0) * (nth f x 0 - nth f (nth j C []) 0)) (seq 0 nf))))
    by (intros x Hx; apply sqdist_coordinates; auto).
  rewrite (rsum_swap (fun x f => (nth f x 0 - nth f (nth j (means k nf ls X) []) 0) * (nth f x 0 - nth f (nth j (means k nf ls X) []) 0))).
  rewrite (rsum_swap (fun x f => (nth f x 0 - nth f (nth j C []) 0) * (nth f x 0 - nth f (nth j C []) 0))).
  apply rsum_map_le. intros f Hf. apply in_seq in Hf.
  destruct xs as [|y ys] eqn:Exs; [cbn [map]; lra|]. rewrite <- Exs in *.
  assert (Em : nth f (nth j (means k nf ls X) []) 0 = rsum (map (fun x => nth f x 0) xs) / INR (length (map (fun x => nth f x 0) xs))).
  { fold (entry j f (means k nf ls X)). rewrite means_entry by lia. fold xs. rewrite map_length. rewrite Exs. reflexivity. }
  rewrite Em. rewrite <- (map_map (fun x => nth f x 0) (fun a => (a - rsum (map (fun x => nth f x 0) xs) / INR (length (map (fun x => nth f x 0) xs))) * (a - rsum (map (fun x => nth f x 0) xs) / INR (length (map (fun x => nth f x 0) xs))))).
  rewrite <- (map_map (fun x => nth f x 0) (fun a => (a - nth f (nth j C []) 0) * (a - nth f (nth j C []) 0))).
  apply mean_minimises. rewrite Exs. discriminate.
Qed.

(** one iteration *)
Theorem iteration_cost C ls : shape k nf C -> length ls = length X -> (forall l, In l ls -> (l < k)%nat) ->
  let C' := means k nf ls X in
  cost X C' (labs C' X) <= cost X C ls.
Proof.
  intros SC L H C'. apply (Rle_trans _ (cost X C' ls)).
  - apply nearest_cost; auto; [apply means_shape|apply labels_nearest, means_shape].
  - apply means_minimise; auto.
Qed.

(** ** no labelling comes back *)
Definition potential (ls : list nat) : R := cost X (means k nf ls X) ls.
Definition rank (r : nat) : nat := (r mod w * k + r)%nat.
Definition ranks (ls : list nat) : nat := list_sum (map rank ls).
Definition lower (ls' ls : list nat) : Prop :=
  potential ls' < potential ls \/ potential ls' = potential ls /\ (ranks ls' < ranks ls)%nat.
Lemma lower_trans a b c : lower a b -> lower b c -> lower a c.
Proof. unfold lower. intros [H|[H H1]] [H'|[H' H1']]; [left; lra|left; lra|left; lra|right; split; [lra|lia]]. Qed.
Lemma lower_irrefl a : ~ lower a a.
Proof. unfold lower. intros [H|[H H1]]; [lra|lia]. Qed.

Lemma list_sum_le (f : nat -> nat) a : forall b, length a = length b ->
  (forall i, (i < length a)%nat -> (f (nth i a O) <= f (nth i b O))%nat) ->
  (list_sum (map f a) <= list_sum (map f b))%nat /\
  ((exists i, (i < length a)%nat /\ (f (nth i a O) < f (nth i b O))%nat) -> (list_sum (map f a) < list_sum (map f b))%nat).
Proof.
  induction a as [|x a IH]; intros [|y b] L H; cbn in L; try discriminate.
  - split; [cbn; lia|]. intros [i [Hi _]]. cbn in Hi. lia.
  - destruct (IH b ltac:(lia)) as [I1 I2]. { intros i Hi. apply (H (S i)). cbn. lia. }
    pose proof (H 0%nat ltac:(cbn; lia)) as H0. cbn [nth] in H0.
    change (list_sum (map f (x :: a))) with (f x + list_sum (map f a))%nat.
    change (list_sum (map f (y :: b))) with (f y + list_sum (map f b))%nat.
    split; [lia|]. intros [[|i] [Hi Q]]; cbn [nth] in Q; [lia|]. assert (list_sum (map f a) < list_sum (map f b))%nat; [|lia].
    apply I2. exists i. cbn in Hi. split; [lia|auto].
Qed.

Theorem next_lower ls : length ls = length X -> (forall l, In l ls -> (l < k)%nat) ->
  let ls' := labs (means k nf ls X) X in ls' <> ls -> lower ls' ls.
Proof.
  intros L H ls' NE. set (C := means k nf ls X) in *. assert (SC : shape k nf C) by apply means_shape.
  assert (R' : forall l, In l ls' -> (l < k)%nat) by (apply labels_range; auto).
  assert (L' : length ls' = length X) by apply labels_length.
  pose proof (labels_nearest C SC) as N. fold ls' in N.
  pose proof (nearest_cost C ls ls' SC N L H) as Q1.
  pose proof (means_minimise C ls' SC L' R') as Q2. fold (potential ls') in Q2.
  change (cost X C ls) with (potential ls) in Q1.
  destruct (Rle_lt_dec (potential ls) (potential ls')) as [Q3|Q3]; [|left; auto].
  right. split; [lra|].
  assert (Eq : cost X C ls <= cost X C ls') by (change (cost X C ls) with (potential ls); lra).
  rewrite !cost_nth in Eq by auto.
  assert (P : forall i, (i < length X)%nat ->
     sqdist (nth i X []) (nth (nth i ls' O) C []) = sqdist (nth i X []) (nth (nth i ls O) C [])).
  { intros i Hi. apply (rsum_map_le_eq (fun i => sqdist (nth i X []) (nth (nth i ls' O) C []))
       (fun i => sqdist (nth i X []) (nth (nth i ls O) C [])) (seq 0 (length X))); auto.
    - intros i' Hi'. apply in_seq in Hi'. apply (nearest_pointwise C); auto. lia.
    - apply in_seq. lia. }
  assert (Ord : forall i, (i < length X)%nat -> nth i ls' O = nth i ls O \/ (rank (nth i ls' O) < rank (nth i ls O))%nat).
  { intros i Hi. destruct (label_smallest C (nth i X []) SC) as [LL HH]; [apply TX, nth_In; auto|].
    assert (E : nth i ls' O = lab C (nth i X [])) by (unfold ls', labels; apply nth_map_in; auto).
    rewrite <- E in LL, HH. rewrite map_length in *. destruct SC as [LC _].
    assert (Hj : (nth i ls O < length C)%nat) by (rewrite LC; apply H, nth_In; lia).
    specialize (HH _ Hj). rewrite !(nth_map_in _ C []) in HH by auto. specialize (P i Hi).
    destruct HH as [HH|[_ [HH|[HH HH']]]]; [lra| |].
    - right. unfold rank. rewrite LC in *. nia.
    - destruct (Nat.eq_dec (nth i ls' O) (nth i ls O)); [left; auto|right]. unfold rank. nia. }
  unfold ranks. apply (list_sum_le rank ls' ls).
  - congruence.
  - intros i Hi. destruct (Ord i ltac:(lia)) as [->|]; lia.
  - assert (D : exists i, (i < length ls')%nat /\ nth i ls' O <> nth i ls O).
    { destruct (list_eq_dec Nat.eq_dec ls' ls) as [|_]; [contradiction|].
      assert (LE : length ls' = length ls) by congruence. clearbody ls'. clear -NE LE. revert ls NE LE.
       induction ls' as [|a l IH]; intros [|b m] NE LE; cbn in LE; try discriminate; [congruence|].
      destruct (Nat.eq_dec a b) as [->|D].
      - destruct (IH m) as [i [Hi Q]]; [congruence|lia|]. exists (S i). cbn. split; [lia|auto].
      - exists 0%nat. cbn. split; [lia|auto]. }
    destruct D as [i [Hi Q]]. exists i. split; auto. destruct (Ord i ltac:(lia)); [contradiction|auto].
Qed.

(** the labellings *)
Fixpoint labellings (n : nat) : list (list nat) :=
  match n with O => [[]] | S n => flat_map (fun l => map (fun j => j :: l) (seq 0 k)) (labellings n) end.
Lemma labellings_length n : length (labellings n) = (k ^ n)%nat.
Proof.
  induction n as [|n IH]; [reflexivity|]. cbn [labellings Nat.pow]. rewrite <- IH. clear.
  induction (labellings n) as [|l ls IH]; cbn [flat_map length]; [lia|]. rewrite app_length, IH, map_length, seq_length. lia.
Qed.
Lemma in_labellings n : forall ls, length ls = n -> (forall l, In l ls -> (l < k)%nat) -> In ls (labellings n).
Proof.
  induction n as [|n IH]; intros [|a ls] L H; cbn in L; try discriminate; [cbn; auto|].
  cbn [labellings]. apply in_flat_map. exists ls. split.
  - apply IH; [lia|]. intros l Hl. apply H. right. auto.
  - apply in_map_iff. exists a. split; auto. apply in_seq. specialize (H a (or_introl eq_refl)). lia.
Qed.
End Exact.
