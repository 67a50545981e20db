(** Proofs about predictions from neighbours. *)
From Coq Require Import ZArith List Bool Reals Permutation Sorted Lia Lra.
From Flocq Require Import Core BinarySingleNaN.
From Verif Require Import Base Par F64 FloatOrder FloatMid HistFloatProofs UtilModel TreeSearchModel NnModel NnPredictModel NnPredictSpec.
Import ListNotations.
Local Open Scope Z_scope.

(** ** The classes *)
Lemma insert_in x l v : In v (set_insert x l) <-> v = x \/ In v l.
Proof.
  induction l as [|y l IH]; cbn [set_insert]; [cbn; intuition|].
  destruct (x <? y) eqn:E1; [cbn; intuition|]. destruct (x =? y) eqn:E2.
  - apply Z.eqb_eq in E2. subst y. cbn. intuition.
  - cbn [In]. rewrite IH. intuition.
Qed.
Lemma insert_sorted x l : StronglySorted Z.lt l -> StronglySorted Z.lt (set_insert x l).
Proof.
  induction l as [|y l IH]; cbn [set_insert]; intros S; [repeat constructor|].
  inversion S as [|? ? S' F]; subst.
  destruct (x <? y) eqn:E1; [apply Z.ltb_lt in E1; constructor; auto; constructor; auto|].
  { eapply Forall_impl; [|exact F]. intros; lia. }
  destruct (x =? y) eqn:E2; auto. apply Z.ltb_ge in E1. apply Z.eqb_neq in E2.
  constructor; auto. apply Forall_forall. intros v Hv. apply insert_in in Hv. destruct Hv as [->|Hv]; [lia|].
  rewrite Forall_forall in F. auto.
Qed.
Lemma classes_fold y : forall s, StronglySorted Z.lt s ->
  StronglySorted Z.lt (fold_left (fun s x => set_insert x s) y s) /\
  forall v, In v (fold_left (fun s x => set_insert x s) y s) <-> In v s \/ In v y.
Proof.
  induction y as [|x y IH]; intros s S; cbn [fold_left In]; [split; [exact S|]; intuition|].
  destruct (IH (set_insert x s) (insert_sorted x s S)) as [A B]. split; auto.
  intros v. rewrite B, insert_in. cbn. intuition.
Qed.
Lemma classes_sorted y : StronglySorted Z.lt (available_classes y).
Proof. apply classes_fold. constructor. Qed.
Lemma classes_in y v : In v (available_classes y) <-> In v y.
Proof. unfold available_classes. rewrite (proj2 (classes_fold y [] (SSorted_nil _))). cbn. intuition. Qed.
Lemma sorted_NoDup l : StronglySorted Z.lt l -> NoDup l.
Proof.
  induction 1 as [|x l S IH F]; constructor; auto. intros H. rewrite Forall_forall in F. specialize (F x H). lia.
Qed.
Lemma sorted_nth l : StronglySorted Z.lt l -> forall i j d, (i < j < length l)%nat -> nth i l d < nth j l d.
Proof.
  induction 1 as [|x l S IH F]; intros i j d H; [cbn in H; lia|].
  destruct j as [|j]; [lia|]. cbn in H. destruct i as [|i]; cbn.
  - rewrite Forall_forall in F. apply F. apply nth_In. lia.
  - apply IH. lia.
Qed.

(** ** The largest entry *)
Lemma iamax_from_ok : forall l (i best : nat) v pre, Forall (fun x => is_nan x = false) l -> is_nan v = false ->
  i = length pre -> (best < i)%nat ->
  v = f64_abs (nth best pre zero64) ->
  (forall j, (j < i)%nat -> (key (f64_abs (nth j pre zero64)) <= key v)%R) ->
  (forall j, (j < best)%nat -> (key (f64_abs (nth j pre zero64)) < key v)%R) ->
  let r := iamax_from l i best v in
  let all := pre ++ l in
  (r < length all)%nat /\
  (forall j, (j < length all)%nat -> (key (f64_abs (nth j all zero64)) <= key (f64_abs (nth r all zero64)))%R) /\
  (forall j, (j < r)%nat -> (key (f64_abs (nth j all zero64)) < key (f64_abs (nth r all zero64)))%R).
Proof.
  induction l as [|x l IH]; intros i best v pre Hl Hv Hi Hb Ev Hle Hlt; cbn [iamax_from].
  - cbv zeta. rewrite app_nil_r. rewrite <- Ev. subst i. auto.
  - inversion Hl as [|? ? Hx Hl']; subst x0 l0.
    assert (Hax : is_nan (f64_abs x) = false) by (unfold f64_abs; destruct x; auto).
    assert (Npre : nth i (pre ++ [x]) zero64 = x) by (rewrite app_nth2 by lia; replace (i - length pre)%nat with 0%nat by lia; reflexivity).
    assert (Nold : forall j, (j < i)%nat -> nth j (pre ++ [x]) zero64 = nth j pre zero64) by (intros; apply app_nth1; lia).
    destruct (f64_lt v (f64_abs x)) eqn:E.
    + apply f64_lt_key in E; auto.
      specialize (IH (S i) i (f64_abs x) (pre ++ [x]) Hl' Hax). cbv zeta in *. rewrite <- app_assoc in IH. cbn [app] in IH.
      apply IH; try lia.
      * rewrite app_length. cbn. lia.
      * rewrite Npre. reflexivity.
      * intros j Hj. destruct (Nat.eq_dec j i) as [->|]; [rewrite Npre; lra|]. rewrite Nold by lia.
        specialize (Hle j ltac:(lia)). lra.
      * intros j Hj. rewrite Nold by lia. specialize (Hle j ltac:(lia)). lra.
    + apply f64_lt_false in E; auto.
      specialize (IH (S i) best v (pre ++ [x]) Hl' Hv). cbv zeta in *. rewrite <- app_assoc in IH. cbn [app] in IH.
      apply IH; try lia.
      * rewrite app_length. cbn. lia.
      * rewrite Nold by lia. exact Ev.
      * intros j Hj. destruct (Nat.eq_dec j i) as [->|]; [rewrite Npre; lra|]. rewrite Nold by lia. apply Hle. lia.
      * intros j Hj. rewrite Nold by lia. apply Hlt. lia.
Qed.
Lemma iamax_ok l : l <> [] -> Forall (fun x => is_nan x = false) l ->
  (iamax l < length l)%nat /\
  (forall j, (j < length l)%nat -> (key (f64_abs (nth j l zero64)) <= key (f64_abs (nth (iamax l) l zero64)))%R) /\
  (forall j, (j < iamax l)%nat -> (key (f64_abs (nth j l zero64)) < key (f64_abs (nth (iamax l) l zero64)))%R).
Proof.
  intros Hl H. destruct l as [|x l]; [congruence|]. inversion H; subst. unfold iamax.
  apply (iamax_from_ok l 1 0 (f64_abs x) [x]); auto.
  - unfold f64_abs; destruct x; auto.
  - intros j Hj. replace j with 0%nat by lia. cbn. lra.
  - intros j Hj. lia.
Qed.
(** ** Values *)
Lemma is_not_nan x r : is x r -> is_nan x = false.
Proof. intros [H _]. destruct x; auto; discriminate. Qed.
Lemma is_key_abs x r : is x r -> (0 <= r)%R -> key (f64_abs x) = r.
Proof.
  intros [H E] Hr. rewrite key_finite by (unfold f64_abs; rewrite is_finite_Babs; exact H).
  unfold f64_abs. rewrite B2R_Babs, E. apply Rabs_pos_eq. exact Hr.
Qed.
Lemma big : (IZR (2 ^ 200) <= bpow radix2 1000)%R.
Proof. change (IZR (2 ^ 200)) with (bpow radix2 200). apply bpow_le. lia. Qed.
Lemma one_is : is one64 1. Proof. apply (f64_of_Z_is 1). lia. Qed.
Lemma zero_is : is zero64 0. Proof. apply (f64_of_Z_is 0). lia. Qed.
Lemma small_add x y a b : is x (IZR a) -> is y (IZR b) -> 0 <= a -> 0 <= b -> a + b <= 2 ^ 53 -> is (f64_add x y) (IZR (a + b)).
Proof.
  intros Hx Hy Ha Hb H.
  assert (E : is (f64_add x y) (rnd (IZR a + IZR b))).
  { apply f64_add_is; auto. rewrite <- plus_IZR. rewrite <- abs_IZR. eapply Rle_trans; [apply IZR_le|exact big].
    rewrite Z.abs_eq by lia. eapply Z.le_trans; [exact H|]. vm_compute. discriminate. }
  rewrite <- plus_IZR in E. rewrite rnd_Z in E; auto. lia.
Qed.

(** ** The votes *)
Definition label (y : list Z) (i : Z) : Z := nth (Z.to_nat i) y 0.
Lemma votes_some w y nb : among y nb -> votes w y nb = Some (map (fun e => (label y (fst e), weight_of w (snd e))) nb).
Proof.
  induction 1 as [|[i d] nb Hi _ IH]; cbn [votes map]; auto. cbn [fst] in Hi.
  destruct (i <? 0) eqn:E; [lia|].
  rewrite (nth_error_nth' y 0) by lia. cbn [bind]. rewrite IH. reflexivity.
Qed.
Definition unit_votes (ls : list Z) : list (Z * f64) := map (fun l => (l, one64)) ls.
Definition count (ls : list Z) (l : Z) : Z := Z.of_nat (length (filter (fun x => x =? l) ls)).
Lemma count_cons x ls l : count (x :: ls) l = (if x =? l then 1 else 0) + count ls l.
Proof. unfold count. cbn [filter]. destruct (x =? l); cbn [length]; lia. Qed.
Lemma votes_for_count y nb l : votes_for y nb l = count (map (fun e => label y (fst e)) nb) l.
Proof.
  unfold votes_for. induction nb as [|e nb IH]; auto. cbn [map]. rewrite count_cons. cbn [filter]. unfold label at 1.
  destruct (_ =? l); cbn [length]; lia.
Qed.
Lemma count_len ls l : 0 <= count ls l <= Z.of_nat (length ls).
Proof. induction ls as [|x ls IH]; [cbn; lia|]. rewrite count_cons. cbn [length]. destruct (x =? l); lia. Qed.
Lemma unit_sum c : forall ls a n, is a (IZR n) -> 0 <= n -> n + Z.of_nat (length ls) <= 2 ^ 53 ->
  is (fold_left (fun a v => if c =? fst v then f64_add a (snd v) else a) (unit_votes ls) a) (IZR (n + count ls c)).
Proof.
  induction ls as [|x ls IH]; intros a n Ha Hn Hb; cbn [unit_votes map fold_left].
  { cbn. rewrite Z.add_0_r. exact Ha. }
  rewrite count_cons. cbn [fst snd length] in *. fold (unit_votes ls).
  rewrite (Z.eqb_sym x c). destruct (c =? x).
  - rewrite Z.add_assoc. apply IH; try lia. apply (small_add a one64 n 1); auto; try lia. exact one_is.
  - rewrite Z.add_0_l. apply IH; auto; lia.
Qed.
Lemma unit_class_sum c ls : Z.of_nat (length ls) <= 2 ^ 53 -> is (class_sum (unit_votes ls) c) (IZR (count ls c)).
Proof. intros H. unfold class_sum. rewrite <- (Z.add_0_l (count ls c)). apply unit_sum; [exact zero_is|lia|lia]. Qed.

Fixpoint total (cs ls : list Z) : Z := match cs with [] => 0 | c :: cs => count ls c + total cs ls end.
Lemma total_nil cs : total cs [] = 0. Proof. induction cs; cbn; auto. Qed.
Lemma total_cons x ls : forall cs, total cs (x :: ls) = Z.of_nat (length (filter (fun c => x =? c) cs)) + total cs ls.
Proof.
  induction cs as [|c cs IH]; auto. cbn [total]. rewrite IH, count_cons. cbn [filter]. destruct (x =? c); cbn [length]; lia.
Qed.
Lemma once x cs : NoDup cs -> In x cs -> length (filter (fun c => x =? c) cs) = 1%nat.
Proof.
  induction 1 as [|c cs Hc N IH]; intros H; [destruct H|]. cbn [filter].
  destruct (x =? c) eqn:E.
  - apply Z.eqb_eq in E. subst c. cbn. f_equal.
    assert (F : filter (fun c => x =? c) cs = []).
    { clear -Hc. induction cs as [|c cs IH]; auto. cbn. destruct (x =? c) eqn:E; [apply Z.eqb_eq in E; subst; exfalso; apply Hc; left; auto|].
      apply IH. intros H. apply Hc. right. auto. }
    rewrite F. reflexivity.
  - apply Z.eqb_neq in E. apply IH. destruct H; congruence.
Qed.
Lemma total_all cs ls : NoDup cs -> (forall l, In l ls -> In l cs) -> total cs ls = Z.of_nat (length ls).
Proof.
  intros N. induction ls as [|x ls IH]; intros H; [apply total_nil|].
  rewrite total_cons, IH by (intros; apply H; right; auto). rewrite (once x cs N) by (apply H; left; auto). cbn [length]. lia.
Qed.
Lemma total_pos cs ls : 0 <= total cs ls.
Proof. induction cs as [|c cs IH]; cbn; [lia|]. pose proof (count_len ls c). lia. Qed.
Lemma unit_denominator ls : forall cs a n, is a (IZR n) -> 0 <= n -> n + total cs ls <= 2 ^ 53 -> Z.of_nat (length ls) <= 2 ^ 53 ->
  is (fold_left f64_add (map (class_sum (unit_votes ls)) cs) a) (IZR (n + total cs ls)).
Proof.
  induction cs as [|c cs IH]; intros a n Ha Hn Hb Hl; cbn [map fold_left total] in *; [rewrite Z.add_0_r; exact Ha|].
  rewrite Z.add_assoc. pose proof (total_pos cs ls). pose proof (count_len ls c).
  apply IH; try lia. apply small_add; auto; try lia. apply unit_class_sum; auto.
Qed.
Lemma proportion (a k : Z) : 0 <= a <= k -> 0 < k -> (0 <= IZR a / IZR k <= 1)%R.
Proof.
  intros H Hk. apply IZR_lt in Hk. destruct H as [H1 H2]. apply IZR_le in H1, H2. split.
  - apply Rmult_le_pos; [lra|]. left. apply Rinv_0_lt_compat. lra.
  - apply Rmult_le_reg_r with (IZR k); [lra|]. unfold Rdiv. rewrite Rmult_assoc, Rinv_l by lra. lra.
Qed.
Lemma unit_row cs ls : NoDup cs -> (forall l, In l ls -> In l cs) -> 0 < Z.of_nat (length ls) <= 2 ^ 50 ->
  Forall2 (fun c x => is x (rnd (IZR (count ls c) / IZR (Z.of_nat (length ls))))) cs (proba_row cs (unit_votes ls)).
Proof.
  intros N H [H0 Hk]. unfold proba_row. pose proof (total_all cs ls N H) as T.
  pose proof (unit_denominator ls cs zero64 0 zero_is) as D. rewrite T, Z.add_0_l in D.
  set (k := Z.of_nat (length ls)) in *.
  assert (D' : is (fold_left f64_add (map (class_sum (unit_votes ls)) cs) zero64) (IZR k)) by (apply D; lia). clear D.
  set (den := fold_left _ _ _) in *. clearbody den. clear N H T.
  induction cs as [|c cs IH]; cbn [map]; constructor; auto.
  pose proof (count_len ls c) as Hc. fold k in Hc.
  apply f64_div_is; auto.
  - apply unit_class_sum. fold k. lia.
  - apply not_eq_sym. apply Rlt_not_eq. apply IZR_lt. lia.
  - destruct (proportion (count ls c) k) as [A B]; try lia. rewrite Rabs_pos_eq by exact A.
    apply Rle_trans with 1%R; auto. change 1%R with (bpow radix2 0). apply bpow_le. lia.
Qed.
Lemma strict_proportion a b k : 0 <= a -> a < b <= k -> 0 < k <= 2 ^ 50 -> (rnd (IZR a / IZR k) < rnd (IZR b / IZR k))%R.
Proof.
  intros Ha Hb Hk.
  assert (E : forall c, 0 <= c <= k -> (Rabs (rnd (IZR c / IZR k) - IZR c / IZR k) <= bpow radix2 (-53))%R).
  { intros c Hc. destruct (proportion c k) as [A B]; try lia.
    assert (C : (IZR c / IZR k = 0 \/ bpow radix2 (-1000) <= Rabs (IZR c / IZR k))%R).
    { destruct (Z.eq_dec c 0) as [->|Hc0]; [left; unfold Rdiv; apply Rmult_0_l|right].
      rewrite Rabs_pos_eq by exact A. apply Rle_trans with (bpow radix2 (-50)); [apply bpow_le; lia|].
      assert (K0 : (0 < IZR k)%R) by (apply IZR_lt; lia).
      assert (K1 : (IZR k <= bpow radix2 50)%R) by (change (bpow radix2 50) with (IZR (2 ^ 50)); apply IZR_le; lia).
      assert (K2 : (1 <= IZR c)%R) by (apply (IZR_le 1); lia).
      apply Rmult_le_reg_r with (IZR k); auto. unfold Rdiv. rewrite Rmult_assoc, Rinv_l by lra.
      apply Rle_trans with 1%R; [|lra]. replace 1%R with (bpow radix2 (-50) * bpow radix2 50)%R by (rewrite <- bpow_plus; reflexivity).
      apply Rmult_le_compat_l; [apply bpow_ge_0|exact K1]. }
    apply rnd_error in C. eapply Rle_trans; [exact C|]. rewrite (Rabs_pos_eq _ A).
    rewrite <- (Rmult_1_r (bpow radix2 (-53))) at 2. apply Rmult_le_compat_l; [apply bpow_ge_0|exact B]. }
  pose proof (E a ltac:(lia)) as Ea. pose proof (E b ltac:(lia)) as Eb. clear E.
  assert (K0 : (0 < IZR k)%R) by (apply IZR_lt; lia).
  assert (D : (bpow radix2 (-50) <= IZR b / IZR k - IZR a / IZR k)%R).
  { assert (K1 : (IZR k <= bpow radix2 50)%R) by (change (bpow radix2 50) with (IZR (2 ^ 50)); apply IZR_le; lia).
    assert (K2 : (IZR a + 1 <= IZR b)%R) by (rewrite <- plus_IZR; apply IZR_le; lia).
    apply Rmult_le_reg_r with (IZR k); auto. unfold Rdiv. rewrite Rmult_minus_distr_r, !Rmult_assoc, Rinv_l by lra.
    apply Rle_trans with 1%R; [|lra]. replace 1%R with (bpow radix2 (-50) * bpow radix2 50)%R by (rewrite <- bpow_plus; reflexivity).
    apply Rmult_le_compat_l; [apply bpow_ge_0|exact K1]. }
  apply Rabs_le_inv in Ea, Eb.
  assert (P : (2 * bpow radix2 (-53) < bpow radix2 (-50))%R).
  { change 2%R with (bpow radix2 1). rewrite <- bpow_plus. apply bpow_lt. lia. }
  lra.
Qed.

(** ** Majority *)
Lemma need_new y : need_classes (set_labels new_labelled y) = Labelled y (available_classes y) true (-1) false (-1) false (-1).
Proof. reflexivity. Qed.
Lemma labels_in y nb : among y nb -> forall l, In l (map (fun e => label y (fst e)) nb) -> In l (available_classes y).
Proof.
  intros A l H. apply classes_in. apply in_map_iff in H. destruct H as [e [<- H]].
  unfold among in A. rewrite Forall_forall in A. specialize (A e H). apply nth_In. lia.
Qed.
Lemma uniform_votes y nb : among y nb -> votes Uniform y nb = Some (unit_votes (map (fun e => label y (fst e)) nb)).
Proof. intros A. rewrite (votes_some Uniform y nb A). unfold unit_votes. rewrite map_map. reflexivity. Qed.
Lemma Forall2_nth {A B} (P : A -> B -> Prop) l m a b : Forall2 P l m -> forall i, (i < length l)%nat -> P (nth i l a) (nth i m b).
Proof. induction 1; intros i Hi; [cbn in Hi; lia|]. destruct i; cbn in *; auto. apply IHForall2. lia. Qed.
Lemma Forall2_len {A B} (P : A -> B -> Prop) l m : Forall2 P l m -> length l = length m.
Proof. induction 1; cbn; auto. Qed.
Lemma Forall2_impl {A B} (P Q : A -> B -> Prop) l m : (forall a b, P a b -> Q a b) -> Forall2 P l m -> Forall2 Q l m.
Proof. induction 2; constructor; auto. Qed.
Lemma row_majority cs y nb : StronglySorted Z.lt cs -> (forall l, In l (map (fun e => label y (fst e)) nb) -> In l cs) -> countable nb ->
  majority y nb (label_of_row cs (proba_row cs (unit_votes (map (fun e => label y (fst e)) nb)))).
Proof.
  intros Sc Hin Hk. set (ls := map _ nb) in *.
  assert (Hl : length ls = length nb) by (unfold ls; apply map_length). unfold countable in Hk. rewrite <- Hl in Hk.
  assert (N := sorted_NoDup cs Sc).
  pose proof (unit_row cs ls N Hin Hk) as F. set (row := proba_row cs (unit_votes ls)) in *.
  assert (Hlen : length row = length cs) by (symmetry; eapply Forall2_len; exact F).
  set (k := Z.of_nat (length ls)) in *.
  assert (V : forall i, (i < length cs)%nat -> is (nth i row zero64) (rnd (IZR (count ls (nth i cs 0)) / IZR k))).
  { intros i Hi. apply (Forall2_nth _ _ _ 0 zero64 F i Hi). }
  assert (P : forall i, (0 <= rnd (IZR (count ls (nth i cs 0%Z)) / IZR k))%R).
  { intros i. pose proof (count_len ls (nth i cs 0)). destruct (proportion (count ls (nth i cs 0)) k) as [A _]; try (unfold k in *; lia).
    rewrite <- (rnd_Z 0) by lia. apply rnd_mono. exact A. }
  assert (K : forall i, (i < length cs)%nat -> key (f64_abs (nth i row zero64)) = rnd (IZR (count ls (nth i cs 0)) / IZR k)).
  { intros i Hi. apply is_key_abs; auto. }
  assert (NN : Forall (fun x => is_nan x = false) row).
  { apply Forall_forall. intros x Hx. apply (In_nth _ _ zero64) in Hx. destruct Hx as [i [Hi <-]]. rewrite Hlen in Hi.
    eapply is_not_nan. apply V. exact Hi. }
  assert (Hne : row <> []).
  { destruct ls as [|l0 ls0] eqn:El; [cbn in Hk; lia|].
    assert (In l0 cs) by (apply Hin; left; auto). destruct cs; [contradiction|]. destruct row; [discriminate|congruence]. }
  destruct (iamax_ok row Hne NN) as [Hr [Hle Hlt]]. set (r := iamax row) in *. fold f64 in Hr, Hle, Hlt. rewrite Hlen in Hr, Hle.
  unfold label_of_row. fold r. set (l := nth r cs 0) in *.
  assert (Best : forall i, (i < length cs)%nat -> count ls (nth i cs 0) <= count ls l).
  { intros i Hi. specialize (Hle i Hi). rewrite !K in Hle by auto. fold l in Hle.
    destruct (Z_le_gt_dec (count ls (nth i cs 0)) (count ls l)) as [|G]; auto. exfalso.
    assert ((rnd (IZR (count ls l) / IZR k) < rnd (IZR (count ls (nth i cs 0%Z)) / IZR k))%R); [|lra].
    pose proof (count_len ls l). pose proof (count_len ls (nth i cs 0)). apply strict_proportion; unfold k in *; lia. }
  assert (First : forall i, (i < r)%nat -> count ls (nth i cs 0) <> count ls l).
  { intros i Hi E. specialize (Hlt i Hi). rewrite !K in Hlt by lia. fold l in Hlt. rewrite E in Hlt. lra. }
  assert (Out : forall l', ~ In l' cs -> count ls l' = 0).
  { intros l' H'. unfold count. replace (filter _ ls) with (@nil Z); auto. symmetry.
    assert (Q : ~ In l' ls) by (intros Q; apply H', Hin; exact Q). clear -Q.
    induction ls as [|x ls IH]; auto. cbn. destruct (x =? l') eqn:E; [apply Z.eqb_eq in E; subst; exfalso; apply Q; left; auto|].
    apply IH. intros H. apply Q. right. auto. }
  assert (Pos : 0 < count ls l).
  { destruct ls as [|l0 ls0] eqn:El; [cbn in Hk; lia|]. rewrite <- El in *.
    assert (I : In l0 cs) by (apply Hin; rewrite El; left; auto). apply (In_nth _ _ 0) in I. destruct I as [i [Hi Ei]].
    specialize (Best i Hi). rewrite Ei in Best. rewrite El in Best at 1. rewrite count_cons, Z.eqb_refl in Best.
    pose proof (count_len ls0 l0). lia. }
  assert (VF : forall l', votes_for y nb l' = count ls l') by (intros; apply votes_for_count).
  split; [rewrite VF; exact Pos|]. intros l'. rewrite !VF.
  destruct (in_dec Z.eq_dec l' cs) as [I|I]; [|rewrite (Out l' I); lia].
  apply (In_nth _ _ 0) in I. destruct I as [i [Hi <-]]. split; [apply Best; exact Hi|].
  intros E. destruct (lt_eq_lt_dec i r) as [[H|H]|H].
  - exfalso. exact (First i H E).
  - subst i. reflexivity.
  - apply Z.lt_le_incl. apply sorted_nth; [exact Sc|lia].
Qed.
Lemma majority_ok y nb : among y nb -> countable nb ->
  exists h l, predict_knn (set_labels new_labelled y) Uniform nb = Some (h, l) /\ majority y nb l.
Proof.
  intros A Hk. unfold predict_knn. rewrite need_new. cbn [y_train classes]. rewrite (uniform_votes y nb A). cbn [bind].
  eexists _, _. split; [reflexivity|]. apply row_majority; auto.
  - apply classes_sorted.
  - apply labels_in. exact A.
Qed.

Lemma majority_proba y nb : among y nb -> countable nb ->
  exists row, proba_knn (set_labels new_labelled y) Uniform nb = Some row /\
    Forall2 (fun c x => is x (rnd (IZR (votes_for y nb c) / IZR (Z.of_nat (length nb))))) (available_classes y) row.
Proof.
  intros A Hk. unfold proba_knn. rewrite need_new. cbn [y_train classes]. rewrite (uniform_votes y nb A). cbn [bind].
  eexists. split; [reflexivity|]. set (ls := map _ nb).
  assert (Hl : length ls = length nb) by (unfold ls; apply map_length).
  pose proof (unit_row (available_classes y) ls) as F. unfold countable in Hk. rewrite <- Hl in Hk.
  eapply Forall2_impl; [|apply F; auto]; [|apply sorted_NoDup, classes_sorted|apply labels_in; exact A].
  intros c x H. cbv beta in H. rewrite Hl in H. rewrite votes_for_count. exact H.
Qed.

(** ** Weights by distance *)
Local Open Scope R_scope.
Lemma eps_is : is eps64 (bpow radix2 (-52)).
Proof.
  assert (H : is eps64 (rnd (1 / IZR (2 ^ 52)))).
  { unfold eps64. apply (f64_div_is one64 (f64_of_Z (2 ^ 52)) 1 (IZR (2 ^ 52))); [exact one_is|apply f64_of_Z_is; lia| |].
    - apply not_eq_sym, Rlt_not_eq, IZR_lt. lia.
    - change (IZR (2 ^ 52)) with (bpow radix2 52). unfold Rdiv. rewrite Rmult_1_l, <- bpow_opp.
      rewrite Rabs_pos_eq by apply bpow_ge_0. apply bpow_le. lia. }
  change (IZR (2 ^ 52)) with (bpow radix2 52) in H. unfold Rdiv in H. rewrite Rmult_1_l, <- bpow_opp in H.
  rewrite rnd_format in H; auto. replace (bpow radix2 (-(52))) with (IZR 1 * bpow radix2 (-52)) by (cbn [Z.opp]; ring).
  apply FLT_form; lia.
Qed.
Lemma finite_is (x : f64) : is_finite x = true -> is x (B2R x).
Proof. intros H. split; auto. Qed.
Lemma bpow_rnd e : (-1074 <= e)%Z -> rnd (bpow radix2 e) = bpow radix2 e.
Proof. intros H. apply rnd_format. rewrite <- (Rmult_1_l (bpow radix2 e)). apply (FLT_form 1 e); lia. Qed.
Lemma inv_bounds_d d : bpow radix2 (-52) < d -> d < bpow radix2 1024 -> bpow radix2 (-1024) <= 1 / d <= bpow radix2 52.
Proof.
  intros H H'. assert (0 < d) by (pose proof (bpow_gt_0 radix2 (-52)); lra). unfold Rdiv. rewrite Rmult_1_l. split.
  - change (-1024)%Z with (- (1024))%Z. rewrite bpow_opp. apply Rinv_le; lra.
  - change 52%Z with (- (-52))%Z. rewrite bpow_opp. apply Rinv_le; [apply bpow_gt_0|lra].
Qed.
Lemma weight_is d : is_finite d = true -> bpow radix2 (-52) < B2R d -> is (distance_weight d) (rnd (1 / B2R d)).
Proof.
  intros F H. unfold distance_weight.
  assert (E : f64_le d eps64 = false) by (apply (f64_le_is_false d eps64 _ _ (finite_is d F) eps_is); exact H).
  rewrite E. apply f64_div_is; [exact one_is|apply finite_is; exact F| |].
  - pose proof (bpow_gt_0 radix2 (-52)). lra.
  - assert (B : B2R d < bpow radix2 1024) by (pose proof (abs_B2R_lt_emax 53 1024 d) as B; apply Rabs_lt_inv in B; lra).
    destruct (inv_bounds_d (B2R d) H B) as [L U]. pose proof (bpow_gt_0 radix2 (-1024)).
    rewrite Rabs_pos_eq by lra. apply Rle_trans with (1 := U). apply bpow_le. lia.
Qed.
Lemma weight_range d : is_finite d = true -> exists r, is (distance_weight d) r /\ 0 < r <= bpow radix2 52.
Proof.
  intros F. destruct (Rlt_le_dec (bpow radix2 (-52)) (B2R d)) as [H|H].
  - exists (rnd (1 / B2R d)). split; [apply weight_is; auto|].
    assert (B : B2R d < bpow radix2 1024) by (pose proof (abs_B2R_lt_emax 53 1024 d) as B; apply Rabs_lt_inv in B; lra).
    destruct (inv_bounds_d (B2R d) H B) as [L U]. split.
    + apply Rlt_le_trans with (bpow radix2 (-1024)); [apply bpow_gt_0|]. rewrite <- (bpow_rnd (-1024)) by lia. apply rnd_mono. exact L.
    + rewrite <- (bpow_rnd 52) by lia. apply rnd_mono. exact U.
  - exists 1. unfold distance_weight.
    assert (E : f64_le d eps64 = true) by (apply (f64_le_is d eps64 _ _ (finite_is d F) eps_is); exact H).
    rewrite E. split; [exact one_is|]. split; [lra|]. change 1 with (bpow radix2 0). apply bpow_le. lia.
Qed.
Lemma weight_mono d1 d2 : is_finite d1 = true -> is_finite d2 = true -> bpow radix2 (-52) < B2R d1 -> B2R d1 <= B2R d2 ->
  B2R (distance_weight d2) <= B2R (distance_weight d1).
Proof.
  intros F1 F2 H1 H2. destruct (weight_is d1 F1 H1) as [_ ->]. destruct (weight_is d2 F2 ltac:(lra)) as [_ ->].
  apply rnd_mono. unfold Rdiv. rewrite !Rmult_1_l. apply Rinv_le; [|exact H2]. pose proof (bpow_gt_0 radix2 (-52)). lra.
Qed.

(** ** Probabilities *)
Definition weighed (v : Z * f64) : Prop := exists r, is (snd v) r /\ 0 < r <= bpow radix2 52.
Lemma weighed_votes w y nb vs : among y nb -> Forall (fun e => is_finite (snd e) = true) nb -> votes w y nb = Some vs -> Forall weighed vs.
Proof.
  intros A F E. rewrite (votes_some w y nb A) in E. injection E as <-. apply Forall_forall. intros v Hv.
  apply in_map_iff in Hv. destruct Hv as [e [<- He]]. rewrite Forall_forall in F. specialize (F e He). unfold weighed. cbn [snd].
  destruct w; cbn [weight_of]; [|apply weight_range; exact F].
  exists 1. split; [exact one_is|]. split; [lra|]. change 1 with (bpow radix2 0). apply bpow_le. lia.
Qed.
Lemma capped n : (0 <= n <= 2 ^ 53)%Z -> rnd (IZR n * bpow radix2 53) = IZR n * bpow radix2 53.
Proof. intros H. apply rnd_format. apply FLT_form; lia. Qed.
Lemma cap_small n : (0 <= n <= 2 ^ 53)%Z -> 0 <= IZR n * bpow radix2 53 <= bpow radix2 1000.
Proof.
  intros H. split; [apply Rmult_le_pos; [apply IZR_le; lia|apply bpow_ge_0]|].
  apply Rle_trans with (bpow radix2 53 * bpow radix2 53).
  - apply Rmult_le_compat_r; [apply bpow_ge_0|]. change (bpow radix2 53) with (IZR (2 ^ 53)). apply IZR_le. lia.
  - rewrite <- bpow_plus. apply bpow_le. lia.
Qed.
(** adding numbers from 0 to a multiple of 2^53 *)
Lemma add_capped x y a b n m : is x a -> is y b -> 0 <= a <= IZR n * bpow radix2 53 -> 0 <= b <= IZR m * bpow radix2 53 ->
  (0 <= n)%Z -> (0 <= m)%Z -> (n + m <= 2 ^ 53)%Z ->
  exists c, is (f64_add x y) c /\ a <= c /\ b <= c /\ c <= IZR (n + m) * bpow radix2 53.
Proof.
  intros Hx Hy Ha Hb Hn Hm Hs. exists (rnd (a + b)).
  assert (S' : a + b <= IZR (n + m) * bpow radix2 53) by (rewrite plus_IZR; lra).
  pose proof (cap_small (n + m) ltac:(lia)) as C.
  split; [apply f64_add_is; auto; rewrite Rabs_pos_eq; lra|].
  assert (Fa : rnd a = a) by (destruct Hx as [_ <-]; apply rnd_format, f64_format).
  assert (Fb : rnd b = b) by (destruct Hy as [_ <-]; apply rnd_format, f64_format).
  split; [|split].
  - rewrite <- Fa at 1. apply rnd_mono. lra.
  - rewrite <- Fb at 1. apply rnd_mono. lra.
  - rewrite <- (capped (n + m)) by lia. apply rnd_mono. exact S'.
Qed.
Lemma weight_cap r : 0 < r <= bpow radix2 52 -> 0 <= r <= IZR 1 * bpow radix2 53.
Proof. intros H. pose proof (bpow_le radix2 52 53 ltac:(lia)). lra. Qed.
Lemma sum_from c : forall vs a r n, Forall weighed vs -> is a r -> 0 <= r <= IZR n * bpow radix2 53 -> (0 <= n)%Z ->
  (n + count (map fst vs) c <= 2 ^ 53)%Z ->
  exists s, is (fold_left (fun a v => if (c =? fst v)%Z then f64_add a (snd v) else a) vs a) s /\
    r <= s <= IZR (n + count (map fst vs) c) * bpow radix2 53 /\ (In c (map fst vs) -> 0 < s).
Proof.
  induction vs as [|v vs IH]; intros a r n W Ha Hr Hn Hb; cbn [fold_left map].
  { exists r. split; [exact Ha|]. change (count [] c) with 0%Z. rewrite Z.add_0_r. split; [lra|intros []]. }
  inversion W as [|? ? Wv W']; subst. cbn [map] in Hb. rewrite count_cons in *. rewrite (Z.eqb_sym (fst v) c) in *.
  pose proof (count_len (map fst vs) c).
  destruct (c =? fst v)%Z eqn:E.
  - destruct Wv as [w [Hw Rw]].
    destruct (add_capped a (snd v) r w n 1 Ha Hw Hr (weight_cap w Rw)) as [t [Ht [T1 [T2 T3]]]]; try lia.
    destruct (IH (f64_add a (snd v)) t (n + 1)%Z W' Ht) as [s [Hs [S1 S2]]]; try lia; [lra|].
    exists s. split; [exact Hs|]. rewrite Z.add_assoc. split; [lra|]. intros _. lra.
  - destruct (IH a r n W' Ha Hr Hn ltac:(lia)) as [s [Hs [S1 S2]]]. exists s. split; [exact Hs|]. rewrite Z.add_0_l.
    split; [exact S1|]. intros [H1|H1]; [|auto]. apply Z.eqb_neq in E. congruence.
Qed.
Lemma class_sum_ok vs c : Forall weighed vs -> (Z.of_nat (length vs) <= 2 ^ 53)%Z ->
  exists s, is (class_sum vs c) s /\ 0 <= s <= IZR (count (map fst vs) c) * bpow radix2 53 /\ (In c (map fst vs) -> 0 < s).
Proof.
  intros W H. pose proof (count_len (map fst vs) c) as L. rewrite map_length in L.
  destruct (sum_from c vs zero64 0 0 W zero_is) as [s [Hs [S1 S2]]]; try lia; [lra|]. exists s. auto.
Qed.
Lemma denominator_ok vs : Forall weighed vs -> (Z.of_nat (length vs) <= 2 ^ 53)%Z -> forall cs a r n, is a r ->
  0 <= r <= IZR n * bpow radix2 53 -> (0 <= n)%Z -> (n + total cs (map fst vs) <= 2 ^ 53)%Z ->
  exists s, is (fold_left f64_add (map (class_sum vs) cs) a) s /\ r <= s /\
    Forall (fun c => forall t, is (class_sum vs c) t -> t <= s) cs.
Proof.
  intros W Hl. induction cs as [|c cs IH]; intros a r n Ha Hr Hn Hb; cbn [map fold_left].
  { exists r. split; [exact Ha|]. split; [lra|constructor]. }
  cbn [total] in Hb. destruct (class_sum_ok vs c W Hl) as [t [Ht [T1 T2]]].
  pose proof (count_len (map fst vs) c). pose proof (total_pos cs (map fst vs)).
  destruct (add_capped a (class_sum vs c) r t n (count (map fst vs) c) Ha Ht Hr T1) as [u [Hu [U1 [U2 U3]]]]; try lia.
  destruct (IH (f64_add a (class_sum vs c)) u (n + count (map fst vs) c)%Z Hu) as [s [Hs [S1 S2]]]; try lia; [lra|].
  exists s. split; [exact Hs|]. split; [lra|]. constructor; auto.
  intros t' Ht'. destruct Ht' as [_ E']. destruct Ht as [_ E]. rewrite E in E'. lra.
Qed.
Lemma row_unit cs vs : Forall weighed vs -> NoDup cs -> (forall l, In l (map fst vs) -> In l cs) ->
  (0 < Z.of_nat (length vs) <= 2 ^ 53)%Z ->
  Forall2 (fun c x => exists r, is x r /\ 0 <= r <= 1 /\ (~ In c (map fst vs) -> r = 0)) cs (proba_row cs vs).
Proof.
  intros W N Hin Hl. unfold proba_row.
  pose proof (total_all cs (map fst vs) N Hin) as T. rewrite map_length in T.
  destruct (denominator_ok vs W ltac:(lia) cs zero64 0 0 zero_is) as [d [Hd [_ Hs]]]; try lia; [lra|].
  assert (Pd : 0 < d).
  { destruct vs as [|v vs0] eqn:Ev; [cbn in Hl; lia|]. rewrite <- Ev in *.
    assert (I : In (fst v) (map fst vs)) by (rewrite Ev; left; auto).
    destruct (class_sum_ok vs (fst v) W ltac:(lia)) as [t [Ht [_ T2]]]. specialize (T2 I).
    rewrite Forall_forall in Hs. specialize (Hs (fst v) (Hin _ I) t Ht). lra. }
  set (den := fold_left f64_add _ zero64) in *. clearbody den. clear N Hin T.
  induction cs as [|c cs IH]; cbn [map]; constructor.
  - inversion Hs as [|? ? Hc _]; subst. destruct (class_sum_ok vs c W ltac:(lia)) as [t [Ht [T1 T2]]]. specialize (Hc t Ht).
    assert (Q : 0 <= t / d <= 1).
    { split; [apply Rmult_le_pos; [lra|]; left; apply Rinv_0_lt_compat; lra|].
      apply Rmult_le_reg_r with d; [lra|]. unfold Rdiv. rewrite Rmult_assoc, Rinv_l by lra. lra. }
    exists (rnd (t / d)). split; [|split].
    + apply f64_div_is; auto; [lra|]. rewrite Rabs_pos_eq by lra. apply Rle_trans with 1; [lra|]. change 1 with (bpow radix2 0).
      apply bpow_le. lia.
    + split; [rewrite <- (rnd_Z 0) by lia|rewrite <- (rnd_Z 1) by lia]; apply rnd_mono; lra.
    + intros NI. assert (C0 : count (map fst vs) c = 0%Z).
      { unfold count. replace (filter _ _) with (@nil Z); auto. symmetry. clear -NI. induction (map fst vs) as [|x l IH]; auto.
        cbn. destruct (x =? c)%Z eqn:E; [apply Z.eqb_eq in E; subst; exfalso; apply NI; left; auto|].
        apply IH. intros H. apply NI. right. auto. }
      rewrite C0 in T1. assert (t = 0) by lra. subst t. unfold Rdiv. rewrite Rmult_0_l. apply (rnd_Z 0). lia.
  - apply IH. inversion Hs; auto.
Qed.
Lemma probability_ok w y nb : among y nb -> countable nb -> Forall (fun e => is_finite (snd e) = true) nb ->
  exists row, proba_knn (set_labels new_labelled y) w nb = Some row /\
    Forall2 (fun c x => exists r, is x r /\ 0 <= r <= 1 /\ (votes_for y nb c = 0%Z -> r = 0)) (available_classes y) row.
Proof.
  intros A Hk F. unfold proba_knn. rewrite need_new. cbn [y_train classes].
  pose proof (votes_some w y nb A) as V. pose proof (weighed_votes w y nb _ A F V) as W. rewrite V. cbn [bind].
  eexists. split; [reflexivity|]. set (vs := map _ nb) in *.
  assert (Hv : map fst vs = map (fun e => label y (fst e)) nb) by (unfold vs; rewrite map_map; reflexivity).
  assert (Hl : length vs = length nb) by (unfold vs; apply map_length).
  eapply Forall2_impl; [|apply (row_unit (available_classes y) vs)]; auto.
  - intros c x [r [H1 [H2 H3]]]. exists r. split; [exact H1|]. split; [exact H2|]. intros E. apply H3. rewrite Hv.
    rewrite votes_for_count in E. intros I. clear -E I. induction (map _ nb) as [|z l IH]; [destruct I|].
    rewrite count_cons in E. pose proof (count_len l c). destruct I as [->|I]; [rewrite Z.eqb_refl in E; lia|].
    apply IH; auto. destruct (z =? c)%Z; lia.
  - apply sorted_NoDup, classes_sorted.
  - rewrite Hv. apply labels_in. exact A.
  - unfold countable in Hk. rewrite Hl. lia.
Qed.

Lemma run_then : forall A (o : option (A * Z)) (g : A -> option Z) a b, option_map snd o = Some a ->
  match o with Some (h, _) => g h | None => None end = Some b -> exists h, o = Some (h, a) /\ g h = Some b.
Proof. intros A [[h l]|] g a b H1 H2; [|discriminate]. injection H1 as <-. exists h. split; [reflexivity|exact H2]. Qed.
