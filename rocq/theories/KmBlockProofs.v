(** Blocks of samples and threads; the reduction kernels. *)
From Coq Require Import ZArith Reals List Bool Lia Lra Arith Permutation.
From Verif Require Import Base Par UtilModel NnModel RealArith KmModel KmElkanModel KmSpec KmKernelProofs KmLloydProofs KmCostProofs.
Import ListNotations.
Local Open Scope Z_scope.

Lemma numbers_length s c : length (numbers s c) = Z.to_nat c.
Proof. unfold numbers. rewrite map_length, seq_length. reflexivity. Qed.
Lemma in_numbers s c x : In x (numbers s c) <-> s <= x < s + c.
Proof.
  unfold numbers. rewrite in_map_iff. split.
  - intros [i [<- H]]. apply in_seq in H. lia.
  - intros H. exists (Z.to_nat (x - s)). split; [lia|]. apply in_seq. lia.
Qed.
Lemma numbers_split s a b : 0 <= a -> 0 <= b -> numbers s (a + b) = numbers s a ++ numbers (s + a) b.
Proof.
  intros A B. unfold numbers. rewrite Z2Nat.inj_add by auto. rewrite seq_app, map_app. f_equal.
  cbn [Nat.add].
  assert (G : forall l q, map (fun i => s + Z.of_nat i) (seq (Z.to_nat a + q) l) = map (fun i => s + a + Z.of_nat i) (seq q l)).
  { induction l as [|l IH]; intros q; [reflexivity|]. cbn [seq map]. f_equal; [lia|]. rewrite <- IH. repeat f_equal. lia. }
  specialize (G (Z.to_nat b) O). rewrite Nat.add_0_r in G. exact G.
Qed.
Lemma numbers_empty s c : c <= 0 -> numbers s c = [].
Proof. intros H. unfold numbers. replace (Z.to_nat c) with O by lia. reflexivity. Qed.

Lemma numbers_one s : numbers s 1 = [s].
Proof. unfold numbers. change (Z.to_nat 1) with 1%nat. cbn [seq map Z.of_nat]. rewrite Z.add_0_r. reflexivity. Qed.

Lemma flat_map_map_flat {A B C} (f : B -> list C) (g : A -> B) l : flat_map f (map g l) = flat_map (fun a => f (g a)) l.
Proof. induction l; cbn; [auto|]. rewrite IHl. auto. Qed.

Section Blocks.
Variables n bs : Z.
Hypothesis n_pos : 0 <= n.
Hypothesis bs_pos : 0 < bs.
Let nb := fst (scheme n bs).
Let r := snd (scheme n bs).
Definition range_of (i : Z) : Z * Z := if (i =? nb - 1) && (0 <? r) then (n - r, r) else (i * bs, bs).

Lemma lloyd_ranges_map l : lloyd_ranges n bs nb r l = map range_of l.
Proof. induction l as [|i l IH]; cbn [lloyd_ranges map]; auto. rewrite IH. reflexivity. Qed.
Lemma thread_ranges_map l : increasing l -> (forall i, In i l -> i < nb) -> thread_ranges n bs nb r bs l = map range_of l.
Proof.
  induction l as [|i l IH]; intros I H; cbn [thread_ranges map]; auto. destruct I as [I1 I2]. unfold range_of at 1.
  destruct ((i =? nb - 1) && (0 <? r)) eqn:E.
  - f_equal. apply andb_true_iff in E. destruct E as [E _]. apply Z.eqb_eq in E. destruct l as [|j l]; auto.
    pose proof (I1 j (or_introl eq_refl)). pose proof (H j (or_intror (or_introl eq_refl))). lia.
  - f_equal. apply IH; auto. intros; apply H; right; auto.
Qed.
Lemma blocks_before m : 0 <= m -> (forall i, 0 <= i < m -> range_of i = (i * bs, bs)) ->
  flat_map (fun i => numbers (fst (range_of i)) (snd (range_of i))) (numbers 0 m) = numbers 0 (m * bs).
Proof.
  intros M. pattern m. apply natlike_ind; auto; clear m M.
  intros m M IH H. replace (Z.succ m) with (m + 1) by lia. rewrite numbers_split by lia. rewrite flat_map_app, IH by (intros; apply H; lia).
  replace ((m + 1) * bs) with (m * bs + bs) by lia. rewrite numbers_split by nia. f_equal.
  rewrite numbers_one. cbn [flat_map]. rewrite app_nil_r.
  replace (0 + m) with m by lia. rewrite H by lia. cbn [fst snd]. f_equal; lia.
Qed.
Lemma all_blocks : flat_map (fun i => numbers (fst (range_of i)) (snd (range_of i))) (numbers 0 nb) = numbers 0 n.
Proof.
  pose proof (Z.div_mod n bs ltac:(lia)) as D. pose proof (Z.mod_pos_bound n bs bs_pos) as M. pose proof (Z.div_pos n bs n_pos bs_pos) as P.
  unfold nb, scheme. cbn [fst snd]. destruct (Z.eqb_spec (n mod bs) 0) as [E|E].
  - rewrite Z.add_0_r. rewrite blocks_before; auto; [f_equal; lia|]. intros i Hi. unfold range_of, r, scheme. cbn [snd]. rewrite E.
    rewrite andb_false_r. reflexivity.
  - rewrite numbers_split by lia. rewrite flat_map_app. rewrite blocks_before; auto.
    + rewrite numbers_one. cbn [flat_map]. rewrite app_nil_r.
      replace (0 + n / bs) with (n / bs) by lia. unfold range_of, nb, r, scheme. cbn [fst snd].
      destruct (Z.eqb_spec (n mod bs) 0); [contradiction|]. replace (n / bs =? n / bs + 1 - 1) with true by (symmetry; apply Z.eqb_eq; lia).
      destruct (Z.ltb_spec 0 (n mod bs)); [|lia]. cbn [andb fst snd].
      replace (n - n mod bs) with (0 + n / bs * bs) by lia. rewrite <- numbers_split by nia. f_equal. lia.
    + intros i Hi. unfold range_of, nb, r, scheme. cbn [fst snd]. destruct (Z.eqb_spec (n mod bs) 0); [contradiction|].
      destruct (Z.eqb_spec i (n / bs + 1 - 1)); [lia|]. reflexivity.
Qed.
Lemma flat_map_concat' {A B} (f : A -> list B) (ls : list (list A)) : flat_map (fun l => flat_map f l) ls = flat_map f (concat ls).
Proof. induction ls; cbn; auto. rewrite flat_map_app, IHls. auto. Qed.
Lemma flat_map_compose {A B C} (f : B -> list C) (g : A -> list B) l : flat_map f (flat_map g l) = flat_map (fun a => flat_map f (g a)) l.
Proof. induction l; cbn; auto. rewrite flat_map_app, IHl. auto. Qed.
Lemma flat_map_ext_in {A B} (f g : A -> list B) l : (forall a, In a l -> f a = g a) -> flat_map f l = flat_map g l.
Proof. induction l as [|a l IH]; intros H; cbn; auto. rewrite IH by (intros; apply H; right; auto). rewrite (H a (or_introl eq_refl)). auto. Qed.
Lemma flat_map_perm {A B} (f : A -> list B) l l' : Permutation l l' -> Permutation (flat_map f l) (flat_map f l').
Proof. apply Permutation_flat_map. Qed.

Lemma ranges_once (g : list Z -> list (Z * Z)) ts : every_block_once nb ts -> (forall l, In l ts -> g l = map range_of l) ->
  every_sample_once n (flat_map g ts).
Proof.
  intros E H. unfold every_sample_once. rewrite flat_map_compose.
  rewrite (flat_map_ext_in _ (fun l => flat_map (fun i => numbers (fst (range_of i)) (snd (range_of i))) l)).
  2:{ intros l Hl. rewrite H by auto. apply flat_map_map_flat. }
  rewrite flat_map_concat'. rewrite <- all_blocks. apply flat_map_perm. exact E.
Qed.
Theorem lloyd_once ts : every_block_once nb ts -> every_sample_once n (lloyd_team_ranges n bs ts).
Proof.
  intros E. unfold lloyd_team_ranges. rewrite (surjective_pairing (scheme n bs)).
  apply ranges_once; auto. intros l _. rewrite <- lloyd_ranges_map. reflexivity.
Qed.
Theorem elkan_once ts : every_block_once nb ts -> (forall l, In l ts -> increasing l) -> every_sample_once n (team_ranges n bs ts).
Proof.
  intros E I. unfold team_ranges. rewrite (surjective_pairing (scheme n bs)).
  apply ranges_once; auto. intros l Hl. rewrite <- thread_ranges_map; auto.
  intros i Hi. assert (In i (numbers 0 nb)) by (apply (Permutation_in i E); apply in_concat; eauto). apply in_numbers in H. lia.
Qed.
End Blocks.

(** ** reductions *)
Local Open Scope R_scope.
Lemma reduce_scalar_ok x c : reduce_scalar arithR x c = sqdist x c.
Proof.
  unfold reduce_scalar, sqdist, zero. cbn [of_Z arithR].
  assert (A : forall l s, fold_left (fun s (ab : R * R) => let d := sub arithR (fst ab) (snd ab) in add arithR s (mul arithR d d)) l s =
     s + rsum (map (fun ab => (fst ab - snd ab) * (fst ab - snd ab)) l)).
  { induction l as [|ab l IH]; intros s; cbn [fold_left map]; [unfold rsum; cbn; lra|].
    rewrite IH. unfold rsum. cbn [add sub mul arithR fold_right]. lra. }
  rewrite A. lra.
Qed.
Lemma reduce_tail x c s : fold_left (fun s (ab : R * R) => let d := sub arithR (fst ab) (snd ab) in add arithR s (mul arithR d d)) (combine x c) s = s + sqdist x c.
Proof.
  unfold sqdist. revert s. induction (combine x c) as [|ab l IH]; intros s; cbn [fold_left map]; [unfold rsum; cbn; lra|].
  rewrite IH. unfold rsum. cbn [add sub mul arithR fold_right]. lra.
Qed.
Lemma sqdist_app a : forall b x y, length a = length b -> sqdist (a ++ x) (b ++ y) = sqdist a b + sqdist x y.
Proof.
  induction a as [|u a IH]; intros [|v b] x y L; cbn in L; try discriminate.
  - unfold sqdist, rsum; cbn; lra.
  - cbn [app]. change (sqdist (u :: a ++ x) (v :: b ++ y)) with ((u - v) * (u - v) + sqdist (a ++ x) (b ++ y)).
    change (sqdist (u :: a) (v :: b)) with ((u - v) * (u - v) + sqdist a b). rewrite IH by lia. lra.
Qed.
Lemma lane_sum a : forall b s, length a = length b -> length s = length a ->
  rsum (zip_with (fun d s => d * d + s) (zip_with Rminus a b) s) = rsum s + sqdist a b.
Proof.
  induction a as [|u a IH]; intros [|v b] [|t s] L1 L2; cbn in L1, L2; try discriminate.
  - unfold sqdist, rsum; cbn; lra.
  - specialize (IH b s ltac:(lia) ltac:(lia)). unfold zip_with in *. cbn [combine map fst snd].
    change (sqdist (u :: a) (v :: b)) with ((u - v) * (u - v) + sqdist a b). unfold rsum in *. cbn [fold_right]. lra.
Qed.
Lemma zip_length {A} (f : A -> A -> A) a b : length (zip_with f a b) = Nat.min (length a) (length b).
Proof. unfold zip_with. rewrite map_length, combine_length. reflexivity. Qed.
Section Kt.
Variables (fma : R -> R -> R -> R) (hsum : list R -> R).
Hypothesis fma_ok : forall a b s, fma a b s = a * b + s.
Hypothesis hsum_ok : forall l, hsum l = rsum l.
Lemma reduce_vectors_ok w fuel : forall x y v, length x = length y -> length v = w ->
  match reduce_vectors arithR fma fuel w x y v with (v', x', y') => length v' = w /\ rsum v' + sqdist x' y' = rsum v + sqdist x y end.
Proof.
  induction fuel as [|fuel IH]; intros x y v L Lv; cbn [reduce_vectors]; [auto|].
  destruct (Nat.leb_spec w (length x)) as [W|W]; [|auto].
  set (d := zip_with (sub arithR) (firstn w x) (firstn w y)).
  assert (E : zip_with (fun d s => fma d d s) d v = zip_with (fun d s => d * d + s) (zip_with Rminus (firstn w x) (firstn w y)) v).
  { unfold d, zip_with. apply map_ext. intros [a b]. cbn. apply fma_ok. }
  assert (Lf : length (firstn w x) = w /\ length (firstn w y) = w) by (split; rewrite firstn_length; lia). destruct Lf as [Lf1 Lf2].
  specialize (IH (skipn w x) (skipn w y) (zip_with (fun d s => fma d d s) d v)).
  destruct (reduce_vectors arithR fma fuel w (skipn w x) (skipn w y) (zip_with (fun d s => fma d d s) d v)) as [[v' x'] y'].
  destruct IH as [I1 I2].
  - rewrite !skipn_length. lia.
  - unfold d. rewrite !zip_length. lia.
  - split; auto. rewrite I2, E, lane_sum by lia. rewrite <- (firstn_skipn w x) at 3. rewrite <- (firstn_skipn w y) at 3.
    rewrite sqdist_app by lia. lra.
Qed.
Lemma rsum_repeat0 w : rsum (repeat 0 w) = 0.
Proof. induction w as [|w IH]; unfold rsum in *; cbn [repeat fold_right]; lra. Qed.
Theorem reduce_kt_ok w x y : length x = length y -> reduce_kt arithR fma hsum w x y = sqdist x y.
Proof.
  intros L. unfold reduce_kt. pose proof (reduce_vectors_ok w (length x) x y (repeat (zero arithR) w) L (repeat_length _ _)) as H.
  destruct (reduce_vectors arithR fma (length x) w x y (repeat (zero arithR) w)) as [[v' x'] y']. destruct H as [_ H].
  rewrite reduce_tail, hsum_ok. change (zero arithR) with 0 in H. rewrite rsum_repeat0 in H. lra.
Qed.
End Kt.

(** ** labels in range, in any arithmetic *)
Section Range.
Local Open Scope nat_scope.
Context {T : Type} (N : arith T).
Variables (reduce : list T -> list T -> T) (gd : list (list T) -> nat -> nat -> T) (lange : list (list T) -> T) (isfin : T -> bool).
Variables (bs : nat) (schedule : nat -> team) (k nf : nat) (X : list (list T)) (mode : empties) (tol : T).
Hypothesis k_pos : k <> 0.
Definition in_range (ls : list nat) : Prop := length ls = length X /\ forall l, In l ls -> l < k.

Lemma assign_step_range C hd x st j : j < k -> e_label (fst st) < k -> e_label (fst (assign_step N reduce C hd x st j)) < k.
Proof.
  intros J H. destruct st as [s tight]. unfold assign_step. cbn [fst] in *.
  repeat match goal with |- context [if ?b then _ else _] => destruct b end; cbn [fst e_label]; auto.
Qed.
Lemma assign_range C hd nd x s : e_label s < k -> e_label (assign_sample N reduce k C hd nd x s) < k.
Proof.
  intros H. unfold assign_sample. destruct (nth (e_label s) nd None); auto. destruct (lt N t (e_u s)); auto.
  assert (A : forall js st, (forall j, In j js -> j < k) -> e_label (fst st) < k -> e_label (fst (fold_left (assign_step N reduce C hd x) js st)) < k).
  { induction js as [|j js IH]; intros st J L; cbn [fold_left]; auto. apply IH; [intros; apply J; right; auto|].
    apply assign_step_range; auto. apply J; left; auto. }
  apply A; auto. intros j Hj. apply in_seq in Hj. lia.
Qed.
Lemma init_range C hd x : e_label (init_sample N reduce k C hd x) < k.
Proof.
  unfold init_sample.
  assert (A : forall js s, (forall j, In j js -> j < k) -> e_label s < k -> e_label (fold_left (init_step N reduce C hd x) js s) < k).
  { induction js as [|j js IH]; intros s J L; cbn [fold_left]; auto. apply IH; [intros; apply J; right; auto|].
    unfold init_step. repeat match goal with |- context [if ?b then _ else _] => destruct b end; cbn [e_label]; auto. apply J; left; auto. }
  apply A; cbn [e_label]; [|lia]. intros j Hj. apply in_seq in Hj. lia.
Qed.
Lemma relabel_range s : in_range (labels_of (es_ss s)) -> in_range (labels_of (relabel N reduce k X s)).
Proof.
  intros [L H]. unfold labels_of, in_range in *. rewrite map_length in *. unfold relabel. split.
  - rewrite map_length, combine_length. lia.
  - rewrite map_map. intros l Hl. apply in_map_iff in Hl. destruct Hl as [[x s0] [<- Hl]]. cbn [fst snd]. apply assign_range. apply H.
    apply in_map, (in_combine_r _ _ _ _ Hl).
Qed.
Lemma split_range C ls : in_range ls -> in_range (snd (split_empty N isfin k X C ls)).
Proof.
  intros H. unfold split_empty. cbn [snd]. set (ne := length _).
  set (s := SplitState _ _ _ _). assert (H' : in_range (sp_ls s)) by exact H. clearbody s ne. clear H. rename H' into H.
  assert (J : forall c, In c (seq 0 k) -> c < k) by (intros c Hc; apply in_seq in Hc; lia).
  revert s H J. induction (seq 0 k) as [|c cs IH]; intros s H J; cbn [split_loop]; auto.
  destruct (nth c (sp_counts s) 0 =? 0)%Z; [|apply IH; auto; intros; apply J; right; auto].
  unfold split_one. destruct (find_donor N isfin (sp_ls s) (sp_ds s) (sp_counts s) 0 None (of_Z N (-1))); auto. cbv zeta.
  apply IH; [|intros; apply J; right; auto]. cbn [sp_ls]. destruct H as [L H]. split; [rewrite put_length; auto|].
  intros l Hl. apply in_put in Hl. destruct Hl as [->|Hl]; auto. apply J; left; auto.
Qed.
Lemma loop_range fuel : forall iter s, in_range (labels_of (es_ss s)) ->
  match elkan_loop N reduce gd lange isfin bs schedule k nf X mode tol fuel iter s with
  | EmptyCluster => mode = Error
  | Finished _ ls _ _ => in_range ls
  end.
Proof.
  induction fuel as [|fuel IH]; intros iter s H; cbn [elkan_loop].
  - apply relabel_range; auto.
  - pose proof (relabel_range s H) as R. set (ss := relabel N reduce k X s) in *. set (C' := new_centres _ _ _ _ _ _ _ _).
    set (s' := with_halves N gd k C' _).
    assert (R' : in_range (labels_of (es_ss s'))).
    { unfold s', with_halves. cbn [es_ss]. unfold labels_of in *. rewrite map_map. exact R. }
    assert (Test : match (match convergence_test N lange iter (labels_of ss) (labels_of (es_ss s)) tol (es_C s) C' with
        | O => elkan_loop N reduce gd lange isfin bs schedule k nf X mode tol fuel (S iter) s'
        | 1 => Finished C' (labels_of (relabel N reduce k X s')) iter 1
        | c => Finished C' (labels_of ss) iter c end) with EmptyCluster => mode = Error | Finished _ ls _ _ => in_range ls end).
    { destruct (convergence_test N lange iter (labels_of ss) (labels_of (es_ss s)) tol (es_C s) C') as [|[|c]]; [apply IH; exact R'|apply relabel_range; exact R'|exact R]. }
    destruct mode eqn:M; auto.
    + destruct (any_empty k (labels_of ss)); auto.
    + destruct (any_empty k (labels_of ss)); auto. pose proof (split_range C' (labels_of ss) R) as Q.
      destruct (split_empty N isfin k X C' (labels_of ss)) as [C'' ls'']. cbn [snd] in Q. rewrite <- M. rewrite <- M in IH. apply IH.
      cbn [es_ss]. unfold labels_of. rewrite map_map. cbn [e_label]. rewrite map_id. exact Q.
Qed.
Theorem elkan_range max_iter C :
  match elkan N reduce gd lange isfin bs schedule k nf X mode tol max_iter C with
  | EmptyCluster => mode = Error
  | Finished _ ls _ _ => length ls = length X /\ forall l, In l ls -> l < k
  end.
Proof.
  apply loop_range. unfold elkan_start, with_halves. cbn [es_ss]. unfold labels_of, in_range. rewrite !map_length. split; auto.
  rewrite map_map. intros l Hl. apply in_map_iff in Hl. destruct Hl as [x [<- _]]. apply init_range.
Qed.
End Range.
