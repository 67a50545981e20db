(** Proofs about predictions and results of a radius search. *)
From Coq Require Import ZArith List Bool Reals Permutation Sorted Lia Lra.
From Flocq Require Import Core BinarySingleNaN.
From Verif Require Import Base ListFacts Par F64 FloatOrder FloatMid UtilModel TreeSearchModel NnModel NnSelectProofs NnProofs
  NnPredictModel NnPredictSpec NnPredictProofs.
Import ListNotations.
Local Open Scope Z_scope.

(** ** Rows of the array *)
Lemma map_nth_zrange {A} (l : list A) d : map (fun i => nth (Z.to_nat i) l d) (zrange (Z.of_nat (length l))) = l.
Proof.
  unfold zrange. rewrite map_map, Nat2Z.id. transitivity (map (fun i => nth i l d) (seq 0 (length l))).
  - apply map_ext. intros. rewrite Nat2Z.id. reflexivity.
  - induction l as [|x l IH]; auto. cbn [length seq map]. f_equal. rewrite <- seq_shift, map_map. exact IH.
Qed.
Lemma row_stored a nc j row : Z.of_nat (length row) = nc -> row_of (store_row a (j * nc) row) nc j = row.
Proof.
  intros <-. unfold row_of. transitivity (map (fun i => nth (Z.to_nat i) row zero64) (zrange (Z.of_nat (length row)))).
  - apply map_ext_in. intros i Hi. apply in_zrange in Hi. unfold store_row.
    replace (_ && _) with true by (symmetry; apply andb_true_iff; split; [apply Z.leb_le|apply Z.ltb_lt]; lia).
    f_equal. f_equal. lia.
  - apply map_nth_zrange.
Qed.
Lemma row_before a at_ row q : q < at_ -> store_row a at_ row q = a q.
Proof. intros H. unfold store_row. destruct (at_ <=? q) eqn:E; auto. apply Z.leb_le in E. lia. Qed.

(** What a query leaves in the array *)
Definition leaves (h : labelled) (w : weighting) (oh : outliers) (len : Z) (nb : list (Z * f64)) (row : list f64) : Prop :=
  let nc := Z.of_nat (length (classes h)) in
  forall a j, 0 <= j -> (j + 1) * nc <= len ->
  exists a', radius_query h w oh len a j nb = Some (inr a') /\ row_of a' nc j = row /\ forall q, q < j * nc -> a' q = a q.
Lemma queries_ok h w oh len : forall nbs rows, Forall2 (leaves h w oh len) nbs rows ->
  let nc := Z.of_nat (length (classes h)) in
  forall a j, 0 <= j -> (j + Z.of_nat (length nbs)) * nc <= len ->
  exists a', radius_queries h w oh len a j nbs = Some (inr a') /\
    map (fun i => row_of a' nc (j + i)) (zrange (Z.of_nat (length nbs))) = rows /\ forall q, q < j * nc -> a' q = a q.
Proof.
  intros nbs rows F nc. induction F as [|nb row nbs rows L F IH]; intros a j Hj Hb; cbn [radius_queries].
  { exists a. auto. }
  cbn [length] in Hb. assert (Hnc : 0 <= nc) by (unfold nc; lia).
  destruct (L a j Hj) as [a1 [E1 [R1 K1]]]; [fold nc; nia|]. rewrite E1.
  destruct (IH a1 (j + 1)) as [a2 [E2 [R2 K2]]]; [lia|nia|].
  exists a2. split; [exact E2|]. split.
  - replace (zrange (Z.of_nat (length (nb :: nbs)))) with (0 :: map (fun i => 1 + i) (zrange (Z.of_nat (length nbs)))).
    2:{ unfold zrange. rewrite !Nat2Z.id. cbn [length seq map]. f_equal. rewrite <- seq_shift, !map_map. apply map_ext. intros; lia. }
    cbn [map]. rewrite map_map, Z.add_0_r. f_equal.
    + fold nc in R1. rewrite <- R1. unfold row_of. apply map_ext_in. intros i Hi. apply in_zrange in Hi. apply K2. nia.
    + rewrite <- R2. apply map_ext. intros i. f_equal. lia.
  - intros q Hq. rewrite K2 by nia. fold nc in K1. apply K1. exact Hq.
Qed.

(** ** Labels of queries with neighbours *)
Lemma proba_len cs vs : length (proba_row cs vs) = length cs.
Proof. unfold proba_row. rewrite !map_length. reflexivity. Qed.
Lemma leaves_found h oh len nb : nb <> [] -> among (y_train h) nb ->
  leaves h Uniform oh len nb (proba_row (classes h) (unit_votes (map (fun e => label (y_train h) (fst e)) nb))).
Proof.
  intros N A. intros a j Hj Hb. destruct nb as [|e nb]; [congruence|]. unfold radius_query.
  rewrite (uniform_votes _ _ A). cbn [bind]. eexists. split; [reflexivity|]. split.
  - apply row_stored. rewrite proba_len. reflexivity.
  - intros q Hq. apply row_before. exact Hq.
Qed.
(** the largest entry of such a row is not 0 *)
Lemma found_positive cs y nb : StronglySorted Z.lt cs -> (forall l, In l (map (fun e => label y (fst e)) nb) -> In l cs) -> countable nb ->
  let row := proba_row cs (unit_votes (map (fun e => label y (fst e)) nb)) in
  f64_eq (nth (iamax row) row zero64) zero64 = false.
Proof.
  intros Sc Hin Hk row. pose proof (row_majority cs y nb Sc Hin Hk) as [P _]. fold row in P.
  set (ls := map _ nb) in *. assert (Hl : length ls = length nb) by (unfold ls; apply map_length).
  unfold countable in Hk. rewrite <- Hl in Hk. rewrite votes_for_count in P. fold ls in P. unfold label_of_row in P.
  pose proof (unit_row cs ls (sorted_NoDup cs Sc) Hin Hk) as F. fold row in F.
  destruct (Nat.lt_ge_cases (iamax row) (length cs)) as [L|L].
  - pose proof (Forall2_nth _ _ _ 0 zero64 F _ L) as V. cbv beta in V.
    destruct (f64_eq _ zero64) eqn:E; auto. apply (f64_eq_is _ _ _ _ V zero_is) in E. exfalso.
    assert (Hc := count_len ls (nth (iamax row) cs 0)).
    pose proof (strict_proportion 0 (count ls (nth (iamax row) cs 0)) (Z.of_nat (length ls))) as SP.
    rewrite E in SP. unfold Rdiv in SP. rewrite Rmult_0_l, (rnd_Z 0) in SP by lia.
    assert ((0 < 0)%R) by (apply SP; lia). lra.
  - (* not reached: the place is in the row *)
    exfalso. assert (NN : Forall (fun x => is_nan x = false) row).
    { apply Forall_forall. intros x Hx. apply (In_nth _ _ zero64) in Hx. destruct Hx as [i [Hi <-]].
      assert (Hi' : (i < length cs)%nat) by (rewrite <- (proba_len cs (unit_votes ls)); exact Hi).
      eapply is_not_nan. apply (Forall2_nth _ _ _ 0 zero64 F i Hi'). }
    assert (Hne : row <> []).
    { intros E0. assert (Z0 : length cs = 0%nat) by (rewrite <- (proba_len cs (unit_votes ls)); fold row; rewrite E0; reflexivity).
      destruct ls as [|l0 ls0] eqn:El; [cbn in Hk; lia|]. assert (I : In l0 cs) by (apply Hin; left; auto).
      destruct cs; [destruct I|discriminate]. }
    destruct (iamax_ok row Hne NN) as [Hr _]. fold f64 in Hr. unfold row in Hr at 2. rewrite proba_len in Hr. lia.
Qed.

(** ** Rows with a single 1 *)
Definition one_at (n p : nat) : list f64 := map (fun i => if Nat.eqb i p then one64 else zero64) (seq 0 n).
Lemma one_at_nth n p i : (i < n)%nat -> nth i (one_at n p) zero64 = if Nat.eqb i p then one64 else zero64.
Proof.
  intros H. unfold one_at. rewrite (nth_indep _ zero64 ((fun i => if Nat.eqb i p then one64 else zero64) 0%nat)) by (rewrite map_length, seq_length; lia).
  rewrite (map_nth (fun i => if Nat.eqb i p then one64 else zero64)). rewrite seq_nth by lia. reflexivity.
Qed.
Lemma iamax_one n p : (p < n)%nat -> iamax (one_at n p) = p.
Proof.
  intros H. assert (L : length (one_at n p) = n) by (unfold one_at; rewrite map_length, seq_length; reflexivity).
  assert (NN : Forall (fun x => is_nan x = false) (one_at n p)).
  { apply Forall_forall. intros x Hx. apply in_map_iff in Hx. destruct Hx as [i [<- _]]. destruct (Nat.eqb i p); reflexivity. }
  assert (Hne : one_at n p <> []) by (intros E; rewrite E in L; cbn in L; lia).
  destruct (iamax_ok _ Hne NN) as [Hr [Hle _]]. fold f64 in Hr, Hle. rewrite L in Hr, Hle.
  specialize (Hle p H). rewrite !one_at_nth in Hle by assumption. rewrite Nat.eqb_refl in Hle.
  destruct (Nat.eqb (iamax (one_at n p)) p) eqn:E; [apply Nat.eqb_eq; exact E|]. exfalso.
  rewrite (is_key_abs one64 1 one_is) in Hle by lra. rewrite (is_key_abs zero64 0 zero_is) in Hle by lra. lra.
Qed.
Lemma zeros_none n : (0 < n)%nat -> f64_eq (nth (iamax (repeat zero64 n)) (repeat zero64 n) zero64) zero64 = true.
Proof.
  intros _. assert (E : forall i, nth i (repeat zero64 n) zero64 = zero64).
  { induction n as [|n IH]; intros [|i]; cbn; auto. }
  rewrite E. apply (f64_eq_is _ _ _ _ zero_is zero_is). reflexivity.
Qed.
Lemma one_row (cs : list Z) l p : NoDup cs -> (p < length cs)%nat -> nth p cs 0 = l ->
  map (fun c => if c =? l then one64 else zero64) cs = one_at (length cs) p.
Proof.
  intros N Hp E. apply (nth_ext _ _ zero64 zero64).
  - unfold one_at. rewrite !map_length, seq_length. reflexivity.
  - intros i Hi. rewrite map_length in Hi. rewrite one_at_nth by exact Hi.
    rewrite (nth_indep _ zero64 ((fun c => if c =? l then one64 else zero64) 0)) by (rewrite map_length; exact Hi).
    rewrite (map_nth (fun c => if c =? l then one64 else zero64)). cbv beta.
    destruct (Nat.eqb_spec i p) as [->|D].
    + rewrite E, Z.eqb_refl. reflexivity.
    + destruct (nth i cs 0 =? l) eqn:E2; auto. apply Z.eqb_eq in E2. exfalso. apply D.
      apply (proj1 (NoDup_nth cs 0) N); auto. congruence.
Qed.
Lemma one_stored a nc j p : 0 <= p < nc -> 
  row_of (store_at (store_row a (j * nc) (repeat zero64 (Z.to_nat nc))) (p + j * nc) one64) nc j = one_at (Z.to_nat nc) (Z.to_nat p).
Proof.
  intros Hp. unfold row_of, one_at, zrange. rewrite map_map. apply map_ext_in. intros i Hi. apply in_seq in Hi.
  unfold store_at. destruct (Nat.eqb_spec i (Z.to_nat p)) as [->|D].
  - replace (_ =? _) with true by (symmetry; apply Z.eqb_eq; lia). reflexivity.
  - replace (_ =? _) with false by (symmetry; apply Z.eqb_neq; lia). unfold store_row.
    rewrite repeat_length. replace (_ && _) with true by (symmetry; apply andb_true_iff; split; [apply Z.leb_le|apply Z.ltb_lt]; lia).
    generalize (Z.to_nat (Z.of_nat i + j * nc - j * nc)). generalize (Z.to_nat nc). clear.
    induction n as [|n IH]; intros [|i]; cbn; auto.
Qed.

(** ** The most frequent label *)
Lemma frequent_fold x : forall l mf e, 0 <= mf ->
  let '(mf', e') := fold_left (fun '(mf, e) v => if (mf <? frequency x v) || ((frequency x v =? mf) && (v <? e)) then (frequency x v, v) else (mf, e)) l (mf, e) in
  ((mf', e') = (mf, e) \/ (In e' l /\ mf' = frequency x e')) /\
  mf <= mf' /\ (mf' = mf -> e' <= e) /\
  forall v, In v l -> frequency x v <= mf' /\ (frequency x v = mf' -> e' <= v).
Proof.
  induction l as [|v l IH]; intros mf e H; cbn [fold_left].
  { split; [left; reflexivity|]. split; [lia|]. split; [lia|]. intros v []. }
  assert (Hf : 0 <= frequency x v) by (unfold frequency; lia).
  destruct ((mf <? frequency x v) || ((frequency x v =? mf) && (v <? e))) eqn:C.
  - specialize (IH (frequency x v) v Hf). destruct (fold_left _ l _) as [mf' e']. destruct IH as [I1 [I2 [I3 I4]]].
    assert (Hc : mf < frequency x v \/ (frequency x v = mf /\ v < e)).
    { apply orb_true_iff in C. destruct C as [C|C]; [left; apply Z.ltb_lt; exact C|right]. apply andb_true_iff in C. lia. }
    split.
    { right. destruct I1 as [E|[E1 E2]]; [injection E as -> ->; split; [left|]; reflexivity|split; [right; exact E1|exact E2]]. }
    split; [lia|]. split; [intros E; assert (mf' = frequency x v) by lia; specialize (I3 H0); lia|].
    intros u [<-|Hu]; [split; [lia|]; intros E; apply I3; lia|apply I4; exact Hu].
  - apply orb_false_iff in C. destruct C as [C1 C2]. apply Z.ltb_ge in C1.
    specialize (IH mf e H). destruct (fold_left _ l _) as [mf' e']. destruct IH as [I1 [I2 [I3 I4]]].
    split; [destruct I1 as [E|[E1 E2]]; [left; exact E|right; split; [right; exact E1|exact E2]]|].
    split; [exact I2|]. split; [exact I3|].
    intros u [<-|Hu]; [|apply I4; exact Hu]. split; [lia|]. intros E. assert (M : mf' = mf) by lia. specialize (I3 M).
    apply andb_false_iff in C2. destruct C2 as [C2|C2]; [apply Z.eqb_neq in C2; lia|apply Z.ltb_ge in C2; lia].
Qed.
Lemma most_frequent_ok x : x <> [] -> most_frequent x (most_frequent_element x).
Proof.
  intros Hx. unfold most_frequent_element. pose proof (frequent_fold x (available_classes x) 0 (hd 0 x) ltac:(lia)) as F.
  destruct (fold_left _ _ _) as [mf e]. cbn [snd]. destruct F as [I1 [I2 [I3 I4]]].
  destruct x as [|x0 x]; [congruence|].
  assert (P0 : 0 < frequency (x0 :: x) x0) by (unfold frequency; cbn [count_occ]; destruct (Z.eq_dec x0 x0); [lia|congruence]).
  assert (Hx0 : In x0 (available_classes (x0 :: x))) by (apply classes_in; left; reflexivity).
  destruct (I4 x0 Hx0) as [M0 _].
  destruct I1 as [E|[E1 E2]]; [injection E as E _; lia|].
  split; [apply classes_in; exact E1|]. intros l'.
  destruct (in_dec Z.eq_dec l' (x0 :: x)) as [I|I].
  - apply classes_in in I. destruct (I4 l' I) as [A B]. rewrite E2 in A, B. unfold frequency in *. split; [lia|]. intros E. apply B. lia.
  - pose proof (proj1 (count_occ_not_In Z.eq_dec (x0 :: x) l') I) as C0. rewrite C0. split; [lia|]. intros E.
    unfold frequency in *. lia.
Qed.

(** ** Predictions *)
Definition answer (h : labelled) (oh : outliers) (other : Z) (nb : list (Z * f64)) (row : list f64) : Prop :=
  radius_label_ok (y_train h) other nb (radius_label h oh row).
Lemma found_answer h oh other nb : StronglySorted Z.lt (classes h) -> (forall l, In l (classes h) <-> In l (y_train h)) ->
  among (y_train h) nb -> countable nb ->
  answer h oh other nb (proba_row (classes h) (unit_votes (map (fun e => label (y_train h) (fst e)) nb))).
Proof.
  intros Sc Ic A Hk.
  assert (Hin : forall l, In l (map (fun e => label (y_train h) (fst e)) nb) -> In l (classes h)).
  { intros l Hl. apply Ic. apply classes_in. apply (labels_in (y_train h) nb A). exact Hl. }
  pose proof (row_majority (classes h) (y_train h) nb Sc Hin Hk) as M. pose proof (found_positive (classes h) (y_train h) nb Sc Hin Hk) as P.
  cbv zeta in P. unfold answer, radius_label_ok, radius_label. destruct nb as [|e nb]; [unfold countable in Hk; cbn in Hk; lia|].
  rewrite P. destruct oh; exact M.
Qed.
Lemma predict_ok h0 oh other nbs : let h := prepare h0 oh in
  StronglySorted Z.lt (classes h) -> (forall l, In l (classes h) <-> In l (y_train h)) ->
  Forall (fun nb => nb = [] \/ (among (y_train h) nb /\ countable nb)) nbs ->
  (In [] nbs -> exists row, (forall len, leaves h Uniform oh len [] row) /\ answer h oh other [] row) ->
  exists ls, radius_predict h0 Uniform oh nbs = Some (Some ls) /\ Forall2 (radius_label_ok (y_train h) other) nbs ls.
Proof.
  intros h Sc Ic F E. unfold radius_predict, radius_proba. fold h.
  set (len := Z.of_nat (length nbs) * Z.of_nat (length (classes h))).
  assert (R : exists rows, Forall2 (leaves h Uniform oh len) nbs rows /\ Forall2 (answer h oh other) nbs rows).
  { clearbody len. induction nbs as [|nb nbs IH]; [exists []; split; constructor|].
    inversion F as [|? ? Fn F']; subst. destruct IH as [rows [R1 R2]]; auto; [intros I; apply E; right; exact I|].
    destruct Fn as [->|[A Hk]].
    - destruct (E (or_introl eq_refl)) as [row [L An]]. exists (row :: rows). split; constructor; auto.
    - exists (proba_row (classes h) (unit_votes (map (fun e => label (y_train h) (fst e)) nb)) :: rows). split; constructor; auto.
      + apply leaves_found; auto. intros ->. unfold countable in Hk. cbn in Hk. lia.
      + apply found_answer; auto. }
  destruct R as [rows [R1 R2]].
  destruct (queries_ok h Uniform oh len nbs rows R1 (fun _ => zero64) 0) as [a [E1 [E2 _]]]; [lia|unfold len; lia|].
  rewrite E1. eexists. split; [reflexivity|].
  replace (map _ (zrange (Z.of_nat (length nbs)))) with (map (radius_label h oh) rows).
  2:{ rewrite <- E2, map_map. apply map_ext. intros j. rewrite Z.add_0_l. reflexivity. }
  clear -R2. induction R2; cbn; constructor; auto.
Qed.
Lemma none_found_error h0 w : forall nbs a j len, Exists (fun nb => nb = []) nbs ->
  Forall (fun nb => among (y_train h0) nb) nbs -> radius_queries h0 w ONone len a j nbs = Some (inl tt).
Proof.
  induction nbs as [|nb nbs IH]; intros a j len E A; [inversion E|]. inversion A as [|? ? An A']; subst. cbn [radius_queries].
  destruct nb as [|e nb]; [reflexivity|]. unfold radius_query. rewrite (votes_some w _ _ An). cbn [bind].
  apply IH; auto. inversion E; [discriminate|auto].
Qed.
Lemma none_ok y nbs : Forall (fun nb => nb = [] \/ (among y nb /\ countable nb)) nbs ->
  let r := radius_predict (set_labels new_labelled y) Uniform ONone nbs in
  (Exists (fun nb => nb = []) nbs -> r = Some None) /\
  (~ Exists (fun nb => nb = []) nbs -> exists ls, r = Some (Some ls) /\ Forall2 (majority y) nbs ls).
Proof.
  intros F r. split; intros E.
  - unfold r, radius_predict, radius_proba. rewrite none_found_error; auto.
    eapply Forall_impl; [|exact F]. intros nb [->|[A _]]; [constructor|exact A].
  - destruct (predict_ok (set_labels new_labelled y) ONone 0 nbs) as [ls [E1 E2]].
    + apply classes_sorted.
    + apply classes_in.
    + exact F.
    + intros I. exfalso. apply E. apply Exists_exists. exists []. auto.
    + exists ls. split; [exact E1|]. clear -E2 E. induction E2 as [|nb l nbs ls H E2 IH]; constructor.
      * destruct nb; [exfalso; apply E; left; reflexivity|exact H].
      * apply IH. intros X. apply E. right. exact X.
Qed.
Lemma frequent_label_ok y nbs : y <> [] -> Forall (fun nb => nb = [] \/ (among y nb /\ countable nb)) nbs ->
  exists ls other, radius_predict (set_labels new_labelled y) Uniform OMostFrequent nbs = Some (Some ls) /\ most_frequent y other /\
    Forall2 (radius_label_ok y other) nbs ls.
Proof.
  intros Hy F. pose proof (most_frequent_ok y Hy) as M. set (o := most_frequent_element y) in *.
  destruct (predict_ok (set_labels new_labelled y) OMostFrequent o nbs) as [ls [E1 E2]].
  - apply classes_sorted.
  - apply classes_in.
  - exact F.
  - intros _. set (h := prepare _ _). change (classes h) with (available_classes y).
    assert (Io : In o (available_classes y)) by (apply classes_in; apply M).
    apply (In_nth _ _ 0) in Io. destruct Io as [p [Hp Ep]].
    exists (one_at (length (available_classes y)) p). split.
    + intros len a j Hj Hb. eexists. split; [reflexivity|]. split; [|intros q Hq; apply row_before; exact Hq].
      rewrite row_stored by (rewrite map_length; reflexivity). change (classes h) with (available_classes y).
      apply one_row; auto. apply sorted_NoDup, classes_sorted.
    + unfold answer, radius_label_ok, radius_label. rewrite iamax_one by exact Hp. rewrite one_at_nth by exact Hp. rewrite Nat.eqb_refl.
      destruct (f64_eq one64 zero64) eqn:E0; [apply (f64_eq_is _ _ _ _ one_is zero_is) in E0; lra|].
      unfold label_of_row. rewrite iamax_one by exact Hp. exact Ep.
  - exists ls, o. auto.
Qed.

(** ** The label of the caller *)
Lemma find_index_from v : forall l i, 0 <= i -> (~ In v l /\ find_index l v i = -1) \/
  (exists p, (p < length l)%nat /\ nth p l 0 = v /\ find_index l v i = i + Z.of_nat p).
Proof.
  induction l as [|x l IH]; intros i Hi; cbn [find_index]; [left; split; [intros []|reflexivity]|].
  destruct (x =? v) eqn:E.
  - right. apply Z.eqb_eq in E. exists 0%nat. cbn. split; [lia|]. split; [exact E|lia].
  - apply Z.eqb_neq in E. destruct (IH (i + 1) ltac:(lia)) as [[N F]|[p [P1 [P2 P3]]]].
    + left. split; [intros [H|H]; auto|exact F].
    + right. exists (S p). cbn. split; [lia|]. split; [exact P2|lia].
Qed.
Lemma gapless_classes y : without_gap y -> forall p, (p < length (available_classes y))%nat -> nth p (available_classes y) 0 = Z.of_nat p.
Proof.
  intros G. pose proof (classes_sorted y) as Sc. set (cs := available_classes y) in *.
  assert (Gc : forall l, In l cs -> 0 <= l /\ forall l', 0 <= l' < l -> In l' cs).
  { intros l Hl. apply (proj1 (classes_in y l)) in Hl. destruct (G l Hl) as [A B]. split; [exact A|]. intros l' H'.
    apply (proj2 (classes_in y l')). auto. }
  induction p as [p IH] using lt_wf_ind. intros Hp.
  assert (Ip : In (nth p cs 0) cs) by (apply nth_In; exact Hp).
  destruct (Gc _ Ip) as [A B]. destruct (Z_lt_ge_dec (Z.of_nat p) (nth p cs 0)) as [L|L].
  - exfalso. assert (I : In (Z.of_nat p) cs) by (apply B; lia). apply (In_nth _ _ 0) in I. destruct I as [q [Hq Eq]].
    destruct (lt_eq_lt_dec q p) as [[C|C]|C].
    + rewrite (IH q C Hq) in Eq. lia.
    + subst q. lia.
    + pose proof (sorted_nth cs Sc p q 0 ltac:(lia)). lia.
  - destruct (Z_lt_ge_dec (nth p cs 0) (Z.of_nat p)) as [L'|L']; [|lia]. exfalso.
    destruct p as [|p]; [lia|]. 
    pose proof (sorted_nth cs Sc p (S p) 0 ltac:(lia)) as S1. rewrite (IH p ltac:(lia) ltac:(lia)) in S1. lia.
Qed.
Lemma manual_ok y l nbs : y <> [] -> (without_gap y \/ ~ In l y) -> Forall (fun nb => nb = [] \/ (among y nb /\ countable nb)) nbs ->
  exists ls, radius_predict (set_manual_label (set_labels new_labelled y) l) Uniform OManual nbs = Some (Some ls) /\
    Forall2 (radius_label_ok y l) nbs ls.
Proof.
  intros Hy G F. set (h0 := set_manual_label _ l).
  set (h := Labelled y (available_classes y) true (-1) false (find_index (available_classes y) l 0) true l).
  assert (Eh : prepare h0 OManual = h).
  { unfold h0, set_manual_label. cbn [manual_label set_labels new_labelled]. destruct (l =? -1) eqn:E; [apply Z.eqb_eq in E; subst l|]; reflexivity. }
  pose proof (predict_ok h0 OManual l nbs) as P. cbv zeta in P. rewrite Eh in P. apply P; clear P.
  - apply classes_sorted.
  - apply classes_in.
  - exact F.
  - intros _.
    assert (Hne : (0 < length (available_classes y))%nat).
    { destruct y as [|y0 y]; [congruence|]. assert (I : In y0 (available_classes (y0 :: y))) by (apply classes_in; left; auto).
      destruct (available_classes (y0 :: y)); [destruct I|cbn; lia]. }
    destruct (find_index_from l (available_classes y) 0 ltac:(lia)) as [[N E]|[p [P1 [P2 P3]]]].
    + exists (repeat zero64 (length (available_classes y))). split.
      * intros len a j Hj Hb. eexists. unfold radius_query. change (manual_index h) with (find_index (available_classes y) l 0). rewrite E.
        split; [reflexivity|]. split; [|intros q Hq; apply row_before; exact Hq].
        apply row_stored. rewrite repeat_length. reflexivity.
      * unfold answer, radius_label_ok, radius_label. rewrite zeros_none by exact Hne. reflexivity.
    + assert (Gy : without_gap y).
      { destruct G as [G|G]; [exact G|]. exfalso. apply G. apply classes_in. rewrite <- P2. apply nth_In. exact P1. }
      pose proof (gapless_classes y Gy p P1) as Pp.
      exists (one_at (length (available_classes y)) p). split.
      * intros len a j Hj Hb. unfold radius_query. change (manual_index h) with (find_index (available_classes y) l 0). rewrite P3, Z.add_0_l.
        change (classes h) with (available_classes y) in *.
        destruct (Z.of_nat p =? -1) eqn:E0; [lia|]. rewrite Nat2Z.id, Pp. set (nc := Z.of_nat (length (available_classes y))) in *.
        replace (_ && _) with true by (symmetry; apply andb_true_iff; split; [apply Z.leb_le|apply Z.ltb_lt]; nia).
        eexists. split; [reflexivity|]. split.
        -- replace (length (available_classes y)) with (Z.to_nat nc) by (unfold nc; lia).
           rewrite one_stored by (unfold nc; lia). rewrite Nat2Z.id. reflexivity.
        -- intros q Hq. unfold store_at. replace (q =? _) with false by (symmetry; apply Z.eqb_neq; lia). apply row_before. exact Hq.
      * unfold answer, radius_label_ok, radius_label. rewrite iamax_one by exact P1. rewrite one_at_nth by exact P1. rewrite Nat.eqb_refl.
        destruct (f64_eq one64 zero64) eqn:E0; [apply (f64_eq_is _ _ _ _ one_is zero_is) in E0; lra|].
        unfold label_of_row. rewrite iamax_one by exact P1. exact P2.
Qed.

(** ** Results *)
Lemma sum_fold l : forall a, fold_left Z.add l a = a + fold_left Z.add l 0.
Proof. induction l as [|x l IH]; intros a; cbn; [lia|]. rewrite (IH (a + x)), (IH x). lia. Qed.
Lemma total_concat (found : list (list Z)) : fold_left Z.add (count_of found) 0 = Z.of_nat (length (concat found)).
Proof.
  induction found as [|l found IH]; auto. unfold count_of in *. cbn [map fold_left concat]. rewrite sum_fold, IH, app_length. lia.
Qed.
Lemma count_ok found dim : dim = Z.of_nat (length found) + 1 ->
  result_count found dim = Some (inr (map (fun l => Z.of_nat (length l)) found ++ [Z.of_nat (length (concat found))])).
Proof.
  intros ->. unfold result_count. rewrite Z.ltb_irrefl. replace (Z.of_nat (length found) + 1 - 1) with (Z.of_nat (length found)) by lia.
  replace (forallb _ _) with true.
  2:{ symmetry. apply forallb_forall. intros i Hi. apply in_zrange in Hi. apply Z.ltb_lt. lia. }
  assert (E : map (fun i => nth (Z.to_nat i) (count_of found) 0) (zrange (Z.of_nat (length found))) = count_of found).
  { replace (length found) with (length (count_of found)) by apply map_length. apply map_nth_zrange. }
  rewrite E, total_concat. reflexivity.
Qed.
Lemma indices_ok found dim : result_indices found dim =
  if Z.of_nat (length (concat found)) <=? dim then inr (concat found) else inl (Z.of_nat (length (concat found))).
Proof.
  unfold result_indices. rewrite total_concat. destruct (Z.leb_spec (Z.of_nat (length (concat found))) dim), (Z.ltb_spec dim (Z.of_nat (length (concat found)))); auto; lia.
Qed.
Lemma offsets_ok : forall found o, let os := offsets_from o found in
  length os = S (length found) /\ last os 0 = o + Z.of_nat (length (concat found)) /\
  forall j, (j < length found)%nat -> nth j found [] <> [] ->
    o <= nth j os 0 /\ slice (concat found) (nth j os 0 - o) (Z.of_nat (length (nth j found []))) = nth j found [].
Proof.
  induction found as [|l found IH]; intros o; cbn [offsets_from].
  { split; [reflexivity|]. split; [cbn; lia|]. intros j Hj. cbn in Hj. lia. }
  set (o' := if 0 <? Z.of_nat (length l) then o + Z.of_nat (length l) else o).
  assert (Eo : o' = o + Z.of_nat (length l)) by (unfold o'; destruct (0 <? _) eqn:E; [reflexivity|apply Z.ltb_ge in E; lia]).
  destruct (IH o') as [I1 [I2 I3]].
  assert (Last : forall x, last (x :: offsets_from o' found) 0 = last (offsets_from o' found) 0).
  { intros x. destruct (offsets_from o' found); [discriminate|reflexivity]. }
  assert (G : forall x, (l <> [] -> x = o) -> let os := x :: offsets_from o' found in
    length os = S (length (l :: found)) /\ last os 0 = o + Z.of_nat (length (concat (l :: found))) /\
    forall j, (j < length (l :: found))%nat -> nth j (l :: found) [] <> [] ->
      o <= nth j os 0 /\ slice (concat (l :: found)) (nth j os 0 - o) (Z.of_nat (length (nth j (l :: found) []))) = nth j (l :: found) []).
  { intros x Hx os. unfold os. split; [cbn [length]; rewrite I1; reflexivity|]. split.
    - rewrite Last, I2. cbn [concat]. rewrite app_length, Eo. lia.
    - intros [|j] Hj Hn; cbn [nth] in *.
      + rewrite (Hx Hn). split; [lia|]. unfold slice. rewrite Z.sub_diag, Nat2Z.id. cbn [Z.to_nat skipn concat].
        rewrite firstn_app, Nat.sub_diag, firstn_all. cbn [firstn]. apply app_nil_r.
      + cbn [length] in Hj. destruct (I3 j ltac:(lia) Hn) as [J1 J2]. split; [lia|].
        rewrite <- J2 at 2. unfold slice. f_equal. cbn [concat]. rewrite skipn_app.
        rewrite skipn_all2 by lia. cbn [app]. f_equal. lia. }
  unfold o' in G. destruct (0 <? Z.of_nat (length l)) eqn:E.
  - apply G. reflexivity.
  - apply G. intros Hn. apply Z.ltb_ge in E. destruct l; [congruence|cbn in E; lia].
Qed.
Lemma brute_within D r n max_block threads n_blocks rem : 0 < n -> 0 < max_block ->
  blocking_scheme n (Z.min max_block n) = Some (n_blocks, rem) -> Permutation (concat threads) (zrange n_blocks) ->
  Permutation (radius_brute D r n max_block threads) (within D r n).
Proof.
  intros Hn Hb Hs P. pose proof (entries_all D n max_block threads n_blocks rem Hn Hb Hs P) as E.
  unfold radius_brute, within. 
  assert (G : forall l : list (list (list (Z * f64))), concat (map (fun b => filter (fun e => f64_le (snd e) r) (concat b)) l) =
    filter (fun e => f64_le (snd e) r) (concat (concat l))).
  { induction l as [|b l IH]; auto. cbn [map concat]. rewrite IH, concat_app, filter_app. reflexivity. }
  rewrite G. clear G. revert E. generalize (concat (concat (brute_entries D n max_block threads))), (map (fun i => (i, D i)) (zrange n)).
  induction 1 as [|x l m Pm IH|x y l|l m k P1 IH1 P2 IH2]; auto; cbn [filter].
  - destruct (f64_le (snd x) r); auto.
  - destruct (f64_le (snd x) r), (f64_le (snd y) r); auto. apply perm_swap.
  - etransitivity; eauto.
Qed.

(** ** The classifier as a whole *)
Lemma classifier_ok pw y v k D max_block threads n_blocks rem : (0 < k)%nat -> Z.of_nat k <= Z.of_nat (length y) -> Z.of_nat k <= 2 ^ 50 ->
  0 < max_block -> (forall i, 0 <= i < Z.of_nat (length y) -> is_nan (D i) = false) ->
  blocking_scheme (Z.of_nat (length y)) (Z.min max_block (Z.of_nat (length y))) = Some (n_blocks, rem) ->
  Permutation (concat threads) (zrange n_blocks) ->
  let nb := predict_neighbours v k D (Z.of_nat (length y)) max_block threads pw in
  NnSpec.k_smallest key k (map (fun i => (i, D i)) (zrange (Z.of_nat (length y)))) nb /\
  exists h l, predict_knn (set_labels new_labelled y) Uniform nb = Some (h, l) /\ majority y nb l.
Proof.
  intros Hk Hn Hk' Hb HD Hs P nb.
  assert (Hc : NnSpec.compares (lt (arith64 pw)) (le (arith64 pw)) (fun x => is_nan x = false) key).
  { split; intros a b Ha Hb'; [apply f64_lt_key|apply f64_le_key]; auto. }
  assert (Hn0 : 0 < Z.of_nat (length y)) by lia.
  destruct (brute_ok (arith64 pw) (fun x => is_nan x = false) key _ _ Hc v k D _ max_block threads n_blocks rem Hk Hn0 Hb HD Hs P) as [K _].
  assert (En : nb = stable_sort (lt (arith64 pw)) (brute_candidates (arith64 pw) (lt (arith64 pw)) (le (arith64 pw)) v k (brute_entries D (Z.of_nat (length y)) max_block threads))).
  { unfold nb, predict_neighbours. set (c := brute_candidates _ _ _ _ _ _) in *. destruct K as [L _].
    pose proof (sort_perm (lt (arith64 pw)) c) as PS. apply Permutation_length in PS. rewrite L, map_length, zrange_len in PS.
    replace (k - length c)%nat with 0%nat by lia. cbn [repeat]. rewrite app_nil_r. reflexivity. }
  assert (K' : NnSpec.k_smallest key k (map (fun i => (i, D i)) (zrange (Z.of_nat (length y)))) nb) by (rewrite En; exact K).
  clear K. rename K' into K. split; [exact K|]. destruct K as [L [rest [PR _]]]. rewrite map_length, zrange_len in L.
  apply majority_ok.
  - apply Forall_forall. intros e He.
    assert (I : In e (map (fun i => (i, D i)) (zrange (Z.of_nat (length y))))) by (eapply Permutation_in; [exact PR|]; apply in_or_app; auto).
    apply in_map_iff in I. destruct I as [i [<- I]]. apply in_zrange in I. exact I.
  - unfold countable. rewrite L. lia.
Qed.
Lemma call_ok roots s sorted ds :
  radius_distances roots (radius_call roots s true sorted (Some ds)) =
    Some (given roots (if sorted then map snd (stable_sort f64_lt (map (fun d => (0, d)) ds)) else ds)).
Proof.
  unfold radius_call, radius_distances, given. cbn [negb andb have return_distances sort_results stored].
  destruct sorted, roots; cbn [negb andb]; auto. rewrite map_id. reflexivity.
Qed.
