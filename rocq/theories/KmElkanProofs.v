(** Elkan's algorithm in exact arithmetic. *)
From Coq Require Import ZArith Reals List Bool Lia Lra Arith Permutation.
From Verif Require Import Base Par UtilModel NnModel RealArith KmModel KmElkanModel KmSpec KmKernelProofs KmLloydProofs KmCostProofs KmLoopProofs KmAnyProofs.
Import ListNotations.
Local Open Scope R_scope.

(** ** the triangle inequality *)
Definition dst (x c : rw) : R := R_sqrt.sqrt (sqdist x c).
Lemma dst_nonneg x c : 0 <= dst x c.
Proof. apply sqrt_pos. Qed.
Lemma dst_sqr x c : dst x c * dst x c = sqdist x c.
Proof. apply sqrt_sqrt, sqdist_nonneg. Qed.
Lemma dst_le x c x' c' : dst x c <= dst x' c' <-> sqdist x c <= sqdist x' c'.
Proof.
  split; intros H.
  - apply sqrt_le_0; auto using sqdist_nonneg.
  - apply sqrt_le_1; auto using sqdist_nonneg.
Qed.
Lemma squares_nonneg a b : 0 <= a * a + b * b.
Proof. pose proof (Rle_0_sqr a). pose proof (Rle_0_sqr b). unfold Rsqr in *. lra. Qed.
Lemma minkowski2 x1 y1 x2 y2 :
  R_sqrt.sqrt ((x1 + x2) * (x1 + x2) + (y1 + y2) * (y1 + y2)) <= R_sqrt.sqrt (x1 * x1 + y1 * y1) + R_sqrt.sqrt (x2 * x2 + y2 * y2).
Proof.
  set (A := R_sqrt.sqrt (x1 * x1 + y1 * y1)). set (B := R_sqrt.sqrt (x2 * x2 + y2 * y2)).
  assert (PA : 0 <= A) by apply sqrt_pos. assert (PB : 0 <= B) by apply sqrt_pos.
  assert (EA : A * A = x1 * x1 + y1 * y1) by (apply sqrt_sqrt, squares_nonneg).
  assert (EB : B * B = x2 * x2 + y2 * y2) by (apply sqrt_sqrt, squares_nonneg).
  assert (CS : x1 * x2 + y1 * y2 <= A * B).
  { apply Rsqr_incr_0_var; [|nra]. unfold Rsqr.
    replace (A * B * (A * B)) with ((A * A) * (B * B)) by ring. rewrite EA, EB. pose proof (Rle_0_sqr (x1 * y2 - x2 * y1)) as Q. unfold Rsqr in Q. nra. }
  apply Rsqr_incr_0_var; [|lra]. unfold Rsqr. rewrite sqrt_sqrt by apply squares_nonneg.
  replace ((A + B) * (A + B)) with (A * A + B * B + 2 * (A * B)) by ring. rewrite EA, EB. lra.
Qed.
Lemma sqdist_cons a x c y : sqdist (a :: x) (c :: y) = (a - c) * (a - c) + sqdist x y.
Proof. reflexivity. Qed.
Lemma triangle x : forall y z, length x = length y -> length y = length z -> dst x z <= dst x y + dst y z.
Proof.
  induction x as [|a x IH]; intros [|b y] [|c z] L1 L2; cbn in L1, L2; try discriminate.
  - unfold dst, sqdist, rsum. cbn. rewrite sqrt_0. lra.
  - specialize (IH y z ltac:(lia) ltac:(lia)). unfold dst. rewrite !sqdist_cons.
    pose proof (minkowski2 (a - b) (dst x y) (b - c) (dst y z)) as M. rewrite !dst_sqr in M.
    apply Rle_trans with (2 := M). apply sqrt_le_1.
    + pose proof (sqdist_nonneg x z). pose proof (Rle_0_sqr (a - c)) as Q. unfold Rsqr in Q. lra.
    + apply squares_nonneg.
    + rewrite <- (dst_sqr x z). replace (a - b + (b - c)) with (a - c) by ring. apply Rplus_le_compat_l.
      apply Rmult_le_compat; auto using dst_nonneg.
Qed.
Lemma dst_sym x : forall y, dst x y = dst y x.
Proof.
  intros y. unfold dst. f_equal. revert y. induction x as [|a x IH]; intros [|b y]; try reflexivity. rewrite !sqdist_cons, IH. ring.
Qed.

(** ** one sample *)
Section Sample.
Variables (k : nat) (d : nat -> R) (C hd : list rw) (nd : list (option R)) (x : rw) (reduce : rw -> rw -> R).
Hypothesis k_pos : k <> O.
Hypothesis d_ok : forall j, (j < k)%nat -> dist arithR reduce x (nth j C []) = d j.
Hypothesis hd_ok : forall a b, (a < k)%nat -> (b < k)%nat -> a <> b -> 2 * half_of arithR hd a b <= d a + d b.
Hypothesis nd_ok : forall a, (a < k)%nat ->
  match nth a nd None with
  | Some h => forall b, (b < k)%nat -> b <> a -> h <= half_of arithR hd a b
  | None => forall b, (b < k)%nat -> b = a
  end.
Notation ub := (@e_u R). Notation lb := (@e_lb R). Notation lab := (@e_label R).
Notation z0 := (zero arithR).

Definition bounded (s : @sample_state R) : Prop :=
  (lab s < k)%nat /\ length (lb s) = k /\ d (lab s) <= ub s /\ forall j, (j < k)%nat -> nth j (lb s) z0 <= d j.
Definition step_inv (l0 : nat) (st : @sample_state R * bool) (j : nat) : Prop :=
  bounded (fst st) /\ (snd st = true -> ub (fst st) = d (lab (fst st))) /\
  (forall i, (i < j)%nat -> d (lab (fst st)) <= d i) /\
  (lab (fst st) = l0 \/ d (lab (fst st)) < d l0).

Lemma half_skip a j : (a < k)%nat -> (j < k)%nat -> a <> j -> d a <= half_of arithR hd a j -> d a <= d j.
Proof. intros A J NE H. specialize (hd_ok a j A J NE). lra. Qed.

Lemma assign_step_inv l0 st j : (j < k)%nat -> step_inv l0 st j -> step_inv l0 (assign_step arithR reduce C hd x st j) (S j).
Proof.
  destruct st as [s tight]. intros J [[B1 [B2 [B3 B4]]] [T [P L]]]. cbn [fst snd] in *. unfold assign_step.
  destruct (negb (Nat.eqb j (lab s)) && lt arithR (nth j (lb s) z0) (ub s) && lt arithR (half_of arithR hd (lab s) j) (ub s)) eqn:E.
  - apply andb_true_iff in E. destruct E as [E1 E3]. apply andb_true_iff in E1. destruct E1 as [E1 E2].
    apply negb_true_iff, Nat.eqb_neq in E1.
    set (s1 := if tight then s else _).
    assert (S1 : lab s1 = lab s /\ ub s1 = d (lab s) /\ length (lb s1) = k /\ (forall i, (i < k)%nat -> nth i (lb s1) z0 <= d i)).
    { unfold s1. destruct tight; cbn [e_label e_u e_lb]; auto.
      rewrite d_ok by auto. repeat split; auto; [rewrite put_length; auto|].
      intros i Hi. rewrite put_nth by lia. destruct (Nat.eqb_spec i (lab s)) as [->|]; [lra|auto]. }
    destruct S1 as [L1 [U1 [N1 B1']]]. rewrite U1. rewrite d_ok by auto.
    destruct (lt arithR (nth j (lb s) z0) (d (lab s)) || lt arithR (half_of arithR hd (lab s) j) (d (lab s))) eqn:O.
    + assert (PL : forall i, (i < k)%nat -> nth i (put (lb s1) j (d j)) z0 <= d i).
      { intros i Hi. rewrite put_nth by lia. destruct (Nat.eqb_spec i j) as [->|]; [lra|auto]. }
      destruct (lt arithR (d j) (d (lab s))) eqn:Dj; cbn [fst snd]; unfold step_inv, bounded; cbn [fst snd e_label e_u e_lb].
      * apply Rltb_true in Dj. rewrite put_length. repeat split; auto; try lra.
        -- intros i Hi. destruct (Nat.eq_dec i j) as [->|]; [lra|]. specialize (P i ltac:(lia)). lra.
        -- right. destruct L as [<-|L]; lra.
      * apply Rltb_false in Dj. rewrite put_length, L1. repeat split; auto; try lra.
        intros i Hi. destruct (Nat.eq_dec i j) as [->|]; [lra|]. apply P. lia.
    + apply orb_false_iff in O. destruct O as [O1 O2]. apply Rltb_false in O1. apply Rltb_false in O2.
      unfold step_inv, bounded. cbn [fst snd]. rewrite L1, U1. repeat split; auto; try lra.
      intros i Hi. destruct (Nat.eq_dec i j) as [->|]; [|apply P; lia]. apply Rle_trans with (1 := O1). auto.
  - unfold step_inv, bounded. cbn [fst snd]. repeat split; auto.
    intros i Hi. destruct (Nat.eq_dec i j) as [->|]; [|apply P; lia].
    destruct (Nat.eqb_spec j (lab s)) as [->|NE]; [lra|]. cbn [negb andb] in E.
    apply andb_false_iff in E. destruct E as [E|E]; apply Rltb_false in E.
    + specialize (B4 j J). lra.
    + apply half_skip; auto. lra.
Qed.
Lemma assign_fold l0 st : step_inv l0 st 0 -> forall m, (m <= k)%nat -> step_inv l0 (fold_left (assign_step arithR reduce C hd x) (seq 0 m) st) m.
Proof.
  intros I m. induction m as [|m IH]; intros M; [exact I|]. rewrite seq_S, fold_left_app. cbn [fold_left Nat.add].
  apply assign_step_inv; [lia|]. apply IH. lia.
Qed.
Theorem assign_sample_ok s : bounded s ->
  let s' := assign_sample arithR reduce k C hd nd x s in
  bounded s' /\ (forall i, (i < k)%nat -> d (lab s') <= d i) /\ (lab s' = lab s \/ d (lab s') < d (lab s)).
Proof.
  intros B. pose proof B as [B1 [B2 [B3 B4]]]. unfold assign_sample. specialize (nd_ok (lab s) B1).
  destruct (nth (lab s) nd None) as [h|].
  - destruct (lt arithR h (ub s)) eqn:E.
    + assert (I0 : step_inv (lab s) (s, false) 0).
      { split; auto. cbn [fst snd]. split; [discriminate|]. split; [intros i Hi; lia|auto]. }
      destruct (assign_fold (lab s) (s, false) I0 k (le_n k)) as [Bs [_ [P L]]]. cbv zeta. auto.
    + apply Rltb_false in E. cbv zeta. split; auto. split; auto. intros i Hi.
      destruct (Nat.eq_dec i (lab s)) as [->|NE]; [lra|]. specialize (nd_ok i Hi NE). apply half_skip; auto. lra.
  - cbv zeta. split; auto. split; auto. intros i Hi. rewrite (nd_ok i Hi). lra.
Qed.

Lemma init_fold m : (m < k)%nat -> let s := fold_left (init_step arithR reduce C hd x) (seq 1 m) (SampleState 0%nat (d 0) [d 0]) in
  (lab s <= m)%nat /\ length (lb s) = S m /\ ub s = d (lab s) /\ (forall i, (i <= m)%nat -> d (lab s) <= d i) /\
  (forall j, (j <= m)%nat -> nth j (lb s) z0 <= d j).
Proof.
  assert (D0 : forall j, (j < k)%nat -> 0 <= d j) by (intros j J; rewrite <- d_ok by auto; apply sqrt_pos).
  induction m as [|m IH]; intros M.
  - cbn [seq fold_left e_label e_u e_lb length]. repeat split; auto; intros j Hj; assert (j = O) by lia; subst; cbn [nth]; lra.
  - rewrite seq_S, fold_left_app. cbn [fold_left Nat.add]. specialize (IH ltac:(lia)). cbv zeta in *.
    set (s := fold_left _ (seq 1 m) _) in *. destruct IH as [I1 [I2 [I3 [I4 I5]]]]. unfold init_step.
    assert (App : forall v, v <= d (S m) -> forall j, (j <= S m)%nat -> nth j (lb s ++ [v]) z0 <= d j).
    { intros v Hv j Hj. destruct (Nat.eq_dec j (S m)) as [->|].
      - rewrite app_nth2 by lia. rewrite I2, Nat.sub_diag. auto.
      - rewrite app_nth1 by lia. apply I5. lia. }
    destruct (lt arithR (half_of arithR hd (lab s) (S m)) (ub s)) eqn:E.
    + rewrite d_ok by lia. destruct (lt arithR (d (S m)) (ub s)) eqn:E2; cbn [e_label e_u e_lb]; rewrite app_length, I2; cbn [length].
      * apply Rltb_true in E2. repeat split; auto; try lia; [|apply App; lra].
        intros i Hi. destruct (Nat.eq_dec i (S m)) as [->|]; [lra|]. specialize (I4 i ltac:(lia)). lra.
      * apply Rltb_false in E2. repeat split; auto; try lia; [|apply App; lra].
        intros i Hi. destruct (Nat.eq_dec i (S m)) as [->|]; [lra|]. apply I4. lia.
    + apply Rltb_false in E. cbn [e_label e_u e_lb]; rewrite app_length, I2; cbn [length].
      split; [lia|]. split; [lia|]. split; [auto|]. split; [|apply App; unfold zero; cbn; apply D0; lia].
      intros i Hi. destruct (Nat.eq_dec i (S m)) as [->|]; [|apply I4; lia]. apply half_skip; try lia. lra.
Qed.
Lemma init_sample_ok : let s := init_sample arithR reduce k C hd x in bounded s /\ forall i, (i < k)%nat -> d (lab s) <= d i.
Proof.
  unfold init_sample. rewrite d_ok by lia. pose proof (init_fold (k - 1) ltac:(lia)) as H. cbv zeta in *.
  destruct H as [I1 [I2 [I3 [I4 I5]]]]. split.
  - split; [lia|]. split; [lia|]. split; [lra|]. intros j Hj. apply I5. lia.
  - intros i Hi. apply I4. lia.
Qed.
End Sample.

(** ** the half distances *)
Section Halves.
Variables (k nf : nat) (gd : list rw -> nat -> nat -> R).
(** euclidean_gemm_distance in exact arithmetic *)
Hypothesis gd_ok : forall C i j, centres k nf C -> (i < k)%nat -> (j < k)%nat -> gd C i j = dst (nth i C []) (nth j C []).

Lemma half_is C a b : centres k nf C -> (a < k)%nat -> (b < k)%nat -> a <> b ->
  2 * half_of arithR (half_distances arithR gd k C) a b = dst (nth a C []) (nth b C []).
Proof.
  intros SC A B NE. unfold half_of, half_distances. rewrite (nth_map_in _ _ O) by (rewrite seq_length; auto).
  rewrite seq_nth by auto. rewrite (nth_map_in _ _ O) by (rewrite seq_length; auto). rewrite seq_nth by auto. cbn [Nat.add].
  rewrite (proj2 (Nat.eqb_neq a b) NE). unfold half. cbn [mul div of_Z arithR].
  destruct (Nat.le_ge_cases a b).
  - rewrite Nat.min_l, Nat.max_r by auto. rewrite gd_ok by auto. lra.
  - rewrite Nat.min_r, Nat.max_l by auto. rewrite gd_ok by auto. rewrite dst_sym. lra.
Qed.
Lemma next_fold hd i l : match fold_left (fun m j =>
      if Nat.eqb j i then m
      else let t := half_of arithR hd i j in
           match m with None => if le arithR t t then Some t else None | Some v => if lt arithR t v then Some t else m end) l None with
  | Some h => forall b, In b l -> b <> i -> h <= half_of arithR hd i b
  | None => forall b, In b l -> b = i
  end.
Proof.
  induction l as [|j l IH] using rev_ind; [intros b []|]. rewrite fold_left_app. cbn [fold_left].
  match goal with |- context [fold_left ?f l None] => destruct (fold_left f l None) as [v|] end.
  - destruct (Nat.eqb_spec j i) as [->|NE].
    + intros b Hb Nb. apply in_app_iff in Hb. destruct Hb as [Hb|[Hb|[]]]; [auto|congruence].
    + destruct (lt arithR (half_of arithR hd i j) v) eqn:E.
      * apply Rltb_true in E. intros b Hb Nb. apply in_app_iff in Hb. destruct Hb as [Hb|[<-|[]]]; [|lra]. specialize (IH b Hb Nb). lra.
      * apply Rltb_false in E. intros b Hb Nb. apply in_app_iff in Hb. destruct Hb as [Hb|[<-|[]]]; [auto|lra].
  - destruct (Nat.eqb_spec j i) as [->|NE].
    + intros b Hb. apply in_app_iff in Hb. destruct Hb as [Hb|[Hb|[]]]; [auto|congruence].
    + cbn [le arithR]. unfold Rleb. destruct (Rle_dec (half_of arithR hd i j) (half_of arithR hd i j)) as [_|Q]; [|lra].
      intros b Hb Nb. apply in_app_iff in Hb. destruct Hb as [Hb|[<-|[]]]; [|lra]. specialize (IH b Hb). congruence.
Qed.
Lemma next_ok hd a : (a < k)%nat ->
  match nth a (next_centres arithR k hd) None with
  | Some h => forall b, (b < k)%nat -> b <> a -> h <= half_of arithR hd a b
  | None => forall b, (b < k)%nat -> b = a
  end.
Proof.
  intros A. unfold next_centres. rewrite (nth_map_in _ _ O) by (rewrite seq_length; auto). rewrite seq_nth by auto. cbn [Nat.add].
  pose proof (next_fold hd a (seq 0 k)) as H. unfold next_centre.
  match goal with |- match ?t with _ => _ end => destruct t end; intros b Hb; apply H; apply in_seq; lia.
Qed.
End Halves.

(** ** the loop *)
Section Loop.
Variables (k nf bs : nat) (X : list rw) (reduce : rw -> rw -> R) (gd : list rw -> nat -> nat -> R) (lange : list rw -> R) (isfin : R -> bool).
Variables (schedule : nat -> team) (mode : empties) (tol : R).
Hypothesis k_pos : k <> 0%nat.
Hypothesis bs_pos : bs <> 0%nat.
Hypothesis TX : table nf X.
Hypothesis reduce_ok : forall x c, length x = nf -> length c = nf -> reduce x c = sqdist x c.
Hypothesis gd_ok : forall C i j, centres k nf C -> (i < k)%nat -> (j < k)%nat -> gd C i j = dst (nth i C []) (nth j C []).
Hypothesis teams : forall i, good_team (length X) bs (schedule i).
Hypothesis no_split : mode <> Split.
Notation loop := (elkan_loop arithR reduce gd lange isfin bs schedule k nf X mode tol).
Notation valid := (valid k X).
Notation dd x C := (fun j => dst x (nth j C [])).

Definition good_state (C : list rw) (ss : list (@sample_state R)) : Prop :=
  centres k nf C /\ length ss = length X /\
  forall i, (i < length X)%nat -> bounded k (dd (nth i X []) C) (nth i ss (SampleState O 0 [])).

Lemma centre_len C j : centres k nf C -> (j < k)%nat -> length (nth j C []) = nf.
Proof. intros [LC HC] J. apply HC, nth_In. lia. Qed.
Lemma sample_len i : (i < length X)%nat -> length (nth i X []) = nf.
Proof. intros H. apply TX, nth_In. auto. Qed.
Lemma tri3 a b c : length a = nf -> length b = nf -> length c = nf -> dst a c <= dst a b + dst b c.
Proof. intros. apply triangle; congruence. Qed.
Lemma dist_ok x C j : length x = nf -> centres k nf C -> (j < k)%nat -> dist arithR reduce x (nth j C []) = dst x (nth j C []).
Proof. intros Lx SC J. unfold dist. rewrite reduce_ok; auto. apply centre_len; auto. Qed.
Lemma hd_le x C a b : length x = nf -> centres k nf C -> (a < k)%nat -> (b < k)%nat -> a <> b ->
  2 * half_of arithR (half_distances arithR gd k C) a b <= dst x (nth a C []) + dst x (nth b C []).
Proof.
  intros Lx SC A B NE. rewrite (half_is k nf gd gd_ok) by auto. rewrite (dst_sym x (nth a C [])).
  apply tri3; auto using centre_len.
Qed.

Lemma nth_combine_map {A B} (f : A * B -> @sample_state R) (l : list A) (m : list B) i da db d :
  length l = length m -> (i < length l)%nat -> nth i (map f (combine l m)) d = f (nth i l da, nth i m db).
Proof. intros L H. rewrite (nth_map_in _ _ (da, db)) by (rewrite combine_length; lia). rewrite combine_nth by auto. reflexivity. Qed.

Lemma relabel_ok C ss : good_state C ss ->
  let ss' := relabel arithR reduce k X (with_halves arithR gd k C ss) in
  let ls := labels_of ss' in
  good_state C ss' /\ valid ls /\ nearest_labels X C ls /\
  forall i, (i < length X)%nat -> nth i ls O = nth i (labels_of ss) O \/
     dst (nth i X []) (nth (nth i ls O) C []) < dst (nth i X []) (nth (nth i (labels_of ss) O) C []).
Proof.
  intros [SC [L H]]. cbv zeta. unfold relabel, with_halves. cbn [es_C es_hd es_nd es_ss].
  set (f := fun xs : rw * @sample_state R => _).
  assert (Hi : forall i, (i < length X)%nat -> bounded k (dd (nth i X []) C) (nth i (map f (combine X ss)) (SampleState O 0 [])) /\
     (forall j, (j < k)%nat -> dst (nth i X []) (nth (e_label (nth i (map f (combine X ss)) (SampleState O 0 []))) C []) <= dst (nth i X []) (nth j C [])) /\
     (e_label (nth i (map f (combine X ss)) (SampleState O 0 [])) = e_label (nth i ss (SampleState O 0 [])) \/
      dst (nth i X []) (nth (e_label (nth i (map f (combine X ss)) (SampleState O 0 []))) C []) < dst (nth i X []) (nth (e_label (nth i ss (SampleState O 0 []))) C []))).
  { intros i Hi. rewrite (nth_combine_map f X ss i [] (SampleState O 0 [])) by auto. unfold f. cbn [fst snd].
    pose proof (sample_len i Hi) as Lx.
    apply (assign_sample_ok k (dd (nth i X []) C) C (half_distances arithR gd k C) (next_centres arithR k (half_distances arithR gd k C)) (nth i X []) reduce k_pos).
    - intros j J. apply dist_ok; auto.
    - intros a b A B NE. apply hd_le; auto.
    - intros a A. apply next_ok; auto.
    - apply H; auto. }
  assert (L' : length (map f (combine X ss)) = length X) by (rewrite map_length, combine_length; lia).
  assert (Ln : forall i, (i < length X)%nat -> nth i (labels_of (map f (combine X ss))) O = e_label (nth i (map f (combine X ss)) (SampleState O 0 []))).
  { intros i Hi'. unfold labels_of. apply (nth_map_in _ _ (SampleState O 0 [])). lia. }
  split; [|split; [|split]].
  - split; auto. split; auto. intros i J. apply (Hi i J).
  - split; [unfold labels_of; rewrite map_length; auto|]. intros l Hl. unfold labels_of in Hl. apply in_map_iff in Hl.
    destruct Hl as [s [<- Hs]]. destruct (In_nth _ _ (SampleState O 0 []) Hs) as [i [I1 I2]]. destruct (Hi i ltac:(lia)) as [[Q _] _]. rewrite <- I2. auto.
  - split; [unfold labels_of; rewrite map_length; auto|]. intros i J. rewrite Ln by auto. destruct (Hi i J) as [[Q _] [P _]].
    destruct SC as [LC HC]. rewrite LC. split; auto. intros j Hj. apply dst_le. apply P. auto.
  - intros i J. rewrite Ln by auto. destruct (Hi i J) as [_ [_ P]]. unfold labels_of. rewrite (nth_map_in _ ss (SampleState O 0 [])) by lia. auto.
Qed.

Lemma zip_sub_norm c : forall c', length c = length c' ->
  R_sqrt.sqrt (fold_left (fun s x => add arithR s (mul arithR x x)) (zip_with (sub arithR) c c') (zero arithR)) = dst c c'.
Proof.
  intros c' L. unfold dst. f_equal.
  change (fold_left (fun s x => add arithR s (mul arithR x x)) (zip_with (sub arithR) c c') (zero arithR))
    with (square_norm arithR (zip_with (sub arithR) c c')).
  rewrite square_norm_dot. revert c' L. induction c as [|a c IH]; intros [|b c'] L; cbn in L; try discriminate; [reflexivity|].
  rewrite sqdist_cons. specialize (IH c' ltac:(lia)). unfold zip_with in *. cbn [combine map fst snd]. unfold dot in *.
  cbn [combine map]. unfold rsum in *. cbn [fold_right fst snd sub arithR]. rewrite <- IH. reflexivity.
Qed.
Lemma shift_nth C C' j : centres k nf C -> centres k nf C' -> (j < k)%nat ->
  nth j (centre_shifts arithR C C') 0 = dst (nth j C []) (nth j C' []).
Proof.
  intros [LC HC] [LC' HC'] J. unfold centre_shifts, shift. rewrite map_map.
  rewrite (nth_map_in _ _ ([], [])) by (rewrite combine_length; lia). rewrite combine_nth by lia. cbn [fst snd sqrt arithR].
  apply zip_sub_norm. rewrite HC, HC'; auto; apply nth_In; lia.
Qed.
Lemma move_ok C C' ss : good_state C ss -> centres k nf C' -> good_state C' (map (move_bounds arithR (centre_shifts arithR C C')) ss).
Proof.
  intros [SC [L H]] SC'. split; auto. split; [rewrite map_length; auto|]. intros i Hi.
  rewrite (nth_map_in _ ss (SampleState O 0 [])) by lia. specialize (H i Hi). set (s := nth i ss _) in *. destruct H as [B1 [B2 [B3 B4]]].
  assert (Ls : length (centre_shifts arithR C C') = k).
  { unfold centre_shifts, shift. rewrite !map_length, combine_length. destruct SC, SC'. lia. }
  pose proof (sample_len i Hi) as Lx. unfold move_bounds, bounded. cbn [e_label e_u e_lb]. split; auto. split; [rewrite map_length, combine_length; lia|].
  split.
  - change (zero arithR) with 0. rewrite shift_nth by auto. cbn [add arithR].
    apply Rle_trans with (dst (nth i X []) (nth (e_label s) C []) + dst (nth (e_label s) C []) (nth (e_label s) C' [])); [|lra].
    apply tri3; auto using centre_len.
  - intros j J. change (zero arithR) with 0. rewrite (nth_map_in _ _ (0, 0)) by (rewrite combine_length; lia). rewrite combine_nth by lia. cbn [fst snd].
    rewrite shift_nth by auto. cbn [sub lt arithR].
    destruct (Rltb (nth j (e_lb s) 0 - dst (nth j C []) (nth j C' [])) 0) eqn:E; [apply dst_nonneg|].
    specialize (B4 j J). change (zero arithR) with 0 in B4.
    assert (dst (nth i X []) (nth j C []) <= dst (nth i X []) (nth j C' []) + dst (nth j C []) (nth j C' [])); [|lra].
    rewrite (dst_sym (nth j C [])). apply tri3; auto using centre_len.
Qed.
Lemma start_ok C : centres k nf C -> good_state C (map (init_sample arithR reduce k C (half_distances arithR gd k C)) X).
Proof.
  intros SC. split; auto. split; [apply map_length|]. intros i Hi. rewrite (nth_map_in _ X []) by auto. pose proof (sample_len i Hi) as Lx.
  apply (init_sample_ok k (dd (nth i X []) C) C (half_distances arithR gd k C) (nth i X []) reduce k_pos).
  - intros j J. apply dist_ok; auto.
  - intros a b A B NE. apply hd_le; auto.
Qed.

Lemma new_means' i ls : valid ls -> new_centres arithR Plain bs (schedule i) k nf ls X = means k nf ls X.
Proof. intros [L H]. apply new_centres_means; auto. Qed.

Definition good_result (r : run) : Prop :=
  match r with
  | EmptyCluster => mode = Error
  | Finished C ls it conv =>
      centres k nf C /\ nearest_labels X C ls /\
      (exists ls0, valid ls0 /\ C = means k nf ls0 X) /\ (conv = 2%nat -> C = means k nf ls X)
  end.

Theorem elkan_end fuel : forall iter C ss, good_state C ss ->
  (iter = O \/ valid (labels_of ss) /\ C = means k nf (labels_of ss) X) -> (fuel + iter <> 0)%nat ->
  good_result (loop fuel iter (with_halves arithR gd k C ss)).
Proof.
  induction fuel as [|fuel IH]; intros iter C ss G HP F; cbn [elkan_loop]; pose proof (relabel_ok C ss G) as R; cbv zeta in R.
  - destruct R as [_ [_ [R _]]]. change (es_C (with_halves arithR gd k C ss)) with C. cbn [good_result].
    destruct HP as [->|[V E]]; [lia|]. split; [apply G|]. split; auto. split; [eauto|discriminate].
  - change (es_C (with_halves arithR gd k C ss)) with C. change (es_ss (with_halves arithR gd k C ss)) with ss.
    set (ss1 := relabel arithR reduce k X (with_halves arithR gd k C ss)) in *. set (ls := labels_of ss1) in *.
    destruct R as [G1 [V1 [N1 _]]]. rewrite new_means' by auto. set (C' := means k nf ls X).
    assert (SC' : centres k nf C') by apply means_shape.
    set (ss2 := map (move_bounds arithR (centre_shifts arithR C C')) ss1).
    assert (G2 : good_state C' ss2) by (apply move_ok; auto).
    assert (L2 : labels_of ss2 = ls) by (unfold labels_of, ss2; rewrite map_map; reflexivity).
    assert (Test : good_result (match convergence_test arithR lange iter ls (labels_of ss) tol C C' with
        | O => loop fuel (S iter) (with_halves arithR gd k C' ss2)
        | 1%nat => Finished C' (labels_of (relabel arithR reduce k X (with_halves arithR gd k C' ss2))) iter 1
        | c => Finished C' ls iter c end)).
    { unfold convergence_test. destruct (Nat.ltb 1 iter && same_labels ls (labels_of ss)) eqn:B.
      - apply andb_true_iff in B. destruct B as [B1 B2]. apply Nat.ltb_lt in B1. apply same_labels_eq in B2.
        destruct HP as [->|[_ HP]]; [lia|]. assert (EC : C' = C) by (unfold C'; rewrite B2; auto).
        cbn. split; auto. split; [rewrite EC; auto|]. split; [exists ls; auto|auto].
      - destruct (lt arithR (lange (shift arithR C C')) (mul arithR tol (frobenius arithR C))).
        + cbn [good_result]. destruct (relabel_ok C' ss2 G2) as [_ [_ [R2 _]]]. split; auto. split; auto. split; [exists ls; auto|discriminate].
        + apply IH; [auto|rewrite L2; auto|lia]. }
    destruct mode eqn:Em; auto.
    + destruct (any_empty k ls); auto; cbn; auto.
    + congruence.
Qed.

(** *** termination *)
Notation pot := (potential k nf X).
Lemma rsum_map_lt {A} (f g : A -> R) l : (forall a, In a l -> f a <= g a) -> (exists a, In a l /\ f a < g a) -> rsum (map f l) < rsum (map g l).
Proof.
  induction l as [|b l IH]; intros H [a [Ha L]]; [destruct Ha|]. cbn [map]. unfold rsum in *. cbn [fold_right].
  assert (Hl : fold_right Rplus 0 (map f l) <= fold_right Rplus 0 (map g l)).
  { assert (H' : forall a, In a l -> f a <= g a) by (intros; apply H; right; auto). clear -H'. induction l as [|c l IH]; cbn [map fold_right]; [lra|].
    pose proof (H' c (or_introl eq_refl)). assert (fold_right Rplus 0 (map f l) <= fold_right Rplus 0 (map g l)) by (apply IH; intros; apply H'; right; auto). lra. }
  destruct Ha as [<-|Ha]; [lra|]. pose proof (H b (or_introl eq_refl)).
  assert (fold_right Rplus 0 (map f l) < fold_right Rplus 0 (map g l)) by (apply IH; [intros; apply H; right; auto|eauto]). lra.
Qed.
Lemma differ_at (a : list nat) : forall b, length a = length b -> a <> b -> exists i, (i < length a)%nat /\ nth i a O <> nth i b O.
Proof.
  induction a as [|x a IH]; intros [|y b] L NE; cbn in L; try discriminate; [congruence|].
  destruct (Nat.eq_dec x y) as [->|D].
  - destruct (IH b ltac:(lia) ltac:(congruence)) as [i [I1 I2]]. exists (S i). cbn. split; [lia|auto].
  - exists O. cbn. split; [lia|auto].
Qed.
Lemma elkan_lower C ss : good_state C ss -> valid (labels_of ss) -> C = means k nf (labels_of ss) X ->
  let ls := labels_of (relabel arithR reduce k X (with_halves arithR gd k C ss)) in
  ls <> labels_of ss -> pot ls < pot (labels_of ss).
Proof.
  intros G V E ls NE. destruct (relabel_ok C ss G) as [_ [V' [_ D]]]. fold ls in V', D.
  unfold potential. rewrite <- E. apply Rle_lt_trans with (cost X C ls).
  - apply (means_minimise k nf 1 X); auto; try apply V'. apply G.
  - rewrite !(cost_nth k 1 X k_pos (Nat.neq_succ_0 0)) by (apply V || apply V'). apply rsum_map_lt.
    + intros i Hi. apply in_seq in Hi. destruct (D i ltac:(lia)) as [->|Q]; [lra|]. apply dst_le. lra.
    + destruct (differ_at ls (labels_of ss)) as [i [I1 I2]]; auto; [destruct V, V'; lia|]. destruct V as [LV _]. destruct V' as [LV' _].
      exists i. split; [apply in_seq; lia|]. destruct (D i ltac:(lia)) as [|Q]; [contradiction|].
      rewrite <- !dst_sqr. pose proof (dst_nonneg (nth i X []) (nth (nth i ls 0%nat) C [])). nra.
Qed.

Lemma elkan_loop_converges fuel : forall iter C ss visited, good_state C ss ->
  (iter = 0%nat /\ visited = [] \/ iter <> 0%nat /\ valid (labels_of ss) /\ C = means k nf (labels_of ss) X /\
     exists v, visited = labels_of ss :: v /\ (forall l, In l v -> pot (labels_of ss) < pot l)) ->
  NoDup visited -> (forall l, In l visited -> valid l) -> (iter - 1 <= length visited)%nat ->
  (k ^ length X + 2 <= fuel + iter)%nat ->
  match loop fuel iter (with_halves arithR gd k C ss) with
  | EmptyCluster => mode = Error
  | Finished _ _ it conv => conv <> O
  end.
Proof.
  induction fuel as [|fuel IH]; intros iter C ss visited G HV ND VV Len F.
  - exfalso. assert (B : (length visited <= k ^ length X)%nat).
    { rewrite <- labellings_length. apply NoDup_incl_length; auto. intros l Hl. destruct (VV l Hl). apply (in_labellings k 1); auto. }
    lia.
  - cbn [elkan_loop]. pose proof (relabel_ok C ss G) as R; cbv zeta in R. pose proof (elkan_lower C ss G) as EL. cbv zeta in EL.
    change (es_C (with_halves arithR gd k C ss)) with C. change (es_ss (with_halves arithR gd k C ss)) with ss.
    set (ss1 := relabel arithR reduce k X (with_halves arithR gd k C ss)) in *. set (ls := labels_of ss1) in *.
    destruct R as [G1 [V1 [N1 _]]]. rewrite new_means' by auto. set (C' := means k nf ls X).
    assert (SC' : centres k nf C') by apply means_shape.
    set (ss2 := map (move_bounds arithR (centre_shifts arithR C C')) ss1).
    assert (G2 : good_state C' ss2) by (apply move_ok; auto).
    assert (L2 : labels_of ss2 = ls) by (unfold labels_of, ss2; rewrite map_map; reflexivity).
    assert (Test : match (match convergence_test arithR lange iter ls (labels_of ss) tol C C' with
        | O => loop fuel (S iter) (with_halves arithR gd k C' ss2)
        | 1%nat => Finished C' (labels_of (relabel arithR reduce k X (with_halves arithR gd k C' ss2))) iter 1
        | c => Finished C' ls iter c end) with
        | EmptyCluster => mode = Error | Finished _ _ it conv => conv <> O end).
    { unfold convergence_test. destruct (Nat.ltb 1 iter && same_labels ls (labels_of ss)) eqn:B; [discriminate|].
      destruct (lt arithR (lange (shift arithR C C')) (mul arithR tol (frobenius arithR C))); [discriminate|].
      destruct HV as [[-> ->]|[I0 [VS [EC [v [-> Hv]]]]]].
      - apply (IH 1%nat C' ss2 [ls]); auto.
        + right. split; [lia|]. rewrite L2. split; auto. split; auto. exists []. split; auto. intros l [].
        + constructor; [intros []|constructor].
        + intros l [<-|[]]; auto.
        + cbn. lia.
        + lia.
      - destruct (list_eq_dec Nat.eq_dec ls (labels_of ss)) as [Eq|NE].
        + assert (iter <= 1)%nat.
          { destruct (Nat.ltb_spec 1 iter); auto. cbn [andb] in B. rewrite (proj2 (same_labels_eq ls _) Eq) in B. discriminate. }
          apply (IH (S iter) C' ss2 (labels_of ss :: v)); auto.
          * right. split; [lia|]. rewrite L2. split; auto. split; auto. exists v. rewrite Eq. split; auto.
          * cbn [length]. lia.
          * lia.
        + pose proof (EL VS EC NE) as Lo.
          apply (IH (S iter) C' ss2 (ls :: labels_of ss :: v)); auto.
          * right. split; [lia|]. rewrite L2. split; auto. split; auto. exists (labels_of ss :: v). split; auto. intros l [<-|Hl]; auto.
            specialize (Hv l Hl). lra.
          * constructor; auto. intros [Q|Q]; [congruence|]. specialize (Hv ls Q). lra.
          * intros l [<-|Hl]; auto.
          * cbn [length] in *. lia.
          * lia. }
    destruct mode eqn:Em; auto.
    + destruct (any_empty k ls); auto.
    + congruence.
Qed.

(** *** the sum of squares *)
Lemma elkan_cost fuel : forall iter C ss, good_state C ss ->
  match loop fuel iter (with_halves arithR gd k C ss) with EmptyCluster => True
  | Finished C' ls _ _ => forall l0, valid l0 -> cost X C' ls <= cost X C l0 end.
Proof.
  induction fuel as [|fuel IH]; intros iter C ss G; cbn [elkan_loop]; pose proof (relabel_ok C ss G) as R; cbv zeta in R;
    change (es_C (with_halves arithR gd k C ss)) with C; change (es_ss (with_halves arithR gd k C ss)) with ss;
    set (ss1 := relabel arithR reduce k X (with_halves arithR gd k C ss)) in *; set (ls := labels_of ss1) in *;
    destruct R as [G1 [V1 [N1 _]]].
  - intros l0 [L0 H0]. apply (nearest_cost k nf 1 X); auto. apply G.
  - rewrite new_means' by auto. set (C' := means k nf ls X).
    assert (SC' : centres k nf C') by apply means_shape.
    set (ss2 := map (move_bounds arithR (centre_shifts arithR C C')) ss1).
    assert (G2 : good_state C' ss2) by (apply move_ok; auto).
    assert (Q1 : forall l0, valid l0 -> cost X C' ls <= cost X C l0).
    { intros l0 [L0 H0]. apply Rle_trans with (cost X C ls).
      - apply (means_minimise k nf 1 X); auto; try apply V1. apply G.
      - apply (nearest_cost k nf 1 X); auto. apply G. }
    assert (Test : match (match convergence_test arithR lange iter ls (labels_of ss) tol C C' with
        | O => loop fuel (S iter) (with_halves arithR gd k C' ss2)
        | 1%nat => Finished C' (labels_of (relabel arithR reduce k X (with_halves arithR gd k C' ss2))) iter 1
        | c => Finished C' ls iter c end) with EmptyCluster => True
        | Finished C' ls _ _ => forall l0, valid l0 -> cost X C' ls <= cost X C l0 end).
    { destruct (convergence_test arithR lange iter ls (labels_of ss) tol C C') as [|[|c]].
      - specialize (IH (S iter) C' ss2 G2). destruct (loop fuel (S iter) (with_halves arithR gd k C' ss2)); auto.
        intros l0 V0. apply Rle_trans with (1 := IH ls V1). auto.
      - intros l0 V0. destruct (relabel_ok C' ss2 G2) as [_ [_ [R2 _]]]. apply Rle_trans with (cost X C' ls); auto.
        apply (nearest_cost k nf 1 X); auto; apply V1.
      - auto. }
    destruct mode eqn:Em; auto.
    + destruct (any_empty k ls); auto.
    + congruence.
Qed.

Notation fit := (elkan arithR reduce gd lange isfin bs schedule k nf X mode tol).
Theorem elkan_result max_iter C : (max_iter <> 0)%nat -> centres k nf C -> good_result (fit max_iter C).
Proof. intros M SC. apply elkan_end; [apply start_ok; auto|auto|lia]. Qed.
Theorem elkan_converges max_iter C : centres k nf C -> (k ^ length X + 2 <= max_iter)%nat ->
  match fit max_iter C with EmptyCluster => mode = Error | Finished _ _ it conv => conv <> O end.
Proof.
  intros SC M. apply (elkan_loop_converges max_iter 0 C _ []).
  - apply start_ok; auto.
  - auto.
  - constructor.
  - intros l [].
  - cbn. lia.
  - lia.
Qed.
Theorem elkan_inertia max_iter C C' ls it conv : centres k nf C -> fit max_iter C = Finished C' ls it conv ->
  forall l0, valid l0 -> cost X C' ls <= cost X C l0.
Proof. intros SC E. pose proof (elkan_cost max_iter 0 C _ (start_ok C SC)) as H. unfold elkan, elkan_start in E. rewrite E in H. auto. Qed.
End Loop.
