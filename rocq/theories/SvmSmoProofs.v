(** The local solver, one round of training, and the whole loop. *)
From Coq Require Import QArith Qabs List Bool Arith Lia Lqa Sorting Permutation Setoid Morphisms.
From Verif Require Import SvmModel SvmSpec SvmProofs.
Import ListNotations.
Local Open Scope Q_scope.

Lemma sum_single f i n : (i < n)%nat ->
  sum (fun q => if (q =? i)%nat then f q else 0) (seq 0 n) == f i.
Proof.
  intro H. rewrite (sum_support _ [i] n).
  - simpl. rewrite Nat.eqb_refl. ring.
  - constructor; [intros []|constructor].
  - intros k [<-|[]]. exact H.
  - intros k _ N. destruct (k =? i)%nat eqn:E; [|reflexivity].
    apply Nat.eqb_eq in E. subst. exfalso. apply N. left. reflexivity.
Qed.

Lemma sum_nonpos f l : (forall k, In k l -> f k <= 0) -> sum f l <= 0.
Proof.
  intro H. induction l as [|a l IH]; simpl; [lra|].
  pose proof (H a (or_introl eq_refl)). assert (sum f l <= 0) by (apply IH; intros; apply H; right; auto). lra.
Qed.
Lemma sum_nonpos_zero f l : (forall k, In k l -> f k <= 0) -> sum f l == 0 ->
  forall k, In k l -> f k == 0.
Proof.
  induction l as [|a l IH]; intros H Z k; [intros []|]. simpl in Z.
  pose proof (H a (or_introl eq_refl)).
  assert (sum f l <= 0) by (apply sum_nonpos; intros; apply H; right; auto).
  intros [<-|K]; [lra|]. apply IH; auto; [|lra]. intros; apply H; right; auto.
Qed.

Section Local.
Variables (p : problem) (idx : list nat).
Hypothesis W : well_posed p.
Hypothesis WS : working_set p idx.
Let w := length idx.
Local Notation At := (at_ idx).
Local Notation Ly := (ly p idx).

Lemma at_in q : (q < w)%nat -> In (At q) idx.
Proof. intro H. apply nth_In. exact H. Qed.
Lemma at_lt q : (q < w)%nat -> (At q < size p)%nat.
Proof. intro H. destruct WS as [_ I]. apply I, at_in, H. Qed.
Lemma in_at k : In k idx -> exists q, (q < w)%nat /\ At q = k.
Proof. intro H. destruct (In_nth idx k 0%nat H) as (q & Q & E). exists q. auto. Qed.
Lemma ly_sign q : (q < w)%nat ->
  (Ly q = 1 /\ Qlt_bool 0 (Ly q) = true) \/ (Ly q = -(1) /\ Qlt_bool 0 (Ly q) = false).
Proof. intro H. apply (y_pos p (At q) W (at_lt q H)). Qed.
Lemma in_w q : In q (seq 0 w) <-> (q < w)%nat.
Proof. rewrite in_seq. lia. Qed.

Lemma select_none l : select p idx l = None -> forall q, (q < w)%nat -> up_at p idx l q = false.
Proof.
  unfold select. fold w.
  destruct (wssi (up_at p idx l) (lg l) (seq 0 w) None) as [i|] eqn:E; [discriminate|].
  intros _ q Q. apply (wssi_none _ _ _ _ E). apply in_w. exact Q.
Qed.

Lemma select_some l i oj d : select p idx l = Some (i, oj, d) ->
  (i < w)%nat /\ up_at p idx l i = true /\
  (forall q, (q < w)%nat -> up_at p idx l q = true -> lg l i <= lg l q) /\
  match d with
  | None => forall q, (q < w)%nat -> low_at p idx l q = false
  | Some m => (exists q, (q < w)%nat /\ low_at p idx l q = true /\ m = lg l q - lg l i) /\
              forall q, (q < w)%nat -> low_at p idx l q = true -> lg l q - lg l i <= m
  end /\
  match oj with
  | None => forall q, (q < w)%nat -> low_at p idx l q = true -> lg l q - lg l i < 0
  | Some (j, r) =>
      (j < w)%nat /\ low_at p idx l j = true /\ 0 <= lg l j - lg l i /\
      r = slope (lg l) (curvature p idx i) (lg l i) (tau p) j /\
      forall q, (q < w)%nat -> low_at p idx l q = true -> 0 <= lg l q - lg l i ->
        gain (lg l) (curvature p idx i) (lg l i) (tau p) q <=
        gain (lg l) (curvature p idx i) (lg l i) (tau p) j
  end.
Proof.
  unfold select. fold w.
  destruct (wssi (up_at p idx l) (lg l) (seq 0 w) None) as [i'|] eqn:E; [|discriminate].
  intro H. injection H as <- <- <-.
  destruct (wssi_some _ _ _ _ _ E) as ([[I U]|I] & M & _); [|discriminate].
  apply in_w in I. split; [exact I|]. split; [exact U|].
  split; [intros q Q; apply M, in_w, Q|].
  destruct (wssj_spec (low_at p idx l) (lg l) (curvature p idx i') (lg l i') (tau p) (seq 0 w)) as [T B].
  destruct (wssj _ _ _ _ _ _ _) as [t b]. cbn [top best option_map] in *. split.
  - destruct t as [m|]; cbn [option_map].
    + destruct T as ((x & X1 & X2 & X3) & T). apply in_w in X1. split.
      * exists x. subst m. auto.
      * intros q Q Lq. apply in_w in Q. specialize (T q Q Lq). lra.
    + intros q Q. apply T, in_w, Q.
  - destruct b as [[[j f] r]|]; cbn [option_map fst snd].
    + destruct B as (B1 & B2 & B3 & B4 & B5 & B6). apply in_w in B1. subst f.
      do 4 (split; [assumption|]). intros q Q. apply B6, in_w, Q.
    + intros q Q. apply B, in_w, Q.
Qed.

Lemma denom_pos i q : 0 < denom (curvature p idx i) (tau p) q.
Proof.
  unfold denom. destruct (Qle_bool _ 0) eqn:E; [apply wp_tau; exact W|].
  apply Qle_bool_false in E. exact E.
Qed.

(* A pair that is worth moving. *)
Lemma pair_moves l i j r m : select p idx l = Some (i, Some (j, r), Some m) -> 0 < m ->
  (i < w)%nat /\ (j < w)%nat /\ i <> j /\ up_at p idx l i = true /\ low_at p idx l j = true /\
  0 < lg l j - lg l i /\ 0 < r /\ r * denom (curvature p idx i) (tau p) j == lg l j - lg l i.
Proof.
  intros E M. destruct (select_some _ _ _ _ E) as (I & U & _ & ((q & Q1 & Q2 & Q3) & _) & J & L & B & R & G).
  subst m.
  pose proof (denom_pos i j) as D.
  assert (P : 0 < lg l j - lg l i).
  { destruct (Qlt_le_dec 0 (lg l j - lg l i)) as [?|N]; [assumption|exfalso].
    assert (Z : lg l j - lg l i == 0) by lra.
    assert (Gj : gain (lg l) (curvature p idx i) (lg l i) (tau p) j == 0).
    { unfold gain. rewrite Z. ring. }
    assert (Gq : 0 < gain (lg l) (curvature p idx i) (lg l i) (tau p) q).
    { unfold gain, slope. pose proof (denom_pos i q) as Dq.
      apply Qmult_lt_0_compat; [|exact M].
      apply Qlt_shift_div_l; [exact Dq|]. lra. }
    specialize (G q Q1 Q2 ltac:(lra)). lra. }
  assert (Rp : 0 < r).
  { subst r. unfold slope. apply Qlt_shift_div_l; [exact D|]. lra. }
  do 2 (split; [assumption|]). split.
  { intro X. subst j. lra. }
  do 4 (split; [assumption|]). subst r. unfold slope. field. intro X. lra.
Qed.

Section Moves.
Variables (al g : vec).
Hypothesis box : in_box p al.

Definition e (l : local) (q : nat) : Q := Ly q * (la l q - al (At q)).
Definition linv (l : local) : Prop :=
  (forall q, (q < w)%nat -> 0 <= la l q <= C p) /\
  sum (e l) (seq 0 w) == 0 /\
  (forall q, (q < w)%nat ->
     lg l q == g (At q) + sum (fun r => e l r * kk p (At q) (At r)) (seq 0 w)).
Definition phi (l : local) : Q :=
  sum (fun q => e l q * (g (At q) + (1 # 2) * sum (fun r => e l r * kk p (At q) (At r)) (seq 0 w)))
    (seq 0 w).

Definition step_of (l : local) i j r : Q := Qmin (room_up p idx l i) (Qmin (room_down p idx l j) r).

Lemma move_sum l i j r (c : vec) : (i < w)%nat -> (j < w)%nat -> i <> j ->
  sum (fun q => e (move p idx l i j r) q * c q) (seq 0 w) ==
  sum (fun q => e l q * c q) (seq 0 w) + step_of l i j r * (c i - c j).
Proof.
  intros I J N. set (d := step_of l i j r).
  rewrite (sum_ext _ (fun q => e l q * c q + (if (q =? i)%nat then d * c q else 0)
                               - (if (q =? j)%nat then d * c q else 0))).
  - rewrite sum_minus, sum_plus.
    rewrite (sum_single (fun q => d * c q) i w I), (sum_single (fun q => d * c q) j w J). ring.
  - intros q Q. apply in_w in Q. unfold e, move. cbn [la]. fold w. rewrite tab_at by exact Q.
    fold (step_of l i j r). fold d.
    assert (Sq : Ly q * Ly q == 1) by (destruct (ly_sign q Q) as [[-> _]|[-> _]]; reflexivity).
    destruct (q =? i)%nat eqn:Ei; destruct (q =? j)%nat eqn:Ej.
    + apply Nat.eqb_eq in Ei, Ej. congruence.
    + apply Nat.eqb_eq in Ei. subst q.
      transitivity (Ly i * (la l i - al (At i)) * c i + (Ly i * Ly i) * d * c i); [ring|].
      rewrite Sq. ring.
    + apply Nat.eqb_eq in Ej. subst q.
      transitivity (Ly j * (la l j - al (At j)) * c j - (Ly j * Ly j) * d * c j); [ring|].
      rewrite Sq. ring.
    + ring.
Qed.

Lemma room_up_nonneg l q : linv l -> (q < w)%nat -> 0 <= room_up p idx l q.
Proof.
  intros (B & _) Q. specialize (B q Q). unfold room_up. destruct (Qlt_bool 0 (Ly q)); lra.
Qed.
Lemma room_down_nonneg l q : linv l -> (q < w)%nat -> 0 <= room_down p idx l q.
Proof.
  intros (B & _) Q. specialize (B q Q). unfold room_down. destruct (Qlt_bool 0 (Ly q)); lra.
Qed.
Lemma step_bounds l i j r : linv l -> (i < w)%nat -> (j < w)%nat -> 0 < r ->
  0 <= step_of l i j r /\ step_of l i j r <= room_up p idx l i /\
  step_of l i j r <= room_down p idx l j /\ step_of l i j r <= r.
Proof.
  intros H I J R. pose proof (room_up_nonneg l i H I). pose proof (room_down_nonneg l j H J).
  unfold step_of.
  destruct (Qmin_case (room_down p idx l j) r) as [[E1 L1]|[E1 L1]]; rewrite E1;
  match goal with |- context [Qmin ?a ?b] => destruct (Qmin_case a b) as [[E2 L2]|[E2 L2]]; rewrite E2 end;
  repeat split; lra.
Qed.

Lemma move_linv l i j r m : linv l -> select p idx l = Some (i, Some (j, r), Some m) -> 0 < m ->
  linv (move p idx l i j r).
Proof.
  intros H E M. destruct (pair_moves _ _ _ _ _ E M) as (I & J & N & U & L & P & R & _).
  destruct (step_bounds l i j r H I J R) as (D0 & D1 & D2 & D3).
  set (d := step_of l i j r) in *.
  destruct H as (B & Z & G). split; [|split].
  - intros q Q. unfold move. cbn [la]. fold w. rewrite tab_at by exact Q.
    fold (step_of l i j r). fold d.
    pose proof (B q Q) as Bq.
    destruct (q =? i)%nat eqn:Ei; destruct (q =? j)%nat eqn:Ej.
    + apply Nat.eqb_eq in Ei, Ej. congruence.
    + apply Nat.eqb_eq in Ei. subst q. unfold room_up in D1.
      destruct (ly_sign i I) as [[X Y]|[X Y]]; rewrite Y in D1; rewrite X; lra.
    + apply Nat.eqb_eq in Ej. subst q. unfold room_down in D2.
      destruct (ly_sign j J) as [[X Y]|[X Y]]; rewrite Y in D2; rewrite X; lra.
    + exact Bq.
  - rewrite (sum_ext _ (fun q => e (move p idx l i j r) q * 1)) by (intros; ring).
    rewrite (move_sum l i j r (fun _ => 1) I J N).
    rewrite (sum_ext _ (e l)) by (intros; ring). rewrite Z. ring.
  - intros q Q. unfold move at 1. cbn [lg]. fold w. rewrite tab_at by exact Q.
    fold (step_of l i j r). fold d.
    rewrite (move_sum l i j r (fun r0 => kk p (At q) (At r0)) I J N). fold d.
    rewrite (G q Q). unfold row. ring.
Qed.

Lemma kk_sym_at : symmetric p -> forall a b, (a < w)%nat -> (b < w)%nat ->
  kk p (At a) (At b) == kk p (At b) (At a).
Proof. intros Sy a b A B. apply Sy; apply at_lt; auto. Qed.

(* Moving a pair never raises the dual objective, whatever the kernel. *)
Lemma move_phi l i j r m : symmetric p -> linv l ->
  select p idx l = Some (i, Some (j, r), Some m) -> 0 < m ->
  phi (move p idx l i j r) <= phi l.
Proof.
  intros Sy H E M. destruct (pair_moves _ _ _ _ _ E M) as (I & J & N & U & L & P & R & RD).
  destruct (step_bounds l i j r H I J R) as (D0 & D1 & D2 & D3).
  set (d := step_of l i j r) in *.
  set (S0 := fun q => sum (fun r0 => e l r0 * kk p (At q) (At r0)) (seq 0 w)).
  set (S1 := fun q => S0 q + d * (kk p (At q) (At i) - kk p (At q) (At j))).
  destruct H as (B & Z & G).
  assert (Ph : phi (move p idx l i j r) == phi l + d * (lg l i - lg l j)
               + (1 # 2) * d * d * curvature p idx i j).
  { unfold phi.
    rewrite (sum_ext _ (fun q => e (move p idx l i j r) q * (g (At q) + (1 # 2) * S1 q))).
    2: { intros q Q. rewrite (move_sum l i j r (fun r0 => kk p (At q) (At r0)) I J N).
         unfold S1, S0. fold d. reflexivity. }
    rewrite (move_sum l i j r (fun q => g (At q) + (1 # 2) * S1 q) I J N). fold d.
    rewrite (sum_ext (fun q => e l q * (g (At q) + (1 # 2) * S1 q))
       (fun q => e l q * (g (At q) + (1 # 2) * S0 q) +
          ((1 # 2) * d) * (e l q * kk p (At i) (At q) - e l q * kk p (At j) (At q)))).
    2: { intros q Q. apply in_w in Q. unfold S1.
         rewrite (kk_sym_at Sy q i Q I), (kk_sym_at Sy q j Q J). ring. }
    rewrite sum_plus, sum_scale, sum_minus. fold (S0 i). fold (S0 j).
    rewrite (G i I), (G j J). fold (S0 i). fold (S0 j).
    unfold S1, curvature, row. rewrite (kk_sym_at Sy j i J I).
    unfold S0. ring. }
  rewrite Ph.
  assert (Cu : d * curvature p idx i j <= lg l j - lg l i).
  { unfold denom in RD. destruct (Qle_bool (curvature p idx i j) 0) eqn:Q.
    - apply Qle_bool_iff in Q. assert (d * curvature p idx i j <= d * 0).
      { rewrite (Qmult_comm d), (Qmult_comm d). apply Qmult_le_compat_r; auto. }
      lra.
    - apply Qle_bool_false in Q. rewrite <- RD. apply Qmult_le_compat_r; lra. }
  assert (X : d * (d * curvature p idx i j) <= d * (lg l j - lg l i)).
  { rewrite (Qmult_comm d (d * _)), (Qmult_comm d (_ - _)). apply Qmult_le_compat_r; auto. }
  assert (Y : 0 <= d * (lg l j - lg l i)).
  { apply Qmult_le_0_compat; lra. }
  set (cv := curvature p idx i j) in *. set (b := lg l j - lg l i) in *.
  assert (A1 : d * (lg l i - lg l j) == - (d * b)) by (unfold b; ring).
  assert (A2 : (1 # 2) * d * d * cv == (1 # 2) * (d * (d * cv))) by ring.
  rewrite A1, A2. lra.
Qed.

Lemma epsilon_pos d : 0 < epsilon_of p d.
Proof.
  pose proof (wp_tol p W). unfold epsilon_of. destruct d as [d|]; [|assumption].
  destruct (Qmax_case (tol p) ((1 # 10) * d)) as [[-> L]|[-> L]]; lra.
Qed.

Lemma smo_linv fuel eps l : 0 < eps -> linv l -> linv (smo_loop p idx fuel eps l).
Proof.
  intro Pe. revert l. induction fuel as [|f IH]; intros l H; [exact H|].
  cbn [smo_loop]. destruct (select p idx l) as [[[i [[j r]|]] [d|]]|] eqn:E; try exact H.
  destruct (Qlt_bool d eps) eqn:Q; [exact H|]. apply Qlt_bool_false in Q.
  apply IH. eapply move_linv; eauto. lra.
Qed.
Lemma smo_phi fuel eps l : symmetric p -> 0 < eps -> linv l ->
  phi (smo_loop p idx fuel eps l) <= phi l.
Proof.
  intros Sy Pe. revert l. induction fuel as [|f IH]; intros l H; [simpl; lra|].
  cbn [smo_loop]. destruct (select p idx l) as [[[i [[j r]|]] [d|]]|] eqn:E; try lra.
  destruct (Qlt_bool d eps) eqn:Q; [lra|]. apply Qlt_bool_false in Q.
  assert (linv (move p idx l i j r)) by (eapply move_linv; eauto; lra).
  pose proof (IH _ H0). pose proof (move_phi l i j r d Sy H E ltac:(lra)). lra.
Qed.

Lemma gather_e q : (q < w)%nat -> e (gather idx al g) q == 0.
Proof. intro Q. unfold e, gather. cbn [la]. fold w. rewrite tab_at by exact Q. ring. Qed.
Lemma gather_linv : linv (gather idx al g).
Proof.
  split; [|split].
  - intros q Q. unfold gather. cbn [la]. fold w. rewrite tab_at by exact Q. apply box, at_lt, Q.
  - apply sum_zero. intros q Q. apply gather_e, in_w, Q.
  - intros q Q. rewrite (sum_zero (fun r => _)).
    + unfold gather. cbn [lg]. fold w. rewrite tab_at by exact Q. ring.
    + intros r R. rewrite gather_e by (apply in_w; exact R). ring.
Qed.
Lemma gather_phi : phi (gather idx al g) == 0.
Proof. apply sum_zero. intros q Q. rewrite gather_e by (apply in_w; exact Q). ring. Qed.

Definition after := fst (local_smo p idx al g).
Lemma after_linv : linv after.
Proof. apply smo_linv; [apply epsilon_pos|apply gather_linv]. Qed.
Lemma after_phi : symmetric p -> phi after <= 0.
Proof.
  intro Sy. unfold after, local_smo. cbn [fst].
  pose proof (smo_phi (100 * length idx) _ _ Sy (epsilon_pos (diff_of p idx (gather idx al g))) gather_linv).
  rewrite gather_phi in H. exact H.
Qed.

(** Copying the result back. *)
Lemma position_none k l q : ~ In k l -> position k l q = None.
Proof.
  revert q. induction l as [|a l IH]; intros q N; [reflexivity|]. simpl.
  destruct (a =? k)%nat eqn:E; [apply Nat.eqb_eq in E; exfalso; apply N; left; auto|].
  apply IH. intro X. apply N. right. exact X.
Qed.
Lemma position_nth l : NoDup l -> forall q b, (q < length l)%nat ->
  position (nth q l 0%nat) l b = Some (b + q)%nat.
Proof.
  induction l as [|a l IH]; intros N q b Q; [simpl in Q; lia|].
  inversion N; subst. destruct q as [|q]; simpl.
  - rewrite Nat.eqb_refl. f_equal. lia.
  - simpl in Q. assert (In (nth q l 0%nat) l) by (apply nth_In; lia).
    destruct (a =? nth q l 0)%nat eqn:E; [apply Nat.eqb_eq in E; subst a; contradiction|].
    rewrite IH by (auto; lia). f_equal. lia.
Qed.
Lemma scatter_at l q : (q < w)%nat -> scatter p idx al l (At q) = la l q.
Proof.
  intro Q. unfold scatter. rewrite tab_at by (apply at_lt; exact Q).
  unfold at_. destruct WS as [N _]. rewrite (position_nth idx N q 0 Q). reflexivity.
Qed.
Lemma scatter_off l k : (k < size p)%nat -> ~ In k idx -> scatter p idx al l k = al k.
Proof.
  intros H N. unfold scatter. rewrite tab_at by exact H. rewrite position_none by exact N. reflexivity.
Qed.
Lemma scatter_sum l (h : vec) :
  sum (fun k => (y p k * (scatter p idx al l k - al k)) * h k) (seq 0 (size p)) ==
  sum (fun q => e l q * h (At q)) (seq 0 w).
Proof.
  destruct WS as [N I].
  rewrite (sum_support _ idx (size p) N I).
  - rewrite <- (map_nth_seq idx) at 1. rewrite sum_map. apply sum_ext. intros q Q.
    apply in_w in Q. change (nth q idx 0%nat) with (At q). rewrite scatter_at by exact Q.
    unfold e, ly. ring.
  - intros k K Nk. rewrite scatter_off by auto. ring.
Qed.
Lemma scatter_box l : linv l -> in_box p (scatter p idx al l).
Proof.
  intros (B & _) k K. destruct (in_dec Nat.eq_dec k idx) as [X|X].
  - destruct (in_at k X) as (q & Q & <-). rewrite scatter_at by exact Q. auto.
  - rewrite scatter_off by auto. apply box; auto.
Qed.
End Moves.
End Local.

(** ** Objective *)
Section Objective.
Variable p : problem.
Hypothesis Sy : symmetric p.
Local Notation U := (seq 0 (size p)).
Lemma in_U k : In k U <-> (k < size p)%nat.
Proof. rewrite in_seq. lia. Qed.

Lemma quad_sym (u v : vec) :
  sum (fun k => u k * sum (fun m => v m * kk p k m) U) U ==
  sum (fun k => v k * sum (fun m => u m * kk p k m) U) U.
Proof.
  rewrite (sum_ext _ (fun k => sum (fun m => u k * (v m * kk p k m)) U))
    by (intros; rewrite sum_scale; reflexivity).
  rewrite sum_swap.
  apply sum_ext. intros k K. rewrite <- sum_scale. apply sum_ext. intros m M.
  apply in_U in K, M. rewrite (Sy m k M K). ring.
Qed.

Lemma objective_expand al be :
  objective p be == objective p al +
    sum (fun k => (y p k * (be k - al k)) * true_gradient p al k) U +
    (1 # 2) * sum (fun k => (y p k * (be k - al k)) *
                     sum (fun m => (y p m * (be m - al m)) * kk p k m) U) U.
Proof.
  set (a := fun k => y p k * al k). set (d := fun k => y p k * (be k - al k)).
  set (Sa := fun k => sum (fun m => a m * kk p k m) U).
  set (Sd := fun k => sum (fun m => d m * kk p k m) U).
  assert (E1 : objective p be == sum (fun k => (a k + d k) * (lin p k + (1 # 2) * (Sa k + Sd k))) U).
  { unfold objective. apply sum_ext. intros k K.
    assert (X : sum (fun m => y p m * be m * kk p k m) U == Sa k + Sd k).
    { unfold Sa, Sd. rewrite <- sum_plus. apply sum_ext. intros m M. unfold a, d. ring. }
    rewrite X. unfold a, d. ring. }
  rewrite E1.
  rewrite (sum_ext _ (fun k => a k * (lin p k + (1 # 2) * Sa k) + d k * (lin p k + Sa k)
     + ((1 # 2) * (a k * Sd k) + (1 # 2) * (d k * Sd k)) - (1 # 2) * (d k * Sa k)))
    by (intros; ring).
  rewrite sum_minus, sum_plus, sum_plus, sum_plus, !sum_scale.
  rewrite (quad_sym a d : sum (fun k => a k * Sd k) U == sum (fun k => d k * Sa k) U).
  unfold objective, true_gradient. unfold Sa, Sd, a, d. ring.
Qed.

(** Weak duality: a small gap bounds the distance to the optimum. *)
Lemma gap_optimal al be t : well_posed p -> psd p -> feasible p al -> feasible p be ->
  0 < t -> gap_below p al t ->
  objective p al <= objective p be + inject_Z (Z.of_nat (size p)) * (t * C p).
Proof.
  intros W Ps (Ba & Ea) (Bb & Eb) T G.
  set (d := fun k => y p k * (be k - al k)). set (g := true_gradient p al).
  rewrite (objective_expand al be).
  pose proof (Ps d) as Pd. unfold d in Pd.
  assert (Zd : sum d U == 0).
  { unfold d. rewrite (sum_ext _ (fun k => y p k * be k - y p k * al k)) by (intros; ring).
    rewrite sum_minus. unfold balanced in *. rewrite Ea, Eb. ring. }
  pose proof (wp_C p W) as HC.
  (* d > 0 only where al can rise, d < 0 only where it can fall. *)
  assert (Rise : forall k, (k < size p)%nat -> 0 < d k -> can_rise p al k).
  { intros k K D. unfold d in D. specialize (Ba k K). specialize (Bb k K).
    destruct (wp_y p W k K) as [E|E]; rewrite E in D; [left|right]; split; auto; lra. }
  assert (Fall : forall k, (k < size p)%nat -> d k < 0 -> can_fall p al k).
  { intros k K D. unfold d in D. specialize (Ba k K). specialize (Bb k K).
    destruct (wp_y p W k K) as [E|E]; rewrite E in D; [left|right]; split; auto; lra. }
  assert (Size : forall k, (k < size p)%nat -> - C p <= d k <= C p).
  { intros k K. unfold d. specialize (Ba k K). specialize (Bb k K).
    destruct (wp_y p W k K) as [E|E]; rewrite E; split; lra. }
  assert (Level : exists m, forall k, (k < size p)%nat -> - (t * C p) <= d k * (g k - m)).
  { assert (Mn : (forall k, (k < size p)%nat -> ~ 0 < d k) \/
                 exists u, (u < size p)%nat /\ 0 < d u /\ forall k, (k < size p)%nat -> 0 < d k -> g u <= g k).
    { generalize (size p). induction n as [|n IH].
      - left. intros k K. lia.
      - destruct IH as [IH|(u & U1 & U2 & U3)].
        + destruct (Qlt_le_dec 0 (d n)) as [P|P].
          * right. exists n. repeat split; auto. intros k K D.
            destruct (Nat.eq_dec k n) as [->|Ne]; [lra|]. exfalso. apply (IH k); [lia|exact D].
          * left. intros k K D. destruct (Nat.eq_dec k n) as [->|Ne]; [lra|]. apply (IH k); [lia|exact D].
        + right. destruct (Qlt_le_dec 0 (d n)) as [P|P].
          * destruct (Qlt_le_dec (g n) (g u)) as [L|L].
            -- exists n. repeat split; auto. intros k K D.
               destruct (Nat.eq_dec k n) as [->|Ne]; [lra|]. specialize (U3 k ltac:(lia) D). lra.
            -- exists u. repeat split; auto. intros k K D.
               destruct (Nat.eq_dec k n) as [->|Ne]; [lra|]. apply U3; auto; lia.
          * exists u. repeat split; auto. intros k K D.
            destruct (Nat.eq_dec k n) as [->|Ne]; [lra|]. apply U3; auto; lia. }
    destruct Mn as [Mn|(u & U1 & U2 & U3)].
    - exists 0. intros k K.
      assert (D0 : d k == 0).
      { apply (sum_nonpos_zero d U); [|exact Zd|apply in_U; exact K].
        intros x X. apply in_U in X. specialize (Mn x X). lra. }
      rewrite D0. nra.
    - exists (g u). intros k K. specialize (Size k K).
      destruct (Qlt_le_dec 0 (d k)) as [P|P].
      + specialize (U3 k K P). nra.
      + destruct (Qlt_le_dec (d k) 0) as [N|N].
        * specialize (G u k U1 K (Rise u U1 U2) (Fall k K N)). fold g in G. nra.
        * assert (D0 : d k == 0) by lra. rewrite D0. nra. }
  destruct Level as (m & Lv).
  assert (Low : - (inject_Z (Z.of_nat (size p)) * (t * C p)) <= sum (fun k => d k * g k) U).
  { assert (E : sum (fun k => d k * g k) U == sum (fun k => d k * (g k - m)) U).
    { rewrite (sum_ext (fun k => d k * (g k - m)) (fun k => d k * g k - m * d k)) by (intros; ring).
      rewrite sum_minus, sum_scale, Zd. ring. }
    rewrite E.
    assert (L : sum (fun _ => - (t * C p)) U <= sum (fun k => d k * (g k - m)) U).
    { apply sum_le. intros k K. apply Lv, in_U, K. }
    rewrite sum_const, seq_length in L. lra. }
  unfold d, g in Low. lra.
Qed.
End Objective.
