(** Proofs about votes and coupled probabilities. *)
From Coq Require Import QArith Qabs List Bool Arith Lia Lqa Permutation Setoid Morphisms.
From Verif Require Import SvmModel SvmProofs SvmSmoProofs SvmClassModel SvmClassSpec.
Import ListNotations.
Local Open Scope Q_scope.

(** ** Votes *)
Lemma in_pairs nc i j : In (i, j) (pairs nc) <-> (i < j < nc)%nat.
Proof.
  unfold pairs. rewrite in_flat_map. split.
  - intros (x & X & Y). apply in_seq in X. apply in_map_iff in Y. destruct Y as (z & Z & Y).
    injection Z as -> ->. apply in_seq in Y. lia.
  - intro H. exists i. split; [apply in_seq; lia|]. apply in_map. apply in_seq. lia.
Qed.

Lemma NoDup_map_on {A B} (f : A -> B) l :
  (forall x y, In x l -> In y l -> f x = f y -> x = y) -> NoDup l -> NoDup (map f l).
Proof.
  intros Inj N. induction N as [|x l X N IH]; simpl; constructor.
  - intro H. apply in_map_iff in H. destruct H as (z & E & Z).
    apply Inj in E; simpl; auto. subst. contradiction.
  - apply IH. intros a b A1 B1. apply Inj; right; auto.
Qed.

Lemma NoDup_app_on {A} (l m : list A) : NoDup l -> NoDup m -> (forall x, In x l -> ~ In x m) -> NoDup (l ++ m).
Proof.
  intros L M D. induction L as [|x l X L IH]; simpl; [exact M|]. constructor.
  - rewrite in_app_iff. intros [H|H]; [contradiction|]. apply (D x); simpl; auto.
  - apply IH. intros z Z. apply D. right. exact Z.
Qed.

Lemma NoDup_pairs nc : NoDup (pairs nc).
Proof.
  unfold pairs. assert (G : forall l, NoDup l ->
    NoDup (flat_map (fun i => map (fun j => (i, j)) (seq (S i) (nc - S i))) l)).
  { induction 1 as [|i l I L IH]; [constructor|]. simpl. apply NoDup_app_on; auto.
    - apply NoDup_map_on; [intros x y _ _ E; congruence|apply seq_NoDup].
    - intros [a b] H1 H2. apply in_map_iff in H1. destruct H1 as (z & Z & _). injection Z as -> _.
      apply in_flat_map in H2. destruct H2 as (x & X & Y). apply in_map_iff in Y.
      destruct Y as (z' & Z' & _). injection Z' as -> _. contradiction. }
  apply G, seq_NoDup.
Qed.

Definition opponent (c : nat) (ij : nat * nat) : nat := if (fst ij =? c)%nat then snd ij else fst ij.

Lemma winner_beats d i j : (i < j)%nat ->
  (winner d (i, j) = i /\ 0 < d i j) \/ (winner d (i, j) = j /\ d i j <= 0).
Proof.
  intro H. unfold winner. simpl. destruct (Qlt_bool 0 (d i j)) eqn:E.
  - left. apply Qlt_bool_iff in E. auto.
  - right. apply Qlt_bool_false in E. auto.
Qed.

Lemma votes_won nc d c : (c < nc)%nat -> won nc d c (votes nc d c).
Proof.
  intro Hc. set (F := filter (fun ij => (winner d ij =? c)%nat) (pairs nc)).
  assert (FF : forall i j, In (i, j) F <-> (i < j < nc)%nat /\ winner d (i, j) = c).
  { intros i j. unfold F. rewrite filter_In, in_pairs, Nat.eqb_eq. reflexivity. }
  assert (Mem : forall i j, In (i, j) F -> i = c \/ j = c).
  { intros i j H. apply FF in H. destruct H as [L W]. destruct (winner_beats d i j) as [[E _]|[E _]]; lia. }
  exists (map (opponent c) F). split; [|split].
  - apply NoDup_map_on; [|apply NoDup_filter, NoDup_pairs].
    intros [a b] [a' b'] H1 H2 E. pose proof (Mem a b H1) as M1. pose proof (Mem a' b' H2) as M2.
    apply FF in H1, H2. destruct H1 as [H1 _], H2 as [H2 _]. unfold opponent in E. cbn [fst snd] in E.
    destruct (Nat.eqb_spec a c), (Nat.eqb_spec a' c);
      try (exfalso; lia); assert (a = a' /\ b = b') as [-> ->] by lia; reflexivity.
  - intro o. rewrite in_map_iff. split.
    + intros ([a b] & E & H). pose proof (Mem a b H) as M. apply FF in H. destruct H as [L W].
      unfold opponent in E. simpl in E.
      destruct (winner_beats d a b ltac:(lia)) as [[W' D]|[W' D]]; rewrite W' in W.
      * subst a. rewrite Nat.eqb_refl in E. subst o. split; [lia|]. left. split; [lia|exact D].
      * subst b. assert ((a =? c)%nat = false) by (apply Nat.eqb_neq; lia). rewrite H in E. subst o.
        split; [lia|]. right. split; [lia|exact D].
    + intros [Ho B]. destruct B as [[L D]|[L D]].
      * exists (c, o). split; [unfold opponent; simpl; rewrite Nat.eqb_refl; reflexivity|].
        apply FF. split; [lia|]. destruct (winner_beats d c o L) as [[W _]|[W D']]; [exact W|lra].
      * exists (o, c). split.
        { unfold opponent. simpl. destruct (o =? c)%nat eqn:X; [apply Nat.eqb_eq in X; lia|reflexivity]. }
        apply FF. split; [lia|]. destruct (winner_beats d o c L) as [[W D']|[W D']]; [lra|exact W].
  - apply map_length.
Qed.

Lemma won_unique nc d c n m : won nc d c n -> won nc d c m -> n = m.
Proof.
  intros (l & N1 & I1 & <-) (l' & N2 & I2 & <-). apply Permutation_length.
  apply NoDup_Permutation; auto. intro x. rewrite I1, I2. reflexivity.
Qed.

Lemma favourite_iff nc d c : favourite nc d c <->
  (c < nc)%nat /\ forall o, (o < nc)%nat -> (votes nc d o <= votes nc d c)%nat.
Proof.
  split.
  - intros [Hc H]. split; [exact Hc|]. intros o Ho. apply (H o); auto using votes_won.
  - intros [Hc H]. split; [exact Hc|]. intros o n m Ho Wn Wm.
    rewrite (won_unique _ _ _ _ _ Wn (votes_won nc d c Hc)), (won_unique _ _ _ _ _ Wm (votes_won nc d o Ho)).
    apply H. exact Ho.
Qed.

Lemma most_spec v n k b : (k + n = b)%nat -> forall best,
  ((snd best < k)%nat \/ (best = (0, 0)%nat)) ->
  (fst best = v (snd best) \/ fst best = 0%nat) -> (forall o, (o < k)%nat -> (v o <= fst best)%nat) ->
  (snd best = 0%nat \/ forall o, (o < snd best)%nat -> (v o < fst best)%nat) ->
  let r := most v (seq k n) best in
  ((snd r < b)%nat \/ (r = (0, 0)%nat)) /\ (fst r = v (snd r) \/ fst r = 0%nat) /\
  (forall o, (o < b)%nat -> (v o <= fst r)%nat) /\
  (snd r = 0%nat \/ forall o, (o < snd r)%nat -> (v o < fst r)%nat).
Proof.
  revert k. induction n as [|n IH]; intros k E best H1 H2 H3 H4; cbn [seq most].
  - replace b with k by lia. cbv zeta. split; [exact H1|split; [exact H2|split; [exact H3|exact H4]]].
  - apply IH; [lia|..]; destruct (fst best <? v k)%nat eqn:L; cbn [fst snd].
    + left. lia.
    + destruct H1 as [H1|H1]; [left; lia|right; exact H1].
    + left. reflexivity.
    + exact H2.
    + apply Nat.ltb_lt in L. intros o O. assert (D : (o < k \/ o = k)%nat) by lia.
      destruct D as [D|D]; [specialize (H3 o D); lia|subst; lia].
    + apply Nat.ltb_ge in L. intros o O. assert (D : (o < k \/ o = k)%nat) by lia.
      destruct D as [D|D]; [specialize (H3 o D); lia|subst; lia].
    + right. apply Nat.ltb_lt in L. intros o O. specialize (H3 o O). lia.
    + exact H4.
Qed.

Lemma predict_spec nc d : (0 < nc)%nat ->
  favourite nc d (predict nc d) /\
  forall o, (o < predict nc d)%nat -> ~ favourite nc d o.
Proof.
  intro P. unfold predict.
  pose proof (most_spec (votes nc d) nc 0 nc eq_refl (0, 0)%nat (or_intror eq_refl) (or_intror eq_refl)
    ltac:(intros; lia) (or_introl eq_refl)) as H. cbv zeta in H.
  set (r := most (votes nc d) (seq 0 nc) (0, 0)%nat) in *.
  destruct H as (H1 & H2 & H3 & H4).
  assert (R : (snd r < nc)%nat) by (destruct H1 as [H1|H1]; [exact H1|rewrite H1; exact P]).
  split.
  - apply favourite_iff. split; [exact R|]. intros o O. specialize (H3 o O).
    destruct H2 as [H2|H2]; lia.
  - intros o O F. apply favourite_iff in F. destruct F as [F1 F2]. specialize (F2 _ R).
    destruct H4 as [H4|H4]; [lia|]. specialize (H4 o O). destruct H2 as [H2|H2]; lia.
Qed.

Lemma damped x : -(1 # 3) < x / (3 * (Qabs x + 1)) < 1 # 3.
Proof.
  pose proof (Qabs_nonneg x) as A.
  assert (P : 0 < 3 * (Qabs x + 1)) by lra.
  pose proof (Qle_Qabs x) as B. pose proof (Qle_Qabs (- x)) as B'. rewrite Qabs_opp in B'.
  split.
  - apply Qlt_shift_div_l; [exact P|]. lra.
  - apply Qlt_shift_div_r; [exact P|]. lra.
Qed.

Lemma ovr_favourite nc d c : (c < nc)%nat -> (forall o, (o < nc)%nat -> ovr nc d o <= ovr nc d c) ->
  favourite nc d c.
Proof.
  intros Hc H. apply favourite_iff. split; [exact Hc|]. intros o O. specialize (H o O).
  unfold ovr in H. pose proof (damped (confidence d (pairs nc) c)). pose proof (damped (confidence d (pairs nc) o)).
  apply Nat.nlt_ge. intro L.
  assert (X : inject_Z (Z.of_nat (votes nc d c)) + 1 <= inject_Z (Z.of_nat (votes nc d o))).
  { change 1 with (inject_Z 1). rewrite <- inject_Z_plus, <- Zle_Qle. lia. }
  lra.
Qed.

(** ** Coupled probabilities *)
Section Couple.
Variables (nc : nat) (r : nat -> nat -> Q).
Let U := seq 0 nc.
Hypothesis two : (2 <= nc)%nat.
Hypothesis rpos : forall a b, (a < nc)%nat -> (b < nc)%nat -> a <> b -> 0 < r a b.

Lemma inU k : In k U <-> (k < nc)%nat.
Proof. unfold U. rewrite in_seq. lia. Qed.

Lemma entry_off t j : t <> j -> entry r nc t j == - (r j t * r t j).
Proof.
  intro H. unfold entry. apply Nat.eqb_neq in H. rewrite H. destruct (t <? j)%nat; ring.
Qed.
Lemma entry_sym t j : entry r nc t j == entry r nc j t.
Proof.
  destruct (Nat.eq_dec t j) as [->|D]; [reflexivity|]. rewrite !entry_off by auto. ring.
Qed.

Definition ne (t j : nat) (x : Q) : Q := if (j =? t)%nat then 0 else x.

Lemma sum_split (f : vec) t : (t < nc)%nat -> sum f U == f t + sum (fun j => ne t j (f j)) U.
Proof.
  intro T. rewrite (sum_ext f (fun j => (if (j =? t)%nat then f j else 0) + ne t j (f j))).
  - rewrite sum_plus. pose proof (sum_single f t nc T) as X. fold U in X. rewrite X. reflexivity.
  - intros k _. unfold ne. destruct (k =? t)%nat; ring.
Qed.

Definition prod_at (p : vec) (t : nat) : Q := sum (fun j => entry r nc t j * p j) U.
Definition quad (p : vec) : Q := sum (fun t => p t * prod_at p t) U.

Lemma prod_split p t : (t < nc)%nat ->
  prod_at p t == entry r nc t t * p t - sum (fun j => ne t j (r j t * r t j * p j)) U.
Proof.
  intro T. unfold prod_at. rewrite (sum_split _ t T).
  rewrite (sum_ext (fun j => ne t j (entry r nc t j * p j)) (fun j => (-(1)) * ne t j (r j t * r t j * p j))).
  - rewrite sum_scale. ring.
  - intros j _. unfold ne. destruct (j =? t)%nat eqn:E; [ring|].
    apply Nat.eqb_neq in E. rewrite entry_off by auto. ring.
Qed.

Lemma entry_diag t : entry r nc t t = sum (fun k => ne t k (r k t * r k t)) U.
Proof. unfold entry, ne. rewrite Nat.eqb_refl. reflexivity. Qed.

Lemma quad_mismatch p : 2 * quad p == mismatch r nc p.
Proof.
  unfold quad, mismatch. fold U.
  rewrite (sum_ext (fun t => p t * prod_at p t)
    (fun t => sum (fun j => ne t j (r j t * p t * (r j t * p t))) U
              - sum (fun j => ne t j (r j t * p t * (r t j * p j))) U)).
  2: { intros t T. apply inU in T. rewrite prod_split by exact T. rewrite entry_diag.
       rewrite (sum_ext (fun j => ne t j (r j t * p t * (r j t * p t)))
                  (fun j => (p t * p t) * ne t j (r j t * r j t))).
       2: { intros j _. unfold ne. destruct (j =? t)%nat; ring. }
       rewrite (sum_ext (fun j => ne t j (r j t * p t * (r t j * p j)))
                  (fun j => p t * ne t j (r j t * r t j * p j))).
       2: { intros j _. unfold ne. destruct (j =? t)%nat; ring. }
       rewrite !sum_scale. ring. }
  rewrite sum_minus.
  rewrite (sum_ext (fun t => sum (fun j => if (j =? t)%nat then 0 else
        (r j t * p t - r t j * p j) * (r j t * p t - r t j * p j)) U)
     (fun t => (sum (fun j => ne t j (r j t * p t * (r j t * p t))) U +
                sum (fun j => ne t j (r t j * p j * (r t j * p j))) U) -
               2 * sum (fun j => ne t j (r j t * p t * (r t j * p j))) U)).
  2: { intros t _. rewrite <- sum_scale, <- sum_plus, <- sum_minus. apply sum_ext. intros j _.
       unfold ne. destruct (j =? t)%nat; ring. }
  rewrite sum_minus, sum_plus, sum_scale.
  rewrite (sum_swap (fun t j => ne t j (r t j * p j * (r t j * p j))) U U).
  rewrite (sum_ext (fun j => sum (fun t => ne t j (r t j * p j * (r t j * p j))) U)
     (fun t => sum (fun j => ne t j (r j t * p t * (r j t * p t))) U)).
  2: { intros t _. apply sum_ext. intros j _. unfold ne. rewrite Nat.eqb_sym. reflexivity. }
  ring.
Qed.

Lemma sum_nonneg f l : (forall k, In k l -> 0 <= f k) -> 0 <= sum f l.
Proof.
  intro H. rewrite <- (sum_zero (fun _ => 0) l) by reflexivity. apply sum_le. exact H.
Qed.
Lemma quad_nonneg p : 0 <= quad p.
Proof.
  assert (0 <= mismatch r nc p).
  { unfold mismatch. apply sum_nonneg. intros t _. apply sum_nonneg. intros j _.
    destruct (j =? t)%nat; [lra|]. destruct (Qlt_le_dec (r j t * p t - r t j * p j) 0); nra. }
  rewrite <- quad_mismatch in H. lra.
Qed.

Lemma sum_pos_one (f : vec) j : (j < nc)%nat -> 0 < f j -> (forall k, (k < nc)%nat -> 0 <= f k) -> 0 < sum f U.
Proof.
  intros J P H. rewrite (sum_split f j J).
  assert (0 <= sum (fun k => ne j k (f k)) U).
  { apply sum_nonneg. intros k K. apply inU in K. unfold ne. destruct (k =? j)%nat; [lra|auto]. }
  lra.
Qed.

Lemma other t : exists j, (j < nc)%nat /\ j <> t.
Proof. destruct t as [|t]; [exists 1%nat|exists 0%nat]; lia. Qed.

Lemma diag_pos t : (t < nc)%nat -> 0 < entry r nc t t.
Proof.
  intro T. rewrite entry_diag. destruct (other t) as (j & J & D).
  apply (sum_pos_one _ j J).
  - unfold ne. apply Nat.eqb_neq in D as E. rewrite E. pose proof (rpos j t J T D). nra.
  - intros k K. unfold ne. destruct (k =? t)%nat eqn:E; [lra|]. apply Nat.eqb_neq in E.
    pose proof (rpos k t K T E). nra.
Qed.

Record cinv (c : coupled) : Prop := {
  c_dist : distribution nc (prob c);
  c_qp : forall t, (t < nc)%nat -> qp c t == prod_at (prob c) t;
  c_pqp : pqp c == quad (prob c) }.

Lemma sum_tab f : sum (tab nc f) U == sum f U.
Proof. apply sum_ext. intros k K. apply inU in K. rewrite tab_at by exact K. reflexivity. Qed.
Lemma prod_ext p q t : (forall k, (k < nc)%nat -> p k == q k) -> prod_at p t == prod_at q t.
Proof. intro H. apply sum_ext. intros k K. apply inU in K. rewrite (H k K). reflexivity. Qed.
Lemma quad_ext p q : (forall k, (k < nc)%nat -> p k == q k) -> quad p == quad q.
Proof.
  intro H. apply sum_ext. intros k K. apply inU in K. rewrite (H k K), (prod_ext p q k H). reflexivity.
Qed.

Definition shifted (p : vec) (t : nat) (e : Q) : vec := fun j => if (j =? t)%nat then p j + e else p j.

Lemma shifted_sum (w p : vec) t e : (t < nc)%nat ->
  sum (fun j => w j * shifted p t e j) U == sum (fun j => w j * p j) U + e * w t.
Proof.
  intro T. rewrite (sum_split _ t T), (sum_split (fun j => w j * p j) t T).
  unfold shifted at 1. rewrite Nat.eqb_refl.
  rewrite (sum_ext (fun j => ne t j (w j * shifted p t e j)) (fun j => ne t j (w j * p j))).
  - ring.
  - intros j _. unfold ne, shifted. destruct (j =? t)%nat; ring.
Qed.

Lemma shifted_prod p t e k : (t < nc)%nat ->
  prod_at (shifted p t e) k == prod_at p k + e * entry r nc k t.
Proof. intro T. unfold prod_at. apply shifted_sum. exact T. Qed.

Lemma shifted_quad p t e : (t < nc)%nat ->
  quad (shifted p t e) == quad p + e * (e * entry r nc t t + 2 * prod_at p t).
Proof.
  intro T. unfold quad at 1.
  rewrite (sum_ext _ (fun k => (prod_at p k + e * entry r nc k t) * shifted p t e k)).
  2: { intros k _. rewrite shifted_prod by exact T. ring. }
  rewrite (shifted_sum _ p t e T).
  rewrite (sum_ext (fun j => (prod_at p j + e * entry r nc j t) * p j)
     (fun j => p j * prod_at p j + e * (entry r nc t j * p j))).
  2: { intros j _. rewrite (entry_sym j t). ring. }
  rewrite sum_plus, sum_scale. fold (quad p). fold (prod_at p t). ring.
Qed.

Lemma scaled_prod p d k : ~ d == 0 -> prod_at (fun j => p j / d) k == prod_at p k / d.
Proof.
  intro D. unfold prod_at. rewrite (sum_ext _ (fun j => (/ d) * (entry r nc k j * p j))).
  - rewrite sum_scale. field. exact D.
  - intros j _. field. exact D.
Qed.
Lemma scaled_quad p d : ~ d == 0 -> quad (fun j => p j / d) == quad p / (d * d).
Proof.
  intro D. unfold quad at 1. rewrite (sum_ext _ (fun j => (/ (d * d)) * (p j * prod_at p j))).
  - rewrite sum_scale. fold (quad p). field. exact D.
  - intros j _. rewrite scaled_prod by exact D. field. exact D.
Qed.

Lemma update_inv c t : (t < nc)%nat -> cinv c -> cinv (update r nc c t).
Proof.
  intros T [[P S] Hq Hpq].
  pose proof (diag_pos t T) as Dp.
  unfold update. destruct (Qeq_bool (entry r nc t t) 0) eqn:E0.
  { apply Qeq_bool_iff in E0. lra. }
  clear E0. cbv zeta.
  set (e := (- qp c t + pqp c) / entry r nc t t).
  assert (He : e * entry r nc t t == pqp c - qp c t).
  { unfold e. field. intro X. rewrite X in Dp. lra. }
  clearbody e. rewrite Hpq, (Hq t T), (prod_split (prob c) t T) in He.
  set (rest := sum (fun j => ne t j (r j t * r t j * prob c j)) U) in *.
  assert (Rp : 0 < rest).
  { destruct (other t) as (j & J & D). apply (sum_pos_one _ j J).
    - unfold ne. apply Nat.eqb_neq in D as X. rewrite X.
      pose proof (rpos j t J T D). pose proof (rpos t j T J (not_eq_sym D)). pose proof (P j J).
      apply Qmult_lt_0_compat; [apply Qmult_lt_0_compat|]; auto.
    - intros k K. unfold ne. destruct (k =? t)%nat eqn:X; [lra|]. apply Nat.eqb_neq in X.
      pose proof (rpos k t K T X). pose proof (rpos t k T K (not_eq_sym X)). pose proof (P k K).
      apply Qlt_le_weak. apply Qmult_lt_0_compat; [apply Qmult_lt_0_compat|]; auto. }
  pose proof (quad_nonneg (prob c)) as Qn.
  assert (Pt : 0 < prob c t + e).
  { destruct (Qlt_le_dec 0 (prob c t + e)); [assumption|exfalso].
    assert (X : (prob c t + e) * entry r nc t t == quad (prob c) + rest) by lra.
    assert (Y : (prob c t + e) * entry r nc t t <= 0) by nra. lra. }
  assert (Dn : 0 < 1 + e).
  { pose proof (sum_split (prob c) t T) as Sp. fold U in S. rewrite S in Sp.
    assert (0 <= sum (fun j => ne t j (prob c j)) U).
    { apply sum_nonneg. intros k K. apply inU in K. unfold ne. destruct (k =? t)%nat; [lra|].
      apply Qlt_le_weak, P, K. }
    lra. }
  destruct (Qeq_bool (1 + e) 0) eqn:E1.
  { apply Qeq_bool_iff in E1. lra. }
  assert (Dz : ~ 1 + e == 0) by (intro X; lra).
  set (p1 := tab nc (fun j => if (j =? t)%nat then prob c j + e else prob c j)).
  assert (P1 : forall k, (k < nc)%nat -> p1 k = shifted (prob c) t e k).
  { intros k K. unfold p1. rewrite tab_at by exact K. reflexivity. }
  assert (P2 : forall k, (k < nc)%nat ->
     tab nc (fun j => p1 j / (1 + e)) k == shifted (prob c) t e k / (1 + e)).
  { intros k K. rewrite tab_at by exact K. rewrite (P1 k K). reflexivity. }
  constructor; cbn [prob qp pqp].
  - split.
    + intros k K. rewrite (P2 k K). apply Qlt_shift_div_l; [exact Dn|]. rewrite Qmult_0_l.
      unfold shifted. destruct (k =? t)%nat eqn:X; [apply Nat.eqb_eq in X; subst; exact Pt|apply P, K].
    + fold U. rewrite (sum_ext _ (fun k => (/ (1 + e)) * (1 * shifted (prob c) t e k))).
      2: { intros k K. apply inU in K. rewrite (P2 k K). field. exact Dz. }
      rewrite sum_scale, (shifted_sum (fun _ => 1) (prob c) t e T).
      rewrite (sum_ext _ (prob c)) by (intros; ring). fold U in S. rewrite S. field. exact Dz.
  - intros k K. rewrite tab_at by exact K.
    rewrite (prod_ext _ (fun j => shifted (prob c) t e j / (1 + e)) k P2).
    rewrite scaled_prod by exact Dz. rewrite shifted_prod by exact T. rewrite (Hq k K), (entry_sym k t).
    reflexivity.
  - rewrite (quad_ext _ (fun j => shifted (prob c) t e j / (1 + e)) P2).
    rewrite scaled_quad by exact Dz. rewrite shifted_quad by exact T. rewrite (Hq t T), Hpq. reflexivity.
Qed.

Lemma products_inv p : distribution nc p -> cinv (products r nc p).
Proof.
  intro D. unfold products. constructor; cbn [prob qp pqp]; [exact D| |].
  - intros t T. rewrite tab_at by exact T. reflexivity.
  - unfold quad. apply sum_ext. intros t T. apply inU in T. rewrite tab_at by exact T. reflexivity.
Qed.

Lemma sweep_inv l c : (forall t, In t l -> (t < nc)%nat) -> cinv c -> cinv (fold_left (update r nc) l c).
Proof.
  revert c. induction l as [|t l IH]; intros c L H; [exact H|]. simpl. apply IH.
  - intros k K. apply L. right. exact K.
  - apply update_inv; [apply L; left; reflexivity|exact H].
Qed.

Lemma max_error_bound l c m t : In t l \/ Qabs (qp c t - pqp c) <= m ->
  Qabs (qp c t - pqp c) <= fold_left (fun m t => Qmax m (Qabs (qp c t - pqp c))) l m.
Proof.
  revert m. induction l as [|k l IH]; intros m H; cbn [fold_left]; [destruct H as [[]|H]; exact H|].
  apply IH. destruct (Qmax_case m (Qabs (qp c k - pqp c))) as [[E L]|[E L]]; rewrite E.
  - destruct H as [[->|H]|H]; [right; lra|left; exact H|right; lra].
  - destruct H as [[->|H]|H]; [right; lra|left; exact H|right; exact H].
Qed.

Lemma couple_spec fuel eps p q b : distribution nc p -> couple fuel r nc eps p = (q, b) ->
  distribution nc q /\
  (b = true -> forall t, (t < nc)%nat -> Qabs (prod_at q t - quad q) < eps).
Proof.
  revert p. induction fuel as [|f IH]; intros p D E; cbn [couple] in E.
  - injection E as <- <-. split; [exact D|discriminate].
  - pose proof (products_inv p D) as I. cbv zeta in E.
    destruct (Qlt_bool (max_error nc (products r nc p)) eps) eqn:T.
    + injection E as <- <-. split; [exact D|]. intros _ t Ht. apply Qlt_bool_iff in T.
      pose proof (max_error_bound (seq 0 nc) (products r nc p) 0 t (or_introl (proj2 (inU t) Ht))) as M.
      fold (max_error nc (products r nc p)) in M.
      destruct I as [_ Iq Ip]. change (prob (products r nc p)) with p in *.
      rewrite (Iq t Ht), Ip in M. lra.
    + apply (IH (prob (fold_left (update r nc) (seq 0 nc) (products r nc p)))); [|exact E].
      apply c_dist, sweep_inv; [|exact I]. intros t Ht. apply inU. exact Ht.
Qed.

(** Stationary up to [eps] means optimal up to [4 * eps]. *)
Lemma near_optimal p q eps : distribution nc p ->
  (forall t, (t < nc)%nat -> 0 <= q t) -> sum q U == 1 ->
  (forall t, (t < nc)%nat -> Qabs (prod_at p t - quad p) < eps) ->
  mismatch r nc p <= mismatch r nc q + 4 * eps.
Proof.
  intros [P S] Q0 Q1 H. rewrite <- !quad_mismatch.
  set (d := fun k => q k - p k).
  assert (Pd : forall k, prod_at d k == prod_at q k - prod_at p k).
  { intro k. unfold prod_at. rewrite <- sum_minus. apply sum_ext. intros j _. unfold d. ring. }
  assert (X : quad d == quad q - 2 * sum (fun k => q k * prod_at p k) U + quad p).
  { unfold quad at 1. rewrite (sum_ext _ (fun k => (q k * prod_at q k - q k * prod_at p k)
       - (p k * prod_at q k - p k * prod_at p k))).
    2: { intros k _. rewrite Pd. unfold d. ring. }
    rewrite !sum_minus. fold (quad q). fold (quad p).
    assert (Sy : sum (fun k => p k * prod_at q k) U == sum (fun k => q k * prod_at p k) U).
    { unfold prod_at.
      rewrite (sum_ext (fun k => p k * sum (fun j => entry r nc k j * q j) U)
         (fun k => sum (fun j => p k * (entry r nc k j * q j)) U)) by (intros; rewrite sum_scale; reflexivity).
      rewrite (sum_ext (fun k => q k * sum (fun j => entry r nc k j * p j) U)
         (fun k => sum (fun j => q k * (entry r nc k j * p j)) U)) by (intros; rewrite sum_scale; reflexivity).
      rewrite sum_swap. apply sum_ext. intros k _. apply sum_ext. intros j _. rewrite (entry_sym j k). ring. }
    rewrite Sy. ring. }
  pose proof (quad_nonneg d) as N. rewrite X in N.
  assert (L : quad p - eps <= sum (fun k => q k * prod_at p k) U).
  { assert (Y : sum (fun k => (quad p - eps) * q k) U <= sum (fun k => q k * prod_at p k) U).
    { apply sum_le. intros k K. apply inU in K. specialize (H k K). specialize (Q0 k K).
      apply Qabs_Qlt_condition in H. nra. }
    rewrite sum_scale, Q1 in Y. lra. }
  lra.
Qed.
End Couple.

Lemma clip_range x : min_prob <= clip x <= 1 - min_prob.
Proof.
  unfold clip, min_prob.
  destruct (Qmax_case x (1 # 10000000)) as [[-> A]|[-> A]];
  match goal with |- context [Qmin ?a ?b] => destruct (Qmin_case a b) as [[-> B]|[-> B]] end; lra.
Qed.
Lemma pairwise_pos s nc a b : (a < nc)%nat -> (b < nc)%nat -> a <> b -> 0 < pairwise s a b.
Proof.
  intros _ _ D. unfold pairwise. pose proof (clip_range (s a b)). pose proof (clip_range (s b a)).
  unfold min_prob in *. destruct (a <? b)%nat; lra.
Qed.
Lemma even_distribution nc : (2 <= nc)%nat ->
  distribution nc (tab nc (fun _ => 1 / inject_Z (Z.of_nat nc))).
Proof.
  intro P. assert (Pz : 0 < inject_Z (Z.of_nat nc)).
  { change 0 with (inject_Z 0). rewrite <- Zlt_Qlt. lia. }
  split.
  - intros t T. rewrite tab_at by exact T. apply Qlt_shift_div_l; [exact Pz|lra].
  - rewrite (sum_ext _ (fun _ => 1 / inject_Z (Z.of_nat nc))).
    + rewrite sum_const, seq_length. field. intro X. lra.
    + intros k K. apply in_seq in K. rewrite tab_at by lia. reflexivity.
Qed.

Lemma clip_at x y : (x < 1 # 10000000 -> y == 1 # 10000000) ->
  (1 # 10000000 <= x <= 9999999 # 10000000 -> y == x) -> (9999999 # 10000000 < x -> y == 9999999 # 10000000) -> y == clip x.
Proof.
  intros H1 H2 H3. unfold clip, min_prob.
  destruct (Qlt_le_dec x (1 # 10000000)) as [A|A].
  - rewrite (H1 A). destruct (Qmax_case x (1 # 10000000)) as [[-> B]|[-> B]];
    match goal with |- context [Qmin ?a ?b] => destruct (Qmin_case a b) as [[-> C]|[-> C]] end; lra.
  - destruct (Qlt_le_dec (9999999 # 10000000) x) as [B|B].
    + rewrite (H3 B). destruct (Qmax_case x (1 # 10000000)) as [[-> C]|[-> C]];
      match goal with |- context [Qmin ?a ?b] => destruct (Qmin_case a b) as [[-> E]|[-> E]] end; lra.
    + rewrite H2 by lra. destruct (Qmax_case x (1 # 10000000)) as [[-> C]|[-> C]];
      match goal with |- context [Qmin ?a ?b] => destruct (Qmin_case a b) as [[-> E]|[-> E]] end; lra.
Qed.
Lemma pair_unique s r nc j l : pair_probabilities s r nc -> (j < nc)%nat -> (l < nc)%nat -> j <> l -> r j l == pairwise s j l.
Proof.
  intros H J L D. unfold pairwise. destruct (Nat.ltb_spec j l).
  - destruct (H j l) as (_ & H1 & H2 & H3); auto. apply clip_at; auto.
  - destruct (H l j) as (G0 & H1 & H2 & H3); auto; [lia|]. rewrite <- (clip_at _ _ H1 H2 H3). lra.
Qed.
Lemma mismatch_pair s r nc p : pair_probabilities s r nc -> mismatch r nc p == mismatch (pairwise s) nc p.
Proof.
  intros H. unfold mismatch. apply sum_ext. intros t T. apply sum_ext. intros j J. apply in_seq in T. apply in_seq in J.
  destruct (Nat.eqb_spec j t) as [_|D]; [reflexivity|].
  rewrite (pair_unique s r nc j t H), (pair_unique s r nc t j H) by lia. reflexivity.
Qed.
