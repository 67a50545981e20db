(** Proofs about the gathered results. *)
From Coq Require Import QArith Qabs List Bool Arith Lia Permutation.
From Verif Require Import SvmModel SvmProofs SvmClassModel SvmClassProofs SvmResultModel SvmResultSpec.
Import ListNotations.
Local Open Scope nat_scope.

Lemma filter_filter {A} (f g : A -> bool) l : filter f (filter g l) = filter (fun x => g x && f x) l.
Proof.
  induction l as [|x l IH]; simpl; [reflexivity|]. destruct (g x); simpl; [destruct (f x)|]; rewrite IH; reflexivity.
Qed.
Lemma skipn_all_repeat {A} (z : A) n : skipn n (repeat z n) = [].
Proof. rewrite <- (repeat_length z n) at 1. apply skipn_all. Qed.
Lemma grow_fresh new z : grow [] new z = new.
Proof. unfold grow. simpl. rewrite skipn_all_repeat, app_nil_r. reflexivity. Qed.
Lemma same_length {A} (l m : list A) : NoDup l -> NoDup m -> (forall x, In x l <-> In x m) -> length l = length m.
Proof. intros. apply Permutation_length, NoDup_Permutation; auto. Qed.

(** ** Counting *)
Section Count.
Variable lab : nat -> nat.
Definition sound (st : counted) : Prop :=
  NoDup (marked st) /\ forall c, per_class st c = length (filter (fun s => lab s =? c) (marked st)).

Lemma mark_sound st s : sound st -> sound (mark (lab s) st s) /\
  forall x, In x (marked (mark (lab s) st s)) <-> In x (marked st) \/ x = s.
Proof.
  intros [N P]. unfold mark. destruct (chosen (marked st) s) eqn:E.
  - apply chosen_iff in E. split; [split; auto|]. intro x. split; [auto|]. intros [H| ->]; auto.
  - assert (Ni : ~ In s (marked st)) by (intro H; apply chosen_iff in H; congruence).
    split; [split|]; cbn [marked per_class].
    + apply NoDup_snoc; auto.
    + intro c. rewrite filter_app, app_length. cbn [filter]. rewrite (Nat.eqb_sym (lab s) c).
      rewrite <- P. destruct (c =? lab s) eqn:X; simpl; lia.
    + intro x. rewrite in_app_iff. simpl. intuition.
Qed.

Lemma marks_sound c l st : (forall s, In s l -> lab s = c) -> sound st ->
  sound (fold_left (mark c) l st) /\
  forall x, In x (marked (fold_left (mark c) l st)) <-> In x (marked st) \/ In x l.
Proof.
  revert st. induction l as [|s l IH]; intros st L S; simpl.
  - split; [exact S|]. intuition.
  - destruct (mark_sound st s S) as [S1 M1]. rewrite (L s (or_introl eq_refl)) in S1, M1.
    destruct (IH (mark c st s) (fun k K => L k (or_intror K)) S1) as [S2 M2].
    split; [exact S2|]. intro x. rewrite M2, M1. intuition.
Qed.

Lemma pairs_sound sets l st :
  (forall ij s, In ij l -> In s (fst (sets ij)) -> lab s = fst ij) ->
  (forall ij s, In ij l -> In s (snd (sets ij)) -> lab s = snd ij) -> sound st ->
  sound (fold_left (count_pair sets) l st) /\
  forall x, In x (marked (fold_left (count_pair sets) l st)) <->
    In x (marked st) \/ exists ij, In ij l /\ (In x (fst (sets ij)) \/ In x (snd (sets ij))).
Proof.
  revert st. induction l as [|ij l IH]; intros st L1 L2 S; simpl.
  - split; [exact S|]. intro x. split; [auto|]. intros [H|(ij & [] & _)]. exact H.
  - unfold count_pair at 2 4.
    destruct (marks_sound (fst ij) (fst (sets ij)) st) as [Sa Ma]; auto.
    { intros s Hs. apply L1; simpl; auto. }
    destruct (marks_sound (snd ij) (snd (sets ij)) _ ltac:(intros s Hs; apply L2; simpl; auto) Sa) as [Sb Mb].
    destruct (IH _ ltac:(intros; eapply L1; simpl; eauto) ltac:(intros; eapply L2; simpl; eauto) Sb) as [Sc Mc].
    split; [exact Sc|]. intro x. rewrite Mc, Mb, Ma. split.
    + intros [[[H|H]|H]|(kl & K & H)]; [auto| | |]; right.
      * exists ij. auto.
      * exists ij. auto.
      * exists kl. auto.
    + intros [H|(kl & [<-|K] & [H|H])]; auto; right; exists kl; auto.
Qed.
End Count.

(** ** Columns *)
Lemma starting_S per c : starting per (S c) = starting per c + per c.
Proof.
  unfold starting. rewrite seq_S, fold_right_app. simpl.
  generalize (seq 0 c). intro l. induction l as [|k l IH]; simpl; lia.
Qed.
Lemma starting_le per a b : a <= b -> starting per a <= starting per b.
Proof. induction 1; [lia|]. rewrite starting_S. lia. Qed.
Lemma column_unique per a b q r : q < per a -> r < per b ->
  starting per a + q = starting per b + r -> a = b /\ q = r.
Proof.
  intros Q R E. assert (D : a < b \/ b < a \/ a = b) by lia. destruct D as [D|[D|D]].
  - pose proof (starting_le per (S a) b D). rewrite starting_S in H. lia.
  - pose proof (starting_le per (S b) a D). rewrite starting_S in H. lia.
  - subst. lia.
Qed.
Lemma sum_counts (lab : nat -> nat) nc l : (forall s, In s l -> lab s < nc) ->
  length l = starting (fun c => length (filter (fun s => lab s =? c) l)) nc.
Proof.
  revert l. induction nc as [|nc IH]; intros l L.
  - destruct l as [|s l]; [reflexivity|]. specialize (L s (or_introl eq_refl)). lia.
  - rewrite starting_S.
    assert (X : length l = length (filter (fun s => negb (lab s =? nc)) l) + length (filter (fun s => lab s =? nc) l)).
    { clear. induction l as [|s l IH]; simpl; [reflexivity|]. destruct (lab s =? nc); simpl; lia. }
    rewrite X at 1. f_equal. rewrite (IH (filter (fun s => negb (lab s =? nc)) l)).
    + unfold starting.
      assert (G : forall m, (forall k, In k m -> k < nc) ->
        fold_right (fun k acc => length (filter (fun s => lab s =? k) (filter (fun s => negb (lab s =? nc)) l)) + acc) 0 m =
        fold_right (fun k acc => length (filter (fun s => lab s =? k) l) + acc) 0 m).
      { induction m as [|k m IHm]; intro M; simpl; [reflexivity|]. f_equal.
        - rewrite filter_filter. f_equal. apply filter_ext. intro s.
          specialize (M k (or_introl eq_refl)). destruct (Nat.eqb_spec (lab s) k), (Nat.eqb_spec (lab s) nc); simpl; auto; lia.
        - apply IHm. intros z Z. apply M. right. exact Z. }
      apply G. intros k K. apply in_seq in K. lia.
    + intros s Hs. apply filter_In in Hs. destruct Hs as [Hs Hn]. specialize (L s Hs).
      apply negb_true_iff, Nat.eqb_neq in Hn. lia.
Qed.

(** ** Writes *)
Lemma indexes_in D sv l col k s :
  In (k, s) (fill_indexes D sv col l) <->
  exists q, nth_error (filter (fun x => sv x && (label D x =? label D s)) l) q = Some s /\ k = col (label D s) + q.
Proof.
  revert col. induction l as [|x l IH]; intro col; cbn [fill_indexes filter].
  - split; [intros []|]. intros (q & H & _). destruct q; discriminate.
  - destruct (sv x) eqn:E; cbn [andb].
    + cbn [In]. rewrite IH. destruct (Nat.eqb_spec (label D x) (label D s)) as [L|L].
      * split.
        -- intros [H|(q & H & K)].
           ++ injection H as <- <-. exists 0. split; [reflexivity|lia].
           ++ exists (S q). split; [exact H|]. unfold bump in K. rewrite L, Nat.eqb_refl in K. lia.
        -- intros (q & H & K). destruct q as [|q].
           ++ injection H as ->. left. rewrite K, Nat.add_0_r. reflexivity.
           ++ right. exists q. split; [exact H|]. unfold bump. rewrite L, Nat.eqb_refl. lia.
      * assert (B : bump col (label D x) (label D s) = col (label D s)).
        { unfold bump. destruct (Nat.eqb_spec (label D s) (label D x)); [congruence|reflexivity]. }
        rewrite B. split; [|auto]. intros [H|H]; [|exact H]. injection H as _ H. subst. congruence.
    + apply IH.
Qed.

Lemma pair_in sv pos v ri rj ci cj l r k x :
  In (r, k, x) (fill_pair sv pos v ri rj ci cj l) <->
  (exists q s, nth_error (filter (fun s => sv s && pos s) l) q = Some s /\ r = ri /\ k = ci + q /\ x = v s) \/
  (exists q s, nth_error (filter (fun s => sv s && negb (pos s)) l) q = Some s /\ r = rj /\ k = cj + q /\ x = v s).
Proof.
  revert ci cj. induction l as [|s l IH]; intros ci cj; cbn [fill_pair filter].
  - split; [intros []|]. intros [(q & s & H & _)|(q & s & H & _)]; destruct q; discriminate.
  - destruct (sv s); cbn [andb]; [|apply IH]. destruct (pos s); cbn [negb In]; rewrite IH.
    + split.
      * intros [H|[(q & z & H & A & B & E)|H]]; [| |right; exact H]; left.
        -- injection H as <- <- <-. exists 0, s. repeat split; lia.
        -- exists (S q), z. repeat split; auto. lia.
      * intros [(q & z & H & A & B & E)|H]; [|auto]. destruct q as [|q].
        -- injection H as <-. left. subst. rewrite Nat.add_0_r. reflexivity.
        -- right. left. exists q, z. repeat split; auto. lia.
    + split.
      * intros [H|[H|(q & z & H & A & B & E)]]; [|left; exact H|]; right.
        -- injection H as <- <- <-. exists 0, s. repeat split; lia.
        -- exists (S q), z. repeat split; auto. lia.
      * intros [H|(q & z & H & A & B & E)]; [auto|]. destruct q as [|q].
        -- injection H as <-. left. subst. rewrite Nat.add_0_r. reflexivity.
        -- right. right. exists q, z. repeat split; auto. lia.
Qed.

Definition touches (c : nat) (ij : nat * nat) : bool := (fst ij =? c) || (snd ij =? c).

Lemma all_in D al sv start l rows w :
  (forall ij, In ij l -> fst ij <> snd ij) ->
  In w (fill_all D al sv start rows l) <->
  exists l1 ij l2, l = l1 ++ ij :: l2 /\
    In w (fill_pair sv (positive D ij) (al ij)
            (rows (fst ij) + length (filter (touches (fst ij)) l1))
            (rows (snd ij) + length (filter (touches (snd ij)) l1))
            (start (fst ij)) (start (snd ij)) (idx_class D ij)).
Proof.
  revert rows. induction l as [|p l IH]; intros rows Nd; cbn [fill_all].
  - split; [intros []|]. intros (l1 & ij & l2 & E & _). destruct l1; discriminate.
  - rewrite in_app_iff, IH by (intros; apply Nd; right; auto).
    assert (B : forall c, bump (bump rows (fst p)) (snd p) c =
                rows c + (if touches c p then 1 else 0)).
    { intro c. specialize (Nd p (or_introl eq_refl)). unfold bump, touches.
      destruct (Nat.eqb_spec c (snd p)), (Nat.eqb_spec c (fst p)), (Nat.eqb_spec (fst p) c), (Nat.eqb_spec (snd p) c);
        simpl; lia. }
    split.
    + intros [H|(l1 & ij & l2 & E & H)].
      * exists [], p, l. split; [reflexivity|]. simpl. rewrite !Nat.add_0_r. exact H.
      * exists (p :: l1), ij, l2. split; [rewrite E; reflexivity|].
        rewrite !B in H. cbn [filter].
        assert (X : forall c, rows c + (if touches c p then 1 else 0) + length (filter (touches c) l1) =
                    rows c + length (if touches c p then p :: filter (touches c) l1 else filter (touches c) l1)).
        { intro c. destruct (touches c p); simpl; lia. }
        rewrite !X in H. exact H.
    + intros (l1 & ij & l2 & E & H). destruct l1 as [|p' l1].
      * injection E as <- <-. left. simpl in H. rewrite !Nat.add_0_r in H. exact H.
      * injection E as <- ->. right. exists l1, ij, l2. split; [reflexivity|]. rewrite !B.
        cbn [filter] in H.
        assert (X : forall c, rows c + (if touches c p then 1 else 0) + length (filter (touches c) l1) =
                    rows c + length (if touches c p then p :: filter (touches c) l1 else filter (touches c) l1)).
        { intro c. destruct (touches c p); simpl; lia. }
        rewrite !X. exact H.
Qed.

(** ** Order of the pairs *)
Lemma before_pair nc i j : i < j < nc -> exists l1 l2, pairs nc = l1 ++ (i, j) :: l2 /\
  forall a b, In (a, b) l1 <-> a < b < nc /\ (a < i \/ (a = i /\ b < j)).
Proof.
  intro H. unfold pairs.
  replace (seq 0 nc) with (seq 0 i ++ i :: seq (S i) (nc - S i)).
  2: { replace nc with (i + S (nc - S i)) at 2 by lia. rewrite seq_app. reflexivity. }
  rewrite flat_map_app. cbn [flat_map].
  assert (Sp : map (fun b => (i, b)) (seq (S i) (nc - S i)) =
    map (fun b => (i, b)) (seq (S i) (j - S i)) ++ (i, j) :: map (fun b => (i, b)) (seq (S j) (nc - S j))).
  { replace (nc - S i) with ((j - S i) + S (nc - S j)) by lia. rewrite seq_app.
    replace (S i + (j - S i)) with j by lia. rewrite map_app. reflexivity. }
  rewrite Sp.
  rewrite <- app_assoc, <- app_comm_cons, app_assoc.
  match goal with |- exists _ _, ?a ++ _ :: ?b = _ /\ _ => exists a, b end. split; [reflexivity|].
  intros a b. rewrite in_app_iff, in_flat_map, in_map_iff. split.
  - intros [(x & X & Y)|(x & X & Y)].
    + apply in_seq in X. apply in_map_iff in Y. destruct Y as (z & E & Z). injection E as -> ->.
      apply in_seq in Z. lia.
    + injection X as -> ->. apply in_seq in Y. lia.
  - intros [A [B|[-> B]]].
    + left. exists a. split; [apply in_seq; lia|]. apply in_map, in_seq. lia.
    + right. exists b. split; [reflexivity|]. apply in_seq. lia.
Qed.

Lemma split_unique {A} (x : A) a b c d : NoDup (a ++ x :: b) -> a ++ x :: b = c ++ x :: d -> a = c.
Proof.
  revert c. induction a as [|y a IH]; intros [|z c] N E; simpl in *; auto.
  - injection E as -> E. subst. inversion N as [|? ? X _]. exfalso. apply X, in_app_iff. right. left. reflexivity.
  - injection E as -> E. subst. inversion N as [|? ? X _]. exfalso. apply X, in_app_iff. right. left. reflexivity.
  - injection E as -> E. f_equal. inversion N. apply (IH c); auto.
Qed.

Lemma NoDup_app_l {A} (l m : list A) : NoDup (l ++ m) -> NoDup l.
Proof.
  induction l as [|x l IH]; simpl; intro H; [constructor|]. inversion H as [|? ? X Y]. constructor; auto.
  intro K. apply X, in_app_iff. auto.
Qed.

Lemma rows_before nc i j l1 l2 : pairs nc = l1 ++ (i, j) :: l2 ->
  i < j < nc /\ length (filter (touches i) l1) = j - 1 /\ length (filter (touches j) l1) = i.
Proof.
  intro E. assert (H : i < j < nc). { apply in_pairs. rewrite E. apply in_app_iff. right. left. reflexivity. }
  split; [exact H|].
  destruct (before_pair nc i j H) as (m1 & m2 & E' & M).
  assert (m1 = l1).
  { apply (split_unique (i, j) m1 m2 l1 l2); [rewrite <- E'; apply NoDup_pairs|congruence]. }
  subst m1.
  assert (N : NoDup l1).
  { pose proof (NoDup_pairs nc) as X. rewrite E in X. apply NoDup_app_l in X. exact X. }
  split.
  - rewrite (same_length _ (map (fun a => (a, i)) (seq 0 i) ++ map (fun b => (i, b)) (seq (S i) (j - S i)))).
    + rewrite app_length, !map_length, !seq_length. lia.
    + apply NoDup_filter, N.
    + apply NoDup_app_on.
      * apply NoDup_map_on; [intros; congruence|apply seq_NoDup].
      * apply NoDup_map_on; [intros; congruence|apply seq_NoDup].
      * intros x X Y. apply in_map_iff in X, Y. destruct X as (a & <- & A). destruct Y as (b & B & _).
        injection B as B1 B2. apply in_seq in A. lia.
    + intros [a b]. rewrite filter_In, M, in_app_iff, !in_map_iff. unfold touches. cbn [fst snd].
      rewrite orb_true_iff, !Nat.eqb_eq. split.
      * intros [[A B] [Ea|Eb]].
        -- subst a. right. exists b. split; [reflexivity|]. apply in_seq. lia.
        -- subst b. left. exists a. split; [reflexivity|]. apply in_seq. lia.
      * intros [(z & Z & A)|(z & Z & A)]; injection Z as <- <-; apply in_seq in A; lia.
  - rewrite (same_length _ (map (fun a => (a, j)) (seq 0 i))).
    + rewrite map_length, seq_length. reflexivity.
    + apply NoDup_filter, N.
    + apply NoDup_map_on; [intros; congruence|apply seq_NoDup].
    + intros [a b]. rewrite filter_In, M, in_map_iff. unfold touches. cbn [fst snd].
      rewrite orb_true_iff, !Nat.eqb_eq. split.
      * intros [[A B] [Ea|Eb]]; [lia|]. subst b. exists a. split; [reflexivity|]. apply in_seq. lia.
      * intros (z & Z & A). injection Z as <- <-. apply in_seq in A. lia.
Qed.

(** ** A fresh handle *)
Section Fresh.
Variables (D : labelled) (meps : Q) (al : coefficients).
Hypothesis Lok : labels_ok D.
Let sets : stored := fun ij => set_sv D meps al ij (fresh ij).
Let st := count_all sets (classes D).
Let svb := chosen (marked st).
Definition of_class (c : nat) : list nat := filter (fun s => svb s && (label D s =? c)) (seq 0 (samples D)).

Lemma sets_fst ij s : In s (fst (sets ij)) <->
  s < samples D /\ label D s = fst ij /\ (meps < Qabs (al ij s))%Q.
Proof.
  unfold sets, set_sv, fresh. cbn [fst snd]. rewrite grow_fresh. unfold idx_class, positive.
  rewrite !filter_In, in_seq, Qlt_bool_iff, Nat.eqb_eq, orb_true_iff, !Nat.eqb_eq. intuition.
Qed.
Lemma sets_snd ij s : fst ij <> snd ij -> In s (snd (sets ij)) <->
  s < samples D /\ label D s = snd ij /\ (meps < Qabs (al ij s))%Q.
Proof.
  intro Ne. unfold sets, set_sv, fresh. cbn [fst snd]. rewrite grow_fresh. unfold idx_class, positive.
  rewrite !filter_In, in_seq, Qlt_bool_iff, negb_true_iff, Nat.eqb_neq, orb_true_iff, !Nat.eqb_eq.
  split; intro H.
  - destruct H as [[[B L] A] N]. repeat split; [lia| |exact A]. destruct L; [contradiction|assumption].
  - destruct H as (B & L & A). repeat split; auto; try lia.
Qed.
Lemma pair_ne ij : In ij (pairs (classes D)) -> fst ij <> snd ij.
Proof. destruct ij as [i j]. intro H. apply in_pairs in H. simpl. lia. Qed.

Lemma st_sound : sound (label D) st /\ forall s, In s (marked st) <-> supports D meps al s.
Proof.
  unfold st, count_all.
  destruct (pairs_sound (label D) sets (pairs (classes D)) (Counted [] (fun _ => 0))) as [S M].
  - intros ij s _ H. apply sets_fst in H. tauto.
  - intros ij s P H. apply sets_snd in H; [tauto|apply pair_ne, P].
  - split; [constructor|]. intro c. reflexivity.
  - split; [exact S|]. intro s. rewrite M. unfold supports. split.
    + intros [[]|([i j] & P & [H|H])].
      * apply sets_fst in H. apply in_pairs in P. simpl in H. split; [tauto|]. exists i, j. tauto.
      * apply sets_snd in H; [|apply pair_ne, P]. apply in_pairs in P. simpl in H. split; [tauto|]. exists i, j. tauto.
    + intros (B & i & j & P & L & A). right. exists (i, j). split; [apply in_pairs; exact P|].
      destruct L as [L|L]; [left|right].
      * apply sets_fst. simpl. auto.
      * apply sets_snd; simpl; [lia|auto].
Qed.

Lemma svb_iff s : svb s = true <-> supports D meps al s.
Proof. unfold svb. rewrite chosen_iff. apply st_sound. Qed.

Lemma nth_increasing (f : nat -> bool) n k a b : a < b < length (filter f (seq k n)) ->
  nth a (filter f (seq k n)) 0 < nth b (filter f (seq k n)) 0.
Proof.
  revert k a b. induction n as [|n IH]; intros k a b H; cbn [seq filter] in *; [simpl in H; lia|].
  destruct (f k); [|apply IH; exact H].
  cbn [length] in H. destruct b as [|b]; [lia|]. destruct a as [|a]; cbn [nth].
  - assert (X : In (nth b (filter f (seq (S k) n)) 0) (filter f (seq (S k) n))) by (apply nth_In; lia).
    apply filter_In in X. destruct X as [X _]. apply in_seq in X. lia.
  - apply IH. lia.
Qed.

Lemma of_class_supporting c : supporting D meps al c (of_class c).
Proof.
  split.
  - intro s. unfold of_class. rewrite filter_In, in_seq, andb_true_iff, svb_iff, Nat.eqb_eq.
    unfold supports. intuition.
  - intros a b H. apply nth_increasing. exact H.
Qed.

Lemma per_class_length c : per_class st c = length (of_class c).
Proof.
  destruct st_sound as [[N P] M]. rewrite P. apply same_length.
  - apply NoDup_filter, N.
  - apply NoDup_filter, seq_NoDup.
  - intro s. rewrite filter_In, M, Nat.eqb_eq. symmetry. apply of_class_supporting.
Qed.

Lemma total : length (marked st) = starting (per_class st) (classes D).
Proof.
  destruct st_sound as [[N P] M]. rewrite (sum_counts (label D) (classes D)).
  - unfold starting. generalize (seq 0 (classes D)). intro l.
    induction l as [|k l IH]; simpl; [reflexivity|]. rewrite IH, P. reflexivity.
  - intros s H. apply M in H. apply Lok, H.
Qed.

Lemma class_pos i j : i <> j ->
  filter (fun s => svb s && positive D (i, j) s) (idx_class D (i, j)) = of_class i.
Proof.
  intro Ne. unfold idx_class, of_class, positive. rewrite filter_filter. apply filter_ext. intro s. cbn [fst snd].
  destruct (svb s), (Nat.eqb_spec (label D s) i), (Nat.eqb_spec (label D s) j); reflexivity.
Qed.
Lemma class_neg i j : i <> j ->
  filter (fun s => svb s && negb (positive D (i, j) s)) (idx_class D (i, j)) = of_class j.
Proof.
  intro Ne. unfold idx_class, of_class, positive. rewrite filter_filter. apply filter_ext. intro s. cbn [fst snd].
  destruct (svb s), (Nat.eqb_spec (label D s) i), (Nat.eqb_spec (label D s) j); simpl; auto; congruence.
Qed.

Let W := fill_all D al svb (starting (per_class st)) (fun _ => 0) (pairs (classes D)).

Lemma writes_in r k v : In (r, k, v) W <->
  exists c o q s, c < classes D /\ o < classes D /\ c <> o /\ nth_error (of_class c) q = Some s /\
    r = row_of c o /\ k = starting (per_class st) c + q /\ v = against al c o s.
Proof.
  unfold W. rewrite all_in by (intros; apply pair_ne; auto). split.
  - intros (l1 & [i j] & l2 & E & H). destruct (rows_before _ _ _ _ _ E) as (R & R1 & R2).
    cbn [fst snd] in H. rewrite R1, R2 in H. apply pair_in in H.
    rewrite class_pos, class_neg in H by lia.
    destruct H as [(q & s & N & A & B & X)|(q & s & N & A & B & X)].
    + exists i, j, q, s. repeat split; auto; try lia.
      * unfold row_of. destruct (Nat.ltb_spec j i); lia.
      * unfold against. destruct (Nat.ltb_spec i j); [exact X|lia].
    + exists j, i, q, s. repeat split; auto; try lia.
      * unfold row_of. destruct (Nat.ltb_spec i j); lia.
      * unfold against. destruct (Nat.ltb_spec j i); [lia|exact X].
  - intros (c & o & q & s & Hc & Ho & Ne & N & A & B & X).
    assert (Dd : c < o \/ o < c) by lia. destruct Dd as [Dd|Dd].
    + destruct (before_pair (classes D) c o ltac:(lia)) as (l1 & l2 & E & _).
      exists l1, (c, o), l2. split; [exact E|]. destruct (rows_before _ _ _ _ _ E) as (R & R1 & R2).
      cbn [fst snd]. rewrite R1, R2. apply pair_in. rewrite class_pos, class_neg by lia. left.
      exists q, s. repeat split; auto.
      * rewrite A. unfold row_of. destruct (Nat.ltb_spec o c); lia.
      * rewrite X. unfold against. destruct (Nat.ltb_spec c o); [reflexivity|lia].
    + destruct (before_pair (classes D) o c ltac:(lia)) as (l1 & l2 & E & _).
      exists l1, (o, c), l2. split; [exact E|]. destruct (rows_before _ _ _ _ _ E) as (R & R1 & R2).
      cbn [fst snd]. rewrite R1, R2. apply pair_in. rewrite class_pos, class_neg by lia. right.
      exists q, s. repeat split; auto.
      * rewrite A. unfold row_of. destruct (Nat.ltb_spec o c); lia.
      * rewrite X. unfold against. destruct (Nat.ltb_spec c o); [lia|reflexivity].
Qed.

Lemma row_inj c o o' : c <> o -> c <> o' -> row_of c o = row_of c o' -> o = o'.
Proof.
  unfold row_of. intros A B E. destruct (Nat.ltb_spec o c), (Nat.ltb_spec o' c); lia.
Qed.
Lemma row_bound c o : c < classes D -> o < classes D -> c <> o -> row_of c o < classes D - 1.
Proof. unfold row_of. intros. destruct (Nat.ltb_spec o c); lia. Qed.
Lemma col_bound c q s : c < classes D -> nth_error (of_class c) q = Some s ->
  starting (per_class st) c + q < length (marked st).
Proof.
  intros Hc N. assert (q < per_class st c).
  { rewrite per_class_length. apply nth_error_Some. congruence. }
  rewrite total. pose proof (starting_le (per_class st) (S c) (classes D) Hc). rewrite starting_S in H0. lia.
Qed.

Lemma coefficient_holds c o q s : c < classes D -> o < classes D -> c <> o ->
  nth_error (of_class c) q = Some s ->
  holds W (row_of c o, starting (per_class st) c + q) (against al c o s).
Proof.
  intros Hc Ho Ne N. split.
  - apply writes_in. exists c, o, q, s. repeat split; auto.
  - intros v H. apply writes_in in H. destruct H as (c' & o' & q' & s' & Hc' & Ho' & Ne' & N' & R & K & ->).
    assert (Q : q < per_class st c) by (rewrite per_class_length; apply nth_error_Some; congruence).
    assert (Q' : q' < per_class st c') by (rewrite per_class_length; apply nth_error_Some; congruence).
    destruct (column_unique _ _ _ _ _ Q Q' K) as [<- <-].
    apply row_inj in R; auto. subst o'. rewrite N in N'. injection N' as <-. reflexivity.
Qed.

Let I := fill_indexes D svb (starting (per_class st)) (seq 0 (samples D)).
Lemma index_in k s : In (k, s) I <->
  exists q, nth_error (of_class (label D s)) q = Some s /\ k = starting (per_class st) (label D s) + q.
Proof. unfold I. apply indexes_in. Qed.
Lemma of_class_label c q s : nth_error (of_class c) q = Some s -> label D s = c /\ s < samples D.
Proof.
  intro H. apply nth_error_In in H. apply of_class_supporting in H. destruct H as [[A _] B]. auto.
Qed.
Lemma index_holds c q s : nth_error (of_class c) q = Some s ->
  holds I (starting (per_class st) c + q) s.
Proof.
  intro N. destruct (of_class_label _ _ _ N) as [L _]. subst c. split.
  - apply index_in. exists q. auto.
  - intros s' H. apply index_in in H. destruct H as (q' & N' & K).
    assert (Q : q < per_class st (label D s)) by (rewrite per_class_length; apply nth_error_Some; congruence).
    assert (Q' : q' < per_class st (label D s')) by (rewrite per_class_length; apply nth_error_Some; congruence).
    destruct (column_unique _ _ _ _ _ Q Q' K) as [E <-]. rewrite <- E in N'. congruence.
Qed.
Lemma index_bound k s : In (k, s) I -> k < length (marked st).
Proof.
  intro H. apply index_in in H. destruct H as (q & N & ->). apply col_bound with s; [|exact N].
  apply Lok. apply (of_class_label _ _ _ N).
Qed.
Lemma coefficient_bound r k v : In (r, k, v) W -> r < classes D - 1 /\ k < length (marked st).
Proof.
  intro H. apply writes_in in H. destruct H as (c & o & q & s & Hc & Ho & Ne & N & -> & -> & _).
  split; [apply row_bound; auto|apply col_bound with s; auto].
Qed.
End Fresh.

Lemma starting_column (sup : nat -> list nat) per c : (forall k, per k = length (sup k)) ->
  starting per c = column_of sup c 0.
Proof.
  intro H. unfold starting, column_of. rewrite Nat.add_0_r. generalize (seq 0 c). intro l.
  induction l as [|k l IH]; simpl; [reflexivity|]. rewrite app_length, IH, H. reflexivity.
Qed.
Lemma column_shift sup c q : column_of sup c q = column_of sup c 0 + q.
Proof. unfold column_of. lia. Qed.

Lemma first_binary D meps al :
  (forall s, s < samples D -> label D s = 0 \/ label D s = 1) ->
  count_of D meps al 0 (fst (fst (binary_counts D meps al ([], [])))) /\
  count_of D meps al 1 (snd (fst (binary_counts D meps al ([], [])))).
Proof.
  intro L. unfold binary_counts. cbn [fst snd]. split.
  - eexists. split; [|split; [reflexivity|]].
    + unfold set_sv, idx_class. cbn [fst snd]. rewrite grow_fresh. repeat apply NoDup_filter. apply seq_NoDup.
    + intro s. apply (sets_snd D meps (fun _ => al) (1, 0) s). simpl. discriminate.
  - eexists. split; [|split; [reflexivity|]].
    + unfold set_sv, idx_class. cbn [fst snd]. rewrite grow_fresh. repeat apply NoDup_filter. apply seq_NoDup.
    + intro s. apply (sets_fst D meps (fun _ => al) (1, 0) s).
Qed.

Lemma kept_entry cm X nrow ldx s j : s < nrow -> (cm = true -> ldx = nrow) ->
  support_vector cm X nrow ldx s j = entry cm X ldx s j.
Proof.
  intros H E. unfold support_vector, kept_matrix, entry. destruct cm.
  - rewrite E; reflexivity.
  - rewrite Nat.mod_add, Nat.mod_small, Nat.div_add, Nat.div_small by lia. reflexivity.
Qed.
