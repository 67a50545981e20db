(** The label of one sample: the kernels. *)
From Coq Require Import ZArith Reals List Bool Lia Lra Arith.
From Flocq Require Import Core BinarySingleNaN.
From Verif Require Import Base Par F64 FloatOrder UtilModel NnModel KmModel KmSpec.
Import ListNotations.
Local Open Scope nat_scope.

Lemma nth_map_in {A B} (f : A -> B) (l : list A) d d' i : i < length l -> nth i (map f l) d' = f (nth i l d).
Proof. intros H. rewrite (nth_indep _ d' (f d)) by (rewrite map_length; auto). apply map_nth. Qed.

Lemma skipn_next {A} (l : list A) : forall j x r, skipn j l = x :: r -> skipn (S j) l = r.
Proof.
  induction l as [|y l IH]; intros [|j] x r E; cbn in E; try discriminate.
  - injection E as -> ->. reflexivity.
  - cbn [skipn]. apply (IH j x r). auto.
Qed.

Lemma smallest_unique w vals r r' : w <> 0 -> smallest_in_lanes w vals r -> smallest_in_lanes w vals r' -> r = r'.
Proof.
  intros W [L H] [L' H']. specialize (H _ L'). specialize (H' _ L).
  destruct H as [H|[E [M|[M O]]]], H' as [H'|[E' [M'|[M' O']]]]; try lra; lia.
Qed.

Section K.
Context {T : Type} (N : arith T) (ltb : T -> T -> bool).
Variables (G : T -> Prop) (K : T -> R).
Hypothesis ltb_K : forall x y, G x -> G y -> (ltb x y = true <-> (K x < K y)%R).

Lemma ltb_K_false x y : G x -> G y -> ltb x y = false -> (K y <= K x)%R.
Proof. intros Gx Gy E. destruct (Rle_dec (K y) (K x)); auto. assert (ltb x y = true) by (apply ltb_K; auto; lra). congruence. Qed.

(** ** pick *)
Lemma before_true w i j : before w i j = true <-> i mod w < j mod w \/ i mod w = j mod w /\ i < j.
Proof. unfold before. rewrite orb_true_iff, andb_true_iff, !Nat.ltb_lt, Nat.eqb_eq. tauto. Qed.

Definition good_list (vals : list T) : Prop := forall x, In x vals -> G x.

Lemma pick_smallest w vals : w <> 0 -> vals <> [] -> good_list vals -> smallest_in_lanes w (map K vals) (pick N ltb w vals).
Proof.
  intros W NE GL. unfold pick.
  set (f := fun best j => if better N ltb w vals j best then j else best).
  set (P := fun m r => r < m /\ forall j, j < m ->
       ((K (nth r vals (zero N)) < K (nth j vals (zero N)))%R \/
        K (nth r vals (zero N)) = K (nth j vals (zero N)) /\ (r mod w < j mod w \/ r mod w = j mod w /\ r <= j))).
  assert (Hs : forall m, m < length vals -> P (S m) (fold_left f (seq 1 m) 0)).
  { induction m as [|m IH]; intros Hm.
    - cbn. split; [lia|]. intros j Hj. assert (j = 0) by lia. subst. right. split; auto.
    - rewrite seq_S, fold_left_app. cbn [fold_left]. specialize (IH ltac:(lia)).
      set (b := fold_left f (seq 1 m) 0) in *. destruct IH as [Lb Hb]. unfold f.
      replace (1 + m) with (S m) by lia.
      assert (Gb : G (nth b vals (zero N))) by (apply GL, nth_In; lia).
      assert (Gm : G (nth (S m) vals (zero N))) by (apply GL, nth_In; lia).
      unfold better. destruct (ltb (nth (S m) vals (zero N)) (nth b vals (zero N))) eqn:E1; cbn [orb].
      + apply ltb_K in E1; auto. split; [lia|]. intros j Hj. destruct (Nat.eq_dec j (S m)) as [->|J].
        * right. split; auto.
        * specialize (Hb j ltac:(lia)). left. destruct Hb as [Hb|[Hb _]]; lra.
      + apply ltb_K_false in E1; auto. destruct (ltb (nth b vals (zero N)) (nth (S m) vals (zero N))) eqn:E2; cbn [negb andb].
        * apply ltb_K in E2; auto. split; [lia|]. intros j Hj. destruct (Nat.eq_dec j (S m)) as [->|J]; auto.
          apply Hb. lia.
        * apply ltb_K_false in E2; auto. destruct (before w (S m) b) eqn:B.
          -- apply before_true in B. split; [lia|]. intros j Hj. destruct (Nat.eq_dec j (S m)) as [->|J].
             ++ right. split; auto.
             ++ specialize (Hb j ltac:(lia)). destruct Hb as [Hb|[Hb Ho]]; [left; lra|]. right. split; [lra|]. lia.
          -- assert (B' : ~ (S m mod w < b mod w \/ S m mod w = b mod w /\ S m < b)).
             { rewrite <- before_true, B. discriminate. }
             split; [lia|]. intros j Hj. destruct (Nat.eq_dec j (S m)) as [->|J]; [|apply Hb; lia].
             right. split; [lra|]. lia. }
  assert (Lv : 0 < length vals) by (destruct vals; cbn; [congruence|lia]).
  specialize (Hs (length vals - 1) ltac:(lia)). replace (S (length vals - 1)) with (length vals) in Hs by lia.
  destruct Hs as [L H]. split; [rewrite map_length; auto|]. intros j Hj. rewrite map_length in Hj.
  rewrite !(nth_map_in K vals (zero N)) by auto. auto.
Qed.

(** ** the scalar kernel *)
Lemma scan_min_inv vals : good_list vals -> forall rest j label s,
  skipn j vals = rest -> label < j -> j <= length vals -> nth label vals (zero N) = s ->
  (forall i, i < j -> (K s < K (nth i vals (zero N)))%R \/ K s = K (nth i vals (zero N)) /\ label <= i) ->
  let r := scan_min ltb rest j label s in
  r < length vals /\
  forall i, i < length vals ->
    (K (nth r vals (zero N)) < K (nth i vals (zero N)))%R \/ K (nth r vals (zero N)) = K (nth i vals (zero N)) /\ r <= i.
Proof.
  intros GL. induction rest as [|x rest IH]; intros j label s E L J Es H; cbn [scan_min].
  - assert (length vals <= j). { pose proof (skipn_length j vals) as Q. rewrite E in Q. cbn in Q. lia. }
    assert (length vals = j) by lia. subst. split; [lia|]. auto.
  - assert (J' : j < length vals). { pose proof (skipn_length j vals) as Q. rewrite E in Q. cbn in Q. lia. }
    assert (X : nth j vals (zero N) = x).
    { rewrite <- (firstn_skipn j vals) at 1. rewrite app_nth2; rewrite firstn_length_le by lia; auto.
      rewrite Nat.sub_diag, E. reflexivity. }
    assert (E' : skipn (S j) vals = rest).
    { apply (skipn_next vals j x). auto. }
    assert (Gx : G x) by (rewrite <- X; apply GL, nth_In; auto).
    assert (Gs : G s) by (rewrite <- Es; apply GL, nth_In; lia).
    destruct (ltb x s) eqn:B.
    + apply ltb_K in B; auto. apply IH; auto. intros i Hi. destruct (Nat.eq_dec i j) as [->|].
      * right. rewrite X. auto.
      * destruct (H i ltac:(lia)) as [|[]]; left; lra.
    + apply ltb_K_false in B; auto. apply IH; auto. intros i Hi. destruct (Nat.eq_dec i j) as [->|].
      * rewrite X. destruct (Req_dec (K s) (K x)); [right; split; auto; lia|left; lra].
      * apply H. lia.
Qed.

Lemma kernel_scalar_pick vals : vals <> [] -> good_list vals -> kernel_scalar ltb vals = Some (pick N ltb 1 vals).
Proof.
  intros NE GL. pose proof (pick_smallest 1 vals ltac:(auto) NE GL) as P.
  destruct vals as [|x vals]; [congruence|]. cbn [kernel_scalar]. f_equal.
  apply (smallest_unique 1 (map K (x :: vals))); auto.
  destruct (scan_min_inv (x :: vals) GL vals 1 0 x) as [L H]; auto; cbn [length]; try lia.
  { intros i Hi. assert (i = 0) by lia. subst. right. auto. }
  cbv zeta in *. split; [rewrite map_length; auto|]. intros j Hj. rewrite map_length in Hj.
  rewrite !(nth_map_in K (x :: vals) (zero N)) by auto. rewrite !Nat.mod_1_r. destruct (H j Hj) as [|[]]; auto.
Qed.

(** the label is a cluster, whatever the values are *)
Lemma scan_min_range vals : forall j label s, label < j -> scan_min ltb vals j label s < j + length vals.
Proof.
  induction vals as [|x vals IH]; intros j label s H; cbn [scan_min length]; [lia|].
  destruct (ltb x s).
  - specialize (IH (S j) j x ltac:(lia)). lia.
  - specialize (IH (S j) label s ltac:(lia)). lia.
Qed.
Lemma kernel_scalar_range vals : vals <> [] -> exists r, kernel_scalar ltb vals = Some r /\ r < length vals.
Proof.
  destruct vals as [|x vals]; [congruence|]. intros _. eexists. split; [reflexivity|].
  pose proof (scan_min_range vals 1 0 x ltac:(lia)). cbn [length]. lia.
Qed.

(** ** the vector kernels *)
Section Vector.
Variables (w k : nat) (vals : list T).     (* [vals]: with padding *)
Hypothesis w_pos : w <> 0.
Hypothesis k_pos : k <> 0.
Hypothesis length_vals : length vals = k + w.
Notation v j := (nth j vals (zero N)).
Hypothesis pad_never : forall j y, k <= j -> j < k + w -> ltb (v j) y = false.

Definition lane_at (lanes : list (T * nat)) (l : nat) : T * nat := nth l lanes (zero N, 0).

Lemma load_ok j : j <= k -> exists tmp, load vals j w = Some tmp /\ length tmp = w /\
  forall l, l < w -> nth l tmp (zero N) = v (j + l).
Proof.
  intros J. unfold load. rewrite length_vals. rewrite (proj2 (Nat.leb_le _ _)) by lia.
  eexists. split; [reflexivity|]. split.
  - rewrite firstn_length, skipn_length. lia.
  - intros l L. rewrite <- (firstn_skipn j vals) at 2.
    rewrite app_nth2; rewrite firstn_length_le by lia; [|lia]. replace (j + l - j) with l by lia.
    rewrite <- (firstn_skipn w (skipn j vals)) at 2. rewrite app_nth1; auto. rewrite firstn_length, skipn_length. lia.
Qed.

Lemma vector_step_at j lanes tmp l : length lanes = w -> length tmp = w -> l < w ->
  lane_at (vector_step ltb j lanes tmp) l = lane_step ltb j (lane_at lanes l) (nth l tmp (zero N)) l.
Proof.
  intros L1 L2 L. unfold lane_at, vector_step.
  rewrite (nth_map_in _ _ ((zero N, 0), zero N, 0)).
  2:{ rewrite !combine_length, seq_length. lia. }
  rewrite combine_nth by (rewrite combine_length, seq_length; lia). cbn [fst snd].
  rewrite combine_nth by lia. rewrite seq_nth by lia. cbn [fst snd]. f_equal.
Qed.
Lemma vector_step_length j lanes tmp : length lanes = w -> length tmp = w -> length (vector_step ltb j lanes tmp) = w.
Proof. intros L1 L2. unfold vector_step. rewrite map_length, !combine_length, seq_length. lia. Qed.

(** generic induction over the loop *)
Lemma vector_loop_inv (I : nat -> list (T * nat) -> Prop) :
  (forall j lanes tmp, I j lanes -> j < k -> length tmp = w -> (forall l, l < w -> nth l tmp (zero N) = v (j + l)) ->
     I (j + w) (vector_step ltb j lanes tmp)) ->
  forall fuel j lanes, I j lanes -> k <= j + fuel * w ->
  exists j' lanes', vector_loop ltb fuel w k vals j lanes = Some lanes' /\ k <= j' /\ I j' lanes'.
Proof.
  intros Step. induction fuel as [|fuel IH]; intros j lanes Ij F; cbn [vector_loop].
  - exists j, lanes. repeat split; auto; lia.
  - destruct (Nat.ltb_spec j k) as [J|J].
    + destruct (load_ok j ltac:(lia)) as [tmp [E [L V]]]. rewrite E. cbn [bind]. apply IH.
      * apply Step; auto.
      * cbn [Nat.mul] in F. lia.
    + exists j, lanes. repeat split; auto.
Qed.

(** label in range, whatever the values are *)
Definition never (d : T) : Prop := forall y, ltb d y = false.
Definition range_inv (j : nat) (lanes : list (T * nat)) : Prop :=
  w <= j /\ length lanes = w /\
  forall l, l < w -> snd (lane_at lanes l) < k \/ k <= l /\ never (fst (lane_at lanes l)).

Lemma first_lanes tmp l : length tmp = w -> l < w -> lane_at (combine tmp (seq 0 w)) l = (nth l tmp (zero N), l).
Proof. intros L H. unfold lane_at. rewrite combine_nth by (rewrite seq_length; auto). rewrite seq_nth by auto. reflexivity. Qed.

Lemma range_first tmp : length tmp = w -> (forall l, l < w -> nth l tmp (zero N) = v (0 + l)) -> range_inv w (combine tmp (seq 0 w)).
Proof.
  intros L V. split; [lia|]. split; [rewrite combine_length, seq_length; lia|]. intros l Hl.
  rewrite first_lanes by auto. cbn [fst snd]. destruct (Nat.ltb_spec l k); auto. right. split; auto.
  intros y. rewrite V by auto. apply pad_never; lia.
Qed.

Lemma range_step j lanes tmp : range_inv j lanes -> j < k -> length tmp = w -> (forall l, l < w -> nth l tmp (zero N) = v (j + l)) ->
  range_inv (j + w) (vector_step ltb j lanes tmp).
Proof.
  intros [Wj [L I]] J Lt V. split; [lia|]. split; [apply vector_step_length; auto|].
  intros l Hl. rewrite vector_step_at by auto. unfold lane_step. cbn [fst snd]. rewrite V by auto.
  specialize (I l Hl). destruct (Nat.ltb_spec (j + l) k) as [B|B].
  - destruct (ltb (v (j + l)) (fst (lane_at lanes l))); [left; auto|]. left. destruct I as [|[]]; lia.
  - rewrite pad_never by lia. destruct I as [I|[I1 I2]]; auto. right. split; auto. unfold min_pd.
    destruct (ltb (fst (lane_at lanes l)) (v (j + l))); auto. intros y. apply pad_never; lia.
Qed.

Lemma reduce_range lanes : (forall x, In x lanes -> snd x < k \/ never (fst x)) -> forall lab s, lab < k -> reduce_lanes ltb lanes lab s < k.
Proof.
  induction lanes as [|[d l] lanes IH]; intros H lab s L; cbn [reduce_lanes]; auto.
  destruct (ltb d s) eqn:B.
  - apply IH; [intros; apply H; right; auto|]. destruct (H (d, l) ltac:(left; auto)) as [|Q]; auto. cbn in Q. rewrite Q in B. discriminate.
  - apply IH; auto. intros; apply H; right; auto.
Qed.

Lemma kernel_vector_range : exists r, kernel_vector ltb w k vals = Some r /\ r < k.
Proof.
  unfold kernel_vector. destruct (load_ok 0 ltac:(lia)) as [tmp [E [L V]]]. rewrite E. cbn [bind].
  destruct (vector_loop_inv range_inv range_step k w _ (range_first tmp L V)) as [j' [lanes [E2 [J [_ [Ll I]]]]]]; [nia|].
  rewrite E2. cbn [bind]. destruct lanes as [|[d l] lanes]; [cbn in Ll; lia|].
  eexists. split; [reflexivity|]. apply reduce_range.
  - intros x Hx. destruct (In_nth lanes x (zero N, 0) Hx) as [i [Hi Ei]].
    specialize (I (S i) ltac:(cbn in Ll; lia)). unfold lane_at in I. cbn [nth] in I. rewrite Ei in I. destruct I as [|[]]; auto.
  - specialize (I 0 ltac:(lia)). cbn in I. destruct I as [|[]]; auto. lia.
Qed.

(** without NaN: the first smallest value lane by lane *)
Hypothesis GL : forall j, j < k + w -> G (v j).
Definition best_inv (j : nat) (lanes : list (T * nat)) : Prop :=
  w <= j /\ j mod w = 0 /\ j <= k + w /\ length lanes = w /\
  forall l, l < w -> G (fst (lane_at lanes l)) /\ snd (lane_at lanes l) < j /\ snd (lane_at lanes l) mod w = l /\
    K (fst (lane_at lanes l)) = K (v (snd (lane_at lanes l))) /\
    forall i, i < j -> i < k + w -> i mod w = l ->
      (K (fst (lane_at lanes l)) < K (v i))%R \/ K (fst (lane_at lanes l)) = K (v i) /\ snd (lane_at lanes l) <= i.

Lemma best_first tmp : length tmp = w -> (forall l, l < w -> nth l tmp (zero N) = v (0 + l)) -> best_inv w (combine tmp (seq 0 w)).
Proof.
  intros L V. split; [lia|]. split; [apply Nat.mod_same; auto|]. split; [lia|].
  split; [rewrite combine_length, seq_length; lia|]. intros l Hl.
  rewrite first_lanes by auto. cbn [fst snd]. rewrite V by auto. cbn [Nat.add].
  split; [apply GL; lia|]. split; auto. split; [apply Nat.mod_small; auto|]. split; auto.
  intros i Hi _ Hm. rewrite Nat.mod_small in Hm by auto. subst. right. auto.
Qed.

Lemma best_step j lanes tmp : best_inv j lanes -> j < k -> length tmp = w -> (forall l, l < w -> nth l tmp (zero N) = v (j + l)) ->
  best_inv (j + w) (vector_step ltb j lanes tmp).
Proof.
  intros [Wj [M [_ [L I]]]] J Lt V. split; [lia|].
  split. { rewrite <- Nat.add_mod_idemp_r, Nat.mod_same, Nat.add_0_r by auto. auto. }
  split; [lia|]. split; [apply vector_step_length; auto|].
  intros l Hl. rewrite vector_step_at by auto. unfold lane_step. cbn [fst snd]. rewrite V by auto.
  destruct (I l Hl) as [G1 [L1 [M1 [K1 H1]]]]. set (d := fst (lane_at lanes l)) in *. set (lab := snd (lane_at lanes l)) in *.
  assert (Gj : G (v (j + l))) by (apply GL; lia).
  assert (Mj : (j + l) mod w = l).
  { rewrite <- Nat.add_mod_idemp_l, M by auto. cbn. apply Nat.mod_small; auto. }
  assert (Only : forall i, j <= i -> i < j + w -> i mod w = l -> i = j + l).
  { intros i A B C. assert (Ei : i = j + (i - j)) by lia. rewrite Ei in C.
    rewrite <- Nat.add_mod_idemp_l, M in C by auto. cbn in C. rewrite Nat.mod_small in C by lia. lia. }
  unfold min_pd. destruct (ltb (v (j + l)) d) eqn:B.
  - apply ltb_K in B; auto. assert (B' : ltb d (v (j + l)) = false).
    { destruct (ltb d (v (j + l))) eqn:B'; auto. apply ltb_K in B'; auto. lra. }
    rewrite B'. repeat split; auto; try lia.
    intros i Hi Hk Hm. destruct (Nat.ltb_spec i j) as [Q|Q].
    + left. destruct (H1 i Q Hk Hm) as [|[]]; lra.
    + rewrite (Only i) by auto. right. auto.
  - apply ltb_K_false in B; auto. destruct (ltb d (v (j + l))) eqn:B'.
    + apply ltb_K in B'; auto. repeat split; auto; try lia.
      intros i Hi Hk Hm. destruct (Nat.ltb_spec i j) as [Q|Q]; [apply H1; auto|]. rewrite (Only i) by auto. auto.
    + apply ltb_K_false in B'; auto. repeat split; auto; try lia; [lra|].
      intros i Hi Hk Hm. destruct (Nat.ltb_spec i j) as [Q|Q].
      * destruct (H1 i Q Hk Hm) as [|[]]; [left; lra|right; split; [lra|auto]].
      * rewrite (Only i) by auto. right. split; auto. lia.
Qed.

Lemma reduce_best lanes : forall lab s p,
  G s -> K s = K (v lab) -> lab mod w = p ->
  (forall i, i < length lanes -> let x := lane_at lanes i in G (fst x) /\ K (fst x) = K (v (snd x)) /\ p < snd x mod w /\
     (forall i', i' < i -> snd (lane_at lanes i') mod w < snd x mod w)) ->
  let r := reduce_lanes ltb lanes lab s in
  ((K (v r) < K s)%R \/ r = lab) /\
  (forall x, In x lanes -> (K (v r) < K (fst x))%R \/ K (v r) = K (fst x) /\ (r = snd x \/ r mod w < snd x mod w)) /\
  (r = lab \/ exists x, In x lanes /\ r = snd x).
Proof.
  induction lanes as [|[d l] lanes IH]; intros lab s p Gs Ks Mp H; cbn [reduce_lanes].
  { cbv zeta. split; auto. split; auto. intros x []. }
  destruct (H 0 ltac:(cbn; lia)) as [G1 [K1 [P1 _]]]. cbn in G1, K1, P1.
  assert (Tail : forall i, i < length lanes -> let x := lane_at lanes i in
     G (fst x) /\ K (fst x) = K (v (snd x)) /\ l mod w < snd x mod w /\ p < snd x mod w /\
     forall i', i' < i -> snd (lane_at lanes i') mod w < snd x mod w).
  { intros i Hi. destruct (H (S i) ltac:(cbn; lia)) as [A [B [C D]]]. cbv zeta in *. unfold lane_at in *. cbn [nth] in *.
    repeat split; auto.
    - apply (D 0). lia.
    - intros i' Hi'. apply (D (S i')). lia. }
  destruct (ltb d s) eqn:B.
  - apply ltb_K in B; auto. destruct (IH l d (l mod w) G1 K1 eq_refl) as [R1 [R2 R3]].
    { intros i Hi. destruct (Tail i Hi) as [? [? [? [? ?]]]]. auto. }
    cbv zeta in *. set (r := reduce_lanes ltb lanes l d) in *.
    split; [left; destruct R1 as [|R1]; [lra|rewrite R1; lra]|]. split.
    + intros x [<-|Hx]; [|apply R2; auto]. cbn [fst snd]. destruct R1 as [|R1]; [left; lra|].
      right. rewrite R1. auto.
    + right. destruct R3 as [R3|[x [Hx R3]]]; [exists (d, l); split; [left|]; auto|exists x; split; [right|]; auto].
  - apply ltb_K_false in B; auto. destruct (IH lab s p Gs Ks Mp) as [R1 [R2 R3]].
    { intros i Hi. destruct (Tail i Hi) as [? [? [? [? ?]]]]. auto. }
    cbv zeta in *. set (r := reduce_lanes ltb lanes lab s) in *.
    split; auto. split.
    + intros x [<-|Hx]; [|apply R2; auto]. cbn [fst snd]. destruct R1 as [|R1]; [left; lra|].
      rewrite R1, <- Ks. destruct (Req_dec (K s) (K d)); [|left; lra]. right. split; auto. right. lia.
    + destruct R3 as [R3|[x [Hx R3]]]; auto. right. exists x. split; [right|]; auto.
Qed.

Lemma kernel_vector_smallest : exists r, kernel_vector ltb w k vals = Some r /\
  forall j, j < k -> (K (v r) < K (v j))%R \/ K (v r) = K (v j) /\ (r mod w < j mod w \/ r mod w = j mod w /\ r <= j).
Proof.
  unfold kernel_vector. destruct (load_ok 0 ltac:(lia)) as [tmp [E [L V]]]. rewrite E. cbn [bind].
  destruct (vector_loop_inv best_inv best_step k w _ (best_first tmp L V)) as [j' [lanes [E2 [J [_ [_ [_ [Ll I]]]]]]]]; [nia|].
  rewrite E2. cbn [bind]. destruct lanes as [|[d l] lanes]; [cbn in Ll; lia|].
  eexists. split; [reflexivity|].
  destruct (I 0 ltac:(lia)) as [G0 [L0 [M0 [K0 H0]]]]. cbn in G0, L0, M0, K0, H0.
  destruct (reduce_best lanes l d (l mod w) G0 K0 eq_refl) as [R1 [R2 R3]].
  { intros i Hi. destruct (I (S i) ltac:(cbn in Ll; lia)) as [A [B [C [D F]]]].
    unfold lane_at in A, B, C, D. cbn [nth] in A, B, C, D. cbv zeta. unfold lane_at. repeat split; auto; [lia|].
    intros i' Hi'. destruct (I (S i') ltac:(cbn in Ll; lia)) as [_ [_ [C' _]]]. unfold lane_at in C'. cbn [nth] in C'. lia. }
  cbv zeta in *. set (r := reduce_lanes ltb lanes l d) in *.
  intros j Hj. assert (Q : j mod w < w) by (apply Nat.mod_upper_bound; auto). remember (j mod w) as q eqn:Eq.
  destruct (I q Q) as [A [B [C [D F]]]]. specialize (F j ltac:(lia) ltac:(lia) (eq_sym Eq)).
  destruct q as [|q].
  - unfold lane_at in F. cbn in F. destruct R1 as [R1|R1].
    + left. destruct F as [|[]]; lra.
    + destruct F as [F|[F Fl]]; [left; rewrite R1, <- K0; lra|]. right. rewrite R1, <- K0. split; auto.
  - unfold lane_at in *. cbn [nth] in *.
    assert (Hin : In (nth q lanes (zero N, 0)) lanes) by (apply nth_In; cbn in Ll; lia).
    destruct (R2 _ Hin) as [R2'|[R2' R2o]].
    + left. destruct F as [|[]]; lra.
    + destruct F as [F|[F Fl]]; [left; lra|]. right. split; [lra|]. destruct R2o as [->|R2o]; [right; lia|left; lia].
Qed.
End Vector.

Theorem kernel_vector_pick w vals pads : w <> 0 -> vals <> [] -> length pads = w ->
  good_list (vals ++ pads) -> (forall x y, In x pads -> ltb x y = false) ->
  kernel_vector ltb w (length vals) (vals ++ pads) = Some (pick N ltb w vals).
Proof.
  intros W NE Lp GL Pn. set (k := length vals). assert (Kp : k <> 0) by (unfold k; destruct vals; cbn; congruence).
  assert (Lv : length (vals ++ pads) = k + w) by (rewrite app_length; lia).
  assert (Pn' : forall j y, k <= j -> j < k + w -> ltb (nth j (vals ++ pads) (zero N)) y = false).
  { intros j y A B. apply Pn. rewrite app_nth2 by (unfold k in A; lia). apply nth_In. unfold k in *. lia. }
  destruct (kernel_vector_range w k (vals ++ pads) W Kp Lv Pn') as [r [E R]].
  destruct (kernel_vector_smallest w k (vals ++ pads) W Kp Lv Pn') as [r' [E' H]].
  { intros j Hj. apply GL, nth_In. lia. }
  assert (r' = r) by congruence. subst r'. rewrite E. f_equal.
  assert (GL' : good_list vals) by (intros x Hx; apply GL, in_or_app; auto).
  apply (smallest_unique w (map K vals)); auto; [|apply pick_smallest; auto].
  split; [rewrite map_length; auto|]. intros j Hj. rewrite map_length in Hj. fold k in Hj.
  rewrite !(nth_map_in K vals (zero N)) by auto. specialize (H j Hj). rewrite !app_nth1 in H by auto. auto.
Qed.
End K.
