(** Proofs about cubic splines. *)
From Coq Require Import QArith Qabs Qround Qfield List Bool Arith Lia Lqa ZArith.
From Verif Require Import SplineModel SplineSpec.
Import ListNotations.
Local Open Scope Q_scope.

Lemma ltb_iff a b : ltb a b = true <-> a < b.
Proof.
  unfold ltb. rewrite negb_true_iff. split; intro H.
  - apply Qnot_le_lt. intro K. apply Qle_bool_iff in K. congruence.
  - destruct (Qle_bool b a) eqn:E; [|reflexivity]. apply Qle_bool_iff in E. lra.
Qed.
Lemma ltb_false a b : ltb a b = false <-> b <= a.
Proof.
  unfold ltb. rewrite negb_false_iff. apply Qle_bool_iff.
Qed.

Ltac dlra := unfold Qdiv in *; change (/ 6) with (1 # 6) in *; change (/ 3) with (1 # 3) in *;
  change (/ 2) with (1 # 2) in *; lra.

(** ** Search *)
Lemma bisect_spec s x fuel l r : (l < r)%nat -> (r - l <= fuel)%nat ->
  exists a, bisect fuel s x l r = (a, S a) /\ (l <= a)%nat /\ (S a <= r)%nat /\
    (a = l \/ s a <= x) /\ (S a = r \/ x < s (S a)).
Proof.
  revert l r. induction fuel as [|f IH]; intros l r H F; [lia|]. cbn [bisect].
  destruct (Nat.ltb_spec 1 (r - l)) as [D|D].
  - assert (M : (l < (l + r) / 2 < r)%nat).
    { pose proof (Nat.div_mod (l + r) 2 ltac:(lia)). pose proof (Nat.mod_upper_bound (l + r) 2 ltac:(lia)). lia. }
    destruct (ltb x (s ((l + r) / 2)%nat)) eqn:E.
    + apply ltb_iff in E. destruct (IH l ((l + r) / 2)%nat) as (a & B & L1 & L2 & P & Q); [lia|lia|].
      exists a. rewrite B. repeat split; auto; try lia. right. destruct Q as [Q|Q]; [rewrite Q; exact E|exact Q].
    + apply ltb_false in E. destruct (IH ((l + r) / 2)%nat r) as (a & B & L1 & L2 & P & Q); [lia|lia|].
      exists a. rewrite B. repeat split; auto; try lia. right. destruct P as [P|P]; [rewrite P; exact E|exact P].
  - exists l. replace r with (S l) by lia. repeat split; auto; lia.
Qed.
Lemma search_spec s x l r : (l < r)%nat ->
  exists a, search s x l r = (a, S a) /\ (l <= a)%nat /\ (S a <= r)%nat /\
    (a = l \/ s a <= x) /\ (S a = r \/ x < s (S a)).
Proof. intro H. apply bisect_spec; auto. Qed.

Lemma of_nat_S i : of_nat (S i) == of_nat i + 1.
Proof. unfold of_nat. rewrite Nat2Z.inj_succ, <- Z.add_1_r, inject_Z_plus. reflexivity. Qed.
Lemma of_nat_pos i : (0 < i)%nat -> 0 < of_nat i.
Proof. intro H. unfold of_nat. change 0 with (inject_Z 0). rewrite <- Zlt_Qlt. lia. Qed.

Lemma floor_bounds q : inject_Z (Qfloor q) <= q /\ q < inject_Z (Qfloor q) + 1.
Proof.
  split; [apply Qfloor_le|]. pose proof (Qlt_floor q) as H. rewrite inject_Z_plus in H. exact H.
Qed.

(* What the clamped index says about the number. *)
Lemma clamp_index q m : let i := Z.to_nat (clamp (truncate q) 0 (Z.of_nat m)) in
  (i <= m)%nat /\ (i = 0%nat \/ of_nat i <= q) /\ (i = m \/ q < of_nat i + 1).
Proof.
  intro i. unfold i, clamp, truncate. clear i. destruct (ltb q 0) eqn:E.
  - apply ltb_iff in E. pose proof (Qfloor_resp_le 0 (- q) ltac:(lra)) as F.
    change (Qfloor 0) with 0%Z in F.
    assert (Z.to_nat (if (- Qfloor (- q) <? 0)%Z then 0%Z else if (Z.of_nat m <? - Qfloor (- q))%Z then Z.of_nat m else (- Qfloor (- q))%Z) = 0%nat) as ->.
    { destruct (Z.ltb_spec (- Qfloor (- q)) 0); [reflexivity|].
      destruct (Z.ltb_spec (Z.of_nat m) (- Qfloor (- q))); lia. }
    split; [lia|]. split; [left; reflexivity|]. right. change (of_nat 0) with 0. lra.
  - apply ltb_false in E. pose proof (Qfloor_resp_le 0 q E) as F. change (Qfloor 0) with 0%Z in F.
    destruct (floor_bounds q) as [B1 B2].
    destruct (Z.ltb_spec (Qfloor q) 0); [lia|].
    destruct (Z.ltb_spec (Z.of_nat m) (Qfloor q)) as [G|G].
    + rewrite Nat2Z.id. split; [lia|]. split; [|left; reflexivity]. right.
      apply Qle_trans with (inject_Z (Qfloor q)); [|exact B1]. unfold of_nat. rewrite <- Zle_Qle. lia.
    + unfold of_nat. rewrite Z2Nat.id by lia. split; [lia|]. split; right; assumption.
Qed.

Section Search.
Variables (n : nat) (s : nat -> Q).
Hypothesis Hn : (2 <= n)%nat.
Hypothesis Inc : increasing n s.

Lemma inc_le i j : (i <= j)%nat -> (j < n)%nat -> s i <= s j.
Proof.
  induction 1 as [|j L IH]; intro B; [lra|]. specialize (Inc j ltac:(lia)). rewrite Nat.add_1_r in Inc.
  specialize (IH ltac:(lia)). lra.
Qed.
Lemma range_pos : 0 < s (n - 1)%nat - s O.
Proof.
  pose proof (Inc O ltac:(lia)) as A. pose proof (inc_le (0 + 1) (n - 1) ltac:(lia) ltac:(lia)). lra.
Qed.
Lemma step_pos : 0 < index_step n s.
Proof.
  unfold index_step. apply Qlt_shift_div_l; [apply of_nat_pos; lia|]. pose proof range_pos. lra.
Qed.
Lemma target_eq i : target n s i == s O + of_nat i * index_step n s.
Proof.
  induction i as [|i IH]; cbn [target].
  - change (of_nat 0) with 0. ring.
  - rewrite IH, of_nat_S. ring.
Qed.
Lemma low_spec i : (low n s i <= n - 2)%nat /\ (low n s i = 0%nat \/ s (low n s i) <= target n s i).
Proof.
  induction i as [|i [L1 L2]]; [split; [simpl; lia|left; reflexivity]|].
  change (low n s (S i)) with (fst (search s (target n s (S i)) (low n s i) (n - 1))).
  destruct (search_spec s (target n s (S i)) (low n s i) (n - 1)) as (a & E & A1 & A2 & A3 & _); [lia|].
  rewrite E. cbn [fst]. split; [lia|]. destruct A3 as [->|A3]; [|right; exact A3].
  destruct L2 as [L2|L2]; [left; exact L2|right]. cbn [target]. pose proof step_pos. lra.
Qed.
Lemma high_spec i : (low n s i < high n s i <= n - 1)%nat /\
  (high n s i = (n - 1)%nat \/ target n s (S i) < s (high n s i)).
Proof.
  unfold high. destruct (low_spec i) as [L1 _].
  destruct (search_spec s (target n s (S i)) (low n s i) (n - 1)) as (a & E & A1 & A2 & _ & A4); [lia|].
  rewrite E. cbn [snd]. split; [lia|exact A4].
Qed.

Lemma scaled x i : of_nat i <= (x - s O) * (of_nat (n - 1) / (s (n - 1)%nat - s O)) -> target n s i <= x.
Proof.
  intro H. rewrite target_eq. unfold index_step. pose proof range_pos as R. pose proof (of_nat_pos (n - 1) ltac:(lia)) as P.
  set (w := s (n - 1)%nat - s O) in *. set (m := of_nat (n - 1)) in *.
  assert (X : of_nat i * (w / m) <= (x - s O) * (m / w) * (w / m)).
  { apply Qmult_le_compat_r; [exact H|]. apply Qlt_le_weak, Qlt_shift_div_l; lra. }
  assert (Y : (x - s O) * (m / w) * (w / m) == x - s O) by (field; split; lra). lra.
Qed.
Lemma scaled_lt x i : (x - s O) * (of_nat (n - 1) / (s (n - 1)%nat - s O)) < of_nat i + 1 -> x < target n s (S i).
Proof.
  intro H. rewrite target_eq, of_nat_S. unfold index_step. pose proof range_pos as R. pose proof (of_nat_pos (n - 1) ltac:(lia)) as P.
  set (w := s (n - 1)%nat - s O) in *. set (m := of_nat (n - 1)) in *.
  assert (X : (x - s O) * (m / w) * (w / m) < (of_nat i + 1) * (w / m)).
  { apply Qmult_lt_compat_r; [|exact H]. apply Qlt_shift_div_l; lra. }
  assert (Y : (x - s O) * (m / w) * (w / m) == x - s O) by (field; split; lra). lra.
Qed.
Lemma target_last : target n s (n - 1) == s (n - 1)%nat.
Proof.
  rewrite target_eq. unfold index_step. pose proof (of_nat_pos (n - 1) ltac:(lia)). field. lra.
Qed.

Lemma cell_right x : right_cell n s x (cell_of n s x).
Proof.
  unfold cell_of. pose proof (clamp_index ((x - s O) * (of_nat (n - 1) / (s (n - 1)%nat - s O))) (n - 1)) as C.
  cbv zeta in C. set (i := Z.to_nat _) in *. destruct C as (C1 & C2 & C3).
  assert (T1 : i = 0%nat \/ target n s i <= x) by (destruct C2; [auto|right; apply scaled; auto]).
  assert (T2 : i = (n - 1)%nat \/ x < target n s (S i)) by (destruct C3; [auto|right; apply scaled_lt; auto]).
  unfold index_lo, index_up. destruct (Nat.ltb_spec i (n - 1)) as [L|L].
  - destruct T2 as [T2|T2]; [lia|].
    destruct (low_spec i) as [L1 L2]. destruct (high_spec i) as [H1 H2].
    destruct (search_spec s x (low n s i) (high n s i)) as (a & E & A1 & A2 & A3 & A4); [lia|].
    rewrite E. cbn [fst]. split; [lia|]. split.
    + intro Pa. destruct A3 as [->|A3]; [|exact A3]. destruct L2 as [L2|L2]; [lia|].
      destruct T1 as [T1|T1]; [|lra]. rewrite T1 in Pa. simpl in Pa. lia.
    + intro Pa. rewrite Nat.add_1_r. destruct A4 as [A4|A4]; [|exact A4]. rewrite A4.
      destruct H2 as [H2|H2]; [lia|lra].
  - assert (i = (n - 1)%nat) as -> by lia. destruct T1 as [T1|T1]; [lia|]. rewrite target_last in T1.
    destruct (search_spec s x (n - 2) (n - 1)) as (a & E & A1 & A2 & _); [lia|].
    rewrite E. cbn [fst]. assert (a = n - 2)%nat as -> by lia. split; [lia|]. split; [|lia].
    intros _. pose proof (inc_le (n - 2) (n - 1) ltac:(lia) ltac:(lia)). lra.
Qed.

Lemma cell_unique x c d : right_cell n s x c -> right_cell n s x d -> c = d.
Proof.
  intros (A1 & A2 & A3) (B1 & B2 & B3). assert (T : (c < d \/ d < c \/ c = d)%nat) by lia.
  destruct T as [T|[T|T]]; [| |exact T]; exfalso.
  - specialize (A3 ltac:(lia)). specialize (B2 ltac:(lia)). pose proof (inc_le (c + 1) d ltac:(lia) ltac:(lia)). lra.
  - specialize (B3 ltac:(lia)). specialize (A2 ltac:(lia)). pose proof (inc_le (d + 1) c ltac:(lia) ltac:(lia)). lra.
Qed.
End Search.

Lemma uniform_cell n a b x : (2 <= n)%nat -> a < b ->
  right_cell n (uniform_site n a b) x (cell_of_uniform n a (uniform_step n a b) x).
Proof.
  intros Hn Hab. unfold cell_of_uniform. pose proof (clamp_index ((x - a) / uniform_step n a b) (n - 2)) as C.
  cbv zeta in C. set (i := Z.to_nat _) in *. destruct C as (C1 & C2 & C3).
  assert (P : 0 < uniform_step n a b).
  { unfold uniform_step. apply Qlt_shift_div_l; [apply of_nat_pos; lia|]. lra. }
  set (st := uniform_step n a b) in *.
  assert (Y : (x - a) / st * st == x - a) by (field; lra).
  unfold right_cell, uniform_site. fold st. split; [lia|]. split.
  - intro H. destruct C2 as [C2|C2]; [lia|].
    assert (of_nat i * st <= (x - a) / st * st) by (apply Qmult_le_compat_r; lra). lra.
  - intro H. destruct C3 as [C3|C3]; [lia|]. rewrite Nat.add_1_r, of_nat_S.
    assert ((x - a) / st * st < (of_nat i + 1) * st) by (apply Qmult_lt_compat_r; lra). lra.
Qed.

(** ** Derivatives *)
Lemma eval_derivatives p : derivatives (fun k => eval k p).
Proof. intros t e. cbn [eval]. field. Qed.

(** ** Splines *)
Section Spline.
Variables (uniform : bool) (k : kind) (n : nat) (s h dy y : nat -> Q).
Hypothesis Hn : (2 <= n)%nat.
Hypothesis Hp : forall i, (i + 1 < n)%nat -> 0 < h i.
Hypothesis Hs : steps n s h.
Hypothesis Hy : steps n y dy.
Hypothesis Hu : uniform = true -> forall i, (i + 1 < n)%nat -> h i == h 0%nat.
Hypothesis Ho : orders_ok k.
Let S := sys uniform k n h dy.

Lemma off_sub i : (i + 2 < n)%nat -> sub S i == h i.
Proof.
  intro H. unfold S, sys. cbn [sub]. destruct (Nat.eqb_spec i (n - 2)); [lia|]. rewrite andb_false_r.
  destruct uniform; [symmetry; apply Hu; [reflexivity|lia]|reflexivity].
Qed.
Lemma off_super i : (0 < i)%nat -> (i + 1 < n)%nat -> super S i == h i.
Proof.
  intros H H'. unfold S, sys. cbn [super]. destruct (Nat.eqb_spec i 0); [lia|]. rewrite andb_false_r.
  destruct uniform; [symmetry; apply Hu; [reflexivity|lia]|reflexivity].
Qed.
Lemma diag_mid i : (0 < i)%nat -> (i + 1 < n)%nat -> diag S i == 2 * (h (i - 1)%nat + h i).
Proof.
  intros H H'. unfold S, sys. cbn [diag]. destruct (Nat.eqb_spec i 0); [lia|].
  destruct (Nat.eqb_spec i (n - 1)); [lia|]. destruct uniform; [|reflexivity].
  rewrite (Hu eq_refl i), (Hu eq_refl (i - 1)%nat) by lia. ring.
Qed.
Lemma rhs_mid i : (0 < i)%nat -> (i + 1 < n)%nat ->
  rhs S i == 6 * dy i / h i - 6 * dy (i - 1)%nat / h (i - 1)%nat.
Proof.
  intros H H'. unfold S, sys. cbn [rhs]. destruct (Nat.eqb_spec i 0); [lia|].
  destruct (Nat.eqb_spec i (n - 1)); [lia|]. reflexivity.
Qed.

(* The equations, as conditions on the second derivatives. *)
Definition inner_ok (z : nat -> Q) : Prop := forall i, (i + 2 < n)%nat ->
  h i * z i + 2 * (h i + h (i + 1)%nat) * z (i + 1)%nat + h (i + 1)%nat * z (i + 2)%nat ==
  6 * dy (i + 1)%nat / h (i + 1)%nat - 6 * dy i / h i.
Definition left_ok (z : nat -> Q) : Prop :=
  match k with
  | natural => z 0%nat == 0
  | clamped => 2 * h 0%nat * z 0%nat + h 0%nat * z 1%nat == 6 * dy 0%nat / h 0%nat
  | custom lo v _ _ =>
    if (lo =? 1)%nat then 2 * h 0%nat * z 0%nat + h 0%nat * z 1%nat == 6 * dy 0%nat / h 0%nat - 6 * v
    else z 0%nat == v
  end.
Definition right_ok (z : nat -> Q) : Prop :=
  let hl := h (n - 2)%nat in
  match k with
  | natural => z (n - 1)%nat == 0
  | clamped => hl * z (n - 2)%nat + 2 * hl * z (n - 1)%nat == -6 * dy (n - 2)%nat / hl
  | custom _ _ ro v =>
    if (ro =? 1)%nat then hl * z (n - 2)%nat + 2 * hl * z (n - 1)%nat == -6 * dy (n - 2)%nat / hl + 6 * v
    else z (n - 1)%nat == v
  end.

Lemma solved_inner z : gtsv_solved uniform k n h dy z -> inner_ok (second k n z).
Proof.
  intros G i Hi. unfold gtsv_solved in G. fold S in G.
  pose proof (off_sub i ltac:(lia)) as F1. pose proof (off_super (i + 1)%nat ltac:(lia) ltac:(lia)) as F2.
  pose proof (diag_mid (i + 1)%nat ltac:(lia) ltac:(lia)) as F3. pose proof (rhs_mid (i + 1)%nat ltac:(lia) ltac:(lia)) as F4.
  replace (i + 1 - 1)%nat with i in F3, F4 by lia.
  rewrite <- F4, <- F3.
  assert (E : h i * second k n z i + diag S (i + 1)%nat * second k n z (i + 1)%nat +
              h (i + 1)%nat * second k n z (i + 2)%nat == rhs S (i + 1)%nat).
  { destruct k eqn:K; cbn [second].
    - specialize (G (i + 1)%nat ltac:(lia)). unfold row in G.
      replace (i + 1 - 1)%nat with i in G by lia. replace (i + 1 + 1)%nat with (i + 2)%nat in G by lia.
      destruct (Nat.eqb_spec (i + 1) 0); [lia|]. destruct (Nat.eqb_spec (i + 1) (n - 1)); [lia|].
      cbn [orb]. destruct (Nat.eqb_spec (i + 1) 1), (Nat.eqb_spec (i + 1) (n - 2)), (Nat.eqb_spec i 0),
        (Nat.eqb_spec (i + 2) (n - 1)), (Nat.eqb_spec i (n - 1)), (Nat.eqb_spec (i + 2) 0); try lia;
        cbn [orb]; rewrite ?F1, ?F2 in G; lra.
    - specialize (G (i + 1)%nat ltac:(lia)). unfold row in G.
      replace (i + 1 - 1)%nat with i in G by lia. replace (i + 1 + 1)%nat with (i + 2)%nat in G by lia.
      destruct (Nat.eqb_spec (i + 1) 0); [lia|]. destruct (Nat.eqb_spec (i + 1) (n - 1)); [lia|].
      rewrite F1, F2 in G. lra.
    - specialize (G (i + 1)%nat ltac:(lia)). unfold row in G.
      replace (i + 1 - 1)%nat with i in G by lia. replace (i + 1 + 1)%nat with (i + 2)%nat in G by lia.
      destruct (Nat.eqb_spec (i + 1) 0); [lia|]. destruct (Nat.eqb_spec (i + 1) (n - 1)); [lia|].
      rewrite F1, F2 in G. lra. }
  exact E.
Qed.

Lemma off_ends : (if uniform then h 0%nat else h 0%nat) = h 0%nat /\
  (if uniform then h 0%nat else h (n - 2)%nat) == h (n - 2)%nat.
Proof. destruct uniform; split; try reflexivity. rewrite (Hu eq_refl (n - 2)%nat) by lia. reflexivity. Qed.

Lemma solved_left z : gtsv_solved uniform k n h dy z -> left_ok (second k n z).
Proof.
  intro G. unfold gtsv_solved in G. unfold left_ok. destruct off_ends as [O1 O2].
  destruct k as [| |lo lv ro rv] eqn:K; cbn [second].
  - reflexivity.
  - specialize (G 0%nat ltac:(lia)). unfold row, sys in G. cbn [sub diag super rhs] in G.
    rewrite Nat.eqb_refl in G. destruct (Nat.eqb_spec 0 (n - 1)); [lia|]. cbn [andb Nat.add] in G.
    rewrite O1 in G. lra.
  - specialize (G 0%nat ltac:(lia)). unfold row, sys in G. cbn [sub diag super rhs] in G.
    rewrite Nat.eqb_refl in G. destruct (Nat.eqb_spec 0 (n - 1)); [lia|]. cbn [Nat.add] in G.
    rewrite O1 in G. destruct Ho as [[->| ->] _]; cbn in G |- *; lra.
Qed.
Lemma solved_right z : gtsv_solved uniform k n h dy z -> right_ok (second k n z).
Proof.
  intro G. unfold gtsv_solved in G. unfold right_ok. destruct off_ends as [O1 O2].
  destruct k as [| |lo lv ro rv] eqn:K; cbn [second].
  - rewrite Nat.eqb_refl, orb_true_r. reflexivity.
  - specialize (G (n - 1)%nat ltac:(lia)). unfold row, sys in G. cbn [sub diag super rhs] in G.
    rewrite Nat.eqb_refl in G. destruct (Nat.eqb_spec (n - 1) 0); [lia|]. cbn [andb] in G.
    replace (n - 1 - 1)%nat with (n - 2)%nat in G by lia. rewrite O2 in G. lra.
  - specialize (G (n - 1)%nat ltac:(lia)). unfold row, sys in G. cbn [sub diag super rhs] in G.
    rewrite Nat.eqb_refl in G. destruct (Nat.eqb_spec (n - 1) 0); [lia|].
    replace (n - 1 - 1)%nat with (n - 2)%nat in G by lia. rewrite Nat.eqb_refl in G.
    destruct Ho as [_ [->| ->]]; cbn [Nat.eqb negb andb] in G |- *; [rewrite O2 in G|]; lra.
Qed.

(* The pieces of second derivatives that meet the equations. *)
Lemma pieces_interpolate z : interpolates n s y (spline_piece h dy y z).
Proof.
  intros i Hi. cbn [spline_piece eval cA cB cC cD]. split; [ring|].
  rewrite <- (Hs i Hi). specialize (Hp i Hi). specialize (Hy i Hi).
  transitivity (y i + dy i); [field; lra|]. rewrite Hy. ring.
Qed.
Lemma pieces_join z : inner_ok z -> joins 1 n s (spline_piece h dy y z) /\ joins 2 n s (spline_piece h dy y z).
Proof.
  intro I. split; intros i Hi; cbn [spline_piece eval cA cB cC cD]; rewrite <- (Hs i) by lia;
    pose proof (Hp i ltac:(lia)) as P; pose proof (Hp (i + 1)%nat ltac:(lia)) as P'.
  - replace (i + 1 + 1)%nat with (i + 2)%nat by lia.
    transitivity (dy i / h i + h i * z i / 6 + h i * z (i + 1)%nat / 3); [field; lra|].
    specialize (I i Hi).
    assert (A : 6 * dy (i + 1)%nat / h (i + 1)%nat == 6 * (dy (i + 1)%nat / h (i + 1)%nat)) by (field; lra).
    assert (B : 6 * dy i / h i == 6 * (dy i / h i)) by (field; lra).
    dlra.
  - field. lra.
Qed.
Lemma end_slopes z : (forall v, 2 * h 0%nat * z 0%nat + h 0%nat * z 1%nat == 6 * dy 0%nat / h 0%nat - 6 * v ->
    left_end 1 (spline_piece h dy y z) v) /\
  (forall v, h (n - 2)%nat * z (n - 2)%nat + 2 * h (n - 2)%nat * z (n - 1)%nat ==
     -6 * dy (n - 2)%nat / h (n - 2)%nat + 6 * v -> right_end 1 n s (spline_piece h dy y z) v).
Proof.
  pose proof (Hp 0%nat ltac:(lia)) as P0. pose proof (Hp (n - 2)%nat ltac:(lia)) as P1. split; intros v H.
  - unfold left_end. cbn [spline_piece eval cA cB cC cD Nat.add].
    assert (A : 6 * dy 0%nat / h 0%nat == 6 * (dy 0%nat / h 0%nat)) by (field; lra). dlra.
  - unfold right_end. pose proof (Hs (n - 2)%nat ltac:(lia)) as X. replace (n - 2 + 1)%nat with (n - 1)%nat in X by lia.
    cbn [spline_piece eval cA cB cC cD]. rewrite <- X. replace (n - 2 + 1)%nat with (n - 1)%nat by lia.
    transitivity (dy (n - 2)%nat / h (n - 2)%nat + h (n - 2)%nat * z (n - 2)%nat / 6 + h (n - 2)%nat * z (n - 1)%nat / 3);
      [field; lra|].
    assert (A : -6 * dy (n - 2)%nat / h (n - 2)%nat == -6 * (dy (n - 2)%nat / h (n - 2)%nat)) by (field; lra).
    dlra.
Qed.
Lemma end_curvatures z :
  left_end 2 (spline_piece h dy y z) (z 0%nat) /\ right_end 2 n s (spline_piece h dy y z) (z (n - 1)%nat).
Proof.
  pose proof (Hp 0%nat ltac:(lia)) as P0. pose proof (Hp (n - 2)%nat ltac:(lia)) as P1. split.
  - unfold left_end. cbn [spline_piece eval cA cB cC cD]. field. simpl. lra.
  - unfold right_end. pose proof (Hs (n - 2)%nat ltac:(lia)) as X. replace (n - 2 + 1)%nat with (n - 1)%nat in X by lia.
    cbn [spline_piece eval cA cB cC cD]. rewrite <- X. replace (n - 2 + 1)%nat with (n - 1)%nat by lia. field. lra.
Qed.
Lemma pieces_boundary z : left_ok z -> right_ok z -> boundary k n s (spline_piece h dy y z).
Proof.
  intros L R. unfold left_ok in L. unfold right_ok in R. cbv zeta in R.
  destruct (end_slopes z) as [E1 E2]. destruct (end_curvatures z) as [F1 F2].
  unfold left_end, right_end in F1, F2. unfold boundary.
  destruct k as [| |lo lv ro rv].
  - split; [unfold left_end|unfold right_end]; [rewrite F1|rewrite F2]; assumption.
  - split; [apply E1|apply E2]; lra.
  - destruct Ho as [[->| ->] [->| ->]]; cbn [Nat.eqb] in L, R;
      (split; [first [apply E1; lra|unfold left_end; rewrite F1; exact L]
              |first [apply E2; lra|unfold right_end; rewrite F2; exact R]]).
Qed.

Lemma solved_spline z : gtsv_solved uniform k n h dy z ->
  is_spline k n s y (spline_piece h dy y (second k n z)).
Proof.
  intro G. destruct (pieces_join (second k n z) (solved_inner z G)) as [J1 J2].
  repeat split; auto; try apply pieces_interpolate; auto.
  apply pieces_boundary; [apply solved_left|apply solved_right]; exact G.
Qed.

(** ** Uniqueness: the matrix is diagonally dominant *)
Definition homogeneous (w : nat -> Q) : Prop :=
  (forall i, (i + 2 < n)%nat ->
     h i * w i + 2 * (h i + h (i + 1)%nat) * w (i + 1)%nat + h (i + 1)%nat * w (i + 2)%nat == 0) /\
  (w 0%nat == 0 \/ 2 * w 0%nat + w 1%nat == 0) /\
  (w (n - 1)%nat == 0 \/ w (n - 2)%nat + 2 * w (n - 1)%nat == 0).

Lemma largest (f : nat -> Q) m : exists i, (i <= m)%nat /\ forall j, (j <= m)%nat -> f j <= f i.
Proof.
  induction m as [|m (i & I & M)].
  - exists 0%nat. split; [lia|]. intros j J. assert (j = 0)%nat as -> by lia. lra.
  - destruct (Qlt_le_dec (f i) (f (Datatypes.S m))) as [L|L].
    + exists (Datatypes.S m). split; [lia|]. intros j J. destruct (Nat.eq_dec j (Datatypes.S m)) as [->|Ne]; [lra|].
      specialize (M j ltac:(lia)). lra.
    + exists i. split; [lia|]. intros j J. destruct (Nat.eq_dec j (Datatypes.S m)) as [->|Ne]; [lra|]. apply M. lia.
Qed.

Lemma one_sided w : homogeneous w -> forall i, (i < n)%nat -> w i <= 0.
Proof.
  intros (A & B & C) i Hi.
  destruct (largest (fun i => Qabs (w i)) (n - 1)) as (m & M & L).
  assert (Z : Qabs (w m) == 0).
  { assert (T : (m = 0 \/ m = n - 1 \/ (0 < m < n - 1))%nat) by lia.
    pose proof (Qabs_nonneg (w m)) as N.
    destruct T as [->|[->|T]].
    - destruct B as [B|B]; [rewrite B; reflexivity|].
      specialize (L 1%nat ltac:(lia)). cbv beta in L. revert L N. apply (Qabs_case (w 0%nat)); apply (Qabs_case (w 1%nat)); intros; lra.
    - destruct C as [C|C]; [rewrite C; reflexivity|].
      specialize (L (n - 2)%nat ltac:(lia)). cbv beta in L. revert L N. apply (Qabs_case (w (n - 1)%nat)); apply (Qabs_case (w (n - 2)%nat)); intros; lra.
    - pose proof (A (m - 1)%nat ltac:(lia)) as E. replace (m - 1 + 1)%nat with m in E by lia.
      replace (m - 1 + 2)%nat with (m + 1)%nat in E by lia.
      pose proof (L (m - 1)%nat ltac:(lia)) as L1. pose proof (L (m + 1)%nat ltac:(lia)) as L2. cbv beta in L1, L2.
      pose proof (Hp (m - 1)%nat ltac:(lia)) as P1. pose proof (Hp m ltac:(lia)) as P2.
      set (a := h (m - 1)%nat) in *. set (b := h m) in *. set (u := w (m - 1)%nat) in *. set (v := w (m + 1)%nat) in *.
      apply Qle_antisym; [|exact N].
      assert (U : - Qabs (w m) <= u <= Qabs (w m)) by (apply Qabs_Qle_condition; exact L1).
      assert (V : - Qabs (w m) <= v <= Qabs (w m)) by (apply Qabs_Qle_condition; exact L2).
      clear L1 L2 L. revert U V N. apply (Qabs_case (w m)); intros; nra. }
  specialize (L i ltac:(lia)). cbv beta in L. rewrite Z in L.
  pose proof (Qle_Qabs (w i)). lra.
Qed.
Lemma homogeneous_zero w : homogeneous w -> forall i, (i < n)%nat -> w i == 0.
Proof.
  intros H i Hi. apply Qle_antisym; [apply one_sided; auto|].
  pose proof (one_sided (fun i => - w i)) as X. cbv beta in X.
  assert (Y : homogeneous (fun i => - w i)).
  { destruct H as (A & B & C). split; [|split].
    - intros j J. specialize (A j J). lra.
    - destruct B; [left|right]; lra.
    - destruct C; [left|right]; lra. }
  specialize (X Y i Hi). lra.
Qed.

Lemma unique_second z z' : inner_ok z -> left_ok z -> right_ok z -> inner_ok z' -> left_ok z' -> right_ok z' ->
  forall i, (i < n)%nat -> z i == z' i.
Proof.
  intros A B C A' B' C' i Hi.
  assert (H : homogeneous (fun i => z i - z' i)).
  { pose proof (Hp 0%nat ltac:(lia)) as P0. pose proof (Hp (n - 2)%nat ltac:(lia)) as P1. split; [|split].
    - intros j J. specialize (A j J). specialize (A' j J). lra.
    - unfold left_ok in B, B'.
      assert (X : 2 * h 0%nat * z 0%nat + h 0%nat * z 1%nat == 2 * h 0%nat * z' 0%nat + h 0%nat * z' 1%nat ->
                  2 * (z 0%nat - z' 0%nat) + (z 1%nat - z' 1%nat) == 0).
      { intro X. assert (Y : h 0%nat * (2 * (z 0%nat - z' 0%nat) + (z 1%nat - z' 1%nat)) == 0) by lra.
        apply Qmult_integral in Y. destruct Y; [lra|assumption]. }
      destruct k as [| |lo ? ? ?]; [left|right|]; [lra|apply X; lra|].
      destruct (lo =? 1)%nat; [right; apply X; lra|left; lra].
    - unfold right_ok in C, C'. cbv zeta in C, C'. set (hl := h (n - 2)%nat) in *.
      assert (X : hl * z (n - 2)%nat + 2 * hl * z (n - 1)%nat == hl * z' (n - 2)%nat + 2 * hl * z' (n - 1)%nat ->
                  (z (n - 2)%nat - z' (n - 2)%nat) + 2 * (z (n - 1)%nat - z' (n - 1)%nat) == 0).
      { intro X. assert (Y : hl * ((z (n - 2)%nat - z' (n - 2)%nat) + 2 * (z (n - 1)%nat - z' (n - 1)%nat)) == 0) by lra.
        apply Qmult_integral in Y. destruct Y; [lra|assumption]. }
      destruct k as [| |? ? ro ?]; [left|right|]; [lra|apply X; lra|].
      destruct (ro =? 1)%nat; [right; apply X; lra|left; lra]. }
  pose proof (homogeneous_zero _ H i Hi) as Z. cbv beta in Z. lra.
Qed.

(** Any spline has second derivatives that meet the equations. *)
Section Other.
Variable p : nat -> piece.
Hypothesis Sp : is_spline k n s y p.
Definition curv (i : nat) : Q :=
  if (i =? n - 1)%nat then eval 2 (p (n - 2)%nat) (h (n - 2)%nat) else eval 2 (p i) 0.
Lemma curv_next i : (i + 1 < n)%nat -> curv (i + 1)%nat == eval 2 (p i) (h i).
Proof.
  intro Hi. destruct Sp as (_ & _ & J & _). unfold curv. destruct (Nat.eqb_spec (i + 1) (n - 1)) as [E|E].
  - replace (n - 2)%nat with i by lia. reflexivity.
  - specialize (J i ltac:(lia)). pose proof (Hs i Hi) as X.
    rewrite <- J. cbn [eval]. rewrite X. ring.
Qed.
Lemma curv_here i : (i + 1 < n)%nat -> curv i == eval 2 (p i) 0.
Proof. intro Hi. unfold curv. destruct (Nat.eqb_spec i (n - 1)); [lia|reflexivity]. Qed.
Lemma other_piece i : (i + 1 < n)%nat ->
  cD (p i) == y i /\ cB (p i) == curv i / 2 /\ cA (p i) == (curv (i + 1)%nat - curv i) / (6 * h i) /\
  cC (p i) == dy i / h i - h i * curv (i + 1)%nat / 6 - h i * curv i / 3.
Proof.
  intro Hi. pose proof (Hp i Hi) as P. destruct Sp as (I & _). destruct (I i Hi) as [I1 I2].
  pose proof (curv_next i Hi) as N. pose proof (curv_here i Hi) as Hh. cbn [eval] in *.
  rewrite <- (Hs i Hi) in I2. pose proof (Hy i Hi) as Y.
  assert (B : cB (p i) == curv i / 2) by (rewrite Hh; field).
  assert (A : cA (p i) == (curv (i + 1)%nat - curv i) / (6 * h i)) by (rewrite N, Hh; field; lra).
  split; [lra|]. split; [exact B|]. split; [exact A|].
  assert (E : h i * cC (p i) == dy i - h i * h i * (cB (p i) + h i * cA (p i))).
  { rewrite Y, <- I2. lra. }
  assert (F : cC (p i) == h i * cC (p i) / h i) by (field; lra). rewrite F, E, B, A. field. lra.
Qed.
Lemma other_slopes i : (i + 1 < n)%nat ->
  eval 1 (p i) 0 == dy i / h i - h i * curv (i + 1)%nat / 6 - h i * curv i / 3 /\
  eval 1 (p i) (h i) == dy i / h i + h i * curv i / 6 + h i * curv (i + 1)%nat / 3.
Proof.
  intro Hi. destruct (other_piece i Hi) as (D & B & A & C). pose proof (Hp i Hi). cbn [eval].
  rewrite A, B, C. split; [ring|field; lra].
Qed.
Lemma other_inner : inner_ok curv.
Proof.
  intros i Hi. destruct (other_slopes i ltac:(lia)) as [_ R]. destruct (other_slopes (i + 1)%nat ltac:(lia)) as [L _].
  destruct Sp as (_ & J & _). specialize (J i Hi). pose proof (Hs i ltac:(lia)) as X.
  assert (E : eval 1 (p i) (h i) == eval 1 (p (i + 1)%nat) 0).
  { rewrite <- J. cbn [eval]. rewrite X. ring. }
  rewrite R, L in E. replace (i + 1 + 1)%nat with (i + 2)%nat in E by lia.
  pose proof (Hp i ltac:(lia)). pose proof (Hp (i + 1)%nat ltac:(lia)).
  assert (A : 6 * dy (i + 1)%nat / h (i + 1)%nat == 6 * (dy (i + 1)%nat / h (i + 1)%nat)) by (field; lra).
  assert (B : 6 * dy i / h i == 6 * (dy i / h i)) by (field; lra).
  dlra.
Qed.
Lemma other_left : left_ok curv.
Proof.
  destruct (other_slopes 0%nat ltac:(lia)) as [L _]. pose proof (curv_here 0%nat ltac:(lia)) as C.
  destruct Sp as (_ & _ & _ & B). unfold boundary in B. unfold left_ok. pose proof (Hp 0%nat ltac:(lia)) as P.
  assert (A : 6 * dy 0%nat / h 0%nat == 6 * (dy 0%nat / h 0%nat)) by (field; lra). cbn [Nat.add] in L.
  destruct k as [| |lo lv ro rv]; destruct B as [B _]; unfold left_end in B.
  - rewrite C. exact B.
  - rewrite L in B. dlra.
  - destruct Ho as [[->| ->] _]; cbn [Nat.eqb]; [rewrite L in B; dlra|rewrite C; exact B].
Qed.
Lemma other_right : right_ok curv.
Proof.
  destruct (other_slopes (n - 2)%nat ltac:(lia)) as [_ R]. pose proof (curv_next (n - 2)%nat ltac:(lia)) as C.
  destruct Sp as (_ & _ & _ & B). unfold boundary in B. unfold right_ok. cbv zeta. pose proof (Hp (n - 2)%nat ltac:(lia)) as P.
  pose proof (Hs (n - 2)%nat ltac:(lia)) as X.
  replace (n - 2 + 1)%nat with (n - 1)%nat in * by lia.
  assert (A : -6 * dy (n - 2)%nat / h (n - 2)%nat == -6 * (dy (n - 2)%nat / h (n - 2)%nat)) by (field; lra).
  assert (Y : forall q, eval q (p (n - 2)%nat) (s (n - 1)%nat - s (n - 2)%nat) == eval q (p (n - 2)%nat) (h (n - 2)%nat)).
  { intro q. destruct q as [|[|[|[|q]]]]; cbn [eval]; rewrite ?X; ring. }
  destruct k as [| |lo lv ro rv]; destruct B as [_ B]; unfold right_end in B; rewrite Y in B.
  - rewrite C. exact B.
  - rewrite R in B. dlra.
  - destruct Ho as [_ [->| ->]]; cbn [Nat.eqb]; [rewrite R in B; dlra|rewrite C; exact B].
Qed.
End Other.

Lemma spline_only z p : gtsv_solved uniform k n h dy z -> is_spline k n s y p ->
  forall i q t, (i + 1 < n)%nat -> eval q (spline_piece h dy y (second k n z) i) t == eval q (p i) t.
Proof.
  intros G Sp i q t Hi.
  assert (U : forall j, (j < n)%nat -> second k n z j == curv p j).
  { apply unique_second; [apply solved_inner, G|apply solved_left, G|apply solved_right, G
      |apply other_inner, Sp|apply other_left, Sp|apply other_right, Sp]. }
  destruct (other_piece p Sp i Hi) as (D & B & A & C).
  pose proof (U i ltac:(lia)) as U1. pose proof (U (i + 1)%nat ltac:(lia)) as U2. pose proof (Hp i Hi).
  destruct q as [|[|[|[|q]]]]; cbn [eval spline_piece cA cB cC cD]; rewrite ?A, ?B, ?C, ?D, ?U1, ?U2; try reflexivity; field; lra.
Qed.
End Spline.

Lemma hermite_ends h dy y yp i : 0 < h i -> dy i == y (i + 1)%nat - y i ->
  let p := hermite_piece h dy y yp i in
  eval 0 p 0 == y i /\ eval 0 p (h i) == y (i + 1)%nat /\
  eval 1 p 0 == yp i /\ eval 1 p (h i) == yp (i + 1)%nat.
Proof.
  intros P D p. unfold p, hermite_piece. cbn [eval cA cB cC cD].
  assert (E : y (i + 1)%nat == y i + dy i) by (rewrite D; ring).
  repeat split; [ring| |ring|field; lra]. rewrite E. field. lra.
Qed.
Lemma hermite_only h y yp i p : 0 < h i ->
  eval 0 p 0 == y i -> eval 0 p (h i) == y (i + 1)%nat -> eval 1 p 0 == yp i -> eval 1 p (h i) == yp (i + 1)%nat ->
  forall dy, dy i == y (i + 1)%nat - y i ->
  forall t, eval 0 (hermite_piece h dy y yp i) t == eval 0 p t.
Proof.
  intros P A B C D dy E t. cbn [eval hermite_piece cA cB cC cD] in *.
  assert (F : dy i == h i * (cC p + h i * (cB p + h i * cA p))).
  { rewrite E, <- A, <- B. ring. }
  assert (Y : y i == cD p) by (rewrite <- A; ring). assert (Z : yp i == cC p) by (rewrite <- C; ring).
  rewrite F, Y, Z, <- D. field. lra.
Qed.

(** A cubic polynomial is its own spline. *)
Lemma expansion_value a b c d s i x : eval 0 (expansion a b c d s i) (x - s i) == cubic a b c d x.
Proof. cbn [eval expansion cA cB cC cD]. unfold cubic, cubic1. ring. Qed.
Lemma expansion_spline a b c d lo ro n s y : (2 <= n)%nat -> (lo = 1 \/ lo = 2)%nat -> (ro = 1 \/ ro = 2)%nat ->
  (forall i, (i < n)%nat -> y i == cubic a b c d (s i)) ->
  is_spline (custom lo (slope lo a b c (s 0%nat)) ro (slope ro a b c (s (n - 1)%nat))) n s y (expansion a b c d s).
Proof.
  intros Hn L R Y. split; [|split; [|split]].
  - intros i Hi. rewrite (Y i), (Y (i + 1)%nat) by lia. cbn [eval expansion cA cB cC cD]. unfold cubic, cubic1. split; ring.
  - intros i Hi. cbn [eval expansion cA cB cC cD]. unfold cubic1. ring.
  - intros i Hi. cbn [eval expansion cA cB cC cD]. ring.
  - split.
    + unfold left_end, slope. destruct L as [->| ->]; cbn [Nat.eqb eval expansion cA cB cC cD]; unfold cubic1, cubic2; ring.
    + unfold right_end, slope. destruct R as [->| ->]; cbn [Nat.eqb eval expansion cA cB cC cD]; unfold cubic1, cubic2; ring.
Qed.

(** ** Sites *)
Lemma check_sites_spec s m i : let (l, ok) := check_sites s i m in
  length l = m /\
  (ok = true <-> forall j, (j < m)%nat -> s (i + j)%nat < s (i + j + 1)%nat) /\
  (ok = true -> forall j, (j < m)%nat -> nth j l 0 = s (i + j + 1)%nat - s (i + j)%nat).
Proof.
  revert i. induction m as [|m IH]; intro i; cbn [check_sites].
  - split; [reflexivity|]. split; [split; [intros; lia|reflexivity]|intros; lia].
  - destruct (Qle_bool (s (S i) - s i) 0) eqn:E.
    + apply Qle_bool_iff in E. split; [simpl; rewrite repeat_length; reflexivity|].
      split; [|discriminate]. split; [discriminate|]. intro H. specialize (H 0%nat ltac:(lia)).
      replace (i + 0 + 1)%nat with (S i) in H by lia. rewrite Nat.add_0_r in H. lra.
    + assert (P : s i < s (S i)).
      { apply Qnot_le_lt. intro K. assert (X : s (S i) - s i <= 0) by lra. apply Qle_bool_iff in X. congruence. }
      specialize (IH (S i)). destruct (check_sites s (S i) m) as [l ok]. destruct IH as (A & B & C).
      split; [simpl; lia|]. split.
      * rewrite B. split; intros H j Hj.
        -- destruct j as [|j]; [replace (i + 0 + 1)%nat with (S i) by lia; rewrite Nat.add_0_r; exact P|].
           specialize (H j ltac:(lia)). replace (i + S j)%nat with (S i + j)%nat by lia. exact H.
        -- specialize (H (S j) ltac:(lia)). replace (i + S j)%nat with (S i + j)%nat in H by lia. exact H.
      * intros O j Hj. destruct j as [|j]; cbn [nth].
        -- replace (i + 0 + 1)%nat with (S i) by lia. rewrite Nat.add_0_r. reflexivity.
        -- replace (i + S j)%nat with (S i + j)%nat by lia. apply C; [exact O|lia].
Qed.

Lemma uniform_steps n a b i : (i + 1 < n)%nat ->
  nth i (uniform_dx [] n a b) 0 == uniform_site n a b (i + 1) - uniform_site n a b i.
Proof.
  intro H. unfold uniform_dx, resize. rewrite firstn_nil. cbn [app length]. rewrite Nat.sub_0_r.
  rewrite (nth_indep _ 0 (uniform_step n a b)) by (rewrite repeat_length; lia). rewrite nth_repeat.
  unfold uniform_site. rewrite Nat.add_1_r, of_nat_S. ring.
Qed.

(** ** Orders *)
Lemma mem_filter l m a : (forall x, In x l -> (a <= x < a + m)%nat) ->
  (forall i j, (i < j < length l)%nat -> (nth i l 0 < nth j l 0)%nat) ->
  filter (fun k => existsb (Nat.eqb k) l) (seq a m) = l.
Proof.
  revert l a. induction m as [|m IH]; intros l a B O.
  - destruct l as [|x l]; [reflexivity|]. specialize (B x (or_introl eq_refl)). lia.
  - cbn [seq filter]. destruct (existsb (Nat.eqb a) l) eqn:E.
    + apply existsb_exists in E. destruct E as (x & X & Ex). apply Nat.eqb_eq in Ex. subst x.
      destruct l as [|y l]; [destruct X|].
      assert (y = a).
      { destruct X as [X|X]; [exact X|]. apply (In_nth _ _ 0%nat) in X. destruct X as (q & Q & Eq).
        specialize (O 0%nat (S q) ltac:(simpl; lia)). simpl in O. rewrite Eq in O.
        specialize (B y (or_introl eq_refl)). lia. }
      subst y. f_equal. transitivity (filter (fun k => existsb (Nat.eqb k) l) (seq (S a) m)).
      * apply filter_ext_in. intros k K. apply in_seq in K. cbn [existsb].
        destruct (Nat.eqb_spec k a); [lia|reflexivity].
      * apply IH.
        -- intros x Hx. specialize (B x (or_intror Hx)). apply (In_nth _ _ 0%nat) in Hx.
           destruct Hx as (q & Q & Eq). specialize (O 0%nat (S q) ltac:(simpl; lia)). simpl in O. lia.
        -- intros i j H. specialize (O (S i) (S j) ltac:(simpl; lia)). exact O.
    + apply IH; [|exact O]. intros x Hx. specialize (B x Hx).
      assert (x <> a). { intros ->. assert (existsb (Nat.eqb a) l = true); [|congruence]. apply existsb_exists. exists a. split; [exact Hx|apply Nat.eqb_refl]. }
      lia.
Qed.

(** ** Dimensions *)
Definition with_dim (d : nat) (s : dims) : Prop :=
  (dim_y s <= d)%nat /\ (forall m, of_values s = Some m -> m = d) /\ (forall m, of_derivs s = Some m -> m = d) /\
  (forall m, of_bc s = Some m -> m = d).
Lemma with_dim_call d s c : (c = set_values d \/ c = set_derivatives d \/ c = set_bc d) ->
  with_dim d s -> with_dim d (do_call s c).
Proof.
  intros C (A & B & D & E). unfold with_dim. destruct C as [->|[->| ->]]; cbn [do_call].
  - destruct (Nat.leb_spec 1 d); cbn; repeat split; auto; try lia; congruence.
  - destruct (Nat.leb_spec 1 d); cbn; repeat split; auto; try lia; congruence.
  - match goal with |- context [if ?b then _ else _] => destruct b end; cbn; repeat split; auto; congruence.
Qed.
Lemma with_dim_calls d l s : (forall c, In c l -> c = set_values d \/ c = set_derivatives d \/ c = set_bc d) ->
  with_dim d s -> with_dim d (fold_left do_call l s).
Proof.
  revert s. induction l as [|c l IH]; intros s H W; [exact W|]. simpl. apply IH; [intros; apply H; simpl; auto|].
  apply with_dim_call; [apply H; simpl; auto|exact W].
Qed.
Lemma with_dim_reads d s : with_dim d s -> interpolate_custom s <> outside /\ interpolate_hermite s <> outside.
Proof.
  intros (A & B & D & E).
  assert (R : forall m, (forall k, m = Some k -> k = d) -> reads s m <> outside).
  { intros m M. unfold reads. destruct m as [m|]; [|discriminate]. specialize (M m eq_refl). subst m.
    destruct (Nat.leb_spec (dim_y s) d); [discriminate|lia]. }
  unfold interpolate_custom, interpolate_hermite. pose proof (R _ B). pose proof (R _ D). pose proof (R _ E).
  destruct (reads s (of_values s)), (reads s (of_derivs s)), (reads s (of_bc s)); split; simpl; congruence.
Qed.
