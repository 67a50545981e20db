(** Proofs about the sums behind the statistics. *)
From Coq Require Import ZArith List Bool Permutation Lia.
From Verif Require Import Base NnModel UtilProofs MomModel MomSpec.
Import ListNotations.
Local Open Scope Z_scope.

Section Monoid.
Context {T : Type} (add : T -> T -> T) (zero : T).
Hypothesis assoc : forall a b c, add a (add b c) = add (add a b) c.
Hypothesis comm : forall a b, add a b = add b a.
Hypothesis zero_r : forall a, add a zero = a.

Notation tot := (total add zero).

Lemma zero_l a : add zero a = a.
Proof. rewrite comm. apply zero_r. Qed.
Lemma add4 a b c d : add (add a b) (add c d) = add (add a c) (add b d).
Proof. rewrite <- !assoc. f_equal. rewrite !assoc. f_equal. apply comm. Qed.

Lemma tot_ext f g n : (forall i, 0 <= i < Z.of_nat n -> f i = g i) -> tot f n = tot g n.
Proof. induction n as [|n IH]; intros H; cbn [total]; [reflexivity|]. rewrite IH, H; try lia; [reflexivity|]. intros; apply H; lia. Qed.
Lemma tot_zero n : tot (fun _ => zero) n = zero.
Proof. induction n; cbn [total]; [reflexivity|]. rewrite IHn. apply zero_r. Qed.
Lemma tot_split f p q : tot f (p + q) = add (tot f p) (tot (fun i => f (Z.of_nat p + i)) q).
Proof.
  induction q as [|q IH]; cbn [total]; [rewrite Nat.add_0_r, zero_r; reflexivity|].
  replace (p + S q)%nat with (S (p + q)) by lia. cbn [total]. rewrite IH, <- assoc, Nat2Z.inj_add. reflexivity.
Qed.
Lemma tot_add f g n : tot (fun i => add (f i) (g i)) n = add (tot f n) (tot g n).
Proof. induction n as [|n IH]; cbn [total]; [symmetry; apply zero_r|]. rewrite IH. apply add4. Qed.
Lemma tot_swap (f : Z -> Z -> T) p q : tot (fun i => tot (f i) q) p = tot (fun j => tot (fun i => f i j) p) q.
Proof.
  induction p as [|p IH]; cbn [total]; [symmetry; apply tot_zero|].
  rewrite IH, <- tot_add. reflexivity.
Qed.
Lemma tot_nest (f : Z -> T) p q : tot f (p * q) = tot (fun i => tot (fun j => f (i * Z.of_nat q + j)) q) p.
Proof.
  induction p as [|p IH]; cbn [total]; [reflexivity|].
  replace (S p * q)%nat with (p * q + q)%nat by lia. rewrite tot_split, IH. f_equal.
  apply tot_ext. intros j Hj. f_equal. lia.
Qed.

(** a range of addresses or elements *)
Definition range (f : Z -> T) (a n : Z) : T := tot (fun i => f (a + i)) (Z.to_nat n).
Lemma range_split f a p q : 0 <= p -> 0 <= q -> range f a (p + q) = add (range f a p) (range f (a + p) q).
Proof.
  intros Hp Hq. unfold range. rewrite Z2Nat.inj_add, tot_split by lia. f_equal.
  apply tot_ext. intros i Hi. f_equal. lia.
Qed.
Lemma range_ext f g a b n : (forall i, 0 <= i < n -> f (a + i) = g (b + i)) -> range f a n = range g b n.
Proof. intros H. apply tot_ext. intros i Hi. apply H. lia. Qed.
Lemma range_nil f a n : n <= 0 -> range f a n = zero.
Proof. intros H. unfold range. replace (Z.to_nat n) with O by lia. reflexivity. Qed.

Lemma fold_seq (f : nat -> T) s n acc :
  fold_left (fun a i => add a (f i)) (seq s n) acc = add acc (tot (fun i => f (s + Z.to_nat i)%nat) n).
Proof.
  revert acc. induction n as [|n IH]; intros acc; [symmetry; apply zero_r|].
  rewrite seq_S, fold_left_app, IH. cbn [fold_left total]. rewrite Nat2Z.id, assoc. reflexivity.
Qed.
Lemma fold_perm {A} (f : A -> T) l l' acc : Permutation l l' ->
  fold_left (fun a i => add a (f i)) l acc = fold_left (fun a i => add a (f i)) l' acc.
Proof.
  intros P. revert acc. induction P; intros acc; cbn [fold_left]; auto.
  - f_equal. rewrite <- !assoc. f_equal. apply comm.
  - rewrite IHP1. apply IHP2.
Qed.

Lemma sum_run_range val pos n acc : sum_run add val pos n acc = add acc (range val pos n).
Proof.
  unfold sum_run, range. rewrite fold_seq. f_equal. apply tot_ext. intros i Hi. f_equal. lia.
Qed.

(** Element [e] of the matrix read as a long vector. *)
Definition elt (inner ldx e : Z) : Z := e / inner * ldx + e mod inner.
Lemma elt_run inner ldx e i : 0 < inner -> 0 <= i < inner - e mod inner -> elt inner ldx (e + i) = elt inner ldx e + i.
Proof.
  intros Hi H. unfold elt.
  pose proof (Z.div_mod e inner ltac:(lia)). pose proof (Z.mod_pos_bound e inner Hi).
  assert (E : (e + i) / inner = e / inner /\ (e + i) mod inner = e mod inner + i).
  { apply and_comm. split; symmetry; [apply Z.mod_unique with (q := e / inner)|apply Z.div_unique with (r := e mod inner + i)]; lia. }
  destruct E as [-> ->]. lia.
Qed.
Lemma elt_next inner ldx e : 0 < inner -> elt inner ldx (e + (inner - e mod inner)) = elt inner ldx e + (inner - e mod inner) + (ldx - inner) /\
  (e + (inner - e mod inner)) mod inner = 0.
Proof.
  intros Hi. pose proof (Z.div_mod e inner ltac:(lia)). pose proof (Z.mod_pos_bound e inner Hi).
  assert (E : e + (inner - e mod inner) = (e / inner + 1) * inner) by lia.
  unfold elt. rewrite E, Z.div_mul, Z.mod_mul by lia. split; nia.
Qed.

Lemma row_loop_range val inner ldx : 0 < inner -> forall fuel chunk left e pos acc, 0 <= chunk -> chunk <= Z.of_nat fuel ->
  left = Z.min chunk (inner - e mod inner) -> (0 < chunk -> pos = elt inner ldx e) ->
  row_loop add fuel val inner (ldx - inner) chunk left pos acc = add acc (range (fun i => val (elt inner ldx i)) e chunk).
Proof.
  intros Hi. induction fuel as [|fuel IH]; intros chunk left e pos acc Hc Hf Hl Hp; cbn [row_loop].
  { rewrite range_nil, zero_r by lia. destruct (0 <? chunk); reflexivity. }
  destruct (Z.ltb_spec 0 chunk) as [Pc|Pc]; [|rewrite range_nil, zero_r by lia; reflexivity].
  pose proof (Z.mod_pos_bound e inner Hi).
  specialize (Hp Pc). subst pos.
  rewrite (IH _ _ (e + left)); try lia.
  - rewrite sum_run_range, <- assoc. f_equal.
    replace chunk with (left + (chunk - left)) at 2 by lia. rewrite range_split by lia. f_equal.
    apply range_ext. intros i Hi'. rewrite elt_run by lia. reflexivity.
  - assert (chunk - left = 0 \/ left = inner - e mod inner) as [E|E] by lia.
    + rewrite E. pose proof (Z.mod_pos_bound (e + left) inner Hi). lia.
    + rewrite E. destruct (elt_next inner ldx e Hi) as [_ ->]. lia.
  - intros P. assert (left = inner - e mod inner) as -> by lia. destruct (elt_next inner ldx e Hi) as [-> _]. lia.
Qed.

Lemma leaf_range val inner ldx chunk e : 0 < inner -> 0 <= chunk ->
  leaf_sum add zero val inner (ldx - inner) chunk e = range (fun i => val (elt inner ldx i)) e chunk.
Proof.
  intros Hi Hc. unfold leaf_sum. pose proof (Z.div_mod e inner ltac:(lia)).
  rewrite (row_loop_range val inner ldx Hi _ _ _ e); try lia.
  - apply zero_l.
  - intros _. unfold elt. nia.
Qed.
Lemma rec_sum_range val inner ldx : 0 < inner -> forall fuel chunk e, 0 <= chunk < Z.of_nat fuel ->
  rec_sum add zero fuel val inner (ldx - inner) chunk e = range (fun i => val (elt inner ldx i)) e chunk.
Proof.
  intros Hi. induction fuel as [|fuel IH]; intros chunk e Hc; [lia|]. cbn [rec_sum].
  destruct (Z.leb_spec chunk threshold) as [L|L]; [apply leaf_range; lia|].
  unfold threshold in L.
  assert (0 < chunk / 2 < chunk) by (split; [apply Z.div_str_pos; lia|apply Z.div_lt; lia]).
  rewrite !IH by lia. rewrite <- range_split by lia. f_equal. lia.
Qed.
Lemma recursive_sum_range val inner ldx chunk e : 0 < inner -> 0 <= chunk ->
  recursive_sum add zero val inner (ldx - inner) chunk e = range (fun i => val (elt inner ldx i)) e chunk.
Proof. intros. apply rec_sum_range; lia. Qed.

Lemma rec_sum_vec_range val ldx j : forall fuel chunk base s1, 0 <= chunk < Z.of_nat fuel ->
  rec_sum_vec add zero fuel val ldx chunk base j s1 = add s1 (range (fun i => val (base + ldx * i + j)) 0 chunk).
Proof.
  induction fuel as [|fuel IH]; intros chunk base s1 Hc; [lia|]. cbn [rec_sum_vec].
  destruct (Z.leb_spec chunk threshold) as [L|L].
  - rewrite (fold_seq (fun i => val (base + ldx * Z.of_nat i + j))). f_equal. apply tot_ext. intros i Hi. rewrite Nat.add_0_l, Z2Nat.id, Z.add_0_l by lia. reflexivity.
  - unfold threshold in L.
    assert (0 < chunk / 2 < chunk) by (split; [apply Z.div_str_pos; lia|apply Z.div_lt; lia]).
    rewrite !IH by lia. rewrite zero_l, <- assoc. f_equal.
    replace chunk with (chunk / 2 + (chunk - chunk / 2)) at 4 by lia.
    rewrite range_split by lia. f_equal. apply range_ext. intros i Hi. f_equal. lia.
Qed.
Lemma recursive_sum_vector_range val ldx chunk base j s1 : 0 <= chunk ->
  recursive_sum_vector add zero val ldx chunk base j s1 = add s1 (range (fun i => val (base + ldx * i + j)) 0 chunk).
Proof. intros. apply rec_sum_vec_range. lia. Qed.

(** the team of full_sum *)
Lemma chunks_range f c nt : 0 <= c -> tot (fun i => range f (i * c) c) nt = range f 0 (Z.of_nat nt * c).
Proof.
  intros Hc. induction nt as [|nt IH]; cbn [total]; [reflexivity|].
  rewrite IH. replace (Z.of_nat (S nt) * c) with (Z.of_nat nt * c + c) by lia.
  rewrite range_split by nia. reflexivity.
Qed.
Lemma range_rows (val : Z -> T) outer inner ldx : 0 <= outer -> 0 < inner ->
  range (fun e => val (elt inner ldx e)) 0 (outer * inner) =
  tot (fun i => tot (fun j => val (i * ldx + j)) (Z.to_nat inner)) (Z.to_nat outer).
Proof.
  intros Ho Hi. unfold range. rewrite Z2Nat.inj_mul, tot_nest by lia.
  apply tot_ext. intros i Hi'. apply tot_ext. intros j Hj. f_equal. unfold elt.
  rewrite Z.add_0_l, !Z2Nat.id in * by lia. f_equal.
  - f_equal. symmetry. apply Z.div_unique with (r := j); lia.
  - symmetry. apply Z.mod_unique with (q := i); lia.
Qed.
Lemma full_sum_total t val outer inner ldx : good_team t -> 0 <= outer -> 0 < inner ->
  full_sum add zero t val outer inner ldx = tot (fun i => tot (fun j => val (i * ldx + j)) (Z.to_nat inner)) (Z.to_nat outer).
Proof.
  intros (_ & Ht & Hp & _) Ho Hi. unfold full_sum.
  set (nt := if par_threshold <? outer * inner then Z.of_nat (full_team t) else 1).
  assert (Pn : 0 < nt) by (unfold nt; destruct (_ <? _); lia). clearbody nt.
  set (tot_el := outer * inner). assert (0 <= tot_el) by (unfold tot_el; nia).
  pose proof (Z.div_mod tot_el nt ltac:(lia)). pose proof (Z.mod_pos_bound tot_el nt Pn).
  assert (0 <= tot_el / nt) by (apply Z.div_pos; lia).
  rewrite <- (range_rows val) by lia. fold tot_el.
  rewrite <- (fold_perm (fun id => recursive_sum add zero val inner (ldx - inner)
    (if Z.of_nat id =? nt - 1 then tot_el / nt + tot_el mod nt else tot_el / nt) (Z.of_nat id * (tot_el / nt))) _ _ _ (Hp _)).
  rewrite (fold_seq (fun id => recursive_sum add zero val inner (ldx - inner)
    (if Z.of_nat id =? nt - 1 then tot_el / nt + tot_el mod nt else tot_el / nt) (Z.of_nat id * (tot_el / nt)))), zero_l.
  replace (Z.to_nat nt) with (S (Z.to_nat (nt - 1))) by lia. cbn [total].
  rewrite (tot_ext _ (fun i => range (fun e => val (elt inner ldx e)) (i * (tot_el / nt)) (tot_el / nt))).
  - rewrite chunks_range by lia. rewrite !Z2Nat.id by lia. cbn [Nat.add]. rewrite Z2Nat.id by lia. rewrite Z.eqb_refl.
    rewrite recursive_sum_range by lia.
    replace ((nt - 1) * (tot_el / nt)) with (0 + (nt - 1) * (tot_el / nt)) at 2 by lia.
    rewrite <- range_split by nia. f_equal. lia.
  - intros i Hi'. cbn [Nat.add]. rewrite Z2Nat.id by lia.
    replace (i =? nt - 1) with false by (symmetry; apply Z.eqb_neq; lia). apply recursive_sum_range; lia.
Qed.

Lemma aligned_total val inner ldx i : 0 < inner -> 0 <= i ->
  sum_axis_aligned add zero val inner ldx i = tot (fun j => val i (i * ldx + j)) (Z.to_nat inner).
Proof.
  intros Hi Hk. unfold sum_axis_aligned. rewrite recursive_sum_range by lia. apply tot_ext. intros j Hj. f_equal. unfold elt.
  f_equal; [f_equal; symmetry; apply Z.div_unique with (r := j)|symmetry; apply Z.mod_unique with (q := i)]; lia.
Qed.

(** blocks: every cell is hit by one block *)
Lemma fold_once {A C} (f : (C -> T) -> A -> C -> T) (hit : A -> C -> bool) (g : A -> C -> T -> T) :
  (forall s a c, f s a c = if hit a c then g a c (s c) else s c) ->
  forall l s c a, NoDup l -> In a l -> hit a c = true -> (forall b, In b l -> hit b c = true -> b = a) ->
  fold_left f l s c = g a c (s c).
Proof.
  intros Hf. 
  assert (Miss : forall l s c, (forall b, In b l -> hit b c = false) -> fold_left f l s c = s c).
  { induction l as [|b l IH]; intros s c H; cbn [fold_left]; [reflexivity|].
    rewrite IH by (intros; apply H; right; auto). rewrite Hf, (H b) by (left; auto). reflexivity. }
  induction l as [|b l IH]; intros s c a Hd Hin Hh Hu; [destruct Hin|]. cbn [fold_left].
  inversion Hd as [|? ? Hb Hd']; subst.
  destruct Hin as [->|Hin].
  - rewrite Miss, Hf, Hh; [reflexivity|]. intros b Hb'. destruct (hit b c) eqn:E; [|reflexivity].
    rewrite (Hu b (or_intror Hb') E) in Hb'. contradiction.
  - rewrite (IH _ _ a); auto.
    + rewrite Hf. destruct (hit b c) eqn:E; [|reflexivity]. rewrite (Hu b (or_introl eq_refl) E) in Hb. contradiction.
    + intros b' Hb' E. apply Hu; auto. right; auto.
Qed.

Lemma ceil_div_spec a b : 0 < b -> (ceil_div a b - 1) * b < a <= ceil_div a b * b.
Proof.
  intros Hb. unfold ceil_div. pose proof (Z.div_mod (a + b - 1) b ltac:(lia)). pose proof (Z.mod_pos_bound (a + b - 1) b Hb). nia.
Qed.
Record shape_ok (s : shape) (outer inner : Z) : Prop := {
  so_outer : 1 <= n_outer s; so_osize : 0 <= outer_size s; so_olast : (n_outer s - 1) * outer_size s <= outer;
  so_inner : 1 <= n_inner s; so_isize : 0 < inner_size s; so_ilast : (n_inner s - 1) * inner_size s < inner }.
Lemma shape_good t outer inner : good_team t -> 1 <= outer -> 1 <= inner -> shape_ok (block_shape t outer inner) outer inner.
Proof.
  intros (Ht & _) Ho Hi. unfold block_shape.
  set (th := if (1024 <=? inner) || (1024 <=? outer) then max_threads t else 1).
  assert (1 <= th) by (unfold th; destruct (_ || _); lia). clearbody th.
  pose proof (ceil_div_spec inner threshold ltac:(unfold threshold; lia)) as Ci.
  pose proof (ceil_div_spec outer threshold ltac:(unfold threshold; lia)) as Co.
  pose proof (ceil_div_spec inner 32 ltac:(lia)) as C1.
  unfold threshold in *.
  set (ni := ceil_div inner 2048) in *. set (no := Z.min th (ceil_div outer 2048)) in *.
  assert (1 <= no) by (unfold no; lia). assert (1 <= ni) by lia.
  assert (D : (no - 1) * (outer / no) <= outer).
  { pose proof (Z.div_mod outer no ltac:(lia)). pose proof (Z.mod_pos_bound outer no ltac:(lia)). assert (0 <= outer / no) by (apply Z.div_pos; lia). nia. }
  assert (0 <= outer / no) by (apply Z.div_pos; lia).
  destruct (Z.ltb_spec (no * ni) th).
  - pose proof (ceil_div_spec th no ltac:(lia)) as C2.
    set (c1 := ceil_div inner 32) in *. set (c2 := ceil_div th no) in *.
    assert (1 <= c1 <= inner) by lia. assert (1 <= c2) by nia.
    set (n' := Z.min c1 c2) in *. assert (1 <= n' <= inner) by lia.
    assert (0 < inner / n') by (apply Z.div_str_pos; lia).
    pose proof (Z.div_mod inner n' ltac:(lia)). pose proof (Z.mod_pos_bound inner n' ltac:(lia)).
    constructor; cbn [n_outer outer_size n_inner inner_size]; auto; nia.
  - constructor; cbn [n_outer outer_size n_inner inner_size]; auto; lia.
Qed.

Definition block_of (s : shape) (k : Z) : Z := Z.min (k / inner_size s) (n_inner s - 1).
Definition o_size (s : shape) (outer i : Z) : Z := if i =? n_outer s - 1 then outer - i * outer_size s else outer_size s.
Definition hits (s : shape) (inner : Z) (b : Z * Z) (c : Z * Z) : bool :=
  (fst c =? fst b) && (snd b * inner_size s <=? snd c) &&
  (snd c <? snd b * inner_size s + (if snd b =? n_inner s - 1 then inner - snd b * inner_size s else inner_size s)).
Lemma hits_block s outer inner k i : shape_ok s outer inner -> 0 <= k < inner -> 0 <= i < n_outer s ->
  In (i, block_of s k) (all_blocks s) /\ hits s inner (i, block_of s k) (i, k) = true /\
  forall b, In b (all_blocks s) -> hits s inner b (i, k) = true -> b = (i, block_of s k).
Proof.
  intros Hs Hk Hi. destruct Hs as [O1 O2 O3 I1 I2 I3].
  pose proof (Z.div_mod k (inner_size s) ltac:(lia)) as D. pose proof (Z.mod_pos_bound k (inner_size s) I2) as M.
  assert (Q : 0 <= k / inner_size s) by (apply Z.div_pos; lia).
  set (q := k / inner_size s) in *. set (sz := inner_size s) in *.
  assert (B : 0 <= block_of s k < n_inner s) by (unfold block_of; fold sz q; lia).
  split; [|split].
  - unfold all_blocks. apply in_flat_map. exists (Z.to_nat i). split; [apply in_seq; lia|].
    apply in_map_iff. exists (Z.to_nat (block_of s k)). split; [f_equal; lia|apply in_seq; lia].
  - unfold hits. cbn [fst snd]. rewrite Z.eqb_refl. cbn [andb]. apply andb_true_iff. fold sz.
    unfold block_of in *. fold sz q in B |- *. split; [apply Z.leb_le; nia|apply Z.ltb_lt].
    destruct (Z.eqb_spec (Z.min q (n_inner s - 1)) (n_inner s - 1)); [lia|]. rewrite Z.min_l by lia. nia.
  - intros [bi bj] Hin Hh. unfold hits in Hh. cbn [fst snd] in Hh. fold sz in Hh.
    apply andb_true_iff in Hh as [Hh Hh3]. apply andb_true_iff in Hh as [Hh1 Hh2].
    apply Z.eqb_eq in Hh1. apply Z.leb_le in Hh2. apply Z.ltb_lt in Hh3. subst bi. f_equal.
    unfold all_blocks in Hin. apply in_flat_map in Hin as (x & _ & Hin). apply in_map_iff in Hin as (y & Ey & Hy).
    injection Ey as _ Ey. apply in_seq in Hy. unfold block_of. fold sz q.
    destruct (Z.eqb_spec bj (n_inner s - 1)); nia.
Qed.
Lemma NoDup_blocks s : NoDup (all_blocks s).
Proof.
  unfold all_blocks. apply NoDup_flat_map; [apply seq_NoDup| |].
  - intros i _. apply FinFun.Injective_map_NoDup; [|apply seq_NoDup]. intros a b E. injection E. lia.
  - intros a b x _ _ Ha Hb. apply in_map_iff in Ha as (? & <- & _). apply in_map_iff in Hb as (? & E & _). injection E. lia.
Qed.

(** the tree reduction *)
Lemma mod_even d s : 0 < s -> d mod s = 0 -> 0 <= d -> d mod (2 * s) = 0 \/ d mod (2 * s) = s.
Proof.
  intros Hs Hd H0. rewrite (Z.mul_comm 2). rewrite Z.rem_mul_r, Hd by lia.
  pose proof (Z.mod_pos_bound (d / s) 2 ltac:(lia)). assert ((d / s) mod 2 = 0 \/ (d / s) mod 2 = 1) as [-> | ->] by lia; lia.
Qed.
Lemma tree_loop_total n f : forall fuel s sums, 0 < n -> 0 < s -> n <= s * 2 ^ Z.of_nat fuel ->
  (forall d, 0 <= d < n -> d mod s = 0 -> sums d = range f d (Z.min s (n - d))) ->
  tree_loop add fuel n s sums 0 = range f 0 n.
Proof.
  induction fuel as [|fuel IH]; intros s sums Hn Hs Hf H; cbn [tree_loop].
  - assert (n <= s) by (change (2 ^ Z.of_nat 0) with 1 in Hf; lia).
    assert (E : sums 0 = range f 0 n) by (rewrite H by (try apply Z.mod_0_l; lia); f_equal; lia).
    destruct (s <? n); exact E.
  - destruct (Z.ltb_spec s n) as [L|L]; [|rewrite H by (try apply Z.mod_0_l; lia); f_equal; lia].
    apply IH; try lia.
    + rewrite Nat2Z.inj_succ, Z.pow_succ_r in Hf by lia. nia.
    + intros d Hd Hm. unfold tree_round.
      assert (D : d mod s = 0).
      { pose proof (Z.div_mod d (2 * s) ltac:(lia)) as E. rewrite Hm in E. rewrite E.
        replace (2 * s * (d / (2 * s)) + 0) with (2 * (d / (2 * s)) * s) by lia. apply Z.mod_mul. lia. }
      rewrite Hm, Z.eqb_refl. replace (0 <=? d) with true by (symmetry; apply Z.leb_le; lia). cbn [andb].
      destruct (Z.ltb_spec (d + s) n) as [L'|L'].
      * rewrite (H d), (H (d + s)); try lia; auto.
        -- rewrite !(Z.min_l s) by lia. replace (Z.min (2 * s) (n - d)) with (s + Z.min s (n - (d + s))) by lia.
           rewrite range_split by lia. reflexivity.
        -- rewrite <- (Z.mul_1_l s) at 1. rewrite Z.mod_add by lia. exact D.
      * rewrite (H d) by (auto; lia). f_equal. lia.
Qed.

Lemma misaligned_total t val outer inner ldx k : good_team t -> 1 <= outer -> 1 <= inner -> 0 <= k < inner ->
  sum_axis_misaligned add zero t val outer inner ldx k = tot (fun i => val k (i * ldx + k)) (Z.to_nat outer).
Proof.
  intros Ht Ho Hi Hk. unfold sum_axis_misaligned.
  pose proof (shape_good t outer inner Ht Ho Hi) as Hs. set (s := block_shape t outer inner) in *.
  destruct Ht as (_ & _ & _ & Hp). pose proof Hs as [O1 O2 O3 I1 I2 I3].
  set (F := fun i => val k (i * ldx + k)).
  transitivity (range (fun b => range F (b * outer_size s) (o_size s outer b)) 0 (n_outer s)).
  - apply tree_loop_total; try lia.
    { rewrite Z.mul_1_l, Z2Nat.id by lia. apply Z.lt_le_incl, Z.pow_gt_lin_r; lia. }
    intros d Hd _. replace (Z.min 1 (n_outer s - d)) with 1 by lia.
    assert (E1 : forall g a, range g a 1 = g a) by (intros g a; unfold range; change (Z.to_nat 1) with 1%nat; cbn [total]; rewrite zero_l; f_equal; lia).
    rewrite E1.
    destruct (hits_block s outer inner k d Hs Hk Hd) as (Hin & Hh & Hu).
    set (B := block_sum add zero val s outer inner ldx).
    set (g := fun (b c : Z * Z) v => recursive_sum_vector add zero (val (snd c)) ldx (o_size s outer (fst b))
       (fst b * outer_size s * ldx + snd b * inner_size s) (snd c - snd b * inner_size s) v).
    assert (C : forall l (q : Z -> Z -> T) c, fold_left B l q (fst c) (snd c) =
       fold_left (fun (u : Z * Z -> T) b c => if hits s inner b c then g b c (u c) else u c) l (fun c => q (fst c) (snd c)) c).
    { induction l as [|b l IH]; intros q c; cbn [fold_left]; [reflexivity|]. rewrite IH.
      clear - zero. set (h := fun (u : Z * Z -> T) b c => if hits s inner b c then g b c (u c) else u c).
      change (fold_left h l (fun c0 => B q b (fst c0) (snd c0)) c = fold_left h l (h (fun c0 => q (fst c0) (snd c0)) b) c).
      assert (X : forall l u v c, (forall c, u c = v c) -> fold_left h l u c = fold_left h l v c).
      { clear. induction l as [|b l IH]; intros u v c H; cbn [fold_left]; [apply H|]. apply IH. intros c'. unfold h. rewrite H. reflexivity. }
      apply X. intros [c1 c2]. destruct b as [bi bj]. reflexivity. }
    specialize (C (blocks t (all_blocks s)) (fun _ _ => zero) (d, k)). cbn [fst snd] in C. rewrite C.
    rewrite (fold_once _ (hits s inner) g) with (a := (d, block_of s k)).
    + unfold g. cbn [fst snd]. rewrite recursive_sum_vector_range.
      * cbv beta. rewrite zero_l. apply range_ext. intros i Hi'. unfold F. f_equal. lia.
      * unfold o_size. destruct (Z.eqb_spec d (n_outer s - 1)); subst; lia.
    + reflexivity.
    + apply (Permutation_NoDup (Hp _)). apply NoDup_blocks.
    + apply (Permutation_in _ (Hp _)). exact Hin.
    + exact Hh.
    + intros b Hb. apply Hu. apply (Permutation_in _ (Permutation_sym (Hp _))). exact Hb.
  - unfold range at 1. replace (Z.to_nat (n_outer s)) with (S (Z.to_nat (n_outer s - 1))) by lia. cbn [total].
    rewrite (tot_ext _ (fun i => range F (i * outer_size s) (outer_size s))).
    + rewrite chunks_range by lia. rewrite Z2Nat.id by lia. rewrite Z.add_0_l. unfold o_size. rewrite Z.eqb_refl.
      replace ((n_outer s - 1) * outer_size s) with (0 + (n_outer s - 1) * outer_size s) at 2 by lia.
      rewrite <- range_split by nia. unfold range. replace (Z.to_nat _) with (Z.to_nat outer) by (f_equal; lia).
      apply tot_ext. intros i Hi'. f_equal. 
    + intros i Hi'. rewrite Z.add_0_l. f_equal. unfold o_size. destruct (Z.eqb_spec i (n_outer s - 1)); lia.
Qed.

Theorem da_sum_total t o ax m n ldx (val : Z -> Z -> T) k : good_team t -> good_dims o m n ldx -> is_result ax m n k ->
  da_sum add zero t o ax m n ldx val k = slice_total add zero o ax m n ldx (val k) k.
Proof.
  intros Ht (Hm & Hn & Hl) Hk. unfold da_sum, slice_total, entry, is_result in *.
  destruct ax, o.
  - apply aligned_total; lia.
  - apply misaligned_total; auto; lia.
  - apply misaligned_total; auto; lia.
  - apply aligned_total; lia.
  - replace k with 0 by lia. rewrite full_sum_total by (auto; lia). rewrite tot_swap. reflexivity.
  - replace k with 0 by lia. apply full_sum_total; auto; lia.
Qed.
End Monoid.
