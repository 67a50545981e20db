From Coq Require Import ZArith Reals Lia Lra List Bool Permutation Relations.
From Flocq Require Import Core IEEE754.BinarySingleNaN.
From Verif Require Import Base Par F64 UtilModel UtilSpec UtilProofs QuantFloatProofs DbscanModel DbscanSpec DbscanProofs DbscanTheorems
  RadiusModel RadiusSpec.
Import ListNotations.
Local Open Scope Z_scope.

(** ** The number of a block *)
Lemma f64_sqrt_is x a : is x a -> (0 <= a)%R -> is (f64_sqrt x) (rnd (sqrt a)).
Proof.
  intros (Fx & <-) H. pose proof (Bsqrt_correct 53 1024 _ _ mode_NE x) as (E & F & _).
  change (round radix2 _ (round_mode mode_NE) ?r) with (rnd r) in E. split; [|exact E].
  unfold f64_sqrt. rewrite F. destruct x as [s|s| |s m e B]; cbn in *; auto. destruct s; auto. exfalso.
  unfold F2R in H. cbn in H. assert (IZR (Z.neg m) * bpow radix2 e < 0)%R; [|lra].
  rewrite <- (Rmult_0_l (bpow radix2 e)). apply Rmult_lt_compat_r; [apply bpow_gt_0|]. apply IZR_lt. lia.
Qed.
(** Numbers just below an integer. *)
Lemma below_format z k : Z.abs z * 2 ^ k <= 2 ^ 52 -> 0 <= k <= 1000 -> generic_format radix2 fexp64 (IZR z - / IZR (2 ^ k)).
Proof.
  intros Hz Hk. apply generic_format_FLT.
  assert (Pk : 0 < 2 ^ k) by (apply Z.pow_pos_nonneg; lia).
  apply (FLT_spec radix2 _ 53 _ (Float radix2 (z * 2 ^ k - 1) (- k))); cbn [Fnum Fexp].
  - unfold F2R. cbn [Fnum Fexp]. rewrite minus_IZR, mult_IZR, bpow_opp, <- (pow2_bpow k) by lia.
    assert (IZR (2 ^ k) <> 0)%R by (apply not_0_IZR; lia). field. auto.
  - change (Z.pow (radix_val radix2) 53) with (2 ^ 53). nia.
  - cbn. lia.
Qed.
Lemma triangle_even t : exists h, t * (t + 1) = 2 * h.
Proof. destruct (Z.Even_or_Odd t) as [(a & ->)|(a & ->)]; [exists (a * (2 * a + 1))|exists ((2 * a + 1) * (a + 1))]; ring. Qed.
Lemma block_j_exact k t : 0 <= t -> t * (t + 1) <= 2 * k < (t + 1) * (t + 2) -> 8 * k + 1 <= 2 ^ 53 ->
  f64_trunc (f64_div (f64_sub (f64_sqrt (f64_of_Z (8 * k + 1))) (f64_of_Z 1)) (f64_of_Z 2)) = t.
Proof.
  intros Ht Hk Hb.
  destruct (triangle_even (t + 1)) as (h & Eh).
  assert (Hk2 : 2 * k + 2 <= (t + 1) * (t + 2)) by lia.
  assert (Tb : 2 * t + 3 <= 2 ^ 27) by nia.
  set (N := 2 * t + 3) in *.
  assert (S1 : is (f64_of_Z (8 * k + 1)) (IZR (8 * k + 1))) by (apply f64_of_Z_is; nia).
  assert (P1 : (0 <= IZR (8 * k + 1))%R) by (apply IZR_le; nia).
  pose proof (f64_sqrt_is _ _ S1 P1) as S2.
  assert (Ne : (IZR N = IZR (2 * t) + 3)%R) by (unfold N; rewrite plus_IZR; auto).
  assert (T0 : (0 <= IZR (2 * t))%R) by (apply IZR_le; lia).
  assert (E25 : (0 < / IZR (2 ^ 25) <= / 2)%R).
  { split; [apply Rinv_0_lt_compat, IZR_lt; reflexivity|]. apply Rinv_le; [lra|]. apply IZR_le. lia. }
  assert (E26 : (/ IZR (2 ^ 25) = 2 * / IZR (2 ^ 26))%R).
  { change (2 ^ 26) with (2 * 2 ^ 25). rewrite mult_IZR.
    assert (IZR (2 ^ 25) <> 0)%R by (apply not_0_IZR; discriminate). field. auto. }
  assert (F26 : generic_format radix2 fexp64 (IZR (t + 1) - / IZR (2 ^ 26))).
  { apply below_format; [unfold N in Tb|]; lia. }
  assert (Sq : (IZR (2 * t + 1) <= sqrt (IZR (8 * k + 1)) <= IZR N - / IZR (2 ^ 25))%R).
  { split.
    - rewrite <- (sqrt_square (IZR (2 * t + 1))) by (apply IZR_le; lia). apply sqrt_le_1_alt.
      rewrite <- mult_IZR. apply IZR_le. nia.
    - rewrite <- (sqrt_square (IZR N - / IZR (2 ^ 25))) by lra. apply sqrt_le_1_alt.
      apply Rle_trans with (IZR (N * N - 8)); [apply IZR_le; unfold N; nia|].
      rewrite minus_IZR, mult_IZR.
      assert (IZR N * / IZR (2 ^ 25) <= 4)%R.
      { apply Rmult_le_reg_r with (IZR (2 ^ 25)); [apply IZR_lt; reflexivity|].
        rewrite Rmult_assoc, Rinv_l by (apply not_0_IZR; discriminate). rewrite Rmult_1_r, <- mult_IZR. apply IZR_le. lia. }
      nra. }
  set (y := rnd (sqrt (IZR (8 * k + 1)))) in *.
  assert (Y : (IZR (2 * t + 1) <= y <= IZR N - / IZR (2 ^ 25))%R).
  { split.
    - rewrite <- (rnd_Z (2 * t + 1)) by (unfold N in Tb; lia). apply rnd_mono. apply Sq.
    - rewrite <- (rnd_format (IZR N - / IZR (2 ^ 25))) by (apply below_format; unfold N in *; lia). apply rnd_mono. apply Sq. }
  assert (Nb : (IZR N <= IZR (2 ^ 27))%R) by (apply IZR_le; auto).
  assert (Big : forall z, (0 <= z <= IZR (2 ^ 27))%R -> (Rabs z <= bpow radix2 1000)%R).
  { intros z Hz. apply small_bpow with 27; [|lia]. rewrite Rabs_pos_eq; lra. }
  rewrite plus_IZR in Y.
  assert (S3 : is (f64_sub (f64_sqrt (f64_of_Z (8 * k + 1))) (f64_of_Z 1)) (rnd (y - 1))).
  { apply f64_sub_is; [exact S2|apply (f64_of_Z_is 1); lia|]. apply Big. lra. }
  set (z := rnd (y - 1)) in *.
  assert (Zb : (IZR (2 * t) <= z <= IZR (2 * t + 2) - / IZR (2 ^ 25))%R).
  { split.
    - rewrite <- (rnd_Z (2 * t)) by (unfold N in Tb; lia). apply rnd_mono. lra.
    - rewrite <- (rnd_format (IZR (2 * t + 2) - / IZR (2 ^ 25))) by (apply below_format; unfold N in *; lia). apply rnd_mono.
      rewrite plus_IZR. lra. }
  rewrite plus_IZR in Zb.
  assert (S4 : is (f64_div (f64_sub (f64_sqrt (f64_of_Z (8 * k + 1))) (f64_of_Z 1)) (f64_of_Z 2)) (rnd (z / 2))).
  { apply f64_div_is; [exact S3|apply (f64_of_Z_is 2); lia|lra|]. apply Big. lra. }
  assert (Tt : (IZR (2 * t) = 2 * IZR t)%R) by apply mult_IZR.
  assert (W : (IZR t <= rnd (z / 2) <= IZR (t + 1) - / IZR (2 ^ 26))%R).
  { split.
    - rewrite <- (rnd_Z t) at 1 by (unfold N in Tb; lia). apply rnd_mono. lra.
    - rewrite <- (rnd_format (IZR (t + 1) - / IZR (2 ^ 26))) by auto. apply rnd_mono. rewrite plus_IZR. lra. }
  rewrite (f64_trunc_is _ _ S4).
  - apply Zfloor_imp. split; [apply W|]. assert (0 < / IZR (2 ^ 26))%R by (apply Rinv_0_lt_compat, IZR_lt; reflexivity). lra.
  - apply Rle_trans with (IZR t); [apply IZR_le; lia|apply W].
Qed.

Lemma triangle_root K : 0 <= K -> forall k, 0 <= k -> 2 * k < K * (K + 1) ->
  exists t, 0 <= t < K /\ t * (t + 1) <= 2 * k < (t + 1) * (t + 2).
Proof.
  intros HK. pattern K. apply natlike_ind; auto.
  - lia.
  - clear. intros K HK IH k Hk L. destruct (Z_lt_le_dec (2 * k) (K * (K + 1))) as [H|H].
    + destruct (IH k Hk H) as (t & Ht & B). exists t. lia.
    + exists K. unfold Z.succ in L. split; [lia|]. replace (K + 2) with (K + 1 + 1) by lia. lia.
Qed.
Lemma block_indices_spec K k : 0 <= K -> 0 <= k -> 2 * k < K * (K + 1) -> 8 * k + 1 <= 2 ^ 53 ->
  exists bi bj, block_indices k = (bi, bj) /\ 0 <= bi <= bj /\ bj < K /\ 2 * k = bj * (bj + 1) + 2 * bi.
Proof.
  intros HK Hk L B. destruct (triangle_root K HK k Hk L) as (t & Ht & Hb).
  unfold block_indices. rewrite (block_j_exact k t) by (try apply Hb; lia).
  destruct (triangle_even t) as (h & Eh).
  assert (Q : Z.quot (t * (t + 1)) 2 = h) by (rewrite Eh, Z.mul_comm; apply Z.quot_mul; lia).
  rewrite Q. exists (k - h), t. split; auto. nia.
Qed.

(** ** The pairs of the blocks *)
Section Pairs.
Variables (n K R : Z) (near : Z -> Z -> bool).
Let bs := max_block_size n.
Let len := block_length n K R.
Hypothesis Hn : 1 <= n.
Hypothesis P : partitions n K (block_off bs) len.
Hypothesis FullBlocks : forall b, b < K - 1 -> len b = bs.
Hypothesis Small : 4 * (K * (K + 1)) <= 2 ^ 53.

Lemma K_pos : 0 < K.
Proof. destruct P as (_ & P2). destruct (P2 0) as (b & B & _); lia. Qed.
Definition in_block (b i : Z) := b * bs <= i < b * bs + len b.

Lemma in_block_pairs k i j : 0 <= k -> 2 * k < K * (K + 1) ->
  In (i, j) (block_pairs n near K R k) <->
  exists bi bj, block_indices k = (bi, bj) /\ 0 <= bi <= bj /\ bj < K /\ in_block bi i /\ in_block bj j /\ i < j /\ near i j = true.
Proof.
  intros Hk L. pose proof K_pos. destruct (block_indices_spec K k) as (bi & bj & E & B1 & B2 & B3); try lia.
  unfold block_pairs. rewrite E. fold len bs. rewrite in_flat_map.
  assert (S : bi < bj -> len bi = bs) by (intros; apply FullBlocks; lia).
  split.
  - intros (jj & Hj & Hin). apply in_zrange in Hj. apply in_flat_map in Hin as (ii & Hi & Hin). apply in_zrange in Hi.
    destruct (near _ _) eqn:N; cbn in Hin; [|tauto].
    destruct (Z.eqb_spec (bi * bs + ii) (bj * bs + jj)) as [|Ne]; cbn in Hin; [tauto|].
    destruct Hin as [[= <- <-]|[]]. exists bi, bj. repeat split; auto; try lia.
    + destruct (Z.eqb_spec bi bj) as [->|]; lia.
    + destruct (Z.eqb_spec bi bj) as [->|]; [lia|]. rewrite S in Hi by lia. nia.
  - intros (bi' & bj' & [= <- <-] & _ & _ & Hi & Hj & Lt & N). unfold in_block in *.
    exists (j - bj * bs). split; [apply in_zrange; lia|]. apply in_flat_map. exists (i - bi * bs). split.
    + apply in_zrange. destruct (Z.eqb_spec bi bj) as [->|]; lia.
    + replace (bi * bs + (i - bi * bs)) with i by lia. replace (bj * bs + (j - bj * bs)) with j by lia.
      rewrite N. destruct (Z.eqb_spec i j); [lia|]. left. auto.
Qed.
Lemma block_pairs_nodup k : NoDup (block_pairs n near K R k).
Proof.
  unfold block_pairs. destruct (block_indices k) as (bi, bj). fold bs len.
  apply NoDup_flat_map; [apply zrange_nodup| |].
  - intros jj _. apply NoDup_flat_map; [apply zrange_nodup| |].
    + intros ii _. destruct (_ && _); repeat constructor; auto.
    + intros ii ii' (a, b) _ _ H1 H2. destruct (_ && _) in H1; [|destruct H1]. destruct (_ && _) in H2; [|destruct H2].
      destruct H1 as [[= <- <-]|[]], H2 as [[= E]|[]]. lia.
  - intros jj jj' (a, b) _ _ H1 H2. apply in_flat_map in H1 as (ii & _ & H1). apply in_flat_map in H2 as (ii' & _ & H2).
    destruct (_ && _) in H1; [|destruct H1]. destruct (_ && _) in H2; [|destruct H2].
    destruct H1 as [[= <- <-]|[]], H2 as [[= E1 E2]|[]]. lia.
Qed.
Lemma in_block_unique b b' i : 0 <= b < K -> 0 <= b' < K -> in_block b i -> in_block b' i -> b = b'.
Proof.
  intros B B' H H'. destruct P as (P1 & P2). unfold in_block, block_off in *.
  destruct (P1 b B) as (? & ? & ?). destruct (P2 i) as (c & _ & U); [nia|].
  rewrite <- (U b), <- (U b'); auto.
Qed.
Let tri := Z.quot (K * (K + 1)) 2.
Lemma tri_eq : 0 <= K -> 2 * tri = K * (K + 1).
Proof.
  intros. destruct (triangle_even K) as (h & E). unfold tri. rewrite E, (Z.mul_comm 2 h). rewrite Z.quot_mul by lia. lia.
Qed.
Lemma all_pairs_nodup : NoDup (flat_map (block_pairs n near K R) (zrange tri)).
Proof.
  pose proof K_pos as KP. pose proof (tri_eq ltac:(lia)) as T.
  apply NoDup_flat_map; [apply zrange_nodup|intros; apply block_pairs_nodup|].
  intros k k' (i, j) Hk Hk' H H'. apply in_zrange in Hk. apply in_zrange in Hk'.
  apply in_block_pairs in H as (bi & bj & E & B1 & B2 & I1 & I2 & _); try lia.
  apply in_block_pairs in H' as (bi' & bj' & E' & B1' & B2' & I1' & I2' & _); try lia.
  assert (bi = bi') as <- by (apply (in_block_unique bi bi' i); auto; lia).
  assert (bj = bj') as <- by (apply (in_block_unique bj bj' j); auto; lia).
  destruct (block_indices_spec K k) as (x & y & X1 & _ & _ & X2); try lia.
  destruct (block_indices_spec K k') as (x' & y' & X1' & _ & _ & X2'); try lia.
  rewrite E in X1. rewrite E' in X1'. injection X1 as <- <-. injection X1' as <- <-. lia.
Qed.
Lemma in_all_pairs i j : In (i, j) (flat_map (block_pairs n near K R) (zrange tri)) <->
  0 <= i < j /\ j < n /\ near i j = true.
Proof.
  pose proof K_pos as KP. pose proof (tri_eq ltac:(lia)) as T. destruct P as (P1 & P2).
  rewrite in_flat_map. split.
  - intros (k & Hk & H). apply in_zrange in Hk. apply in_block_pairs in H as (bi & bj & E & B1 & B2 & I1 & I2 & L & N); try lia.
    unfold in_block, block_off in *. destruct (P1 bi) as (? & ? & ?); [lia|]. destruct (P1 bj) as (? & ? & ?); [lia|].
    repeat split; auto; nia.
  - intros (L1 & L2 & N). destruct (P2 i) as (bi & (Bi & Ii) & _); [lia|]. destruct (P2 j) as (bj & (Bj & Ij) & _); [lia|].
    unfold block_off in *.
    assert (B : bi <= bj).
    { destruct (Z_le_gt_dec bi bj); auto. exfalso. destruct (P1 bi) as (? & ? & ?); auto.
      rewrite FullBlocks in Ij by lia. nia. }
    destruct (triangle_even bj) as (h & Eh). set (k := h + bi).
    assert (Hk : 0 <= k /\ 2 * k < K * (K + 1)) by (unfold k; nia).
    exists k. split; [apply in_zrange; lia|]. apply in_block_pairs; try lia.
    destruct (block_indices_spec K k) as (x & y & X1 & X2 & X3 & X4); try lia.
    assert (y = bj).
    { destruct (Z.lt_trichotomy y bj) as [Q|[Q|Q]]; auto; exfalso; unfold k in X4; nia. }
    subst y. assert (x = bi) by (unfold k in X4; lia). subst x.
    exists bi, bj. unfold in_block. repeat split; auto; lia.
Qed.
End Pairs.

(** ** The lists *)
Definition entry (i : Z) (p : Z * Z) : list Z :=
  (if i =? fst p then [snd p] else []) ++ (if i =? snd p then [fst p] else []).
Lemma push_entry lists p i : push lists p i = lists i ++ entry i p.
Proof.
  destruct p as (a, b). unfold push, entry, store_at. cbn [fst snd].
  destruct (Z.eqb_spec i b), (Z.eqb_spec i a); subst; rewrite ?Z.eqb_refl, ?app_nil_r; auto.
  - rewrite <- app_assoc. auto.
  - destruct (Z.eqb_spec b a); [congruence|auto].
Qed.
Lemma pushes_entry ps : forall lists i, fold_left push ps lists i = lists i ++ flat_map (entry i) ps.
Proof.
  induction ps as [|p ps IH]; intros; cbn [fold_left flat_map]; [now rewrite app_nil_r|].
  rewrite IH, push_entry, <- app_assoc. auto.
Qed.
Lemma flat_map_app {A B} (f : A -> list B) l m : flat_map f (l ++ m) = flat_map f l ++ flat_map f m.
Proof. induction l as [|a l IH]; cbn; auto. now rewrite IH, app_assoc. Qed.
Lemma thread_entries n near K R ks i :
  thread_lists n near K R ks i = flat_map (entry i) (flat_map (block_pairs n near K R) ks).
Proof.
  unfold thread_lists. set (s := fun _ => []). change (flat_map (entry i) _) with (s i ++ flat_map (entry i) (flat_map (block_pairs n near K R) ks)).
  clearbody s. revert s. induction ks as [|k ks IH]; intros; cbn [fold_left flat_map]; [now rewrite app_nil_r|].
  rewrite IH, pushes_entry, flat_map_app, <- app_assoc. auto.
Qed.
Lemma flat_map_concat {A B} (f : A -> list B) ls : flat_map f (concat ls) = flat_map (flat_map f) ls.
Proof. induction ls as [|l ls IH]; cbn; auto. now rewrite flat_map_app, IH. Qed.

Theorem radius_spec n near requested work :
  1 <= n <= 2 ^ 33 -> distributed (all_blocks n) work -> requested <= Z.of_nat (length work) ->
  exists lists, radius_neighbors_brute n near requested work = Some lists /\
    radius_lists n (fun i j => near i j = true) lists.
Proof.
  intros Hn D Hr. unfold radius_neighbors_brute.
  assert (Hb : 0 < max_block_size n) by (unfold max_block_size, RADIUS_NEIGHBORS_BLOCK_SIZE; lia).
  destruct (blocking_scheme_correct n (max_block_size n)) as (K & R & E & P & EK); try lia.
  unfold distributed, all_blocks in D. rewrite E in D |- *.
  destruct (Z.ltb_spec (Z.of_nat (length work)) requested); [lia|].
  eexists. split; [reflexivity|].
  assert (KB : 4 * (K * (K + 1)) <= 2 ^ 53).
  { assert (0 <= K <= 2 ^ 25 + 1); [|nia].
    subst K. split; [apply Z.div_pos; lia|]. unfold max_block_size, RADIUS_NEIGHBORS_BLOCK_SIZE.
    destruct (Z.min_spec 256 n) as [(A & ->)|(A & ->)]; [apply Z.lt_succ_r; apply Z.div_lt_upper_bound; lia|].
    apply Z.lt_succ_r; apply Z.div_lt_upper_bound; nia. }
  assert (FB : forall b, b < K - 1 -> block_length n K R b = max_block_size n).
  { intros b B. unfold block_length. destruct (Z.eqb_spec b (K - 1)); [lia|]. reflexivity. }
  set (pairs := flat_map (block_pairs n near K R) (concat work)).
  assert (PP : Permutation pairs (flat_map (block_pairs n near K R) (zrange (Z.quot (K * (K + 1)) 2)))).
  { apply Permutation_flat_map. exact D. }
  assert (In_pairs : forall i j, In (i, j) pairs <-> 0 <= i < j /\ j < n /\ near i j = true).
  { intros i j. rewrite <- (in_all_pairs n K R near) by (auto; lia). split; apply Permutation_in; auto. now apply Permutation_sym. }
  assert (ND : NoDup pairs).
  { eapply Permutation_NoDup; [apply Permutation_sym; exact PP|]. apply all_pairs_nodup; auto; lia. }
  intros i Hi.
  assert (El : flat_map (fun ks => thread_lists n near K R ks i) work = flat_map (entry i) pairs).
  { unfold pairs. clear. induction work as [|w work IH]; cbn; auto. rewrite !flat_map_app, <- IH, thread_entries. auto. }
  rewrite El. split.
  - apply NoDup_flat_map; auto.
    + intros (a, b) H1. apply In_pairs in H1. unfold entry. cbn.
      destruct (Z.eqb_spec i a), (Z.eqb_spec i b); cbn; repeat constructor; auto. lia.
    + intros (a, b) (a', b') x H1 H2 X1 X2. apply In_pairs in H1. apply In_pairs in H2. unfold entry in *. cbn in *.
      destruct (Z.eqb_spec i a), (Z.eqb_spec i b), (Z.eqb_spec i a'), (Z.eqb_spec i b'); cbn in *; subst; try lia;
      destruct X1, X2; try tauto; subst; try reflexivity; lia.
  - intros j. rewrite in_flat_map. split.
    + intros ((a, b) & H1 & X). apply In_pairs in H1. unfold entry in X. cbn in X.
      destruct (Z.eqb_spec i a), (Z.eqb_spec i b); cbn in X; subst; try lia; destruct X as [<-|[]];
      rewrite ?Z.min_l, ?Z.max_r, ?Z.min_r, ?Z.max_l by lia; repeat split; try lia; apply H1.
    + intros (Hj & Ne & N). exists (Z.min i j, Z.max i j). split; [apply In_pairs; repeat split; try lia; auto|].
      unfold entry. cbn. apply in_app_iff. destruct (Z_lt_le_dec i j).
      * rewrite Z.min_l, Z.max_r, Z.eqb_refl by lia. cbn. auto.
      * rewrite Z.min_r, Z.max_l, Z.eqb_refl by lia. cbn. auto.
Qed.

(** ** Distances *)
Lemma near_by_spec dist m two eps i j : distances two dist -> (0 <= eps)%R ->
  is_minkowski m = false \/ two = false -> near_by dist m two eps i j = true <-> (dist m i j <= eps)%R.
Proof.
  intros (_ & D0 & D1 & _) He Hm. unfold near_by.
  assert (E : (dist (metric_internal m two) i j <= eps_internal (fun x => x * x) m eps)%R <-> (dist m i j <= eps)%R).
  { unfold metric_internal, eps_internal.
    assert (M : is_minkowski m && two = false) by (destruct m, two; cbn in *; destruct Hm; auto; discriminate).
    rewrite M, orb_false_r. destruct (is_euclidean_gemm m) eqn:G; [|tauto].
    destruct m; try discriminate. rewrite D1. specialize (D0 i j). split; intros; nra. }
  destruct (Rle_dec _ _); rewrite <- E; split; auto; discriminate.
Qed.
Lemma radius_lists_ext n c c' lists : (forall i j, 0 <= i < n -> 0 <= j < n -> c i j <-> c' i j) ->
  radius_lists n c lists -> radius_lists n c' lists.
Proof.
  intros E H i Hi. destruct (H i Hi) as (N & I). split; auto. intros j. rewrite I.
  split; intros (A & B & C); repeat split; auto; try lia; apply E; auto; lia.
Qed.

(** ** Feeding DBSCAN *)
Lemma connected_ext n (near near' : Z -> Z -> Prop) (dense dense' : Z -> Prop) :
  (forall i j, sample n i -> near i j -> near' i j) -> (forall i, sample n i -> dense i -> dense' i) ->
  forall i j, connected n near dense i j -> connected n near' dense' i j.
Proof.
  intros H1 H2 i j C. induction C as [i j ((S1 & D1) & (S2 & D2) & N)| |].
  - apply rt_step. split; [split; auto|split; [split; auto|auto]].
  - apply rt_refl.
  - eapply rt_trans; eauto.
Qed.
Lemma clustering_ext n near near' dense dense' lab k :
  (forall i j, sample n i -> near i j <-> near' i j) -> (forall i, sample n i -> dense i <-> dense' i) ->
  clustering n near dense lab k -> clustering n near' dense' lab k.
Proof.
  intros H1 H2 (A & B & C & D & E & F).
  assert (Co : forall i, core_sample n dense i <-> core_sample n dense' i).
  { intros i. unfold core_sample. specialize (H2 i). tauto. }
  assert (Cn : forall i j, connected n near dense i j <-> connected n near' dense' i j).
  { intros i j. split; apply connected_ext; intros; try apply H1; try apply H2; auto. }
  assert (Re : forall i, reached n near dense i <-> reached n near' dense' i).
  { intros i. split; intros (j & J1 & J2); exists j; (split; [now apply Co|]); apply (H1 j i); auto; apply J1. }
  unfold clustering. repeat split.
  - intros L. apply Cn, A; try apply Co; auto.
  - intros L. apply A; try apply Co; auto. now apply Cn.
  - apply B. now apply Co.
  - apply B. now apply Co.
  - intros c Hc. destruct (C c Hc) as (i & I1 & I2). exists i. split; auto. now apply Co.
  - intros L. apply D in L as (i' & I1 & I2); try (apply Co; auto). exists i'. split; [now apply Cn|]. intros. apply I2. now apply Cn.
  - intros (i' & I1 & I2). apply D; try (apply Co; auto). exists i'. split; [now apply Cn|]. intros. apply I2. now apply Cn.
  - destruct (E i) as ((j & J1 & J2 & J3) & _); auto; [rewrite H2; auto|now apply Re|].
    exists j. split; [now apply Co|]. split; auto. apply (H1 j i); auto; apply J1.
  - intros j J1 J2. destruct (E i) as (_ & J); auto; [rewrite H2; auto|now apply Re|].
    apply J; [now apply Co|]. apply (H1 j i); auto; apply J1.
  - intros i S (N1 & N2). apply F; auto. split; [rewrite H2; auto|]. now rewrite Re.
Qed.
Lemma radius_neighbour_lists n c lists : radius_lists n c lists -> neighbour_lists n lists.
Proof.
  intros H. split.
  - intros i j Hi Hj. apply H in Hj as (A & B & _); auto.
  - intros i j Hi Hj Hin. apply H in Hin as (A & B & C); auto. apply H; auto. rewrite Z.min_comm, Z.max_comm. auto.
Qed.
Lemma dbscan_of_radius n (close : Z -> Z -> Prop) lists min_samples :
  (forall i j, close i j <-> close j i) -> radius_lists n close lists ->
  exists lab k, dbscan_clusters_serial n lists min_samples = Some (lab, k) /\
    clustering n (within n close) (enough n close min_samples) lab k.
Proof.
  intros Sy H. destruct (serial_dbscan_correct n lists min_samples (radius_neighbour_lists n close lists H)) as (lab & k & E & Cl).
  exists lab, k. split; auto.
  assert (W : forall i j, sample n i -> In j (lists i) <-> within n close i j).
  { intros i j Hi. destruct (H i Hi) as (_ & I). rewrite I. unfold within.
    destruct (Z_le_gt_dec i j); [rewrite Z.min_l, Z.max_r by lia; tauto|].
    rewrite Z.min_r, Z.max_l by lia. rewrite (Sy i j). tauto. }
  revert Cl. apply clustering_ext; auto. intros i Hi. split.
  - intros L. exists (lists i). split; [apply H; auto|]. split; [intros j; apply W; auto|lia].
  - intros (l & N & I & L). assert ((length l <= length (lists i))%nat); [|lia].
    apply NoDup_incl_length; auto. intros j J. apply W; auto.
Qed.
Lemma small_team n near requested work : 1 <= n -> Z.of_nat (length work) < requested ->
  radius_neighbors_brute n near requested work = None.
Proof.
  intros Hn L. unfold radius_neighbors_brute. destruct (blocking_scheme _ _) as [(K, R)|]; auto.
  destruct (Z.ltb_spec (Z.of_nat (length work)) requested); auto. lia.
Qed.
