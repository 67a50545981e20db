From Coq Require Import ZArith List Bool Lia.
From Verif Require Import Base Par UtilModel UtilSpec UtilProofs QrModel QrSpec.
Import ListNotations.
Local Open Scope Z_scope.

Lemma qr_sound_intro m n k bs final :
  1 <= n -> 1 <= k -> (1 < k -> n <= bs) -> n <= final -> (k - 1) * bs + final <= m -> 0 < bs ->
  qr_sound m n k bs final.
Proof.
  intros N K B F M P i I. unfold qr_tau_range, qr_tau_size, qr_this_block. cbn [fst snd].
  assert (L : n <= (if i =? k - 1 then final else bs)) by (destruct (Z.eqb_spec i (k - 1)); lia).
  cbv zeta. split; [exact L|]. split.
  { destruct (Z.eqb_spec i (k - 1)) as [->|]; nia. }
  split; [nia|]. rewrite Z.min_r by exact L. split; [|split].
  - destruct (Z.eq_dec k 1) as [->|]; [lia|]. rewrite !Z.min_r by lia. nia.
  - intros i' I' D.
    assert (L' : n <= (if i' =? k - 1 then final else bs)) by (destruct (Z.eqb_spec i' (k - 1)); lia).
    rewrite Z.min_r by exact L'. nia.
  - intros r r' c H. unfold qr_copies in H. apply in_flat_map in H as (j & J & H).
    apply in_map_iff in H as (x & E & X). apply in_zrange in J, X. injection E as <- <- <-.
    split; [lia|]. split; nia.
Qed.

Lemma qr_partial t m n : 1 <= t -> 1 <= n -> n <= m ->
  (n <= QR_MIN_BLOCK_SIZE \/
   forall mx, qr_max_blocks t m n = Some mx -> mx < m / Z.min QR_MIN_BLOCK_SIZE m) ->
  exists k bs final, qr_blocks t m n = Some (k, bs, final) /\ qr_sound m n k bs final.
Proof.
  intros T N M H. unfold qr_blocks.
  destruct (qr_max_blocks t m n) as [mx|] eqn:E.
  2: { unfold qr_max_blocks in E. destruct (Z.eqb_spec ((3 * t - 1) * n) 0); [nia|discriminate]. }
  destruct (Z.eqb_spec mx 1) as [->|X1].
  { exists 1, m, m. split; auto. apply qr_sound_intro; lia. }
  assert (X : 2 <= mx /\ mx * n <= m).
  { unfold qr_max_blocks in E. destruct (Z.eqb_spec ((3 * t - 1) * n) 0); [discriminate|].
    assert (E' : Z.min (Z.max (Z.min QR_MAX_NUM_BLOCKS
               (Z.quot (3 * (t - 1) * m) ((3 * t - 1) * n))) 1) t = mx) by congruence.
    clear E. rename E' into E. revert E.
    assert (Ha : 0 <= 3 * (t - 1) * m) by (apply Z.mul_nonneg_nonneg; lia).
    assert (Hb : 0 < (3 * t - 1) * n) by (apply Z.mul_pos_pos; lia).
    rewrite (Z.quot_div_nonneg _ _ Ha Hb). intros E.
    set (q := 3 * (t - 1) * m / ((3 * t - 1) * n)) in *.
    assert (Q : q * ((3 * t - 1) * n) <= 3 * (t - 1) * m).
    { rewrite Z.mul_comm. apply Z.mul_div_le. exact Hb. }
    assert (2 <= mx /\ mx <= q) by lia. split; [lia|]. clearbody q.
    assert (0 < 3 * t - 1) by lia.
    assert (Q2 : mx * ((3 * t - 1) * n) <= q * ((3 * t - 1) * n)) by (apply Z.mul_le_mono_nonneg_r; nia).
    apply (Z.mul_le_mono_pos_l _ _ (3 * t - 1)); [lia|].
    replace ((3 * t - 1) * (mx * n)) with (mx * ((3 * t - 1) * n)) by ring. nia. }
  unfold tall_skinny_blocking_scheme.
  destruct (tall_block_size m QR_MIN_BLOCK_SIZE mx) as (bs & B & B1 & _ & B3 & B4);
    try (unfold QR_MIN_BLOCK_SIZE; lia).
  cbv zeta. destruct (Z.eqb_spec (Z.min QR_MIN_BLOCK_SIZE m) 0); [unfold QR_MIN_BLOCK_SIZE in *; lia|].
  rewrite B. assert (P : 0 < bs) by (unfold QR_MIN_BLOCK_SIZE in *; lia).
  destruct (Z.eqb_spec bs 0); [lia|].
  assert (NB : n <= bs).
  { destruct H as [H|H].
    - lia.
    - specialize (H mx eq_refl). specialize (B4 H).
      assert (n <= m / mx) by (apply Z.div_le_lower_bound; lia). lia. }
  rewrite Z.quot_div_nonneg, Z.rem_mod_nonneg by lia. rewrite Z.geb_leb.
  pose proof (Z.div_mod m bs ltac:(lia)) as D. pose proof (Z.mod_pos_bound m bs P).
  assert (K : 1 <= m / bs) by (apply Z.div_le_lower_bound; lia).
  destruct (Z.leb_spec n (m mod bs)).
  - eexists _, _, _. split; [reflexivity|]. apply qr_sound_intro; try lia.
  - eexists _, _, _. split; [reflexivity|].
    destruct (Z.eqb_spec (m / bs) 1) as [E1|]; apply qr_sound_intro; nia.
Qed.
