From Coq Require Import ZArith List Bool Permutation Lia Reals Lra.
From Flocq Require Import Core IEEE754.BinarySingleNaN.
From Verif Require Import Base Par F64 UtilModel SortModel ForestModel ForestSpec ForestProofs ForestVoteProofs.
Import ListNotations.
Local Open Scope Z_scope.

Lemma flat_map_one {A} (f : Z -> list A) l s0 : NoDup l -> In s0 l -> (forall s, In s l -> s <> s0 -> f s = []) -> flat_map f l = f s0.
Proof.
  induction 1 as [|a l N D IH]; [easy|]. intros I F. cbn [flat_map]. destruct (Z.eq_dec a s0) as [->|Ne].
  - replace (flat_map f l) with (@nil A); [apply app_nil_r|]. symmetry.
    assert (G : forall l', incl l' l -> flat_map f l' = []).
    { induction l' as [|b l' IH']; intros J; auto. cbn. rewrite (F b), IH'; auto.
      - intros x X. apply J. now right.
      - right. apply J. now left.
      - intros ->. apply N, J. now left. }
    apply G. intros x; auto.
  - rewrite (F a) by (auto; now left). apply IH; [destruct I; congruence|]. intros s J. apply F. now right.
Qed.
Lemma filter_flat_map {A B} (f : A -> list B) P l : filter P (flat_map f l) = flat_map (fun a => filter P (f a)) l.
Proof. induction l as [|a l IH]; cbn; auto. rewrite filter_app, IH. auto. Qed.
Lemma filter_perm {A} (f : A -> bool) l l' : Permutation l l' -> Permutation (filter f l) (filter f l').
Proof. induction 1; cbn; repeat destruct (f _); auto; try constructor; auto. eapply perm_trans; eauto. Qed.
Lemma map_flat_map {A B C} (f : A -> list B) (g : B -> C) l : map g (flat_map f l) = flat_map (fun a => map g (f a)) l.
Proof. induction l as [|a l IH]; cbn; auto. rewrite map_app, IH. auto. Qed.

Section Proba.
Variables (nsamp n_class n_tree block_size n_blocks block_rem n_threads : Z) (proba : Z -> Z -> Z -> f64).
Hypothesis Hn : 0 <= nsamp.
Hypothesis Hb : 0 < block_size.
Hypothesis Hs : blocking_scheme nsamp block_size = Some (n_blocks, block_rem).
Hypothesis Hc : 0 < n_class.

Definition slice (k p : Z) : bool := part block_size k (p mod (n_threads * block_size)).
Lemma slice_separate k k' p : slice k p = true -> slice k' p = true -> k = k'.
Proof. unfold slice. apply part_separate; auto. Qed.

Let body := proba_body nsamp n_class block_size n_blocks block_rem n_threads proba.
Definition proba_ev (t s : Z) : list (Z * f64) := map (fun j => (j * nsamp + s, proba t s j)) (zrange n_class).
Definition proba_evs (it : Z * Z) : list (Z * f64) :=
  flat_map (fun i => proba_ev (snd it) (fst it * block_size + i)) (zrange (n_elem n_blocks block_size block_rem (fst it))).
Let fine := good n_tree n_blocks n_threads.

Definition pairs (n : Z) : list (Z * Z) := flat_map (fun i => map (fun j => (i, j)) (zrange n_class)) (zrange n).
Lemma in_pairs n a : In a (pairs n) -> 0 <= fst a < n /\ 0 <= snd a < n_class.
Proof.
  unfold pairs. rewrite in_flat_map. intros (i & I & J). apply in_map_iff in J. destruct J as (j & <- & J).
  apply in_zrange in I, J. auto.
Qed.

Lemma proba_body_local k it rest b r : fine k it -> exists b' r',
  local f64 (Z * f64) (body k it ++ rest) b r = proba_evs it ++ local f64 (Z * f64) rest b' r'.
Proof.
  intros (K & B & T). destruct it as [bl t]. cbn [fst snd] in *. unfold body, proba_body, proba_evs. cbn [fst snd]. rewrite <- app_assoc.
  set (n := n_elem _ _ _ _).
  destruct (item_local f64 (Z * f64) k (fun a => inside nsamp (bl * block_size + fst a))
    (fun a => k * block_size + n_threads * block_size * snd a + fst a) (fun a => proba t (bl * block_size + fst a) (snd a))
    (fun a p => (snd a * nsamp + bl * block_size + fst a, p)) (pairs n) rest b r) as (b' & r' & E).
  { intros [i j] [i' j'] I I' E. apply in_pairs in I, I'. cbn [fst snd] in *.
    destruct (elem_inside _ _ _ _ Hn Hb Hs bl i B) as [I1 _]; [unfold n in *; lia|].
    destruct (elem_inside _ _ _ _ Hn Hb Hs bl i' B) as [I2 _]; [unfold n in *; lia|].
    assert (L : block_size <= n_threads * block_size) by nia.
    set (ld := n_threads * block_size) in *. assert (j = j') by nia. subst. f_equal. lia. }
  exists b', r'. transitivity (map (fun a => (snd a * nsamp + bl * block_size + fst a, proba t (bl * block_size + fst a) (snd a))) (pairs n) ++ local f64 (Z * f64) rest b' r').
  - rewrite <- E. f_equal. f_equal; [|f_equal].
    + unfold pairs. rewrite map_flat_map. apply flat_map_ext. intros i. rewrite map_map. auto.
    + unfold pairs. rewrite flat_map_flat. apply flat_map_ext. intros i. rewrite flat_map_map. apply flat_map_ext. intros j.
      cbn [fst snd]. do 2 f_equal. lia.
  - f_equal. unfold pairs, proba_ev. rewrite map_flat_map. apply flat_map_ext. intros i. rewrite map_map. apply map_ext. intros j.
    cbn [fst snd]. f_equal. lia.
Qed.

Lemma slice_ok k i j : 0 <= k < n_threads -> 0 <= i < block_size -> 0 <= j < n_class ->
  inside (n_threads * n_class * block_size) (k * block_size + n_threads * block_size * j + i) = true /\
  slice k (k * block_size + n_threads * block_size * j + i) = true.
Proof.
  intros K I J. unfold inside, slice, part.
  replace (k * block_size + n_threads * block_size * j + i) with (k * block_size + i + j * (n_threads * block_size)) by lia.
  assert (M : (k * block_size + i + j * (n_threads * block_size)) mod (n_threads * block_size) = k * block_size + i).
  { rewrite Z.mod_add by nia. apply Z.mod_small. nia. }
  rewrite M, !andb_true_iff, !Z.leb_le, !Z.ltb_lt.
  assert (0 <= k * block_size + i < n_threads * block_size) by nia. nia.
Qed.

Lemma proba_body_mine k it : fine k it -> Forall (mine f64 (Z * f64) (n_threads * n_class * block_size) slice k) (body k it).
Proof.
  intros (K & B & T). destruct it as [bl t]. cbn [fst snd] in *. unfold body, proba_body.
  apply Forall_app. split; apply Forall_flat_map, Forall_forall; intros i I; apply in_zrange in I;
    destruct (elem_inside _ _ _ _ Hn Hb Hs bl i B I) as [I1 I2].
  - apply Forall_map, Forall_forall. intros j J. apply in_zrange in J. cbn [mine].
    destruct (slice_ok k i j K ltac:(lia) J) as [-> ->]. repeat split; auto. unfold inside. rewrite andb_true_iff, Z.leb_le, Z.ltb_lt. auto.
  - apply Forall_flat_map, Forall_forall. intros j J. apply in_zrange in J.
    replace (k * block_size + j * n_threads * block_size + i) with (k * block_size + n_threads * block_size * j + i) by lia.
    destruct (slice_ok k i j K ltac:(lia) J) as [E1 E2]. repeat constructor; auto.
Qed.

Lemma sum_ok : forall ups s0, (forall u, In u ups -> 0 <= fst u < n_class * nsamp) -> exists s,
  sum_proba nsamp n_class ups s0 = Some s /\ forall p, s p = fold_left f64_add (map snd (filter (fun u => fst u =? p) ups)) (s0 p).
Proof.
  induction ups as [|[q v] ups IH]; intros s0 H.
  - exists s0. split; auto.
  - cbn [sum_proba]. assert (I : inside (n_class * nsamp) q = true).
    { specialize (H _ (or_introl eq_refl)). cbn [fst] in H. unfold inside. rewrite andb_true_iff, Z.leb_le, Z.ltb_lt. auto. }
    rewrite I. destruct (IH (store_at s0 q (f64_add (s0 q) v))) as (s & E & F). { intros u U. apply H. now right. }
    exists s. split; auto. intros p. rewrite F. unfold store_at. cbn [filter fst]. rewrite (Z.eqb_sym q p).
    destruct (p =? q) eqn:Ep; cbn [map fold_left snd]; [apply Z.eqb_eq in Ep; subst|]; auto.
Qed.

Lemma cell_sum s j : 0 <= s < nsamp -> 0 <= j < n_class ->
  map snd (filter (fun u => fst u =? j * nsamp + s) (flat_map (fun t => flat_map (proba_ev t) (zrange nsamp)) (zrange n_tree)))
  = map (fun t => proba t s j) (zrange n_tree).
Proof.
  intros S J. rewrite filter_flat_map, map_flat_map.
  assert (G : forall t, map snd (filter (fun u => fst u =? j * nsamp + s) (flat_map (proba_ev t) (zrange nsamp))) = [proba t s j]).
  { intros t. rewrite filter_flat_map, map_flat_map. rewrite (flat_map_one _ (zrange nsamp) s).
    - unfold proba_ev. replace (map (fun j0 => (j0 * nsamp + s, proba t s j0)) (zrange n_class)) with (flat_map (fun j0 => [(j0 * nsamp + s, proba t s j0)]) (zrange n_class)) by reflexivity.
      rewrite filter_flat_map, map_flat_map. rewrite (flat_map_one _ (zrange n_class) j).
      + cbn [filter fst]. rewrite Z.eqb_refl. auto.
      + apply zrange_nodup.
      + apply in_zrange; auto.
      + intros j' J' Ne. cbn [filter fst]. replace (j' * nsamp + s =? j * nsamp + s) with false; auto. symmetry. apply Z.eqb_neq. nia.
    - apply zrange_nodup.
    - apply in_zrange; auto.
    - intros s' S' Ne. apply in_zrange in S'. rewrite filter_none; auto. unfold proba_ev. intros u U. apply in_map_iff in U.
      destruct U as (j' & <- & J'). cbn [fst]. apply Z.eqb_neq. intros Eq. apply Ne.
      rewrite <- (Z.mod_small s' nsamp), <- (Z.mod_small s nsamp), <- (Z.mod_add s' j' nsamp), <- (Z.mod_add s j nsamp) by lia.
      f_equal. lia. }
  rewrite (flat_map_ext _ (fun t => [proba t s j])) by auto. reflexivity.
Qed.

Lemma sums_in_some_order sched tr : team n_threads (iterations n_blocks n_tree) sched -> interleaving (threads body 0 sched) tr ->
  exists res, proba_with nsamp n_class n_tree block_size n_threads tr = Some res /\
    forall s, 0 <= s < nsamp -> exists sum,
      (forall j, 0 <= j < n_class -> exists order, Permutation order (zrange n_tree) /\ sum j = sum_in_order (map (fun t => proba t s j) order)) /\
      forall j, 0 <= j < n_class -> res s j = normalised n_tree n_class sum j.
Proof.
  intros [Tl Tp] I. unfold proba_with.
  destruct (team_run f64 (Z * f64) (n_threads * n_class * block_size) slice slice_separate body proba_evs fine proba_body_local proba_body_mine sched tr
    (Memory (fun _ => f64_of_Z 0) (fun _ => f64_of_Z 0) [])) as (m & R & P); auto.
  { intros i its J K. apply Forall_forall. intros it L.
    assert (In it (iterations n_blocks n_tree)) by (apply (Permutation_in _ (Permutation_sym Tp)), in_concat; eauto).
    apply in_iterations in H. unfold fine, good. lia. }
  cbn [updates app] in P. rewrite R. cbn [bind].
  assert (P' : Permutation (updates m) (flat_map (fun t => flat_map (proba_ev t) (zrange nsamp)) (zrange n_tree))).
  { rewrite P, <- (Permutation_flat_map _ Tp). apply (all_updates nsamp block_size n_blocks block_rem Hn Hb Hs proba_ev). }
  destruct (sum_ok (updates m) (fun _ => f64_of_Z 0)) as (sm & E & F).
  { intros u Hu. apply (Permutation_in _ P') in Hu. apply in_flat_map in Hu. destruct Hu as (t & T & Hu). apply in_flat_map in Hu.
    destruct Hu as (s & S & Hu). apply in_map_iff in Hu. destruct Hu as (j & <- & J). cbn [fst]. apply in_zrange in T, S, J. nia. }
  rewrite E. cbn [bind]. eexists. split; [reflexivity|]. intros s S. exists (fun j => sm (j * nsamp + s)). split; [|reflexivity].
  intros j J. rewrite F.
  assert (Q : Permutation (map (fun t => proba t s j) (zrange n_tree)) (map snd (filter (fun u => fst u =? j * nsamp + s) (updates m)))).
  { rewrite <- cell_sum by auto. apply Permutation_map, filter_perm. symmetry. exact P'. }
  apply Permutation_sym, Permutation_map_inv in Q. destruct Q as (order & E' & Q). exists order. split; [symmetry; exact Q|].
  unfold sum_in_order. rewrite E'. auto.
Qed.
End Proba.

(** ** Exact sums *)
Lemma f64_of_Z_add a b : 0 <= a -> 0 <= b -> a + b <= 2 ^ 53 -> f64_add (f64_of_Z a) (f64_of_Z b) = f64_of_Z (a + b).
Proof.
  intros A B L.
  destruct (f64_of_Z_is a ltac:(lia)) as [Fa Ra]. destruct (f64_of_Z_is b ltac:(lia)) as [Fb Rb].
  destruct (f64_of_Z_is (a + b) ltac:(lia)) as [Fc Rc].
  assert (S : forall z, 0 <= z <= 2 ^ 53 -> Bsign (f64_of_Z z) = false).
  { intros z Z0. pose proof (binary_normalize_correct 53 1024 _ _ mode_NE z 0 false) as C. cbv zeta in C.
    replace (F2R (Float radix2 z 0)) with (IZR z) in C by (unfold F2R; cbn; lra).
    assert (E : Rlt_bool (Rabs (round radix2 (SpecFloat.fexp 53 1024) (round_mode mode_NE) (IZR z))) (bpow radix2 1024) = true).
    { apply (no_overflow (IZR z)). rewrite Rabs_pos_eq by (apply IZR_le; lia). apply Rle_trans with (IZR (2 ^ 53)); [apply IZR_le; lia|].
      change (IZR (2 ^ 53)) with (bpow radix2 53). apply bpow_le. lia. }
    rewrite E in C. destruct C as (_ & _ & C). unfold f64_of_Z. rewrite C.
    destruct (Rcompare_spec (IZR z) 0); auto. apply lt_IZR in H. lia. }
  pose proof (Bplus_correct 53 1024 _ _ mode_NE (f64_of_Z a) (f64_of_Z b) Fa Fb) as C. rewrite Ra, Rb, <- plus_IZR in C.
  assert (E : Rlt_bool (Rabs (round radix2 (SpecFloat.fexp 53 1024) (round_mode mode_NE) (IZR (a + b)))) (bpow radix2 1024) = true).
  { apply (no_overflow (IZR (a + b))). rewrite Rabs_pos_eq by (apply IZR_le; lia). apply Rle_trans with (IZR (2 ^ 53)); [apply IZR_le; lia|].
    change (IZR (2 ^ 53)) with (bpow radix2 53). apply bpow_le. lia. }
  rewrite E in C. destruct C as (C1 & C2 & C3). unfold f64_add. apply B2R_Bsign_inj; auto.
  - rewrite C1, Rc. apply (rnd_Z (a + b)). lia.
  - rewrite C3, !S by lia. destruct (Rcompare_spec (IZR (a + b)) 0); auto. apply lt_IZR in H. lia.
Qed.

Lemma pure_sum (b : Z -> bool) : forall l n, 0 <= n -> n + Z.of_nat (length l) <= 2 ^ 53 ->
  fold_left f64_add (map (fun t => f64_of_Z (if b t then 1 else 0)) l) (f64_of_Z n) = f64_of_Z (n + Z.of_nat (length (filter b l))).
Proof.
  induction l as [|t l IH]; intros n N L; cbn [map fold_left filter length].
  - f_equal. lia.
  - cbn [length] in L. rewrite f64_of_Z_add by (destruct (b t); lia). rewrite IH by (destruct (b t); lia).
    f_equal. destruct (b t); cbn [length]; lia.
Qed.

(** ** Score *)
Lemma filter_length_le {A} (f : A -> bool) l : (length (filter f l) <= length l)%nat.
Proof. induction l as [|a l IH]; cbn; auto. destruct (f a); cbn; lia. Qed.
Lemma score_sum (b : Z -> bool) : forall l n, 0 <= n -> n + Z.of_nat (length l) <= 2 ^ 53 ->
  fold_left (fun a i => if b i then f64_add a (f64_of_Z 1) else a) l (f64_of_Z n) = f64_of_Z (n + Z.of_nat (length (filter b l))).
Proof.
  induction l as [|t l IH]; intros n N L; cbn [fold_left filter length].
  - f_equal. lia.
  - cbn [length] in L. destruct (b t).
    + rewrite f64_of_Z_add by lia. rewrite IH by lia. f_equal. cbn [length]. lia.
    + rewrite IH by lia. auto.
Qed.
Lemma score_value (pred y : Z -> Z) nsamp : 1 <= nsamp <= 2 ^ 53 ->
  is (f64_div (fold_left (fun a i => if pred i =? y i then f64_add a (f64_of_Z 1) else a) (zrange nsamp) (f64_of_Z 0)) (f64_of_Z nsamp))
     (rnd (IZR (right pred y nsamp) / IZR nsamp)).
Proof.
  intros H. rewrite (score_sum (fun i => pred i =? y i)) by (rewrite ?zrange_len; lia). rewrite Z.add_0_l. fold (right pred y nsamp).
  assert (R : 0 <= right pred y nsamp <= nsamp).
  { unfold right. pose proof (filter_length_le (fun i => pred i =? y i) (zrange nsamp)) as L. rewrite zrange_len in L. lia. }
  apply f64_div_is; try (apply f64_of_Z_is; lia).
  - apply not_0_IZR. lia.
  - rewrite Rabs_pos_eq.
    + apply Rle_trans with 1%R; [|change 1%R with (bpow radix2 0); apply bpow_le; lia].
      apply Rmult_le_reg_r with (IZR nsamp); [apply IZR_lt; lia|]. field_simplify; [apply IZR_le; lia|apply not_0_IZR; lia].
    + apply Rmult_le_pos; [apply IZR_le; lia|]. apply Rlt_le, Rinv_0_lt_compat, IZR_lt. lia.
Qed.

(** Single precision: the count stops at 2^24. *)
Definition rnd32 (x : R) : R := round radix2 (SpecFloat.fexp 24 128) ZnearestE x.
#[global] Instance fexp32_valid : Valid_exp (SpecFloat.fexp 24 128).
Proof. apply (fexp_correct 24 128 _). Qed.
Lemma rnd32_mono x y : (x <= y)%R -> (rnd32 x <= rnd32 y)%R.
Proof. unfold rnd32. apply round_le; auto with typeclass_instances. Qed.

Definition big32 : f32 := f32_of_Z (2 ^ 24).
Lemma big32_value : is_finite big32 = true /\ B2R big32 = IZR (2 ^ 24).
Proof.
  split; [vm_compute; reflexivity|].
  rewrite <- SF2R_B2SF. replace (B2SF big32) with (SpecFloat.S754_finite false 8388608 1) by (vm_compute; reflexivity).
  unfold SF2R, F2R. cbn [Fnum Fexp cond_Zopp]. change (IZR 8388608) with (bpow radix2 23). rewrite <- bpow_plus. reflexivity.
Qed.
Lemma one32_value : is_finite (f32_of_Z 1) = true /\ B2R (f32_of_Z 1) = 1%R.
Proof.
  split; [vm_compute; reflexivity|].
  rewrite <- SF2R_B2SF. replace (B2SF (f32_of_Z 1)) with (SpecFloat.S754_finite false 8388608 (-23)) by (vm_compute; reflexivity).
  unfold SF2R, F2R. cbn [Fnum Fexp cond_Zopp]. change (IZR 8388608) with (bpow radix2 23). rewrite <- bpow_plus. reflexivity.
Qed.

Lemma rnd32_bpow e : (-100 <= e <= 100)%Z -> rnd32 (bpow radix2 e) = bpow radix2 e.
Proof.
  intros H. unfold rnd32. apply round_generic; auto with typeclass_instances. apply generic_format_bpow. unfold SpecFloat.fexp, SpecFloat.emin. lia.
Qed.
Lemma rnd32_0 : rnd32 0 = 0%R.
Proof. unfold rnd32. apply round_0; auto with typeclass_instances. Qed.
Lemma small32 x : (0 <= x <= bpow radix2 100)%R -> Rlt_bool (Rabs (rnd32 x)) (bpow radix2 128) = true.
Proof.
  intros [H1 H2]. apply Rlt_bool_true. apply rnd32_mono in H1, H2. rewrite rnd32_0 in H1. rewrite rnd32_bpow in H2 by lia.
  rewrite Rabs_pos_eq by auto. eapply Rle_lt_trans; [exact H2|]. apply bpow_lt. lia.
Qed.

Lemma rnd32_stop : rnd32 (IZR (2 ^ 24) + 1) = IZR (2 ^ 24).
Proof.
  destruct big32_value as [F1 R1]. destruct one32_value as [F2 R2].
  pose proof (Bplus_correct 24 128 _ _ mode_NE big32 (f32_of_Z 1) F1 F2) as C. rewrite R1, R2 in C.
  change (round radix2 (SpecFloat.fexp 24 128) (round_mode mode_NE) (IZR (2 ^ 24) + 1)) with (rnd32 (IZR (2 ^ 24) + 1)) in C.
  rewrite small32 in C.
  - destruct C as (C & _). rewrite <- C. fold (f32_add big32 (f32_of_Z 1)).
    rewrite <- R1, <- !SF2R_B2SF. reflexivity.
  - split; [apply Rplus_le_le_0_compat; [apply IZR_le; lia|lra]|]. rewrite <- (plus_IZR _ 1).
    apply Rle_trans with (bpow radix2 30); [|apply bpow_le; lia]. change (bpow radix2 30) with (IZR (2 ^ 30)). apply IZR_le. lia.
Qed.

Definition in32 (x : f32) : Prop := is_finite x = true /\ (0 <= B2R x <= IZR (2 ^ 24))%R.
Lemma in32_add x : in32 x -> in32 (f32_add x (f32_of_Z 1)).
Proof.
  intros [F [H1 H2]]. destruct one32_value as [F2 R2].
  pose proof (Bplus_correct 24 128 _ _ mode_NE x (f32_of_Z 1) F F2) as C. rewrite R2 in C.
  change (round radix2 (SpecFloat.fexp 24 128) (round_mode mode_NE) (B2R x + 1)) with (rnd32 (B2R x + 1)) in C.
  assert (B : (IZR (2 ^ 24) + 1 <= bpow radix2 100)%R).
  { rewrite <- (plus_IZR _ 1). apply Rle_trans with (bpow radix2 30); [|apply bpow_le; lia]. change (bpow radix2 30) with (IZR (2 ^ 30)). apply IZR_le. lia. }
  rewrite small32 in C by lra. destruct C as (C1 & C2 & _). split; [exact C2|]. fold (f32_add x (f32_of_Z 1)) in C1. rewrite C1. split.
  - rewrite <- rnd32_0. apply rnd32_mono. lra.
  - rewrite <- rnd32_stop. apply rnd32_mono. lra.
Qed.

Lemma score32_stops (pred y : Z -> Z) : (B2R (f32_score pred y (2 ^ 25)) <= / 2)%R.
Proof.
  unfold f32_score. set (a := fold_left _ _ _).
  assert (A : in32 a).
  { unfold a. assert (G : forall l x, in32 x -> in32 (fold_left (fun a i => if pred i =? y i then f32_add a (f32_of_Z 1) else a) l x)).
    { induction l as [|i l IH]; intros x X; auto. cbn [fold_left]. apply IH. destruct (pred i =? y i); auto. apply in32_add; auto. }
    apply G. split; [vm_compute; reflexivity|]. rewrite <- SF2R_B2SF. replace (B2SF (f32_of_Z 0)) with (SpecFloat.S754_zero false) by (vm_compute; reflexivity).
    cbn [SF2R]. split; [lra|apply IZR_le; lia]. }
  destruct A as [F [H1 H2]]. clearbody a.
  assert (R : B2R (f32_of_Z (2 ^ 25)) = bpow radix2 25).
  { rewrite <- SF2R_B2SF. replace (B2SF (f32_of_Z (2 ^ 25))) with (SpecFloat.S754_finite false 8388608 2) by (vm_compute; reflexivity).
    unfold SF2R, F2R. cbn [Fnum Fexp cond_Zopp]. change (IZR 8388608) with (bpow radix2 23). rewrite <- bpow_plus. reflexivity. }
  assert (Bp : (0 < bpow radix2 25)%R) by apply bpow_gt_0.
  pose proof (Bdiv_correct 24 128 _ _ mode_NE a (f32_of_Z (2 ^ 25))) as C. rewrite R in C. specialize (C ltac:(lra)).
  change (round radix2 (SpecFloat.fexp 24 128) (round_mode mode_NE) (B2R a / bpow radix2 25)) with (rnd32 (B2R a / bpow radix2 25)) in C.
  assert (Q : (0 <= B2R a / bpow radix2 25 <= bpow radix2 (-1))%R).
  { split; [apply Rmult_le_pos; [auto|apply Rlt_le, Rinv_0_lt_compat; auto]|].
    apply Rmult_le_reg_r with (bpow radix2 25); auto. unfold Rdiv. rewrite Rmult_assoc, Rinv_l, Rmult_1_r by lra.
    rewrite <- bpow_plus. change (bpow radix2 (-1 + 25)) with (IZR (2 ^ 24)). auto. }
  rewrite small32 in C.
  - destruct C as (C & _). unfold f32_div. rewrite C. change (/ 2)%R with (bpow radix2 (-1)). rewrite <- (rnd32_bpow (-1)) by lia. apply rnd32_mono. apply Q.
  - split; [apply Q|]. eapply Rle_trans; [apply Q|]. apply bpow_le. lia.
Qed.

(** ** Threads *)
Lemma sum_below_succ f n : 0 <= n -> sum_below f (n + 1) = sum_below f n + f n.
Proof. intros H. unfold sum_below. rewrite zrange_app, fold_left_app by lia. change (zrange 1) with [0]. cbn [map fold_left]. rewrite Z.add_0_r. auto. Qed.
Lemma sum_below_two f n a b c : 0 <= c <= n -> (forall i, 0 <= i < n -> f i = if i <? c then a else b) -> sum_below f n = a * c + b * (n - c).
Proof.
  intros C. revert f. assert (G : forall k : nat, Z.of_nat k <= n -> forall f, (forall i, 0 <= i < n -> f i = if i <? c then a else b) ->
    sum_below f (Z.of_nat k) = a * Z.min (Z.of_nat k) c + b * Z.max 0 (Z.of_nat k - c)).
  { induction k as [|k IH]; intros K f F; [change (sum_below f (Z.of_nat 0)) with 0; rewrite Z.min_l, Z.max_l by lia; lia|]. replace (Z.of_nat (S k)) with (Z.of_nat k + 1) by lia.
    rewrite sum_below_succ, IH, F by (auto; lia). destruct (Z.of_nat k <? c) eqn:E; [apply Z.ltb_lt in E|apply Z.ltb_ge in E].
    - rewrite (Z.min_l (Z.of_nat k) c), (Z.min_l (Z.of_nat k + 1) c), !Z.max_l by lia. lia.
    - rewrite (Z.min_r (Z.of_nat k) c), (Z.min_r (Z.of_nat k + 1) c), !Z.max_r by lia. lia. }
  intros f F. specialize (G (Z.to_nat n) ltac:(lia) f F). rewrite Z2Nat.id in G by lia. rewrite G, Z.min_r, Z.max_r by lia. auto.
Qed.

Lemma thread_distribution total n_tree mx : 1 <= total -> 1 <= n_tree -> 0 <= mx ->
  let '(nf, per) := compute_thread_distribution total n_tree mx in
  1 <= nf <= total /\ nf <= n_tree /\
  (forall i, 0 <= i < n_tree -> 1 <= per i /\ (0 < mx -> per i <= mx)) /\
  (if n_tree <=? total then sum_below per n_tree <= total else forall i, 0 <= i < n_tree -> per i = 1).
Proof.
  intros T N M. unfold compute_thread_distribution. destruct (total - Z.min n_tree total <=? 0) eqn:E.
  - apply Z.leb_le in E. repeat split; try lia. destruct (n_tree <=? total) eqn:L; auto.
    rewrite (sum_below_two _ n_tree 1 1 0) by (try lia; intros; destruct (i <? 0); auto). lia.
  - apply Z.leb_gt in E. set (rem := total - Z.min n_tree total) in *.
    rewrite Z.quot_div_nonneg, Z.rem_mod_nonneg by lia. pose proof (Z.mod_pos_bound rem n_tree ltac:(lia)). pose proof (Z.div_mod rem n_tree ltac:(lia)).
    pose proof (Z.div_pos rem n_tree ltac:(lia) ltac:(lia)). replace (n_tree <=? total) with true by lia.
    destruct ((0 <? mx) && (mx <=? rem / n_tree + 1)) eqn:Em.
    + apply andb_true_iff in Em. rewrite Z.ltb_lt, Z.leb_le in Em. repeat split; try lia.
      rewrite (sum_below_two _ n_tree mx mx 0) by (try lia; intros; destruct (i <? 0); auto). nia.
    + assert (Em' : 0 < mx -> rem / n_tree + 1 < mx) by (apply andb_false_iff in Em; rewrite Z.ltb_ge, Z.leb_gt in Em; lia).
      repeat split; try lia; intros; try (destruct (i <? rem mod n_tree); lia).
      rewrite (sum_below_two _ n_tree (rem / n_tree + 2) (rem / n_tree + 1) (rem mod n_tree)); try lia; try nia.
      intros. destruct (i <? rem mod n_tree); lia.
Qed.

(** ** The threads may be listed in any order *)
Lemma interleaving_swap {A} (ts : list (list A)) tr : interleaving ts tr -> forall ts', Permutation ts ts' -> interleaving ts' tr.
Proof.
  induction 1 as [ts H|pre a t post tr H IH]; intros ts' P.
  - apply inter_done. rewrite Forall_forall in *. intros t I. apply H. apply (Permutation_in _ (Permutation_sym P)); auto.
  - assert (I : In (a :: t) ts') by (apply (Permutation_in _ P), in_app_iff; right; now left).
    apply in_split in I. destruct I as (pre' & post' & ->). apply inter_step. apply IH.
    apply Permutation_app_inv in P. apply Permutation_trans with (t :: (pre ++ post)); [symmetry; apply Permutation_middle|].
    apply Permutation_trans with (t :: (pre' ++ post')); [constructor; auto|apply Permutation_middle].
Qed.

(** ** Forests of pure trees *)
Lemma rnd_id (x : f64) : rnd (B2R x) = B2R x.
Proof. unfold rnd. apply round_generic; auto with typeclass_instances. apply generic_format_B2R. Qed.

Lemma sum_means (mean : Z -> f64) (m : Z -> R) : (forall j, is (mean j) (m j) /\ (0 <= m j <= 1)%R) ->
  forall l a r n, is a r -> (0 <= r <= IZR n)%R -> 0 <= n -> n + Z.of_nat (length l) <= 2 ^ 52 ->
  exists r', is (fold_left (fun a j => f64_add a (mean j)) l a) r' /\ (r <= r')%R /\ forall j, In j l -> (m j <= r')%R.
Proof.
  intros M. induction l as [|j l IH]; intros a r n A R N L; cbn [fold_left].
  - exists r. repeat split; try apply A; try lra. intros j [].
  - cbn [length] in L. destruct (M j) as [Mj Bj].
    assert (U : (0 <= r + m j <= IZR (n + 1))%R) by (rewrite plus_IZR; lra).
    assert (A' : is (f64_add a (mean j)) (rnd (r + m j))).
    { apply f64_add_is; auto. rewrite Rabs_pos_eq by apply U. apply Rle_trans with (bpow radix2 53); [|apply bpow_le; lia].
      change (bpow radix2 53) with (IZR (2 ^ 53)). eapply Rle_trans; [apply U|]. apply IZR_le. lia. }
    assert (Rr : (r <= rnd (r + m j))%R) by (destruct A as [_ <-]; rewrite <- rnd_id at 1; apply rnd_mono; lra).
    assert (Rm : (m j <= rnd (r + m j))%R) by (destruct Mj as [_ <-]; rewrite <- rnd_id at 1; apply rnd_mono; lra).
    destruct (IH _ _ (n + 1) A') as (r' & I & G & F); try lia.
    { split; [lra|]. rewrite <- (rnd_Z (n + 1)) by lia. apply rnd_mono. apply U. }
    exists r'. split; auto. split; [lra|]. intros j' [<-|J]; [lra|auto].
Qed.

Lemma votes_bounds vote n_tree s j : 0 <= n_tree -> 0 <= votes vote n_tree s j <= n_tree.
Proof.
  intros H. unfold votes. pose proof (filter_length_le (fun t => vote t s =? j) (zrange n_tree)) as L. rewrite zrange_len in L. lia.
Qed.

Lemma pure_monotone vote n_tree n_class s c k : 1 <= n_tree <= 2 ^ 53 -> n_class <= 2 ^ 52 ->
  0 <= c < n_class -> 0 < votes vote n_tree s c -> votes vote n_tree s k <= votes vote n_tree s c ->
  f64_le (normalised n_tree n_class (fun j => f64_of_Z (votes vote n_tree s j)) k)
         (normalised n_tree n_class (fun j => f64_of_Z (votes vote n_tree s j)) c) = true.
Proof.
  intros T Nc C P L. unfold normalised.
  set (v := votes vote n_tree s) in *. set (mean := fun j => f64_div (f64_of_Z (v j)) (f64_of_Z n_tree)).
  set (m := fun j => rnd (IZR (v j) / IZR n_tree)).
  assert (Vb : forall j, 0 <= v j <= n_tree) by (intros j; apply votes_bounds; lia).
  assert (Tp : (0 < IZR n_tree)%R) by (apply IZR_lt; lia).
  assert (Q : forall j, (0 <= IZR (v j) / IZR n_tree <= 1)%R).
  { intros j. specialize (Vb j). split.
    - apply Rmult_le_pos; [apply IZR_le; lia|apply Rlt_le, Rinv_0_lt_compat; auto].
    - apply Rmult_le_reg_r with (IZR n_tree); auto. unfold Rdiv. rewrite Rmult_assoc, Rinv_l, Rmult_1_r, Rmult_1_l by lra. apply IZR_le. lia. }
  assert (M : forall j, is (mean j) (m j) /\ (0 <= m j <= 1)%R).
  { intros j. specialize (Vb j). split.
    - apply f64_div_is; try (apply f64_of_Z_is; lia); try lra.
      rewrite Rabs_pos_eq by apply Q. apply Rle_trans with 1%R; [apply Q|]. change 1%R with (bpow radix2 0). apply bpow_le. lia.
    - apply (rnd_range _ 0 1); try lia. apply Q. }
  assert (N0 : 0 <= n_class) by lia.
  destruct (sum_means mean m M (zrange n_class) (f64_of_Z 0) 0%R 0) as (r & I & _ & F); try lia; try (split; lra).
  { apply (f64_of_Z_is 0). lia. }
  { rewrite zrange_len. lia. }
  set (S0 := fold_left _ (zrange n_class) _) in *.
  assert (Mc : (0 < m c)%R).
  { unfold m. apply Rlt_le_trans with (bpow radix2 (-53)); [apply bpow_gt_0|].
    assert (Fb : rnd (bpow radix2 (-53)) = bpow radix2 (-53)).
    { unfold rnd. apply round_generic; auto with typeclass_instances. apply generic_format_bpow. unfold fexp64, SpecFloat.fexp, SpecFloat.emin. lia. }
    rewrite <- Fb. apply rnd_mono. apply Rmult_le_reg_r with (IZR n_tree); auto. unfold Rdiv. rewrite Rmult_assoc, Rinv_l, Rmult_1_r by lra.
    apply Rle_trans with (bpow radix2 (-53) * bpow radix2 53)%R.
    - apply Rmult_le_compat_l; [apply bpow_ge_0|]. change (bpow radix2 53) with (IZR (2 ^ 53)). apply IZR_le. lia.
    - rewrite <- bpow_plus. change (bpow radix2 (-53 + 53)) with (IZR 1). apply IZR_le. lia. }
  assert (Rc : (m c <= r)%R) by (apply F, in_zrange; auto).
  assert (Mk : (m k <= m c)%R).
  { unfold m. apply rnd_mono. apply Rmult_le_compat_r; [apply Rlt_le, Rinv_0_lt_compat; auto|]. apply IZR_le. auto. }
  assert (D : forall j, (0 <= m j <= m c)%R -> is (f64_div (mean j) S0) (rnd (m j / r)) /\ (0 <= m j / r <= 1)%R).
  { intros j [J1 J2]. assert (Qj : (0 <= m j / r <= 1)%R).
    { split; [apply Rmult_le_pos; [lra|apply Rlt_le, Rinv_0_lt_compat; lra]|].
      apply Rmult_le_reg_r with r; [lra|]. unfold Rdiv. rewrite Rmult_assoc, Rinv_l, Rmult_1_r, Rmult_1_l by lra. lra. }
    split; auto. apply f64_div_is; auto; [apply M|lra|]. rewrite Rabs_pos_eq by apply Qj. apply Rle_trans with 1%R; [apply Qj|].
    change 1%R with (bpow radix2 0). apply bpow_le. lia. }
  destruct (D k) as [[Fk Bk] _]; [split; [apply M|auto]|]. destruct (D c) as [[Fc Bc] _]; [split; [apply M|lra]|].
  change (f64_le (f64_div (mean k) S0) (f64_div (mean c) S0) = true).
  unfold f64_le. rewrite Bleb_correct by auto. apply Rle_bool_true. rewrite Bk, Bc. apply rnd_mono.
  apply Rmult_le_compat_r; [apply Rlt_le, Rinv_0_lt_compat; lra|auto].
Qed.

Lemma pure_results nsamp n_class n_tree block_size n_blocks block_rem n_threads proba vote sched tr :
  0 <= nsamp -> 0 < block_size -> 0 < n_class -> 0 <= n_tree <= 2 ^ 53 ->
  blocking_scheme nsamp block_size = Some (n_blocks, block_rem) ->
  pure proba vote ->
  team n_threads (iterations n_blocks n_tree) sched ->
  interleaving (threads (proba_body nsamp n_class block_size n_blocks block_rem n_threads proba) 0 sched) tr ->
  exists res, proba_with nsamp n_class n_tree block_size n_threads tr = Some res /\
    forall s j, 0 <= s < nsamp -> 0 <= j < n_class ->
      res s j = normalised n_tree n_class (fun j => f64_of_Z (votes vote n_tree s j)) j.
Proof.
  intros Hn Hb Hc Ht Hs Pu T I.
  destruct (sums_in_some_order nsamp n_class n_tree block_size n_blocks block_rem n_threads proba Hn Hb Hs sched tr T I) as (res & E & F).
  exists res. split; auto. intros s j S J. destruct (F s S) as (sum & G & N). rewrite (N j J).
  assert (Q : forall j, 0 <= j < n_class -> sum j = f64_of_Z (votes vote n_tree s j)).
  { intros j' J'. destruct (G j' J') as (order & P & ->). unfold sum_in_order.
    rewrite (map_ext _ (fun t => f64_of_Z (if vote t s =? j' then 1 else 0))) by (intros; apply Pu).
    rewrite (pure_sum (fun t => vote t s =? j')).
    - f_equal. unfold votes. rewrite (Permutation_length (filter_perm _ _ _ P)). lia.
    - lia.
    - rewrite (Permutation_length P), zrange_len. lia. }
  unfold normalised. rewrite (Q j J). f_equal.
  assert (L : forall l a, (forall k, In k l -> 0 <= k < n_class) ->
    fold_left (fun a j => f64_add a (f64_div (sum j) (f64_of_Z n_tree))) l a
    = fold_left (fun a j => f64_add a (f64_div (f64_of_Z (votes vote n_tree s j)) (f64_of_Z n_tree))) l a).
  { induction l as [|k l IH]; intros a K; auto. cbn [fold_left]. rewrite Q by (apply K; now left). apply IH. intros k' K'. apply K. now right. }
  apply L. intros k K. apply in_zrange in K. auto.
Qed.

Lemma majority_most_probable vote n_tree n_class s c k :
  1 <= n_tree <= 2 ^ 53 -> n_class <= 2 ^ 52 ->
  (forall t, 0 <= t < n_tree -> 0 <= vote t s < n_class) ->
  majority vote n_tree n_class s c -> 0 <= k < n_class ->
  let p := normalised n_tree n_class (fun j => f64_of_Z (votes vote n_tree s j)) in
  f64_le (p k) (p c) = true.
Proof.
  intros T Nc V [C M] K p. apply pure_monotone; auto; [|apply M; auto].
  destruct (M (vote 0 s) (V 0 ltac:(lia))) as [M0 _]. eapply Z.lt_le_trans; [|exact M0].
  unfold votes. assert (In 0 (filter (fun t => vote t s =? vote 0 s) (zrange n_tree))).
  { apply filter_In. split; [apply in_zrange; lia|apply Z.eqb_refl]. }
  destruct (filter _ (zrange n_tree)); [easy|cbn; lia].
Qed.
