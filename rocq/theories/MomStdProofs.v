(** Proofs about [standardize]. *)
From Coq Require Import ZArith List Bool Permutation Reals Rpower Lia Lra Psatz.
From Verif Require Import Base NnModel RealArith MomModel MomSpec MomProofs MomRealProofs.
Import ListNotations.
Local Open Scope R_scope.

(** the column-major view *)
Section Flip.
Variables (o : order) (ax : axis) (m n ldx : Z).
Hypothesis dims : good_dims o m n ldx.
Definition fax := fst (fst (flip o ax m n)).
Definition fn := snd (fst (flip o ax m n)).
Definition fp := snd (flip o ax m n).
Lemma flip_eta : flip o ax m n = (fax, fn, fp).
Proof. unfold fax, fn, fp. destruct (flip o ax m n) as [[? ?] ?]. reflexivity. Qed.
Lemma flip_dims : good_dims column_major fn fp ldx.
Proof. unfold good_dims, fn, fp in *. destruct o; cbn in *; lia. Qed.
Lemma flip_result k : is_result fax fn fp k <-> is_result ax m n k.
Proof. clear dims. unfold is_result, fax, fn, fp. destruct o, ax; cbn; tauto. Qed.
Lemma flip_nobs : nobs fax fn fp = nobs ax m n.
Proof. clear dims. unfold nobs, fax, fn, fp. destruct o, ax; cbn [flip fst snd]; lia. Qed.
Lemma flip_slice f k : slice_total Rplus 0 column_major fax fn fp ldx f k = slice_total Rplus 0 o ax m n ldx f k.
Proof.
  unfold fax, fn, fp. destruct o, ax; cbn [flip fst snd slice_total entry]; try reflexivity.
  rewrite tot_swap; try reflexivity; intros; cbn; ring.
Qed.
Lemma flip_sum g X k : sum_of column_major fax fn fp ldx g X k = sum_of o ax m n ldx g X k.
Proof. apply flip_slice. Qed.
Lemma flip_mean X k : Rmean column_major fax fn fp ldx X k = Rmean o ax m n ldx X k.
Proof. unfold Rmean. rewrite flip_sum, flip_nobs. reflexivity. Qed.
Lemma flip_degrees dof : degrees fax fn fp dof = degrees ax m n dof.
Proof. unfold degrees. rewrite flip_nobs. reflexivity. Qed.
Lemma flip_variance X dof k : Rvariance column_major fax fn fp ldx X dof k = Rvariance o ax m n ldx X dof k.
Proof. unfold Rvariance. rewrite flip_degrees, flip_mean, flip_sum. reflexivity. Qed.
Lemma flip_axis_size k : (0 <= k < axis_size fax fn fp)%Z <-> is_result ax m n k.
Proof. clear dims. unfold is_result, axis_size, fax, fn, fp. destruct o, ax; cbn; tauto. Qed.

Lemma entry_div q r : (0 <= r < ldx)%Z -> ((q * ldx + r) / ldx = q /\ (q * ldx + r) mod ldx = r)%Z.
Proof. intros H. split; symmetry; [apply Z.div_unique with (r := r)|apply Z.mod_unique with (q := q)]; lia. Qed.
Lemma inside_entry r c : (0 <= r < m)%Z -> (0 <= c < n)%Z ->
  inside fn fp ldx (entry o ldx r c) = true /\ index_of fax ldx (entry o ldx r c) = key ax r c.
Proof.
  intros Hr Hc. destruct dims as (Hm & Hn & Hl). unfold inside, index_of, entry, key, fn, fp, fax.
  destruct o; cbn [flip fst snd].
  - destruct (entry_div c r ltac:(lia)) as [-> ->]. split; [|destruct ax; reflexivity].
    apply andb_true_iff; split; [apply andb_true_iff; split|]; [apply Z.leb_le; nia|apply Z.ltb_lt; lia|apply Z.ltb_lt; lia].
  - destruct (entry_div r c ltac:(lia)) as [-> ->]. split; [|destruct ax; reflexivity].
    apply andb_true_iff; split; [apply andb_true_iff; split|]; [apply Z.leb_le; nia|apply Z.ltb_lt; lia|apply Z.ltb_lt; lia].
Qed.
Definition nz (x : R) : R := if is0 arithR x then 1 else x.
Lemma nz_ne x : nz x <> 0.
Proof. unfold nz. destruct (is0_R_dec x) as [(-> & _)|(-> & H)]; auto. Qed.
Lemma nz_same x : x <> 0 -> nz x = x.
Proof. intros. unfold nz. destruct (is0_R_dec x) as [(_ & C)|(-> & _)]; [contradiction|reflexivity]. Qed.
Lemma nz_0 : nz 0 = 1.
Proof. unfold nz. destruct (is0_R_dec 0) as [(-> & _)|(_ & C)]; [reflexivity|lra]. Qed.

Lemma apply_entry mode sh sc X r c : (0 <= r < m)%Z -> (0 <= c < n)%Z ->
  apply_arrays arithR fax fn fp ldx mode sh sc X (entry o ldx r c) =
  (if (mode =? 0)%Z then (X (entry o ldx r c) - sh (key ax r c)) / nz (sc (key ax r c))
   else X (entry o ldx r c) * nz (sc (key ax r c)) + sh (key ax r c)).
Proof.
  intros Hr Hc. unfold apply_arrays. destruct (inside_entry r c Hr Hc) as [-> ->]. reflexivity.
Qed.
Lemma behind_key k a : is_result ax m n k -> behind o ax m n ldx k a -> exists r c, (0 <= r < m)%Z /\ (0 <= c < n)%Z /\ a = entry o ldx r c /\ key ax r c = k.
Proof. clear dims. intros Hk (r & c & Hr & Hc & E & K). exists r, c. repeat split; try lia; auto. unfold key, is_result in *. destruct ax; lia. Qed.
Lemma key_result r c : (0 <= r < m)%Z -> (0 <= c < n)%Z -> is_result ax m n (key ax r c).
Proof. clear dims. unfold key, is_result. destruct ax; lia. Qed.

(** affine maps *)
Lemma affine_mean X Y k c d : is_result ax m n k -> d <> 0 -> (forall a, behind o ax m n ldx k a -> Y a = (X a - c) / d) ->
  Rmean o ax m n ldx Y k = (Rmean o ax m n ldx X k - c) / d.
Proof.
  intros Hk Hd H. unfold Rmean, sum_of. pose proof (nobs_R o ax m n ldx dims).
  rewrite (slice_ext o ax m n ldx dims Rplus 0 _ (fun a => / d * X a + (- c / d))); auto.
  - rewrite (slice_lin o ax m n ldx dims (fun a => X a)). cbv beta. field. split; lra.
  - intros a Ha. rewrite H by auto. field. auto.
Qed.
Lemma affine_variance X Y k c d dof : is_result ax m n k -> d <> 0 -> (forall a, behind o ax m n ldx k a -> Y a = (X a - c) / d) ->
  Rvariance o ax m n ldx Y dof k = Rvariance o ax m n ldx X dof k / (d * d).
Proof.
  intros Hk Hd H. unfold Rvariance. destruct (degrees ax m n dof =? 0)%Z eqn:E; [field; auto|].
  assert (IZR (degrees ax m n dof) <> 0) by (apply not_0_IZR; apply Z.eqb_neq; auto).
  rewrite (affine_mean X Y k c d) by auto. set (mu := Rmean o ax m n ldx X k). unfold sum_of.
  rewrite (slice_ext o ax m n ldx dims Rplus 0 _ (fun a => / (d * d) * (X a - mu) ^ 2)); auto.
  - rewrite slice_scal by auto. field. split; auto.
  - intros a Ha. rewrite H by auto. field. auto.
Qed.
End Flip.

Section Std.
Variables (t : team) (o : order) (ax : axis) (m n ldx dof : Z).
Hypothesis team_ok : good_team t.
Hypothesis dims : good_dims o m n ldx.
Notation fax := (fax o ax m n).
Notation fn := (fn o ax m n).
Notation fp := (fp o ax m n).
Notation result := (is_result ax m n).
Notation rmean := (Rmean o ax m n ldx).
Notation rvar := (Rvariance o ax m n ldx).

Lemma is_zero_R a : is_zero arithR a (axis_size fax fn fp) = true <-> zeros 0 ax m n a.
Proof.
  clear dims team_ok. unfold is_zero, zeros. rewrite forallb_forall. split.
  - intros H k Hk. apply flip_axis_size with (o := o) in Hk. specialize (H (Z.to_nat k) ltac:(apply in_seq; lia)).
    apply is0_R in H. rewrite Z2Nat.id in H by lia. exact H.
  - intros H i Hi. apply in_seq in Hi. apply is0_R, H. apply flip_axis_size with (o := o). lia.
Qed.
Lemma is_zero_R_dec a : (is_zero arithR a (axis_size fax fn fp) = true /\ zeros 0 ax m n a) \/
  (is_zero arithR a (axis_size fax fn fp) = false /\ ~ zeros 0 ax m n a).
Proof.
  clear dims team_ok. destruct (is_zero _ _ _) eqn:E; [left|right]; split; auto; [apply is_zero_R; auto|]. intros C. apply is_zero_R in C. congruence.
Qed.
Lemma fmean X k : result k -> mean arithR t column_major fax fn fp X ldx k = rmean X k.
Proof.
  intros Hk. rewrite (mean_R column_major fax fn fp ldx (flip_dims o ax m n ldx dims) t team_ok) by (apply flip_result; auto).
  apply flip_mean; auto.
Qed.
Lemma fvar X k : result k -> fst (variance arithR t column_major fax fn fp X ldx dof) k = rmean X k /\
  snd (variance arithR t column_major fax fn fp X ldx dof) k = rvar X dof k.
Proof.
  intros Hk. destruct (variance_R column_major fax fn fp ldx (flip_dims o ax m n ldx dims) t team_ok X dof k) as [E1 E2];
    [apply flip_result; auto|]. rewrite E1, E2. split; [apply flip_mean; auto|apply flip_variance; auto].
Qed.
Notation chosen := (choose_arrays arithR t fax fn fp).
Notation c_sh r := (fst (fst (fst r))).
Notation c_sc r := (snd (fst (fst r))).

Lemma standardize_run X mode shift scale : (mode = 0 \/ mode = 1)%Z ->
  standardize arithR t o ax m n X ldx dof mode shift scale =
  let r := chosen X ldx dof shift scale in
  Standardized st_success (apply_arrays arithR fax fn fp ldx mode (c_sh r) (c_sc r) X) (snd (fst r)) (snd r).
Proof.
  intros Hm. unfold standardize. rewrite (check_ok o m n ldx dims).
  replace (negb _) with false by (destruct Hm as [-> | ->]; reflexivity).
  rewrite flip_eta. destruct (chosen X ldx dof shift scale) as [[[? ?] ?] ?]. reflexivity.
Qed.

(** the computed shift and scale *)
Lemma computed_arrays X shift scale : to_be_computed ax m n shift scale ->
  (forall k, result k -> c_sh (chosen X ldx dof shift scale) k = rmean X k) /\
  (forall k, result k -> c_sc (chosen X ldx dof shift scale) k = R_sqrt.sqrt (rvar X dof k)) /\
  (forall a k, snd (fst (chosen X ldx dof shift scale)) = Some a -> result k -> a k = rmean X k) /\
  (forall a k, snd (chosen X ldx dof shift scale) = Some a -> result k -> a k = R_sqrt.sqrt (rvar X dof k)).
Proof.
  intros H. unfold choose_arrays.
  assert (A : forall k, result k -> fst (variance arithR t column_major fax fn fp X ldx dof) k = rmean X k) by (intros; apply fvar; auto).
  assert (B : forall k, result k -> sqrt_all arithR (snd (variance arithR t column_major fax fn fp X ldx dof)) k = R_sqrt.sqrt (rvar X dof k)).
  { intros k Hk. unfold sqrt_all. rewrite (proj2 (fvar X k Hk)). reflexivity. }
  destruct shift as [sh|], scale as [sc|]; cbn [to_be_computed] in H; try contradiction.
  - destruct H as [H1 H2]. apply is_zero_R in H1, H2. rewrite H1, H2. cbn [fst snd].
    split; [exact A|]. split; [exact B|]. split; intros a k E Hk; injection E as <-; [apply A|apply B]; exact Hk.
  - cbn [fst snd]. split; [exact A|]. split; [exact B|]. split; intros; discriminate.
Qed.

Lemma standardized_moments X shift scale k : to_be_computed ax m n shift scale -> result k ->
  let Y := std_data (standardize arithR t o ax m n X ldx dof 0 shift scale) in
  rmean Y k = 0 /\ rvar Y dof k = (if Req_EM_T (rvar X dof k) 0 then 0 else 1).
Proof.
  intros H Hk Y. subst Y. rewrite standardize_run by auto. cbn [std_data].
  destruct (computed_arrays X shift scale H) as (Hs & Hc & _ & _).
  set (r := chosen X ldx dof shift scale) in *.
  set (d := nz (R_sqrt.sqrt (rvar X dof k))).
  assert (Hd : d <> 0) by apply nz_ne.
  assert (A : forall a, behind o ax m n ldx k a -> apply_arrays arithR fax fn fp ldx 0 (c_sh r) (c_sc r) X a = (X a - rmean X k) / d).
  { intros a Ha. destruct (behind_key o ax m n ldx k a Hk Ha) as (i & j & Hi & Hj & -> & K).
    rewrite apply_entry by auto. change (0 =? 0)%Z with true. cbv iota. rewrite K, Hs, Hc by auto. reflexivity. }
  rewrite (affine_mean o ax m n ldx dims X _ k _ d Hk Hd A), (affine_variance o ax m n ldx dims X _ k _ d dof Hk Hd A).
  split; [field; auto|]. unfold d. destruct (Req_EM_T (rvar X dof k) 0) as [E|E].
  - rewrite E, R_sqrt.sqrt_0, nz_0. field.
  - pose proof (Rvariance_nonneg o ax m n ldx dims X dof k) as P.
    rewrite nz_same by (intros C; apply E, (sqrt_eq_0 _ P C)).
    rewrite sqrt_sqrt by auto. field. auto.
Qed.

(** undoing *)
Lemma restore X shift scale r c : (0 <= r < m)%Z -> (0 <= c < n)%Z ->
  let R1 := standardize arithR t o ax m n X ldx dof 0 shift scale in
  (shift <> None \/ scale <> None) ->
  (forall sc, std_scale R1 = Some sc -> ~ zeros 0 ax m n sc) ->
  let R2 := standardize arithR t o ax m n (std_data R1) ldx dof 1 (std_shift R1) (std_scale R1) in
  std_data R2 (entry o ldx r c) = X (entry o ldx r c).
Proof.
  intros Hr Hc R1 Hnull Hnz R2. subst R2. rewrite standardize_run by auto. cbn [std_data].
  subst R1. rewrite standardize_run in Hnz |- * by auto. cbn [std_data std_shift std_scale] in *.
  set (r1 := chosen X ldx dof shift scale) in *. set (Y := apply_arrays _ _ _ _ _ 0%Z _ _ X).
  set (r2 := chosen Y ldx dof (snd (fst r1)) (snd r1)).
  rewrite apply_entry by auto. change (1 =? 0)%Z with false. cbv iota.
  assert (EY : forall r c, (0 <= r < m)%Z -> (0 <= c < n)%Z ->
     Y (entry o ldx r c) = (X (entry o ldx r c) - c_sh r1 (key ax r c)) / nz (c_sc r1 (key ax r c))).
  { intros. unfold Y. rewrite apply_entry by auto. reflexivity. }
  assert (MY : forall k, result k -> rmean Y k = (rmean X k - c_sh r1 k) / nz (c_sc r1 k)).
  { intros k Hk. apply affine_mean; auto; [apply nz_ne|]. intros a Ha.
    destruct (behind_key o ax m n ldx k a Hk Ha) as (i & j & Hi & Hj & -> & K). rewrite EY, K by auto. reflexivity. }
  rewrite EY by auto. pose proof (key_result ax m n r c Hr Hc) as Hk. set (k := key ax r c) in *.
  cut (c_sh r2 k = c_sh r1 k /\ c_sc r2 k = c_sc r1 k).
  { intros [-> ->]. pose proof (nz_ne (c_sc r1 k)). field. auto. }
  clear EY. clearbody Y.
  assert (S1 : forall sh, snd (fst r1) = Some sh -> c_sh r1 = sh).
  { unfold r1, choose_arrays. intros sh. destruct shift, scale; repeat destruct (is_zero _ _ _); cbn; congruence. }
  assert (S2 : forall sc, snd r1 = Some sc -> c_sc r1 = sc).
  { unfold r1, choose_arrays. intros sc. destruct shift, scale; repeat destruct (is_zero _ _ _); cbn; congruence. }
  assert (S3 : snd (fst r1) = None -> snd r1 <> None -> c_sh r1 = (fun _ => 0)).
  { unfold r1, choose_arrays. destruct shift, scale; repeat destruct (is_zero _ _ _); cbn; congruence. }
  assert (S4 : snd r1 = None -> snd (fst r1) <> None -> c_sc r1 = (fun _ => 1)).
  { unfold r1, choose_arrays. destruct shift, scale; repeat destruct (is_zero _ _ _); cbn; congruence. }
  assert (S5 : snd (fst r1) <> None \/ snd r1 <> None).
  { unfold r1, choose_arrays. destruct shift, scale; repeat destruct (is_zero _ _ _); cbn in *; destruct Hnull; try congruence; try (left; congruence); right; congruence. }
  assert (S6 : forall sh, snd (fst r1) = Some sh -> zeros 0 ax m n sh -> forall k, result k -> rmean X k = 0).
  { intros sh. unfold r1, choose_arrays. destruct shift as [s|]; [|destruct scale; cbn; discriminate].
    destruct (is_zero_R_dec s) as [(Ez & Z)|(Ez & Z)].
    - rewrite Ez. destruct scale as [sc|].
      + destruct (is_zero arithR sc (axis_size fax fn fp)); cbn [fst snd]; intros E Z' k' Hk'; injection E as <-;
        rewrite <- (Z' k' Hk'); symmetry; [apply (fvar X)|apply fmean]; auto.
      + cbn [fst snd]. intros E Z' k' Hk'. injection E as <-. rewrite <- (Z' k' Hk'). symmetry. apply fmean; auto.
    - rewrite Ez. destruct scale as [sc|].
      + destruct (is_zero arithR sc (axis_size fax fn fp)); cbn [fst snd]; intros E Z'; injection E as <-; contradiction.
      + cbn [fst snd]. intros E Z'. injection E as <-. contradiction. }
  clearbody r1. destruct r1 as [[[sh1 sc1] osh] osc]. cbn [fst snd] in *.
  subst r2. unfold choose_arrays.
  destruct osh as [sh|]; destruct osc as [sc|].
  - pose proof (S1 _ eq_refl) as E1. pose proof (S2 _ eq_refl) as E2. subst sh1 sc1.
    destruct (is_zero_R_dec sc) as [(_ & Z)|(-> & _)]; [elim (Hnz sc eq_refl Z)|].
    destruct (is_zero_R_dec sh) as [(-> & Z)|(-> & _)]; cbn [fst snd]; [|split; reflexivity].
    split; [|reflexivity]. rewrite fmean, MY by auto. rewrite (S6 _ eq_refl Z k Hk), (Z k Hk). unfold Rdiv. ring.
  - pose proof (S1 _ eq_refl) as E1. subst sh1. rewrite S4 by congruence.
    destruct (is_zero_R_dec sh) as [(-> & Z)|(-> & _)]; cbn [fst snd]; [|split; reflexivity].
    split; [|reflexivity]. rewrite fmean, MY by auto. rewrite (S6 _ eq_refl Z k Hk), (Z k Hk). unfold Rdiv. ring.
  - pose proof (S2 _ eq_refl) as E2. subst sc1. rewrite S3 by congruence.
    destruct (is_zero_R_dec sc) as [(_ & Z)|(-> & _)]; [elim (Hnz sc eq_refl Z)|].
    cbn [fst snd]. split; reflexivity.
  - destruct S5; congruence.
Qed.

(** deviations about supplied means *)
Lemma about_formula X sh sc k : result k -> ~ zeros 0 ax m n sh -> zeros 0 ax m n sc ->
  exists a, std_scale (standardize arithR t o ax m n X ldx dof 0 (Some sh) (Some sc)) = Some a /\
    a k = R_sqrt.sqrt (IZR (axis_size fax fn fp) * (sum_of o ax m n ldx (fun x => (x - sh k) ^ 2) X k / IZR (nobs ax m n))
                         / IZR (scale_factor dof (axis_size fax fn fp))).
Proof.
  intros Hk H1 H2. rewrite standardize_run by auto. cbn [std_scale]. unfold choose_arrays.
  destruct (is_zero_R_dec sh) as [(_ & Z)|(-> & _)]; [contradiction|].
  destruct (is_zero_R_dec sc) as [(-> & _)|(_ & Z)]; [|contradiction].
  cbn [snd]. eexists. split; [reflexivity|]. cbn beta.
  rewrite (moment_R column_major fax fn fp ldx (flip_dims o ax m n ldx dims) t team_ok) by (try (apply flip_result; auto); lia).
  change (Z.to_nat 2) with 2%nat. rewrite flip_sum, flip_nobs by auto. reflexivity.
Qed.
Lemma about_given X sh sc k : result k -> ~ zeros 0 ax m n sh -> zeros 0 ax m n sc -> (dof < 0)%Z ->
  exists a, std_scale (standardize arithR t o ax m n X ldx dof 0 (Some sh) (Some sc)) = Some a /\
    a k = Rdeviation_about o ax m n ldx X (sh k) dof k.
Proof.
  intros Hk H1 H2 Hd. destruct (about_formula X sh sc k Hk H1 H2) as (a & Ha & E). exists a. split; [exact Ha|]. rewrite E.
  unfold Rdeviation_about, scale_factor, degrees. replace (dof <? 0)%Z with true by (symmetry; apply Z.ltb_lt; auto). f_equal.
  assert (P : (0 < axis_size fax fn fp)%Z).
  { destruct dims as (? & ? & _). unfold MomStdProofs.fax, MomStdProofs.fn, MomStdProofs.fp, axis_size. destruct o, ax; cbn; lia. }
  apply IZR_lt in P. pose proof (nobs_R o ax m n ldx dims). field. split; lra.
Qed.
End Std.

(** every entry once *)
Lemma count_none f n : (forall i, (0 <= i < Z.of_nat n)%Z -> f i = O) -> total Nat.add O f n = O.
Proof. induction n as [|n IH]; intros H; cbn [total]; [reflexivity|]. rewrite IH, H; try lia. intros; apply H; lia. Qed.
Lemma count_one f n i : (0 <= i < Z.of_nat n)%Z -> (forall j, (0 <= j < Z.of_nat n)%Z -> j <> i -> f j = O) -> total Nat.add O f n = f i.
Proof.
  induction n as [|n IH]; intros Hi H; [lia|]. cbn [total].
  destruct (Z.eq_dec i (Z.of_nat n)) as [->|N].
  - rewrite count_none; [reflexivity|]. intros j Hj. apply H; lia.
  - rewrite IH, (H (Z.of_nat n)); try lia. intros j Hj. apply H. lia.
Qed.
Lemma entry_inj o m n ldx r c r' c' : good_dims o m n ldx -> (0 <= r < m)%Z -> (0 <= c < n)%Z -> (0 <= r' < m)%Z -> (0 <= c' < n)%Z ->
  entry o ldx r c = entry o ldx r' c' -> r = r' /\ c = c'.
Proof.
  intros (_ & _ & Hl) Hr Hc Hr' Hc' E. unfold entry in E. destruct o.
  - assert (c = c') by nia. subst. lia.
  - assert (r = r') by nia. subst. lia.
Qed.
Lemma once t o ax m n ldx k a : good_team t -> good_dims o m n ldx -> is_result ax m n k ->
  let reads := da_sum Nat.add O t o ax m n ldx (fun _ b => if (b =? a)%Z then 1%nat else 0%nat) k in
  (behind o ax m n ldx k a -> reads = 1%nat) /\ (~ behind o ax m n ldx k a -> reads = 0%nat).
Proof.
  intros Ht Hd Hk reads. subst reads. rewrite da_sum_total; auto; try (intros; lia).
  set (ind := fun b => if (b =? a)%Z then 1%nat else 0%nat).
  assert (I0 : forall b, b <> a -> ind b = O) by (intros b Hb; unfold ind; destruct (Z.eqb_spec b a); auto; contradiction).
  assert (I1 : ind a = 1%nat) by (unfold ind; rewrite Z.eqb_refl; reflexivity). clearbody ind.
  pose proof Hd as (Hm & Hn & _). split.
  - intros (r & c & Hr & Hc & -> & K). unfold slice_total. destruct ax.
    + subst k. rewrite (count_one _ _ r); auto; try lia. intros j Hj Nj. apply I0. intros E.
      destruct (entry_inj o m n ldx j c r c Hd ltac:(lia) Hc Hr Hc E). contradiction.
    + subst k. rewrite (count_one _ _ c); auto; try lia. intros j Hj Nj. apply I0. intros E.
      destruct (entry_inj o m n ldx r j r c Hd Hr ltac:(lia) Hr Hc E). contradiction.
    + rewrite (count_one _ _ r) by (try lia; intros j Hj Nj; apply count_none; intros i Hi; apply I0; intros E;
        destruct (entry_inj o m n ldx j i r c Hd ltac:(lia) ltac:(lia) Hr Hc E); contradiction).
      rewrite (count_one _ _ c); auto; try lia. intros j Hj Nj. apply I0. intros E.
      destruct (entry_inj o m n ldx r j r c Hd Hr ltac:(lia) Hr Hc E). contradiction.
  - intros H. assert (J : forall r c, (0 <= r < m)%Z -> (0 <= c < n)%Z -> match ax with axis_col => c = k | axis_row => r = k | axis_all => True end ->
      ind (entry o ldx r c) = O).
    { intros r c Hr Hc K. apply I0. intros E. apply H. exists r, c. auto. }
    unfold slice_total, is_result in *. destruct ax; repeat (apply count_none; intros); apply J; auto; lia.
Qed.

(** layouts *)
Lemma slice_layout ax m n o o' ldx ldx' (f f' : Z -> R) k : (1 <= m)%Z -> (1 <= n)%Z -> is_result ax m n k ->
  (forall r c, (0 <= r < m)%Z -> (0 <= c < n)%Z -> f (entry o ldx r c) = f' (entry o' ldx' r c)) ->
  slice_total Rplus 0 o ax m n ldx f k = slice_total Rplus 0 o' ax m n ldx' f' k.
Proof.
  intros Hm Hn Hk H. unfold slice_total, is_result in *. destruct ax; repeat (apply tot_ext; intros); apply H; lia.
Qed.
Lemma layout_R ax m n o o' ldx ldx' X X' k dof : (1 <= m)%Z -> (1 <= n)%Z -> is_result ax m n k ->
  (forall r c, (0 <= r < m)%Z -> (0 <= c < n)%Z -> X (entry o ldx r c) = X' (entry o' ldx' r c)) ->
  Rmean o ax m n ldx X k = Rmean o' ax m n ldx' X' k /\ Rvariance o ax m n ldx X dof k = Rvariance o' ax m n ldx' X' dof k.
Proof.
  intros Hm Hn Hk H.
  assert (M : Rmean o ax m n ldx X k = Rmean o' ax m n ldx' X' k) by (unfold Rmean, sum_of; f_equal; apply slice_layout; auto).
  split; [exact M|]. unfold Rvariance. rewrite M. destruct (_ =? 0)%Z; [reflexivity|]. f_equal. apply slice_layout; auto.
  intros. rewrite H by auto. reflexivity.
Qed.
