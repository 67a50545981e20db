(** Proofs about covariance and correlation matrices. *)
From Coq Require Import ZArith List Bool Reals Lia Lra Psatz.
From Verif Require Import Base NnModel RealArith MomModel MomSpec MomProofs MomRealProofs MomStdProofs CovModel CovSpec.
Import ListNotations.
Local Open Scope R_scope.

Lemma inner_tot f n : inner_product arithR f n = tot f n.
Proof. induction n as [|n IH]; [reflexivity|]. cbn [inner_product total]. rewrite IH. reflexivity. Qed.
Lemma Rsum_ext f g n : (forall k, (0 <= k < n)%Z -> f k = g k) -> Rsum f n = Rsum g n.
Proof. intros H. apply tot_ext. intros i Hi. apply H. lia. Qed.
Lemma Rsum_scale f c n : Rsum (fun k => c * f k) n = c * Rsum f n.
Proof. unfold Rsum. induction (Z.to_nat n) as [|q IH]; cbn [total]; [ring|]. rewrite IH. ring. Qed.
Lemma Rsum_add f g n : Rsum (fun k => f k + g k) n = Rsum f n + Rsum g n.
Proof. unfold Rsum. induction (Z.to_nat n) as [|q IH]; cbn [total]; [ring|]. rewrite IH. ring. Qed.
Lemma Rsum_nonneg f n : (forall k, (0 <= k < n)%Z -> 0 <= f k) -> 0 <= Rsum f n.
Proof. intros H. apply tot_nonneg. intros i Hi. apply H. lia. Qed.
Lemma Rsum_swap f p q : Rsum (fun i => Rsum (f i) q) p = Rsum (fun j => Rsum (fun i => f i j) p) q.
Proof. unfold Rsum. apply tot_swap; intros; cbn; ring. Qed.

(** Cauchy and Schwarz *)
Lemma cauchy f g n : Rsum (fun k => f k * g k) n ^ 2 <= Rsum (fun k => f k * f k) n * Rsum (fun k => g k * g k) n.
Proof.
  set (A := Rsum (fun k => f k * f k) n). set (B := Rsum (fun k => g k * g k) n). set (C := Rsum (fun k => f k * g k) n).
  assert (Q : forall t, 0 <= A + (2 * t) * C + (t * t) * B).
  { intros t. replace (A + 2 * t * C + t * t * B) with (Rsum (fun k => (f k + t * g k) * (f k + t * g k)) n).
    - apply Rsum_nonneg. intros. apply Rle_0_sqr.
    - rewrite (Rsum_ext _ (fun k => (f k * f k + (2 * t) * (f k * g k)) + (t * t) * (g k * g k))) by (intros; ring).
      rewrite !Rsum_add, !Rsum_scale. reflexivity. }
  assert (B0 : 0 <= B) by (apply Rsum_nonneg; intros; apply Rle_0_sqr). clearbody A B C.
  destruct (Req_dec B 0) as [E|E].
  - destruct (Req_dec C 0) as [EC|EC]; [rewrite E, EC; lra|]. specialize (Q (- (A + 1) / (2 * C))). rewrite E in Q.
    replace (A + 2 * (- (A + 1) / (2 * C)) * C + _ * 0) with (-1) in Q by (field; auto). lra.
  - specialize (Q (- C / B)). replace (A + 2 * (- C / B) * C + - C / B * (- C / B) * B) with ((A * B - C ^ 2) / B) in Q by (field; auto).
    apply (Rmult_le_compat_r B) in Q; [|lra]. replace ((A * B - C ^ 2) / B * B) with (A * B - C ^ 2) in Q by (field; auto). lra.
Qed.

(** Gram matrices are positive semidefinite *)
Lemma gram (y : Z -> Z -> R) v n p :
  Rsum (fun i => Rsum (fun j => v i * v j * Rsum (fun k => y k i * y k j) n) p) p =
  Rsum (fun k => Rsum (fun i => v i * y k i) p * Rsum (fun i => v i * y k i) p) n.
Proof.
  transitivity (Rsum (fun i => Rsum (fun k => Rsum (fun j => (v i * y k i) * (v j * y k j)) p) n) p).
  - apply Rsum_ext. intros i _. rewrite <- Rsum_swap. apply Rsum_ext. intros j _.
    rewrite <- Rsum_scale. apply Rsum_ext. intros; ring.
  - rewrite Rsum_swap. apply Rsum_ext. intros k _.
    rewrite (Rsum_ext _ (fun i => Rsum (fun j => v j * y k j) p * (v i * y k i))) by (intros; rewrite Rsum_scale; ring).
    apply Rsum_scale.
Qed.

Lemma co_deviation_sym x n i j : co_deviation x n i j = co_deviation x n j i.
Proof. apply Rsum_ext. intros; ring. Qed.
Lemma co_deviation_nonneg x n j : 0 <= co_deviation x n j j.
Proof. apply Rsum_nonneg. intros. apply Rle_0_sqr. Qed.
Lemma co_deviation_bound x n i j : co_deviation x n i j ^ 2 <= co_deviation x n i i * co_deviation x n j j.
Proof. apply cauchy. Qed.
Lemma corr_bound x n i j : 0 < co_deviation x n i i -> 0 < co_deviation x n j j -> -1 <= Rcorr x n i j <= 1.
Proof.
  intros Hi Hj. unfold Rcorr. set (d := R_sqrt.sqrt _ * R_sqrt.sqrt _).
  assert (D : 0 < d) by (apply Rmult_lt_0_compat; apply sqrt_lt_R0; auto).
  assert (DD : d * d = co_deviation x n i i * co_deviation x n j j).
  { unfold d. rewrite <- (sqrt_sqrt (co_deviation x n i i)) at 3 by lra. rewrite <- (sqrt_sqrt (co_deviation x n j j)) at 3 by lra. ring. }
  pose proof (co_deviation_bound x n i j) as B. rewrite <- DD in B. clearbody d. set (c := co_deviation x n i j) in *. clearbody c.
  assert (-d <= c <= d) by (split; nra).
  split; apply (Rmult_le_reg_r d); auto; replace (c / d * d) with c by (field; lra); lra.
Qed.

(** the copy *)
Lemma copy_dims o n p : (1 < n)%Z -> (1 <= p)%Z -> good_dims o n p (ld_copy o n p).
Proof. intros. unfold good_dims, ld_copy. destruct o; lia. Qed.
Lemma copy_entry {T} o n p (x : Z -> T) ldx k j : (0 <= k < n)%Z -> (0 <= j < p)%Z ->
  x_copy o n p x ldx (entry o (ld_copy o n p) k j) = x (entry o ldx k j).
Proof.
  intros Hk Hj. unfold x_copy, entry, ld_copy. destruct o; f_equal.
  - destruct (entry_div n j k ltac:(lia)) as [-> ->]. reflexivity.
  - destruct (entry_div p k j ltac:(lia)) as [-> ->]. reflexivity.
Qed.

(** the addresses of the result *)
Definition tri (o : order) := match o with column_major => upper | row_major => lower end.
Section Mat.
Variables (o : order) (n p ld : Z).
Hypothesis Hld : (p <= ld)%Z.
Lemma at_same r c l : at_entry o l r c = entry o l r c.
Proof. destruct o; reflexivity. Qed.

Lemma mirror_entry alpha (y : Z -> R) ldy mat i j : (0 <= i < p)%Z -> (0 <= j < p)%Z ->
  mirror p ld (syrk arithR o (tri o) n p alpha y ldy mat ld) (entry o ld i j) =
  alpha * Rsum (fun k => y (entry o ldy k i) * y (entry o ldy k j)) n.
Proof.
  intros Hi Hj.
  assert (S : forall i j, (0 <= i < p)%Z -> (0 <= j < p)%Z -> in_triangle (tri o) i j = true ->
     syrk arithR o (tri o) n p alpha y ldy mat ld (entry o ld i j) = alpha * Rsum (fun k => y (entry o ldy k i) * y (entry o ldy k j)) n).
  { clear i j Hi Hj. intros i j Hi Hj Ht. unfold syrk.
    replace (match o with column_major => _ | row_major => _ end) with (i, j).
    2:{ unfold entry. destruct o; [destruct (entry_div ld j i ltac:(lia)) as [-> ->]|destruct (entry_div ld i j ltac:(lia)) as [-> ->]]; reflexivity. }
    rewrite Ht. replace (0 <=? entry o ld i j)%Z with true by (symmetry; apply Z.leb_le; unfold entry; destruct o; nia).
    replace (i <? p)%Z with true by (symmetry; apply Z.ltb_lt; lia). replace (j <? p)%Z with true by (symmetry; apply Z.ltb_lt; lia).
    cbn [andb]. rewrite inner_tot. reflexivity. }
  unfold mirror. cbv zeta. assert (P : (0 <=? entry o ld i j)%Z = true) by (apply Z.leb_le; unfold entry; destruct o; nia). rewrite P. cbn [andb].
  assert (F : forall q r, (0 <= r < ld)%Z -> ((q * ld + r) / ld = q /\ (q * ld + r) mod ld = r)%Z) by (intros; apply entry_div; lia).
  destruct o eqn:Eo.
  - destruct (F j i ltac:(lia)) as [F1 F2]. change (j * ld + i)%Z with (entry column_major ld i j) in F1, F2. rewrite F1, F2. replace (i <? p)%Z with true by (symmetry; apply Z.ltb_lt; lia). rewrite andb_true_r.
    destruct (j <? i)%Z eqn:L.
    + replace (j + i * ld)%Z with (entry column_major ld j i) by (unfold entry; lia). rewrite S; auto.
      * f_equal. apply Rsum_ext. intros; ring.
      * cbn. apply Z.leb_le. lia.
    + apply S; auto. cbn. apply Z.leb_le. lia.
  - destruct (F i j ltac:(lia)) as [F1 F2]. change (i * ld + j)%Z with (entry row_major ld i j) in F1, F2. rewrite F1, F2. replace (j <? p)%Z with true by (symmetry; apply Z.ltb_lt; lia). rewrite andb_true_r.
    destruct (i <? j)%Z eqn:L.
    + replace (i + j * ld)%Z with (entry row_major ld j i) by (unfold entry; lia). rewrite S; auto.
      * f_equal. apply Rsum_ext. intros; ring.
      * cbn. apply Z.leb_le. lia.
    + apply S; auto. cbn. apply Z.leb_le. lia.
Qed.
Lemma unit_entry (mat : Z -> R) i j : (0 <= i < p)%Z -> (0 <= j < p)%Z ->
  unit_diagonal arithR p ld mat (entry o ld i j) = if (i =? j)%Z then 1 else mat (entry o ld i j).
Proof.
  intros Hi Hj. unfold unit_diagonal. cbv zeta.
  assert (P : (0 <=? entry o ld i j)%Z = true) by (apply Z.leb_le; unfold entry; destruct o; nia). rewrite P. cbn [andb].
  unfold entry at 1 2 3. destruct o.
  - destruct (entry_div ld j i ltac:(lia)) as [-> ->]. replace (j <? p)%Z with true by (symmetry; apply Z.ltb_lt; lia). reflexivity.
  - destruct (entry_div ld i j ltac:(lia)) as [-> ->]. replace (i <? p)%Z with true by (symmetry; apply Z.ltb_lt; lia). cbn [andb].
    rewrite Z.eqb_sym. reflexivity.
Qed.
Lemma outside_kept alpha (y : Z -> R) ldy mat a : (1 <= p)%Z -> outside o p ld a ->
  mirror p ld (syrk arithR o (tri o) n p alpha y ldy mat ld) a = mat a /\ forall m : Z -> R, unit_diagonal arithR p ld m a = m a.
Proof.
  intros Hp Ha.
  assert (N : (0 <= a)%Z -> (a / ld < p)%Z -> (a mod ld < p)%Z -> False).
  { intros A1 A2 A3. pose proof (Z.div_mod a ld ltac:(lia)) as E. pose proof (Z.mod_pos_bound a ld ltac:(lia)). pose proof (Z.div_pos a ld A1 ltac:(lia)).
    destruct o.
    - apply (Ha (a mod ld) (a / ld))%Z; try lia. unfold entry. lia.
    - apply (Ha (a / ld) (a mod ld))%Z; try lia. unfold entry. lia. }
  split.
  - unfold mirror. cbv zeta. destruct ((0 <=? a)%Z && (a / ld <? a mod ld)%Z && (a mod ld <? p)%Z) eqn:E.
    + apply andb_true_iff in E as [E E3]. apply andb_true_iff in E as [E1 E2]. exfalso. apply N; lia.
    + unfold syrk. destruct o;
      match goal with |- (if ?b then _ else _) = _ => destruct b eqn:E4; [exfalso|reflexivity] end;
      rewrite !andb_true_iff in E4; destruct E4 as [[[? ?] ?] _]; apply N; lia.
  - intros m. unfold unit_diagonal. cbv zeta. match goal with |- (if ?b then _ else _) = _ => destruct b eqn:E; [exfalso|reflexivity] end.
    rewrite !andb_true_iff in E. destruct E as [[? ?] ?]. apply N; lia.
Qed.
End Mat.

(** the standardized copy *)
Section Data.
Variables (t : team) (o : order) (n p ldx : Z) (X : Z -> R).
Hypothesis team_ok : good_team t.
Hypotheses (Hn : (1 < n)%Z) (Hp : (1 <= p)%Z).
Notation ldc := (ld_copy o n p).
Notation xc := (x_copy o n p X ldx).
Definition ent : Z -> Z -> R := fun k j => X (entry o ldx k j).

Lemma copy_mean j : (0 <= j < p)%Z -> Rmean o axis_col n p ldc xc j = col_mean ent n j.
Proof.
  intros Hj. unfold Rmean, sum_of, slice_total, nobs, col_mean. f_equal. apply Rsum_ext. intros k Hk.
  apply copy_entry; auto.
Qed.
Lemma copy_var j : (0 <= j < p)%Z -> Rvariance o axis_col n p ldc xc 1 j = co_deviation ent n j j.
Proof.
  intros Hj. unfold Rvariance, sum_of, slice_total, degrees. cbn [Z.ltb Z.eqb Z.compare]. cbv iota.
  rewrite copy_mean by auto.
  replace (IZR 1) with 1 by reflexivity. unfold Rdiv. rewrite Rinv_1, Rmult_1_r. apply Rsum_ext. intros k Hk.
  rewrite copy_entry by auto. unfold ent. ring.
Qed.
Lemma centred dof k j : (0 <= k < n)%Z -> (0 <= j < p)%Z ->
  std_data (standardize arithR t o axis_col n p xc ldc dof 0 (Some (fun _ => zero arithR)) None) (entry o ldc k j) =
  ent k j - col_mean ent n j.
Proof.
  intros Hk Hj. pose proof (copy_dims o n p Hn Hp) as D. rewrite (standardize_run t o axis_col n p ldc dof D) by auto. cbn [std_data].
  rewrite (apply_entry o axis_col n p ldc D) by auto. change (0 =? 0)%Z with true. cbv iota. cbn [key].
  assert (E : is_zero arithR (fun _ => zero arithR) (axis_size (fax o axis_col n p) (fn o axis_col n p) (fp o axis_col n p)) = true)
    by (apply is_zero_R; intros ? ?; reflexivity).
  unfold choose_arrays. rewrite E. cbn [fst snd].
  rewrite (fmean t o axis_col n p ldc team_ok D) by exact Hj. rewrite copy_mean, copy_entry by auto.
  replace (nz _) with 1 by (symmetry; apply nz_same; exact R1_neq_R0). unfold ent. field.
Qed.
Lemma standardized k j : (0 <= k < n)%Z -> (0 <= j < p)%Z ->
  std_data (standardize arithR t o axis_col n p xc ldc 1 0 None None) (entry o ldc k j) =
  (ent k j - col_mean ent n j) / nz (R_sqrt.sqrt (co_deviation ent n j j)).
Proof.
  intros Hk Hj. pose proof (copy_dims o n p Hn Hp) as D. rewrite (standardize_run t o axis_col n p ldc 1 D) by auto. cbn [std_data].
  rewrite (apply_entry o axis_col n p ldc D) by auto. change (0 =? 0)%Z with true. cbv iota. cbn [key].
  destruct (computed_arrays t o axis_col n p ldc 1 team_ok D xc None None I) as (A & B & _ & _).
  rewrite A, B by exact Hj. rewrite copy_mean, copy_var, copy_entry by auto. reflexivity.
Qed.
End Data.
