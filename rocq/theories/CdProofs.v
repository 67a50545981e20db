From Coq Require Import ZArith List Bool Reals Lra Lia.
From Verif Require Import Base NnModel RealArith CdModel CdSpec.
Import ListNotations.
Local Open Scope R_scope.

(** ** Sums *)
Lemma Sigma_shift f : forall n a, fold_right Rplus 0 (map f (seq (S a) n)) = fold_right Rplus 0 (map (fun i => f (S i)) (seq a n)).
Proof. intros n a. rewrite <- seq_shift, map_map. reflexivity. Qed.
Lemma Sigma_0 f : Sigma 0 f = 0. Proof. reflexivity. Qed.
Lemma Sigma_first n f : Sigma (S n) f = f 0%nat + Sigma n (fun i => f (S i)).
Proof. unfold Sigma. cbn [seq map fold_right]. rewrite Sigma_shift. reflexivity. Qed.
Lemma Sigma_ext n f g : (forall i, (i < n)%nat -> f i = g i) -> Sigma n f = Sigma n g.
Proof.
  revert f g. induction n as [|n IH]; intros f g E; [reflexivity|]. rewrite !Sigma_first. rewrite (E 0%nat) by lia. f_equal.
  apply IH. intros i Hi. apply E. lia.
Qed.
Lemma Sigma_add n f g : Sigma n (fun i => f i + g i) = Sigma n f + Sigma n g.
Proof. revert f g. induction n as [|n IH]; intros f g; [cbn; lra|]. rewrite !Sigma_first, (IH (fun i => f (S i)) (fun i => g (S i))). lra. Qed.
Lemma Sigma_mul n f a : Sigma n (fun i => a * f i) = a * Sigma n f.
Proof. revert f. induction n as [|n IH]; intros f; [cbn; lra|]. rewrite !Sigma_first, (IH (fun i => f (S i))). lra. Qed.
Lemma Sigma_zero n : Sigma n (fun _ => 0) = 0.
Proof. induction n as [|n IH]; [reflexivity|]. rewrite Sigma_first, IH. lra. Qed.
Lemma Sigma_const n a : Sigma n (fun _ => a) = INR n * a.
Proof. induction n as [|n IH]; [cbn; lra|]. rewrite Sigma_first, IH, S_INR. lra. Qed.
Lemma Sigma_le n f g : (forall i, (i < n)%nat -> f i <= g i) -> Sigma n f <= Sigma n g.
Proof.
  revert f g. induction n as [|n IH]; intros f g L; [cbn; lra|]. rewrite !Sigma_first. pose proof (L 0%nat ltac:(lia)).
  pose proof (IH (fun i => f (S i)) (fun i => g (S i)) (fun i Hi => L (S i) ltac:(lia))). lra.
Qed.
Lemma Sigma_nonneg n f : (forall i, (i < n)%nat -> 0 <= f i) -> 0 <= Sigma n f.
Proof. intros L. rewrite <- (Sigma_zero n). apply Sigma_le. exact L. Qed.
Lemma Sigma_sub n f g : Sigma n (fun i => f i - g i) = Sigma n f - Sigma n g.
Proof.
  rewrite (Sigma_ext _ _ (fun i => f i + (-1) * g i)) by (intros; lra). rewrite Sigma_add, Sigma_mul. lra.
Qed.
Lemma Sigma_swap n m f : Sigma n (fun i => Sigma m (fun j => f i j)) = Sigma m (fun j => Sigma n (fun i => f i j)).
Proof.
  revert f. induction n as [|n IH]; intros f.
  - rewrite Sigma_0. rewrite (Sigma_ext _ _ (fun _ => 0)) by reflexivity. symmetry. apply Sigma_zero.
  - rewrite Sigma_first, (IH (fun i => f (S i))). rewrite <- Sigma_add. apply Sigma_ext. intros j _. rewrite Sigma_first. reflexivity.
Qed.
(** one summand replaced *)
Lemma Sigma_one n k f g : (k < n)%nat -> (forall i, (i < n)%nat -> i <> k -> f i = g i) -> Sigma n f = Sigma n g + (f k - g k).
Proof.
  revert k f g. induction n as [|n IH]; intros k f g Hk E; [lia|]. rewrite !Sigma_first. destruct k as [|k].
  - rewrite (Sigma_ext n (fun i => f (S i)) (fun i => g (S i))) by (intros i Hi; apply E; lia). lra.
  - rewrite (IH k (fun i => f (S i)) (fun i => g (S i))) by (try lia; intros i Hi Ni; apply E; lia). rewrite (E 0%nat) by lia. lra.
Qed.
Lemma Sigma_elem_zero n f i : (forall j, (j < n)%nat -> 0 <= f j) -> Sigma n f = 0 -> (i < n)%nat -> f i = 0.
Proof.
  intros P Z Hi. assert (E := Sigma_one n i f (fun j => if Nat.eqb j i then 0 else f j) Hi).
  cbv beta in E. rewrite Nat.eqb_refl in E. rewrite E in Z.
  - assert (0 <= Sigma n (fun j => if Nat.eqb j i then 0 else f j)).
    { apply Sigma_nonneg. intros j Hj. destruct (Nat.eqb j i); [lra|auto]. }
    pose proof (P i Hi). lra.
  - intros j Hj Nj. destruct (Nat.eqb_spec j i); [contradiction|reflexivity].
Qed.

(** ** The model in exact arithmetic, index by index *)
Lemma fold_add l : forall a, fold_left Rplus l a = a + fold_right Rplus 0 l.
Proof. induction l as [|v l IH]; intros a; cbn; [lra|]. rewrite IH. lra. Qed.
Lemma sum_nth l : fold_right Rplus 0 l = Sigma (length l) (fun i => nth i l 0).
Proof. induction l as [|v l IH]; [reflexivity|]. cbn [length]. rewrite Sigma_first. cbn. rewrite IH. reflexivity. Qed.
Lemma cd_sum_R u : cd_sum arithR u = Sigma (length u) (fun i => nth i u 0).
Proof. unfold cd_sum. cbn. rewrite fold_add, sum_nth. unfold zero; cbn. lra. Qed.
Lemma map_combine_nth {B} (f : R * R -> B) (d : B) : forall u v i, length u = length v -> (i < length u)%nat ->
  nth i (map f (combine u v)) d = f (nth i u 0, nth i v 0).
Proof.
  induction u as [|a u IH]; intros [|b v] i E Hi; cbn in *; try lia; try discriminate. destruct i as [|i]; [reflexivity|].
  apply IH; lia.
Qed.
Lemma map_combine_len {B} (f : R * R -> B) (u v : list R) : length u = length v -> length (map f (combine u v)) = length v.
Proof. intros E. rewrite map_length, combine_length. lia. Qed.
Lemma cd_dot_R u v n : length u = n -> length v = n -> cd_dot arithR u v = Sigma n (fun i => nth i u 0 * nth i v 0).
Proof.
  intros Hu Hv. unfold cd_dot. cbn. rewrite fold_add, sum_nth, map_combine_len by lia. rewrite Hv.
  rewrite (Sigma_ext n _ (fun i => nth i u 0 * nth i v 0)); [unfold zero; cbn; lra|].
  intros i Hi. rewrite (map_combine_nth (fun p => fst p * snd p)) by lia. reflexivity.
Qed.
Lemma cd_axpy_len a x r : length x = length r -> length (cd_axpy arithR a x r) = length r.
Proof. intros E. unfold cd_axpy. apply (map_combine_len (fun p => add arithR (snd p) (mul arithR a (fst p)))); auto. Qed.
Lemma cd_axpy_nth a x r i : length x = length r -> (i < length r)%nat ->
  nth i (cd_axpy arithR a x r) 0 = nth i r 0 + a * nth i x 0.
Proof. intros E Hi. unfold cd_axpy. rewrite (map_combine_nth (fun p => add arithR (snd p) (mul arithR a (fst p)))) by lia. reflexivity. Qed.
Lemma nth_map_R (f : R -> R) l i : (i < length l)%nat -> nth i (map f l) 0 = f (nth i l 0).
Proof. intros H. rewrite (nth_indep _ 0 (f 0)) by (rewrite map_length; auto). apply map_nth. Qed.
Lemma list_ext (a b : list R) : length a = length b -> (forall i, (i < length a)%nat -> nth i a 0 = nth i b 0) -> a = b.
Proof. intros L E. apply (nth_ext a b 0 0); auto. Qed.

Lemma eqz_R v : eqz arithR v = true <-> v = 0.
Proof.
  unfold eqz. cbn. unfold Rleb, zero. cbn. destruct (Rle_dec v 0), (Rle_dec 0 v); cbn; split; intros; try discriminate; try lra; auto.
Qed.
Lemma tmax_R a b : tmax arithR a b = Rmax a b.
Proof. unfold tmax. cbn. unfold Rltb, Rmax. destruct (Rlt_dec a b), (Rle_dec a b); try lra; try reflexivity. Qed.

Lemma upd_len {V} (l : list V) k v : length (upd l k v) = length l.
Proof.
  unfold upd. rewrite app_length, firstn_length. pose proof (skipn_length k l) as L. destruct (skipn k l) as [|a t] eqn:E; cbn in *; lia.
Qed.
Lemma upd_nth {V} (d : V) : forall l k v j, (k < length l)%nat -> nth j (upd l k v) d = if Nat.eqb j k then v else nth j l d.
Proof.
  induction l as [|a l IH]; intros k v j Hk; cbn in Hk; [lia|]. destruct k as [|k]; unfold upd; cbn.
  - destruct j; reflexivity.
  - destruct j as [|j]; [reflexivity|]. cbn. apply (IH k v j). lia.
Qed.
Lemma upd_same (l : list R) k : (k < length l)%nat -> upd l k (nth k l 0) = l.
Proof.
  intros H. apply list_ext; [apply upd_len|]. intros i Hi. rewrite upd_nth by auto. destruct (Nat.eqb_spec i k); [subst|]; reflexivity.
Qed.
Lemma upd_replaced (l : list R) k v : (k < length l)%nat -> upd l k v = replaced l k v.
Proof.
  intros H. apply list_ext; [rewrite upd_len; unfold replaced; rewrite map_length, seq_length; reflexivity|].
  intros i Hi. rewrite upd_nth by auto. rewrite upd_len in Hi. unfold replaced.
  set (f := fun j => if Nat.eqb j k then v else nth j l 0).
  rewrite (nth_indep (map f (seq 0 (length l))) 0 (f 0%nat)) by (rewrite map_length, seq_length; auto).
  rewrite (map_nth f), seq_nth by auto. reflexivity.
Qed.

Lemma shrink_spec l1 b : 0 <= l1 -> exists s, Rabs s <= l1 /\ shrink arithR b l1 = b - s /\ s * shrink arithR b l1 = l1 * Rabs (shrink arithR b l1).
Proof.
  intros L1. unfold shrink. cbn. unfold zero. cbn. unfold Rltb. destruct (Rlt_dec b 0).
  - destruct (Rlt_dec (- b - l1) 0).
    + exists b. rewrite Rabs_left by lra. rewrite Ropp_0, Rabs_R0. repeat split; lra.
    + exists (- l1). rewrite Rabs_Ropp, (Rabs_pos_eq l1) by lra. rewrite Rabs_Ropp, (Rabs_pos_eq (- b - l1)) by lra. repeat split; lra.
  - destruct (Rlt_dec (b - l1) 0).
    + exists b. rewrite Rabs_pos_eq by lra. rewrite Rabs_R0. repeat split; lra.
    + exists l1. rewrite (Rabs_pos_eq l1) by lra. rewrite (Rabs_pos_eq (b - l1)) by lra. repeat split; lra.
Qed.
Lemma soft_spec g a : 0 <= a -> mul arithR (sk_sign arithR g) (tmax arithR (sub arithR (abs arithR g) a) (zero arithR)) = shrink arithR g a.
Proof.
  intros Ha. unfold sk_sign. rewrite tmax_R. destruct (eqz arithR (abs arithR g)) eqn:E.
  - apply eqz_R in E. cbn in *. assert (g = 0) by (destruct (Req_dec g 0); auto; pose proof (Rabs_no_R0 g H); lra). subst.
    unfold shrink. cbn. unfold zero. cbn. unfold Rltb. destruct (Rlt_dec 0 0); [lra|]. destruct (Rlt_dec (0 - a) 0); lra.
  - assert (Rabs g <> 0) by (intros A; apply (proj2 (eqz_R _)) in A; cbn in E; congruence). cbn. unfold zero. cbn.
    assert (0 < Rabs g) by (pose proof (Rabs_pos g); lra).
    unfold shrink. cbn. unfold zero. cbn. unfold Rltb. unfold Rmax.
    destruct (Rlt_dec g 0).
    + rewrite (Rabs_left g) in * by lra. replace (g / - g) with (-1) by (field; lra).
      destruct (Rle_dec (- g - a) 0), (Rlt_dec (- g - a) 0); lra.
    + rewrite (Rabs_pos_eq g) in * by lra. replace (g / g) with 1 by (field; lra).
      destruct (Rle_dec (g - a) 0), (Rlt_dec (g - a) 0); lra.
Qed.

Ltac other := solve [lia | intros; rewrite !upd_nth by lia; match goal with |- context [Nat.eqb ?a ?b] => destruct (Nat.eqb_spec a b); [lia|reflexivity] end].

Lemma fold_max l : forall a, a <= fold_left (fun m v => tmax arithR m (abs arithR v)) l a /\
  forall v, In v l -> Rabs v <= fold_left (fun m v => tmax arithR m (abs arithR v)) l a.
Proof.
  induction l as [|x l IH]; intros a; cbn [fold_left]; [split; [lra|intros v []]|].
  destruct (IH (tmax arithR a (abs arithR x))) as [A B]. rewrite tmax_R in *. cbn [abs arithR] in *.
  pose proof (Rmax_l a (Rabs x)). pose proof (Rmax_r a (Rabs x)). split; [lra|]. intros v [<-|I]; [lra|apply B, I].
Qed.
Lemma fold_abs l : forall a, fold_left (fun s v => add arithR s (abs arithR v)) l a = a + Sigma (length l) (fun j => Rabs (nth j l 0)).
Proof.
  induction l as [|x l IH]; intros a; cbn [fold_left length]; [cbn; lra|]. rewrite IH, Sigma_first. cbn. lra.
Qed.
Lemma map_combine_nth2 {A B} (f : R * A -> B) (d : B) (e : A) : forall u v i, length u = length v -> (i < length u)%nat ->
  nth i (map f (combine u v)) d = f (nth i u 0, nth i v e).
Proof.
  induction u as [|a u IH]; intros [|b v] i E Hi; cbn in *; try lia; try discriminate. destruct i as [|i]; [reflexivity|].
  apply IH; lia.
Qed.

Section Problem.
Variables (X : list (list R)) (y xv : list R) (l1 l2 : R) (icept : bool) (sc : scaling).
Hypotheses (Sh : shaped X y) (L1 : 0 <= l1) (L2 : 0 <= l2) (Nm : norms sc X y xv) (Dv : divisible sc l2 X xv) (Ic : icept_ok sc icept X y).
Let n := length y.
Let m := length X.
Let c := factor sc y.

Lemma n_pos : (0 < n)%nat. Proof. destruct Sh as [H _]. unfold n. destruct y; cbn; [congruence|lia]. Qed.
Lemma n_R : 0 < INR n. Proof. apply lt_0_INR. exact n_pos. Qed.
Lemma ns_R : ns arithR y = INR n. Proof. unfold ns, nsam. cbn. rewrite <- INR_IZR_INZ. reflexivity. Qed.
Lemma c_pos : 0 < c.
Proof. unfold c, factor. pose proof n_R. fold n. destruct sc; apply Rinv_0_lt_compat; lra. Qed.
Lemma col_len k : (k < m)%nat -> length (column X k) = n.
Proof. intros H. unfold column. destruct Sh as [_ F]. rewrite Forall_forall in F. apply F. apply nth_In. exact H. Qed.

(** the residual of the specification *)
Definition rho (coef : list R) (i : nat) : R := nth i y 0 - fitted X icept coef i.

Lemma fold_axpy : forall cs Xs v, Forall (fun cl => length cl = length v) Xs -> length cs = length Xs ->
  length (fold_left (fun v cx => cd_axpy arithR (fst cx) (snd cx) v) (combine cs Xs) v) = length v /\
  forall i, (i < length v)%nat ->
    nth i (fold_left (fun v cx => cd_axpy arithR (fst cx) (snd cx) v) (combine cs Xs) v) 0 =
    nth i v 0 + Sigma (length Xs) (fun j => nth j cs 0 * elem Xs j i).
Proof.
  induction cs as [|a cs IH]; intros [|cl Xs] v F E; try discriminate; cbn [combine fold_left].
  - split; [reflexivity|]. intros i Hi. cbn. lra.
  - inversion F as [|? ? Hc F']; subst. cbn [fst snd]. destruct (IH Xs (cd_axpy arithR a cl v)) as [A B].
    + rewrite cd_axpy_len by auto. exact F'.
    + cbn in E. lia.
    + rewrite cd_axpy_len in * by auto. split; [exact A|]. intros i Hi. rewrite B by auto. rewrite cd_axpy_nth by auto.
      cbn [length]. rewrite Sigma_first.
      transitivity (nth i v 0 + (a * nth i cl 0 + Sigma (length Xs) (fun j => nth j cs 0 * elem Xs j i))); [ring|reflexivity].
Qed.

Lemma combine_firstn {A B} : forall (a : list A) (b : list B), combine a b = combine (firstn (length b) a) b.
Proof. induction a as [|x a IH]; intros [|z b]; cbn; try reflexivity. rewrite <- IH. reflexivity. Qed.
Lemma nth_firstn_R (l : list R) k j : (j < k)%nat -> nth j (firstn k l) 0 = nth j l 0.
Proof. revert k j. induction l as [|a l IH]; intros [|k] [|j] H; cbn; try lia; try reflexivity. apply IH. lia. Qed.

Lemma residual_spec coef : length coef = ncoef X icept ->
  length (residual arithR X y icept coef) = n /\ forall i, (i < n)%nat -> nth i (residual arithR X y icept coef) 0 = rho coef i.
Proof.
  clear Ic. intros Hc. destruct Sh as [_ F]. unfold residual.
  set (v := fold_left (fun v cx => cd_axpy arithR (fst cx) (snd cx) v) (combine coef X) (map (fun _ => zero arithR) y)).
  assert (V : length v = n /\ forall i, (i < n)%nat -> nth i v 0 = Sigma m (fun j => nth j coef 0 * elem X j i)).
  { unfold v. rewrite combine_firstn. fold m.
    destruct (fold_axpy (firstn m coef) X (map (fun _ => zero arithR) y)) as [A B].
    - rewrite map_length. exact F.
    - rewrite firstn_length. unfold ncoef in Hc. fold m in Hc |- *. destruct icept; lia.
    - rewrite map_length in A, B. split; [exact A|]. intros i Hi. rewrite B by exact Hi.
      rewrite nth_map_R by exact Hi. unfold zero. cbn. rewrite Rplus_0_l. apply Sigma_ext. intros j Hj.
      rewrite nth_firstn_R by exact Hj. reflexivity. }
  destruct V as [V1 V2].
  assert (W : length (matvec arithR X y icept coef) = n /\ forall i, (i < n)%nat -> nth i (matvec arithR X y icept coef) 0 = fitted X icept coef i).
  { unfold matvec. fold v. unfold fitted. fold m. destruct icept.
    - rewrite map_length. split; [exact V1|]. intros i Hi. rewrite nth_map_R by lia. cbn. rewrite V2 by exact Hi. reflexivity.
    - split; [exact V1|]. intros i Hi. rewrite V2 by exact Hi. lra. }
  destruct W as [W1 W2]. split.
  - rewrite (map_combine_len (fun p => sub arithR (fst p) (snd p))); unfold n in *; lia.
  - intros i Hi. rewrite (map_combine_nth (fun p => sub arithR (fst p) (snd p))) by (fold n; lia). cbn. rewrite W2 by exact Hi. reflexivity.
Qed.
Definition is_res (coef r : list R) : Prop := length r = n /\ forall i, (i < n)%nat -> nth i r 0 = rho coef i.
Lemma is_res_eq coef r : length coef = ncoef X icept -> is_res coef r -> r = residual arithR X y icept coef.
Proof.
  intros Hc [L E]. destruct (residual_spec coef Hc) as [L' E']. apply list_ext; [lia|]. intros i Hi. rewrite E, E' by lia. reflexivity.
Qed.

(** the column of coordinate k, the intercept included *)
Definition colR (k i : nat) : R := if (k <? m)%nat then elem X k i else 1.
Lemma fitted_upd coef k t i : length coef = ncoef X icept -> (k < ncoef X icept)%nat ->
  fitted X icept (upd coef k t) i = fitted X icept coef i + (t - nth k coef 0) * colR k i.
Proof.
  intros Hc Hk. unfold fitted, colR. fold m. destruct (Nat.ltb_spec k m) as [H|H].
  - rewrite (Sigma_one m k (fun j => nth j (upd coef k t) 0 * elem X j i) (fun j => nth j coef 0 * elem X j i)) by other.
    rewrite upd_nth by lia. rewrite Nat.eqb_refl. destruct icept; [|lra].
    rewrite upd_nth by lia. destruct (Nat.eqb_spec m k); [lia|lra].
  - unfold ncoef in *. fold m in Hk, Hc. destruct icept; [|lia]. assert (k = m) by lia. subst k.
    rewrite (Sigma_ext m _ (fun j => nth j coef 0 * elem X j i)) by other.
    rewrite upd_nth by lia. rewrite Nat.eqb_refl. lra.
Qed.
Lemma rho_upd coef k t i : length coef = ncoef X icept -> (k < ncoef X icept)%nat ->
  rho (upd coef k t) i = rho coef i - (t - nth k coef 0) * colR k i.
Proof. intros. unfold rho. rewrite fitted_upd by auto. lra. Qed.

Lemma sse_rho coef : sse X y icept coef = Sigma n (fun i => rho coef i ^ 2). Proof. reflexivity. Qed.

(** ** Minimisers *)
(** what the step value v for coordinate k fulfils: the penalty on coordinate k is [pen k] *)
Definition feature (k : nat) : bool := (k <? m)%nat.
Definition stationary (coef : list R) (k : nat) (v : R) : Prop :=
  let w := upd coef k v in
  if feature k then exists s, Rabs s <= l1 /\ s * v = l1 * Rabs v /\ 2 * c * Sigma n (fun i => colR k i * rho w i) = s + 2 * l2 * v
  else Sigma n (fun i => rho w i) = 0.

Lemma abs_sub s t v : Rabs s <= l1 -> s * v = l1 * Rabs v -> s * (t - v) <= l1 * Rabs t - l1 * Rabs v.
Proof.
  intros A E. assert (s * t <= l1 * Rabs t); [|lra].
  apply Rle_trans with (Rabs (s * t)); [apply Rle_abs|]. rewrite Rabs_mult. apply Rmult_le_compat_r; [apply Rabs_pos|exact A].
Qed.

Lemma cost_split coef k t : length coef = ncoef X icept -> (k < ncoef X icept)%nat -> forall v,
  cost c X y icept l1 l2 (upd coef k t) - cost c X y icept l1 l2 (upd coef k v) =
  c * ((t - v) ^ 2 * Sigma n (fun i => colR k i ^ 2) - 2 * (t - v) * Sigma n (fun i => colR k i * rho (upd coef k v) i))
  + (if feature k then l1 * (Rabs t - Rabs v) + l2 * (t ^ 2 - v ^ 2) else 0).
Proof.
  intros Hc Hk v. unfold cost. rewrite !sse_rho. fold n m.
  assert (E : Sigma n (fun i => rho (upd coef k t) i ^ 2) =
    Sigma n (fun i => rho (upd coef k v) i ^ 2) + ((t - v) ^ 2 * Sigma n (fun i => colR k i ^ 2) -
      2 * (t - v) * Sigma n (fun i => colR k i * rho (upd coef k v) i))).
  { rewrite <- !Sigma_mul, <- Sigma_sub, <- Sigma_add. apply Sigma_ext. intros i Hi.
    rewrite (rho_upd coef k t), (rho_upd coef k v) by auto. ring. }
  rewrite E. unfold feature. destruct (Nat.ltb_spec k m) as [H|H].
  - rewrite (Sigma_one m k (fun j => Rabs (nth j (upd coef k t) 0)) (fun j => Rabs (nth j (upd coef k v) 0))) by other.
    rewrite (Sigma_one m k (fun j => nth j (upd coef k t) 0 ^ 2) (fun j => nth j (upd coef k v) 0 ^ 2)) by other.
    rewrite !upd_nth by lia. rewrite Nat.eqb_refl. ring.
  - rewrite (Sigma_ext m (fun j => Rabs (nth j (upd coef k t) 0)) (fun j => Rabs (nth j (upd coef k v) 0))) by other.
    rewrite (Sigma_ext m (fun j => nth j (upd coef k t) 0 ^ 2) (fun j => nth j (upd coef k v) 0 ^ 2)) by other.
    ring.
Qed.
Lemma colR_one k i : feature k = false -> colR k i = 1.
Proof. unfold feature, colR. intros ->. reflexivity. Qed.

Lemma stationary_min coef k v t : length coef = ncoef X icept -> (k < ncoef X icept)%nat -> stationary coef k v ->
  cost c X y icept l1 l2 (upd coef k v) <= cost c X y icept l1 l2 (upd coef k t).
Proof.
  intros Hc Hk St. pose proof (cost_split coef k t Hc Hk v) as E. unfold stationary in St. pose proof c_pos as Cp.
  assert (Q : 0 <= (t - v) ^ 2 * Sigma n (fun i => colR k i ^ 2)).
  { apply Rmult_le_pos; [apply pow2_ge_0|]. apply Sigma_nonneg. intros i _. apply pow2_ge_0. }
  assert (Q' := Rmult_le_pos _ _ (Rlt_le _ _ Cp) Q). destruct (feature k) eqn:Fk.
  - destruct St as [s [A [B D]]]. pose proof (abs_sub s t v A B) as G.
    set (G2 := Sigma n (fun i => colR k i * rho (upd coef k v) i)) in *.
    assert (0 <= l2 * (t - v) ^ 2) by (apply Rmult_le_pos; [exact L2|apply pow2_ge_0]).
    assert (c * (2 * (t - v) * G2) = (t - v) * (s + 2 * l2 * v)) by (rewrite <- D; ring).
    nra.
  - rewrite (Sigma_ext n (fun i => colR k i * rho (upd coef k v) i) (fun i => rho (upd coef k v) i)) in E by
      (intros i _; rewrite colR_one by exact Fk; ring). rewrite St in E. nra.
Qed.

(** all coordinates stationary: a minimiser *)
Lemma kkt_min coef : length coef = ncoef X icept -> (forall k, (k < ncoef X icept)%nat -> stationary coef k (nth k coef 0)) ->
  forall coef', length coef' = ncoef X icept -> cost c X y icept l1 l2 coef <= cost c X y icept l1 l2 coef'.
Proof.
  intros Hc St coef' Hc'. pose proof c_pos as Cp.
  set (d := fun j => nth j coef' 0 - nth j coef 0).
  assert (KK : forall k, (k < m)%nat -> exists s, Rabs s <= l1 /\ s * nth k coef 0 = l1 * Rabs (nth k coef 0) /\
                2 * c * Sigma n (fun i => elem X k i * rho coef i) = s + 2 * l2 * nth k coef 0).
  { intros k Hk. assert (Hk' : (k < ncoef X icept)%nat) by (unfold ncoef; fold m; lia). specialize (St k Hk'). unfold stationary in St.
    rewrite upd_same in St by lia. unfold feature in St. destruct (Nat.ltb_spec k m); [|lia].
    destruct St as [s [A [B D]]]. exists s. repeat split; auto. rewrite <- D. f_equal. apply Sigma_ext. intros i _.
    unfold colR. destruct (Nat.ltb_spec k m); [reflexivity|lia]. }
  assert (KI : (if icept then nth m coef' 0 - nth m coef 0 else 0) * Sigma n (fun i => rho coef i) = 0).
  { destruct icept eqn:I; [|ring]. assert (Hk' : (m < ncoef X true)%nat) by (unfold ncoef; fold m; lia). rewrite <- I in *.
    specialize (St m Hk'). unfold stationary in St. rewrite upd_same in St by lia. unfold feature in St. rewrite Nat.ltb_irrefl in St.
    rewrite St. ring. }
  set (db := if icept then nth m coef' 0 - nth m coef 0 else 0) in *.
  assert (RE : forall i, rho coef' i = rho coef i - (Sigma m (fun j => d j * elem X j i) + db)).
  { intros i. unfold rho, fitted. fold m. unfold d, db. rewrite (Sigma_ext m (fun j => (nth j coef' 0 - nth j coef 0) * elem X j i)
      (fun j => nth j coef' 0 * elem X j i - nth j coef 0 * elem X j i)) by (intros; ring). rewrite Sigma_sub. destruct icept; lra. }
  assert (SS : Sigma n (fun i => rho coef i ^ 2) - 2 * Sigma m (fun j => d j * Sigma n (fun i => elem X j i * rho coef i)) <= Sigma n (fun i => rho coef' i ^ 2)).
  { assert (E1 : Sigma m (fun j => d j * Sigma n (fun i => elem X j i * rho coef i)) =
                 Sigma n (fun i => rho coef i * (Sigma m (fun j => d j * elem X j i) + db))).
    { rewrite (Sigma_ext n _ (fun i => Sigma m (fun j => d j * (elem X j i * rho coef i)) + db * rho coef i)).
      - rewrite Sigma_add, (Sigma_mul n (fun i => rho coef i) db), KI, Rplus_0_r, Sigma_swap. apply Sigma_ext. intros j _. rewrite Sigma_mul. reflexivity.
      - intros i _. rewrite Rmult_plus_distr_l, <- Sigma_mul. f_equal; [|ring]. apply Sigma_ext. intros; ring. }
    rewrite E1, <- Sigma_mul, <- Sigma_sub. apply Sigma_le. intros i _. rewrite RE.
    pose proof (pow2_ge_0 (Sigma m (fun j => d j * elem X j i) + db)). nra. }
  assert (PP : Sigma m (fun j => l1 * Rabs (nth j coef 0) + l2 * nth j coef 0 ^ 2 + 2 * c * (d j * Sigma n (fun i => elem X j i * rho coef i)))
               <= Sigma m (fun j => l1 * Rabs (nth j coef' 0) + l2 * nth j coef' 0 ^ 2)).
  { apply Sigma_le. intros j Hj. destruct (KK j Hj) as [s [A [B D]]]. pose proof (abs_sub s (nth j coef' 0) (nth j coef 0) A B).
    replace (2 * c * (d j * Sigma n (fun i => elem X j i * rho coef i))) with (d j * (s + 2 * l2 * nth j coef 0)) by (rewrite <- D; ring).
    unfold d. assert (0 <= l2 * (nth j coef' 0 - nth j coef 0) ^ 2) by (apply Rmult_le_pos; [exact L2|apply pow2_ge_0]). nra. }
  rewrite !Sigma_add, !Sigma_mul in PP. unfold cost. rewrite !sse_rho. fold m n.
  set (S1 := Sigma m (fun j => d j * Sigma n (fun i => elem X j i * rho coef i))) in *. nra.
Qed.

(** ** The step functions find stationary values *)

Lemma dot_col k coef r : (k < m)%nat -> is_res coef r -> cd_dot arithR (column X k) r = Sigma n (fun i => elem X k i * rho coef i).
Proof.
  intros Hk [L E]. rewrite (cd_dot_R _ _ n) by (auto using col_len). apply Sigma_ext. intros i Hi. rewrite E by exact Hi. reflexivity.
Qed.
Lemma rho_step coef k v : length coef = ncoef X icept -> (k < ncoef X icept)%nat ->
  Sigma n (fun i => colR k i * rho (upd coef k v) i) =
  Sigma n (fun i => colR k i * rho coef i) - (v - nth k coef 0) * Sigma n (fun i => colR k i ^ 2).
Proof.
  intros Hc Hk. rewrite <- Sigma_mul, <- Sigma_sub. apply Sigma_ext. intros i _. rewrite rho_upd by auto. ring.
Qed.
Lemma colR_feature k i : (k < m)%nat -> colR k i = elem X k i.
Proof. intros H. unfold colR. destruct (Nat.ltb_spec k m); [reflexivity|lia]. Qed.
Lemma sigma_colR k : (k < m)%nat -> Sigma n (fun i => colR k i ^ 2) = Sigma n (fun i => elem X k i ^ 2).
Proof. intros H. apply Sigma_ext. intros i _. rewrite colR_feature by exact H. reflexivity. Qed.
Lemma sigma_colR_rho k coef : (k < m)%nat -> Sigma n (fun i => colR k i * rho coef i) = Sigma n (fun i => elem X k i * rho coef i).
Proof. intros H. apply Sigma_ext. intros i _. rewrite colR_feature by exact H. reflexivity. Qed.
Lemma intercept_index k : (k < ncoef X icept)%nat -> (m <= k)%nat -> icept = true /\ k = m.
Proof. unfold ncoef. fold m. destruct icept; intros; split; auto; lia. Qed.
Lemma sum_one_sq k : (m <= k)%nat -> Sigma n (fun i => colR k i ^ 2) = INR n.
Proof.
  intros H. rewrite (Sigma_ext n _ (fun _ => 1)); [rewrite Sigma_const; lra|]. intros i _. unfold colR.
  destruct (Nat.ltb_spec k m); [lia|ring].
Qed.

(** the GLMnet step *)
Lemma glm_stationary coef r k : uses_xv sc = true -> length coef = ncoef X icept -> (k < ncoef X icept)%nat -> is_res coef r ->
  stationary coef k (glm_new arithR X y xv l1 l2 sc coef r k).
Proof.
  intros U Hc Hk Rs. unfold stationary, glm_new, feature. change (nmod X) with m. destruct (Nat.ltb_spec k m) as [H|H].
  - set (G := Sigma n (fun i => elem X k i * rho coef i)). set (A := Sigma n (fun i => elem X k i ^ 2)).
    rewrite (dot_col k coef r H Rs). fold G.
    assert (E : exists p, p = 2 * c * A + 2 * l2 /\ 0 < p /\
      div arithR (shrink arithR (add arithR (if standardized sc then div arithR G (ns arithR y) else G)
          (mul arithR (at_ arithR coef k) (if uses_xv sc then at_ arithR xv k else of_Z arithR 1))) l1)
        (add arithR (if uses_xv sc then at_ arithR xv k else of_Z arithR 1) (mul arithR (of_Z arithR 2) l2)) =
      shrink arithR (2 * c * (G + nth k coef 0 * A)) l1 / p).
    { pose proof n_R as Np. pose proof (proj2 Nm k H) as Ek. fold n in Ek. fold A in Ek. unfold divisible in Dv. unfold c, factor.
      destruct sc; try discriminate.
      - exists (2 * / 2 * A + 2 * l2). specialize (Dv k H). split; [reflexivity|]. split; [lra|]. cbn. unfold at_, zero. cbn.
        rewrite Ek. f_equal; [f_equal; field|field].
      - exists (2 * / (2 * INR (length y)) * A + 2 * l2). fold n. specialize (Dv k H). split; [reflexivity|]. split.
        + rewrite Ek in Dv. replace (2 * / (2 * INR n) * A) with (A / INR n) by (field; lra). lra.
        + rewrite ns_R. cbn. unfold at_, zero. cbn. rewrite Ek. f_equal; [f_equal; field; lra|field; lra]. }
    destruct E as [p [Ep [Pp ->]]]. destruct (shrink_spec l1 (2 * c * (G + nth k coef 0 * A)) L1) as [s [As [Bs Cs]]].
    set (h := shrink arithR (2 * c * (G + nth k coef 0 * A)) l1) in *. exists s. split; [exact As|]. split.
    + unfold Rdiv. rewrite Rabs_mult, (Rabs_pos_eq (/ p)) by (apply Rlt_le, Rinv_0_lt_compat, Pp).
      rewrite <- !Rmult_assoc, Cs. ring.
    + rewrite rho_step by auto. rewrite sigma_colR, sigma_colR_rho by exact H. fold G A.
      assert (h = p * (h / p)) by (field; lra). rewrite Bs in H0 at 1. rewrite Ep in H0 at 1. lra.
  - destruct (intercept_index k Hk H) as [I ->]. rewrite ns_R, cd_sum_R. cbn. destruct Rs as [Lr Er]. rewrite Lr.
    rewrite (Sigma_ext n (fun i => nth i r 0) (fun i => rho coef i)) by (intros i Hi; apply Er; exact Hi).
    set (v := _ + _). rewrite (Sigma_ext n _ (fun i => colR m i * rho (upd coef m v) i)).
    + rewrite rho_step by auto. rewrite sum_one_sq by lia.
      rewrite (Sigma_ext n (fun i => colR m i * rho coef i) (fun i => rho coef i)).
      * unfold v, at_, zero. cbn. pose proof n_R. field. lra.
      * intros i _. unfold colR. rewrite Nat.ltb_irrefl. ring.
    + intros i _. unfold colR. rewrite Nat.ltb_irrefl. ring.
Qed.

(** the residual kept by the GLMnet step *)
Lemma glm_update_one coef r k v kd : length coef = ncoef X icept -> (k < ncoef X icept)%nat -> is_res coef r -> kd = v - nth k coef 0 ->
  kd <> 0 -> is_res (upd coef k v) (glm_update arithR X y icept (- (Z.of_nat k + 1)) kd (upd coef k v) r).
Proof.
  intros Hc Hk [Lr Er] Ek Nz. unfold glm_update.
  assert (E1 : (0 <? - (Z.of_nat k + 1))%Z = false) by (apply Z.ltb_ge; lia).
  assert (E2 : (- (Z.of_nat k + 1) <? 0)%Z = true) by (apply Z.ltb_lt; lia). rewrite E1, E2.
  destruct (eqz arithR kd) eqn:Z; [apply eqz_R in Z; contradiction|]. cbn [negb andb].
  replace (Z.to_nat (- (- (Z.of_nat k + 1) + 1))) with k by lia. change (nmod X) with m.
  destruct (Nat.ltb_spec k m) as [H|H].
  - split; [rewrite cd_axpy_len by (rewrite col_len by exact H; lia); exact Lr|]. intros i Hi.
    rewrite cd_axpy_nth by (try rewrite col_len by exact H; lia). rewrite Er by exact Hi. rewrite rho_upd by auto.
    rewrite colR_feature by exact H. change (nth i (column X k) 0) with (elem X k i). cbn. subst kd. ring.
  - split; [rewrite map_length; exact Lr|]. intros i Hi. rewrite nth_map_R by lia. rewrite Er by exact Hi. rewrite rho_upd by auto.
    unfold colR. destruct (Nat.ltb_spec k m); [lia|]. cbn. subst kd. ring.
Qed.

(** the sklearn step *)
Lemma add_col_res coef r k a : length coef = ncoef X icept -> (k < ncoef X icept)%nat -> is_res coef r ->
  is_res (upd coef k (nth k coef 0 - a)) (add_col arithR X k a r).
Proof.
  intros Hc Hk [Lr Er]. unfold add_col. change (nmod X) with m. destruct (Nat.ltb_spec k m) as [H|H].
  - split; [rewrite cd_axpy_len by (rewrite col_len by exact H; lia); exact Lr|]. intros i Hi.
    rewrite cd_axpy_nth by (try rewrite col_len by exact H; lia). rewrite Er by exact Hi. rewrite rho_upd by auto.
    rewrite colR_feature by exact H. change (nth i (column X k) 0) with (elem X k i). ring.
  - split; [rewrite map_length; exact Lr|]. intros i Hi. rewrite nth_map_R by lia. rewrite Er by exact Hi. rewrite rho_upd by auto.
    unfold colR. destruct (Nat.ltb_spec k m); [lia|]. cbn. ring.
Qed.
Lemma upd_upd (l : list R) k a b : (k < length l)%nat -> upd (upd l k a) k b = upd l k b.
Proof.
  intros H. apply list_ext; [rewrite !upd_len; reflexivity|]. intros i Hi. rewrite !upd_nth by (try rewrite upd_len; auto).
  destruct (Nat.eqb i k); reflexivity.
Qed.
Lemma is_res_ext coef coef' r : coef = coef' -> is_res coef r -> is_res coef' r. Proof. intros ->. auto. Qed.

Lemma partial_res coef r k : length coef = ncoef X icept -> (k < ncoef X icept)%nat -> is_res coef r ->
  is_res (upd coef k 0) (if eqz arithR (at_ arithR coef k) then r else add_col arithR X k (at_ arithR coef k) r).
Proof.
  intros Hc Hk Rs. destruct (eqz arithR (at_ arithR coef k)) eqn:Z.
  - apply eqz_R in Z. eapply is_res_ext; [|exact Rs]. rewrite <- (upd_same coef k) at 1 by lia. f_equal. exact Z.
  - eapply is_res_ext; [|apply add_col_res; eauto]. f_equal. unfold at_, zero. cbn. ring.
Qed.
Lemma plain_norm k : uses_xv sc = false -> (k < m)%nat -> nth k xv 0 = Sigma n (fun i => elem X k i ^ 2).
Proof. intros U H. destruct Nm as [_ E]. specialize (E k H). destruct sc; try discriminate; exact E. Qed.
Lemma plain_c : uses_xv sc = false -> 2 * c = / INR n.
Proof. intros U. unfold c, factor. fold n. pose proof n_R. destruct sc; try discriminate; field; lra. Qed.
Lemma zero_col k : uses_xv sc = false -> (k < m)%nat -> nth k xv 0 = 0 -> forall i, (i < n)%nat -> elem X k i = 0.
Proof.
  intros U H Z i Hi. rewrite plain_norm in Z by auto.
  pose proof (Sigma_elem_zero n (fun i => elem X k i ^ 2) i (fun j _ => pow2_ge_0 _) Z Hi) as E. cbv beta in E. nra.
Qed.
Lemma centred_sum coef : centred X y -> icept = true -> length coef = ncoef X icept ->
  Sigma n (fun i => rho coef i) = - (INR n * nth m coef 0).
Proof.
  intros [Cy Cx] I Hc. unfold rho, fitted. rewrite I. fold m. rewrite Sigma_sub, Sigma_add, Sigma_const, Sigma_swap. fold n in Cy. rewrite Cy.
  rewrite (Sigma_ext m _ (fun _ => 0)); [rewrite Sigma_zero; lra|]. intros j Hj. rewrite Sigma_mul. fold n in Cx. rewrite Cx by exact Hj. ring.
Qed.

Lemma sk_step_spec coef r k : uses_xv sc = false -> length coef = ncoef X icept -> (k < ncoef X icept)%nat -> is_res coef r ->
  let w := sk_step arithR X y xv l1 l2 icept 0 coef r k in stationary coef k (fst w) /\ is_res (upd coef k (fst w)) (snd w).
Proof.
  intros U Hc Hk Rs. cbv zeta. unfold sk_step. change (0 <? 0)%Z with false. cbv iota. change (nmod X) with m.
  pose proof n_R as Np. destruct ((k <? m)%nat && eqz arithR (at_ arithR xv k)) eqn:Q.
  - apply andb_true_iff in Q. destruct Q as [Q1 Q2]. apply Nat.ltb_lt in Q1. apply eqz_R in Q2.
    pose proof (zero_col k U Q1 Q2) as Zc. cbn [fst snd].
    change (zero arithR) with 0. split.
    + unfold stationary, feature. destruct (Nat.ltb_spec k m); [|lia]. exists 0. rewrite Rabs_R0. repeat split; [lra|ring|].
      rewrite (Sigma_ext n _ (fun _ => 0)); [rewrite Sigma_zero; ring|]. intros i Hi. rewrite colR_feature, Zc by auto. ring.
    + destruct Rs as [Lr Er]. split; [exact Lr|]. intros i Hi. rewrite Er, rho_upd by auto. rewrite colR_feature, Zc by auto. ring.
  - set (r1 := if eqz arithR (at_ arithR coef k) then r else add_col arithR X k (at_ arithR coef k) r).
    assert (R1 : is_res (upd coef k 0) r1) by (apply partial_res; auto).
    set (v := sk_new arithR X y xv l1 l2 r1 k). cbn [fst snd]. split.
    + unfold stationary, feature. destruct (Nat.ltb_spec k m) as [H|H].
      * cbn [andb] in Q. assert (Nz : nth k xv 0 <> 0) by (intros Z; apply (proj2 (eqz_R _)) in Z; unfold at_, zero in Q; cbn in Q, Z; congruence).
        pose proof (plain_norm k U H) as Ea. set (A := Sigma n (fun i => elem X k i ^ 2)) in *.
        assert (Ap : 0 < A) by (assert (0 <= A) by (apply Sigma_nonneg; intros; apply pow2_ge_0); lra).
        set (g := Sigma n (fun i => elem X k i * rho (upd coef k 0) i)).
        destruct (shrink_spec (l1 * INR n) g) as [s [As [Bs Cs]]]; [apply Rmult_le_pos; lra|].
        assert (Ev : v = shrink arithR g (l1 * INR n) / (A + 2 * INR n * l2)).
        { unfold v, sk_new. change (nmod X) with m. destruct (Nat.ltb_spec k m); [|lia].
          rewrite (dot_col k (upd coef k 0) r1 H R1). fold g.
          change (mul arithR l1 (ns arithR y)) with (l1 * ns arithR y). rewrite ns_R. rewrite soft_spec by (apply Rmult_le_pos; lra).
          unfold at_, zero. cbn. rewrite Ea. f_equal. rewrite mult_IZR. unfold nsam. rewrite <- INR_IZR_INZ. fold n. ring. }
        assert (Pp : 0 < A + 2 * INR n * l2) by nra.
        set (h := shrink arithR g (l1 * INR n)) in *.
        exists (s / INR n). split; [|split].
        -- unfold Rdiv. rewrite Rabs_mult, (Rabs_pos_eq (/ INR n)) by (apply Rlt_le, Rinv_0_lt_compat, Np).
           apply Rmult_le_reg_r with (INR n); [exact Np|]. rewrite Rmult_assoc, Rinv_l by lra. lra.
        -- rewrite Ev. unfold Rdiv. rewrite Rabs_mult, (Rabs_pos_eq (/ _)) by (apply Rlt_le, Rinv_0_lt_compat, Pp).
           replace (s * / INR n * (h * / (A + 2 * INR n * l2))) with (s * h * / INR n * / (A + 2 * INR n * l2)) by ring.
           rewrite Cs. field. split; lra.
        -- rewrite <- (upd_upd coef k 0 v) by lia. rewrite rho_step by (try rewrite upd_len; auto).
           rewrite sigma_colR, sigma_colR_rho by exact H. fold A g. rewrite upd_nth by lia. rewrite Nat.eqb_refl. rewrite plain_c by exact U.
           assert (Eh : h = v * (A + 2 * INR n * l2)) by (rewrite Ev; field; lra).
           apply Rmult_eq_reg_l with (INR n); [|lra]. field_simplify; lra.
      * destruct (intercept_index k Hk H) as [I ->].
        assert (Ce : centred X y) by (specialize (Ic I); destruct sc; try discriminate; exact Ic).
        assert (E0 : Sigma n (fun i => rho (upd coef m 0) i) = 0).
        { rewrite centred_sum by (try rewrite upd_len; auto). rewrite upd_nth by lia. rewrite Nat.eqb_refl. ring. }
        assert (Ev : v = 0).
        { unfold v, sk_new. change (nmod X) with m. rewrite Nat.ltb_irrefl. rewrite cd_sum_R. destruct R1 as [Lr Er]. rewrite Lr.
          rewrite (Sigma_ext n (fun i => nth i r1 0) (fun i => rho (upd coef m 0) i)) by (intros i Hi; apply Er; exact Hi). rewrite E0.
          change (mul arithR l1 (ns arithR y)) with (l1 * ns arithR y). rewrite ns_R. rewrite soft_spec by (apply Rmult_le_pos; lra).
          assert (Z : shrink arithR 0 (l1 * INR n) = 0).
          { assert (0 <= l1 * INR n) by (apply Rmult_le_pos; lra). unfold shrink. cbn. unfold zero. cbn. unfold Rltb.
            destruct (Rlt_dec 0 0); [lra|]. destruct (Rlt_dec (0 - l1 * INR n) 0); lra. }
          rewrite Z. cbn. unfold Rdiv. ring. }
        rewrite Ev. exact E0.
    + destruct (eqz arithR v) eqn:Zv.
      * apply eqz_R in Zv. rewrite Zv. exact R1.
      * eapply is_res_ext; [|apply add_col_res; [rewrite upd_len; exact Hc|exact Hk|exact R1]].
        rewrite upd_upd by lia. f_equal. rewrite upd_nth by lia. rewrite Nat.eqb_refl. cbn. ring.
Qed.

(** ** The dual gap *)
Lemma gap_bound coef r : c = / (2 * INR n) -> length coef = ncoef X icept -> is_res coef r ->
  (icept = true -> Sigma n (fun i => rho coef i) = 0) ->
  forall coef', length coef' = ncoef X icept ->
    cost c X y icept l1 l2 coef <= cost c X y icept l1 l2 coef' + dual_gap arithR X y l1 l2 coef r.
Proof.
  intros Ec Hc Rs Si coef' Hc'. pose proof n_R as Np. assert (Rs' := Rs). destruct Rs' as [Lr Er].
  unfold dual_gap. rewrite ns_R. change (nmod X) with m.
  change (mul arithR (of_Z arithR 2) (mul arithR l2 (INR n))) with (2 * (l2 * INR n)).
  change (mul arithR l2 (INR n)) with (l2 * INR n). change (mul arithR l1 (INR n)) with (l1 * INR n).
  set (a := l1 * INR n). set (b := l2 * INR n).
  assert (Ha : 0 <= a) by (apply Rmult_le_pos; lra). assert (Hb : 0 <= b) by (apply Rmult_le_pos; lra).
  assert (Lw : length (firstn m coef) = m) by (rewrite firstn_length; unfold ncoef in Hc; fold m in Hc; destruct icept; lia).
  set (XtA := map _ (combine (firstn m coef) X)).
  set (A := fun j => Sigma n (fun i => elem X j i * rho coef i) - 2 * b * nth j coef 0).
  assert (EA : length XtA = m /\ forall j, (j < m)%nat -> nth j XtA 0 = A j).
  { split; [unfold XtA; rewrite map_length, combine_length, Lw; fold m; lia|]. intros j Hj. unfold XtA.
    rewrite (map_combine_nth2 _ 0 []) by (fold m; lia). cbn [fst snd].
    change (nth j X []) with (column X j). rewrite (dot_col j coef r Hj Rs). rewrite nth_firstn_R by exact Hj. reflexivity. }
  destruct EA as [LA EA]. set (dn := fold_left _ XtA _).
  assert (Dn : 0 <= dn /\ forall j, (j < m)%nat -> Rabs (A j) <= dn).
  { destruct (fold_max XtA (zero arithR)) as [D0 D1]. split; [exact D0|]. intros j Hj. rewrite <- EA by exact Hj. apply D1, nth_In. lia. }
  destruct Dn as [Dn0 Dn].
  rewrite (cd_dot_R r r n), (cd_dot_R r y n), (cd_dot_R (firstn m coef) (firstn m coef) m) by auto.
  rewrite fold_abs, Lw.
  rewrite (Sigma_ext n (fun i => nth i r 0 * nth i r 0) (fun i => rho coef i ^ 2)) by (intros i Hi; rewrite Er by exact Hi; ring).
  rewrite (Sigma_ext n (fun i => nth i r 0 * nth i y 0) (fun i => rho coef i * nth i y 0)) by (intros i Hi; rewrite Er by exact Hi; ring).
  rewrite (Sigma_ext m (fun i => nth i (firstn m coef) 0 * nth i (firstn m coef) 0) (fun j => nth j coef 0 ^ 2)) by
    (intros i Hi; rewrite nth_firstn_R by exact Hi; ring).
  rewrite (Sigma_ext m (fun j => Rabs (nth j (firstn m coef) 0)) (fun j => Rabs (nth j coef 0))) by
    (intros i Hi; rewrite nth_firstn_R by exact Hi; ring).
  set (rr := Sigma n (fun i => rho coef i ^ 2)). set (ry := Sigma n (fun i => rho coef i * nth i y 0)).
  set (w1 := Sigma m (fun j => Rabs (nth j coef 0))). set (w2 := Sigma m (fun j => nth j coef 0 ^ 2)).
  set (C := gap_factor arithR a dn).
  assert (HC : 0 <= C <= 1 /\ C * dn <= a /\
    (if lt arithR a dn then div arithR (add arithR rr (mul arithR rr (mul arithR C C))) (of_Z arithR 2) else rr) = (1 + C ^ 2) / 2 * rr /\
    (if lt arithR a dn then mul arithR C C else of_Z arithR 1) = C ^ 2).
  { unfold C, gap_factor. cbn. unfold Rltb. destruct (Rlt_dec a dn) as [L|L].
    - assert (0 < dn) by lra. split; [split|].
      + apply Rmult_le_pos; [exact Ha|]. apply Rlt_le, Rinv_0_lt_compat. exact H.
      + apply Rmult_le_reg_r with dn; [exact H|]. unfold Rdiv. rewrite Rmult_assoc, Rinv_l by lra. lra.
      + split; [unfold Rdiv; rewrite Rmult_assoc, Rinv_l by lra; lra|]. split; field; lra.
    - repeat split; try lra. }
  destruct HC as [[C0 C1] [Cd [HG HCC]]].
  assert (G : (if lt arithR a dn then div arithR (add arithR rr (mul arithR rr (if lt arithR a dn then mul arithR C C else of_Z arithR 1))) (of_Z arithR 2) else rr) = (1 + C ^ 2) / 2 * rr).
  { rewrite <- HG. destruct (lt arithR a dn); reflexivity. }
  rewrite G, HCC. clear G HG HCC. cbn [add sub mul div arithR of_Z]. unfold zero. cbn [of_Z arithR].
  set (db := if icept then nth m coef' 0 else 0).
  assert (Ey : ry = Sigma n (fun i => rho coef i * rho coef' i) + Sigma m (fun j => nth j coef' 0 * (A j + 2 * b * nth j coef 0))).
  { unfold ry. rewrite (Sigma_ext m _ (fun j => Sigma n (fun i => nth j coef' 0 * (elem X j i * rho coef i)))).
    - rewrite <- Sigma_swap.
      assert (Z : Sigma n (fun i => db * rho coef i) = 0).
      { rewrite (Sigma_mul n (fun i => rho coef i) db). unfold db. destruct icept eqn:I; [|ring]. rewrite (Si eq_refl). ring. }
      transitivity (Sigma n (fun i => rho coef i * rho coef' i) + Sigma n (fun i => Sigma m (fun j => nth j coef' 0 * (elem X j i * rho coef i))) + Sigma n (fun i => db * rho coef i)); [|lra].
      rewrite <- !Sigma_add. apply Sigma_ext. intros i _.
      rewrite (Sigma_ext m _ (fun j => rho coef i * (nth j coef' 0 * elem X j i))) by (intros; ring). rewrite Sigma_mul.
      unfold db. unfold rho at 3. unfold fitted. fold m. destruct icept; ring.
    - intros j _. unfold A. rewrite Sigma_mul. ring. }
  set (rp := Sigma n (fun i => rho coef i * rho coef' i)) in *.
  set (pp := Sigma n (fun i => rho coef' i ^ 2)).
  set (v1 := Sigma m (fun j => Rabs (nth j coef' 0))). set (v2 := Sigma m (fun j => nth j coef' 0 ^ 2)).
  assert (Q1 : 0 <= pp - 2 * C * rp + C ^ 2 * rr).
  { unfold pp, rp, rr. rewrite <- !Sigma_mul, <- Sigma_sub, <- Sigma_add. apply Sigma_nonneg. intros i _.
    replace (rho coef' i ^ 2 - 2 * C * (rho coef i * rho coef' i) + C ^ 2 * rho coef i ^ 2) with ((rho coef' i - C * rho coef i) ^ 2) by ring.
    apply pow2_ge_0. }
  assert (Q2 : C * Sigma m (fun j => nth j coef' 0 * A j) <= a * v1).
  { unfold v1. rewrite <- !Sigma_mul. apply Sigma_le. intros j Hj. specialize (Dn j Hj).
    apply Rle_trans with (Rabs (C * (nth j coef' 0 * A j))); [apply Rle_abs|]. rewrite !Rabs_mult, (Rabs_pos_eq C) by lra.
    assert (C * Rabs (A j) <= a) by nra. pose proof (Rabs_pos (nth j coef' 0)). nra. }
  set (vw := Sigma m (fun j => nth j coef' 0 * nth j coef 0)).
  assert (Q3 : 0 <= v2 - 2 * C * vw + C ^ 2 * w2).
  { unfold v2, vw, w2. rewrite <- !Sigma_mul, <- Sigma_sub, <- Sigma_add. apply Sigma_nonneg. intros j _.
    replace (nth j coef' 0 ^ 2 - 2 * C * (nth j coef' 0 * nth j coef 0) + C ^ 2 * nth j coef 0 ^ 2) with ((nth j coef' 0 - C * nth j coef 0) ^ 2) by ring.
    apply pow2_ge_0. }
  rewrite (Sigma_ext m (fun j => nth j coef' 0 * (A j + 2 * b * nth j coef 0)) (fun j => nth j coef' 0 * A j + 2 * b * (nth j coef' 0 * nth j coef 0))) in Ey by
    (intros; ring). rewrite Sigma_add, (Sigma_mul m (fun j => nth j coef' 0 * nth j coef 0) (2 * b)) in Ey. fold vw in Ey.
  set (vA := Sigma m (fun j => nth j coef' 0 * A j)) in *.
  unfold cost. rewrite !sse_rho. fold n m. fold rr w1 w2 pp v1 v2. rewrite Ec.
  apply Rmult_le_reg_l with (INR n); [exact Np|]. rewrite Ey.
  assert (Q4 := Rmult_le_pos _ _ Hb Q3).
  replace (INR n * (/ (2 * INR n) * rr + l1 * w1 + l2 * w2)) with (/ 2 * rr + a * w1 + b * w2) by (unfold a, b; field; lra).
  match goal with |- _ <= ?rhs => replace rhs with
    (/ 2 * pp + a * v1 + b * v2 + ((1 + C ^ 2) / 2 * rr + (a * w1 - C * (rp + (vA + 2 * b * vw)) + b * (1 + C ^ 2) * w2))) by
    (unfold a, b; field; lra) end.
  nra.
Qed.

(** ** The run *)
Section Run.
Variables (o : cd_opts (T := R)) (x0 : list R).
Hypotheses (Hx0 : length x0 = ncoef X icept) (He : 0 <= o_eps o) (Hz : uses_xv sc = false -> o_eps o = 0).
Hypothesis (Hn : (0 < ncoef X icept)%nat).
Let f := cost c X y icept l1 l2.
Let stp := step arithR X y xv l1 l2 icept sc.

(** the residual the next step starts from *)
Definition pend (s : rci (T := R)) (r : list R) : Prop :=
  if uses_xv sc then is_res (c_x s) (glm_update arithR X y icept (c_action s) (c_kdiff s) (c_x s) r) else is_res (c_x s) r.
Definition kept (x : list R) : Prop := uses_xv sc = false -> icept = true -> nth m x0 0 = 0 -> nth m x 0 = 0.
Definition sound (s : rci (T := R)) : Prop :=
  length (c_x s) = ncoef X icept /\ (c_k s < ncoef X icept)%nat /\ f (c_x s) <= f x0 /\ kept (c_x s).
Definition ready (s : rci (T := R)) (r : list R) (v : R) : Prop :=
  stationary (c_x s) (c_k s) v /\ is_res (if uses_xv sc then c_x s else upd (c_x s) (c_k s) v) r.

Lemma residual_res coef : length coef = ncoef X icept -> is_res coef (residual arithR X y icept coef).
Proof. intros Hc. exact (residual_spec coef Hc). Qed.
Lemma sk_step_action a coef r k : length coef = ncoef X icept -> is_res coef r ->
  sk_step arithR X y xv l1 l2 icept a coef r k = sk_step arithR X y xv l1 l2 icept 0 coef r k.
Proof.
  intros Hc Rs. unfold sk_step. destruct (0 <? a)%Z eqn:E; [|reflexivity]. change (0 <? 0)%Z with false. cbv iota.
  rewrite <- (is_res_eq coef r Hc Rs). reflexivity.
Qed.
Lemma call_ready s r : sound s -> pend s r ->
  ready s (snd (call_step arithR X y xv l1 l2 icept sc s r)) (fst (call_step arithR X y xv l1 l2 icept sc s r)).
Proof.
  intros [Hl [Hk _]] P. unfold pend in P. unfold ready, call_step, step, glmnet. destruct (uses_xv sc) eqn:U.
  - unfold glm_step. cbn [fst snd]. split; [|exact P]. apply glm_stationary; auto.
  - rewrite sk_step_action by auto. destruct (sk_step_spec (c_x s) r (c_k s) U Hl Hk P) as [A B]. split; assumption.
Qed.

Lemma next_coord_lt fuel : forall nn kold smin sm k sk e, (k < nn)%nat -> (fst (fst (next_coord fuel nn kold smin sm k sk e)) < nn)%nat.
Proof.
  induction fuel as [|fu IH]; intros nn kold smin sm k sk e H; cbn [next_coord]; [exact H|].
  destruct (_ && _ && _); [|exact H]. destruct (Nat.leb_spec nn (S k)); apply IH; lia.
Qed.
Lemma eval_spec s v s' : (c_k s < length (c_x s))%nat -> rci_eval arithR o s v = Some s' ->
  exists v', c_x s' = upd (c_x s) (c_k s) v' /\ (v' = v \/ v' = nth (c_k s) (c_x s) 0 /\ Rabs (v - nth (c_k s) (c_x s) 0) <= o_eps o) /\
    (c_k s' < length (c_x s))%nat /\ (c_task s' <> TStop /\ (c_iter s <= c_iter s')%Z /\ (c_task s' <> TEval -> (c_iter s < c_iter s')%Z)) /\
    (c_action s' = 1%Z \/ c_action s' = 0%Z /\ v' = nth (c_k s) (c_x s) 0 \/
     c_action s' = (- (Z.of_nat (c_k s) + 1))%Z /\ c_kdiff s' = v - nth (c_k s) (c_x s) 0 /\ v' = v /\ c_kdiff s' <> 0).
Proof.
  intros Hk. unfold rci_eval. change (at_ arithR (c_x s) (c_k s)) with (nth (c_k s) (c_x s) 0). change (zero arithR) with 0.
  change (sub arithR v (nth (c_k s) (c_x s) 0)) with (v - nth (c_k s) (c_x s) 0).
  set (d := v - nth (c_k s) (c_x s) 0). set (sm := le arithR (abs arithR d) (o_eps o)).
  match goal with |- context [next_coord ?fu ?nn ?ko ?mi ?ma ?k1 ?sk ?e] =>
    pose proof (next_coord_lt fu nn ko mi ma k1 sk e) as NL; destruct (next_coord fu nn ko mi ma k1 sk e) as [[k' sk'] ended] eqn:EN end.
  cbn [fst] in NL. assert (K' : (k' < nvar s)%nat) by (apply NL; unfold nvar; destruct (Nat.ltb_spec (S (c_k s)) (length (c_x s))); lia).
  destruct (o_restart o =? 0)%Z; [discriminate|]. intros E. injection E as E. subst s'. cbn [c_x c_k c_task c_action c_kdiff c_iter].
  exists (if sm then nth (c_k s) (c_x s) 0 else v). split; [reflexivity|].
  assert (Sm : sm = true -> Rabs d <= o_eps o).
  { unfold sm. cbn. unfold Rleb. destruct (Rle_dec (Rabs d) (o_eps o)); [auto|discriminate]. }
  assert (Sf : sm = false -> d <> 0).
  { unfold sm. cbn. unfold Rleb. destruct (Rle_dec (Rabs d) (o_eps o)); [discriminate|]. intros _ Z. rewrite Z, Rabs_R0 in n0. lra. }
  split; [destruct sm; [right; split; auto|left; reflexivity]|]. split; [exact K'|].
  split; [split; [destruct ended; [destruct (_ || _ || _)|]; discriminate|]; split; [destruct ended; lia|]; destruct ended; [intros _; lia|intros Q; contradiction Q; reflexivity]|].
  destruct (_ =? 0)%Z; [left; reflexivity|]. right. destruct sm.
  - left. split; [|reflexivity]. destruct (eqz arithR 0) eqn:Z; [reflexivity|]. assert (eqz arithR 0 = true) by (apply eqz_R; reflexivity). congruence.
  - right. specialize (Sf eq_refl). split; [|repeat split; auto]. change (abs arithR d) with (Rabs d). destruct (eqz arithR (Rabs d)) eqn:Z; [|reflexivity].
    apply eqz_R in Z. apply Rabs_no_R0 in Sf. contradiction.
Qed.

Lemma eval_inv s r v s' : sound s -> ready s r v -> rci_eval arithR o s v = Some s' -> sound s' /\ pend s' r /\
  c_task s' <> TStop /\ (c_iter s <= c_iter s')%Z /\ (c_task s' <> TEval -> (c_iter s < c_iter s')%Z).
Proof.
  intros [Hl [Hk [Hf Kp]]] [St Rs] E. destruct (eval_spec s v s' ltac:(lia) E) as [v' [Ex [Hv [Hk' [Ht Ha]]]]].
  assert (Fd : f (c_x s') <= f x0).
  { rewrite Ex. destruct Hv as [->|[-> _]].
    - apply Rle_trans with (f (c_x s)); [|exact Hf]. rewrite <- (upd_same (c_x s) (c_k s)) at 2 by lia.
      apply stationary_min; auto.
    - rewrite upd_same by lia. exact Hf. }
  assert (Kd : kept (c_x s')).
  { rewrite Ex. unfold kept. intros U I Z. rewrite upd_nth by lia. destruct (Nat.eqb_spec m (c_k s)) as [Em|]; [|apply Kp; auto].
    destruct Hv as [->|[-> _]]; [|rewrite <- Em; apply Kp; auto].
    unfold stationary, feature in St. rewrite <- Em in St. rewrite Nat.ltb_irrefl in St.
    assert (Ce : centred X y) by (specialize (Ic I); clear - Ic U; destruct sc; try discriminate; exact Ic).
    rewrite centred_sum in St by (try rewrite upd_len; auto). rewrite upd_nth in St by lia. rewrite Nat.eqb_refl in St.
    pose proof n_R. nra. }
  split; [|split; [|exact Ht]].
  - unfold sound. rewrite Ex at 1. rewrite upd_len. split; [exact Hl|]. split; [lia|]. split; [exact Fd|exact Kd].
  - unfold pend. destruct (uses_xv sc) eqn:U.
    + destruct Ha as [A|[[A V]|[A [B [V D]]]]]; rewrite A.
      * unfold glm_update. change (0 <? 1)%Z with true. cbv iota. apply residual_res. rewrite Ex, upd_len. exact Hl.
      * unfold glm_update. change (0 <? 0)%Z with false. cbn [andb]. rewrite Ex, V, upd_same by lia. exact Rs.
      * rewrite B in D |- *. rewrite Ex, V. apply glm_update_one; auto.
    + rewrite Ex. destruct Hv as [->|[-> Small]]; [exact Rs|]. rewrite Hz in Small by reflexivity.
      assert (Ev : v = nth (c_k s) (c_x s) 0).
      { pose proof (Rabs_pos (v - nth (c_k s) (c_x s) 0)). destruct (Req_dec (v - nth (c_k s) (c_x s) 0) 0); [lra|].
        apply Rabs_no_R0 in H0. lra. }
      rewrite <- Ev. exact Rs.
Qed.

(** the invariant of the loop *)
Definition gap_now (d : drv (T := R)) : Prop :=
  d_gap d = dual_gap arithR X y l1 l2 (c_x (d_s d)) (d_r d).
Definition inv (d : drv (T := R)) : Prop :=
  sound (d_s d) /\ (d_at d <= c_iter (d_s d))%Z /\
  match c_task (d_s d) with
  | TEval => ready (d_s d) (d_r d) (d_new d)
  | TNewx => pend (d_s d) (d_r d)
  | TOptim => pend (d_s d) (d_r d) /\ gap_now d /\ d_at d = c_iter (d_s d)
  | TStop => False
  end.
(** what is known of a result *)
Definition fine (q : result (T := R)) : Prop :=
  length (r_x q) = ncoef X icept /\ f (r_x q) <= f x0 /\ kept (r_x q) /\
  (uses_xv sc = false -> is_res (r_x q) (r_r q)) /\
  (r_gap q = dual_gap arithR X y l1 l2 (r_x q) (r_r q) /\ (r_exit q = Converged -> r_gap q <= o_optim o)) /\
  (r_exit q <> SlowProgress -> r_f q = Some (objective arithR X y l1 l2 sc (r_x q) (r_r q))).
Definition fine_out (q : outcome (T := R)) : Prop := match q with Finished q => fine q | _ => True end.
Let fin := finish arithR X y l1 l2 sc.

Definition current (d : drv (T := R)) : Prop := (d_at d < c_iter (d_s d))%Z \/ gap_now d /\ d_at d = c_iter (d_s d).
Lemma finish_fine e d : sound (d_s d) -> pend (d_s d) (d_r d) -> current d ->
  (e = Converged -> d_at d = c_iter (d_s d) /\ d_gap d <= o_optim o) -> fine_out (fin e d).
Proof.
  intros [Hl [Hk [Hf Kp]]] P Cu G. unfold fin, finish, fine_out, fine. cbn [r_x r_r r_exit r_gap r_f].
  assert (Em : d_r (if (d_at d <? c_iter (d_s d))%Z then measure arithR X y l1 l2 d (d_s d) else d) = d_r d) by (destruct (_ <? _)%Z; reflexivity).
  rewrite Em. split; [exact Hl|]. split; [exact Hf|]. split; [exact Kp|]. split; [|split; [split|]].
  - intros U. unfold pend in P. rewrite U in P. exact P.
  - destruct Cu as [L|[G1 G2]].
    + apply Z.ltb_lt in L. rewrite L. reflexivity.
    + rewrite G2, Z.ltb_irrefl. exact G1.
  - intros Ee. destruct (G Ee) as [G2 G3]. rewrite G2, Z.ltb_irrefl. exact G3.
  - intros Ne. destruct e; try reflexivity. contradiction.
Qed.
Lemma after_newx_inv d : sound (d_s d) -> pend (d_s d) (d_r d) -> current d -> c_task (d_s d) = TNewx ->
  match after_newx arithR X y l1 l2 sc o d with inl q => fine_out q | inr d' => inv d' end.
Proof.
  intros S P Cu T. unfold after_newx. destruct (_ <=? _)%Z; [apply finish_fine; auto; discriminate|].
  assert (A : (d_at d <= c_iter (d_s d))%Z) by (destruct Cu as [?|[_ ?]]; lia).
  assert (I : forall z, inv (Drv (d_s d) (d_r d) (d_new d) (d_gap d) (d_old d) (d_checks d) (d_at d) z)).
  { intros z. unfold inv. cbn [d_s d_r d_at]. rewrite T. auto. }
  destruct (_ =? _)%Z.
  - destruct (10 <=? _)%Z; [apply finish_fine; auto; discriminate|apply I].
  - unfold inv. rewrite T. auto.
Qed.
Lemma turn_inv d : inv d -> match turn arithR X y xv l1 l2 icept sc o d with inl q => fine_out q | inr d' => inv d' end.
Proof.
  intros [S [A I]]. unfold turn. destruct (c_task (d_s d)) eqn:T; try contradiction.
  - (* NEWX *) assert (S' : sound (rci_newx arithR (d_s d))) by exact S. unfold inv. cbn [d_s d_r d_new d_at rci_newx c_task].
    split; [exact S'|]. split; [exact A|]. apply call_ready; [exact S'|exact I].
  - (* EVAL *) destruct (rci_eval arithR o (d_s d) (d_new d)) as [s'|] eqn:E; [|exact Logic.I].
    destruct (eval_inv _ _ _ _ S I E) as [S' [P' [T' [It It']]]]. destruct (c_task s') eqn:T2; try contradiction.
    + apply after_newx_inv; auto. left. cbn [d_at d_s]. specialize (It' ltac:(discriminate)). lia.
    + unfold inv. cbn [d_s d_r d_new d_at]. rewrite T2. split; [exact S'|]. split; [lia|]. apply call_ready; assumption.
    + unfold inv, measure. cbn [d_s d_r d_at]. rewrite T2. split; [exact S'|]. split; [lia|]. split; [exact P'|]. split; reflexivity.
  - (* OPTIM *) destruct I as [P [G Ga]]. assert (S' : sound (rci_optim arithR o (d_s d) (d_gap d))) by exact S.
    unfold rci_optim in *. cbn [c_task]. destruct (le arithR (d_gap d) (o_optim o)) eqn:L.
    + apply finish_fine; cbn [d_s d_r]; [exact S'|exact P|right; split; [exact G|exact Ga]|]. intros _. split; [exact Ga|]. cbn [d_gap]. cbn in L. unfold Rleb in L.
      destruct (Rle_dec (d_gap d) (o_optim o)); [assumption|discriminate].
    + apply after_newx_inv; cbn [d_s d_r]; [exact S'|exact P|right; split; [exact G|exact Ga]|reflexivity].
Qed.
Lemma first_inv : inv (cd_first arithR X y xv l1 l2 icept sc o x0).
Proof.
  unfold inv, cd_first. cbn [d_s d_r d_new rci_start c_task].
  assert (S : sound (rci_start arithR o x0)) by (unfold sound; cbn; split; [exact Hx0|]; split; [exact Hn|]; split; [apply Rle_refl|]; intros _ _ Z; exact Z).
  split; [exact S|]. split; [cbn; lia|]. assert (U : uses_xv sc = true \/ uses_xv sc = false) by (clear; destruct (uses_xv sc); auto). destruct U as [U|U].
  - apply call_ready; [exact S|]. unfold pend. rewrite U. unfold glm_update. cbn [c_action rci_start c_x]. apply residual_res. exact Hx0.
  - set (z := map (fun _ => zero arithR) y).
    assert (E : call_step arithR X y xv l1 l2 icept sc (rci_start arithR o x0) z =
                call_step arithR X y xv l1 l2 icept sc (rci_start arithR o x0) (residual arithR X y icept x0)).
    { unfold call_step, step, glmnet. rewrite U. unfold sk_step. reflexivity. }
    rewrite E. apply call_ready; [exact S|]. unfold pend. rewrite U. apply residual_res. exact Hx0.
Qed.
Lemma turns_fine fuel : forall d, inv d -> fine_out (turns arithR X y xv l1 l2 icept sc o fuel d).
Proof.
  induction fuel as [|fu IH]; intros d I; cbn [turns]; [exact Logic.I|]. pose proof (turn_inv d I) as H. destruct (turn _ _ _ _ _ _ _ _ _ d); auto.
Qed.
Lemma run_fine fuel q : coordinate_descent arithR X y xv l1 l2 icept sc o fuel x0 = Finished q -> fine q.
Proof. intros E. pose proof (turns_fine fuel _ first_inv) as H. unfold coordinate_descent in E. rewrite E in H. exact H. Qed.
End Run.

(** the objective with the residual up to date is the cost *)
Lemma objective_cost coef r : sc <> ScaleOnly -> length coef = ncoef X icept -> is_res coef r ->
  objective arithR X y l1 l2 sc coef r = cost c X y icept l1 l2 coef.
Proof.
  intros Ns Hc [Lr Er]. pose proof n_R as Np.
  assert (Ec : c = / (2 * INR n)) by (unfold c, factor; fold n; destruct sc; congruence).
  assert (Er2 : cd_dot arithR r r = Sigma n (fun i => rho coef i ^ 2)).
  { rewrite (cd_dot_R r r n) by auto. apply Sigma_ext. intros i Hi. rewrite Er by exact Hi. ring. }
  assert (Rf : regfun arithR X l1 l2 coef = l1 * Sigma m (fun j => Rabs (nth j coef 0)) + l2 * Sigma m (fun j => nth j coef 0 ^ 2)).
  { assert (Lw : length (firstn m coef) = m) by (rewrite firstn_length; unfold ncoef in Hc; fold m in Hc; destruct icept; lia).
    unfold regfun. change (nmod X) with m. rewrite fold_abs, (cd_dot_R (firstn m coef) (firstn m coef) m) by auto. rewrite Lw.
    rewrite (Sigma_ext m (fun i => nth i (firstn m coef) 0 * nth i (firstn m coef) 0) (fun j => nth j coef 0 ^ 2)) by
      (intros i Hi; rewrite nth_firstn_R by exact Hi; ring).
    rewrite (Sigma_ext m (fun j => Rabs (nth j (firstn m coef) 0)) (fun j => Rabs (nth j coef 0))) by
      (intros i Hi; rewrite nth_firstn_R by exact Hi; ring).
    cbn. unfold zero. cbn. unfold Rltb. destruct (Rlt_dec 0 l1), (Rlt_dec 0 l2); try ring;
      repeat match goal with H : ~ 0 < ?l |- _ => replace l with 0 by lra; clear H end; ring. }
  unfold objective, glm_objective, sk_objective. rewrite ns_R, Er2, Rf. unfold cost. rewrite sse_rho, Ec. fold m n.
  destruct (glmnet sc); cbn; field; lra.
Qed.

(** ** The theorems *)
Lemma step_minimises a kd coef r k : length coef = ncoef X icept -> (k < ncoef X icept)%nat -> (0 < a)%Z -> forall t,
  cost c X y icept l1 l2 (replaced coef k (fst (step arithR X y xv l1 l2 icept sc a kd coef r k))) <= cost c X y icept l1 l2 (replaced coef k t).
Proof.
  intros Hc Hk Ha t. rewrite <- !upd_replaced by lia. apply stationary_min; auto. unfold step, glmnet. apply Z.ltb_lt in Ha.
  assert (U : uses_xv sc = true \/ uses_xv sc = false) by (clear; destruct (uses_xv sc); auto). destruct U as [U|U]; rewrite U.
  - unfold glm_step, glm_update. rewrite Ha. cbn [fst]. apply glm_stationary; auto. apply residual_res. exact Hc.
  - assert (E : sk_step arithR X y xv l1 l2 icept a coef r k = sk_step arithR X y xv l1 l2 icept 0 coef (residual arithR X y icept coef) k).
    { unfold sk_step. rewrite Ha. reflexivity. }
    rewrite E. apply sk_step_spec; auto. apply residual_res. exact Hc.
Qed.
Lemma fixed_point_min coef kd r : length coef = ncoef X icept ->
  (forall k, (k < ncoef X icept)%nat -> fst (step arithR X y xv l1 l2 icept sc 1 kd coef r k) = nth k coef 0) ->
  forall coef', length coef' = ncoef X icept -> cost c X y icept l1 l2 coef <= cost c X y icept l1 l2 coef'.
Proof.
  intros Hc Fp. apply kkt_min; auto. intros k Hk. rewrite <- (Fp k Hk). unfold step, glmnet.
  assert (U : uses_xv sc = true \/ uses_xv sc = false) by (clear; destruct (uses_xv sc); auto). destruct U as [U|U]; rewrite U.
  - apply glm_stationary; auto. apply residual_res. exact Hc.
  - assert (E : sk_step arithR X y xv l1 l2 icept 1 coef r k = sk_step arithR X y xv l1 l2 icept 0 coef (residual arithR X y icept coef) k) by reflexivity.
    rewrite E. apply sk_step_spec; auto. apply residual_res. exact Hc.
Qed.
Lemma plain_factor : uses_xv sc = false -> c = / (2 * INR n).
Proof. intros U. unfold c, factor. fold n. destruct sc; try discriminate; reflexivity. Qed.
Lemma converged_near o x0 fuel q : length x0 = ncoef X icept -> (0 < ncoef X icept)%nat -> uses_xv sc = false -> o_eps o = 0 ->
  (icept = true -> nth m x0 0 = 0) ->
  coordinate_descent arithR X y xv l1 l2 icept sc o fuel x0 = Finished q ->
  (forall coef', length coef' = ncoef X icept -> cost c X y icept l1 l2 (r_x q) <= cost c X y icept l1 l2 coef' + dual_gap arithR X y l1 l2 (r_x q) (r_r q)) /\
  r_gap q = dual_gap arithR X y l1 l2 (r_x q) (r_r q) /\ (r_exit q = Converged -> r_gap q <= o_optim o) /\
  (r_exit q <> SlowProgress -> r_f q = Some (cost c X y icept l1 l2 (r_x q))).
Proof.
  intros Hl Hn U Ez Z0 E. destruct (run_fine o x0 Hl ltac:(lra) (fun _ => Ez) Hn fuel q E) as [Lq [_ [Kp [Rs [[Cg Cv] Ob]]]]].
  specialize (Rs U). split; [|split; [|split]].
  - apply gap_bound; auto using plain_factor. intros I.
    assert (Ce : centred X y) by (specialize (Ic I); clear - Ic U; destruct sc; try discriminate; exact Ic).
    rewrite centred_sum by auto. rewrite (Kp U I (Z0 I)). ring.
  - exact Cg.
  - exact Cv.
  - intros Ns. rewrite (Ob Ns). f_equal. apply objective_cost; auto. intros Q. rewrite Q in U. discriminate.
Qed.
End Problem.

Lemma unpenalised_gap X y icept : shaped X y -> forall coef, length coef = ncoef X icept ->
  (exists j, (j < length X)%nat /\ Sigma (length y) (fun i => elem X j i * (nth i y 0 - fitted X icept coef i)) <> 0) ->
  dual_gap arithR X y 0 0 coef (residual arithR X y icept coef) = cost (/ (2 * INR (length y))) X y icept 0 0 coef.
Proof.
  intros Sh coef Hc [j [Hj Nz]]. destruct (residual_spec X y icept Sh coef Hc) as [Lr Er]. set (r := residual arithR X y icept coef) in *.
  assert (Np : 0 < INR (length y)) by (apply lt_0_INR; destruct Sh as [H _]; destruct y; cbn; [congruence|lia]).
  assert (Lw : length (firstn (length X) coef) = length X) by (rewrite firstn_length; unfold ncoef in Hc; destruct icept; lia).
  unfold dual_gap. rewrite ns_R. change (nmod X) with (length X). set (XtA := map _ (combine (firstn (length X) coef) X)).
  assert (In0 : exists v, In v XtA /\ v <> 0).
  { exists (nth j XtA 0). split; [apply nth_In; unfold XtA; rewrite map_length, combine_length, Lw; lia|]. unfold XtA.
    rewrite (map_combine_nth2 _ 0 []) by lia. cbn [fst snd]. intros Z. apply Nz. refine (eq_trans _ Z). cbn.
    rewrite (cd_dot_R (nth j X []) r (length y)) by (auto; destruct Sh as [_ F]; rewrite Forall_forall in F; apply F, nth_In, Hj).
    rewrite !Rmult_0_l, Rmult_0_r, Rmult_0_l, Rminus_0_r. apply Sigma_ext. intros i Hi. rewrite Er by exact Hi. reflexivity. }
  destruct In0 as [v [Iv Vz]]. set (dn := fold_left _ XtA _).
  assert (Dn : 0 < dn). { destruct (fold_max XtA (zero arithR)) as [_ D]. specialize (D v Iv). apply Rabs_pos_lt in Vz. fold dn in D. lra. }
  rewrite (cd_dot_R r r (length y)) by auto. change (mul arithR 0 (INR (length y))) with (0 * INR (length y)).
  unfold gap_factor. replace (lt arithR (0 * INR (length y)) dn) with true by (symmetry; apply Rltb_true; lra).
  set (rr := Sigma (length y) (fun i => nth i r 0 * nth i r 0)). cbn [add sub mul div of_Z arithR]. unfold cost.
  assert (Es : sse X y icept coef = rr).
  { unfold rr, sse. apply Sigma_ext. intros i Hi. rewrite Er by exact Hi. unfold rho. ring. }
  rewrite Es. set (n1 := fold_left _ (firstn (length X) coef) _). field. lra.
Qed.
