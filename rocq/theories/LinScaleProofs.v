From Coq Require Import ZArith List Reals Lra Lia Bool.
From Verif Require Import NnModel RealArith CdModel CdSpec CdProofs LogProofs LinModel LinSpec LinProofs.
Import ListNotations.
Local Open Scope R_scope.

(** ** the factors for coordinate descent *)
Section Norms.
Context (sc : scaling) (icept : bool) (X : list (list R)) (y : list R).
Context (Sh : shaped X y) (Sc : scalable sc icept X y).
Let n := length y.
Let p := length X.
Let P := prep arithR Coord sc icept X y.
Lemma data : data_ok Coord sc icept X y. Proof. apply prep_ok; auto. Qed.
Lemma root_sq : root sc y ^ 2 = match sc with ScaleOnly => INR n | _ => 1 end.
Proof.
  pose proof (n_pos1 X y Sh) as Hn. unfold root. destruct sc; try ring. rewrite pow2_sqrt; [reflexivity|]. apply Rlt_le. exact Hn.
Qed.
Lemma root_ne : root sc y <> 0.
Proof. pose proof (root_pos X y Sh) as Hn. unfold root. destruct sc; lra. Qed.
Lemma sum_sq j : (j < p)%nat -> Sigma n (fun i => elem (p_X P) j i ^ 2) =
  Sigma n (fun i => (elem X j i - m_x sc icept X y j) ^ 2) / (s_x sc X y j ^ 2 * root sc y ^ 2).
Proof.
  intros Hj. unfold Rdiv. rewrite <- Sigma_mulr. apply Sigma_ext. intros i Hi.
  destruct data as (_ & _ & _ & _ & D). unfold P. rewrite D by auto.
  pose proof root_ne. destruct Sc as [_ Hx]. specialize (Hx j Hj). field. auto.
Qed.
Lemma sd_sq f : sdR n f ^ 2 = Sigma n (fun i => (f i - meanR n f) ^ 2) / INR n.
Proof.
  unfold sdR. rewrite pow2_sqrt; [reflexivity|].
  apply Rmult_le_pos; [apply (sqr_nonneg y)|]. apply Rlt_le, Rinv_0_lt_compat. apply (n_pos1 X y Sh).
Qed.
Lemma prep_norms : norms sc (p_X P) (p_y P) (p_xv P).
Proof.
  pose proof (n_pos1 X y Sh) as Hn. fold n in Hn. pose proof root_sq as Hr.
  assert (Hd := data). destruct Hd as (Ly & Lx & Fx & _ & _).
  unfold norms. fold P in Ly, Lx. rewrite Ly, Lx. fold n p.
  split.
  { unfold P, prep. destruct sc, icept; try apply map_length.
    - rewrite std_shift_y. unfold std_shift. rewrite all_zero_zeros. cbn [p_xv]. rewrite map_length.
      apply apply_cols_len; [apply map_length|apply repeat_length].
    - unfold std_both. cbn [p_xv]. apply repeat_length. }
  intros j Hj.
  assert (Hx : s_x sc X y j <> 0) by (destruct Sc as [_ H]; apply H; auto).
  assert (Plain : p_xv P = map (fun c => cd_dot arithR c c) (p_X P) -> nth j (p_xv P) 0 = Sigma n (fun i => elem (p_X P) j i ^ 2)).
  { intros ->. rewrite (nth_map_any _ _ []) by (rewrite Lx; auto).
    assert (Lj : length (nth j (p_X P) []) = n).
    { rewrite Forall_nth in Fx. apply Fx. fold P. rewrite Lx. auto. }
    rewrite (cd_dot_R _ _ n) by auto. apply Sigma_ext. intros. unfold elem. ring. }
  pose proof (sum_sq j Hj) as Sq. rewrite Hr in Sq. unfold p in Hj.
  destruct sc eqn:Es; cbn [s_x m_x] in *.
  - apply Plain. reflexivity.
  - apply Plain. unfold P, prep. destruct icept; [|reflexivity]. rewrite std_shift_y. reflexivity.
  - rewrite Sq. unfold P, prep. destruct icept; cbn [p_xv].
    + unfold std_given. cbn [p_xv]. rewrite (nth_map_any _ _ []) by auto.
      rewrite (col_var_R _ y); [|apply (col_len0 X y Sh); auto|apply (n_pos0 X y Sh)]. fold n.
      transitivity (Sigma n (fun i => (elem X j i - meanR n (elem X j)) ^ 2) / INR n); [reflexivity|]. field. lra.
    + rewrite (nth_map_any _ _ []) by auto. unfold square_mean. rewrite (cd_dot_R _ _ n) by (apply (col_len0 X y Sh); auto).
      rewrite samples_R. fold n. cbn [div arithR].
      rewrite (Sigma_ext n (fun i => (elem X j i - 0) ^ 2) (fun i => nth i (nth j X []) 0 * nth i (nth j X []) 0)) by (intros; unfold elem; ring).
      field. lra.
  - rewrite Sq. fold n in Hx |- *. rewrite sd_sq in Sq |- *. unfold P, prep. destruct icept.
    + rewrite (std_both_y X y Sh). unfold std_both. cbn [p_xv]. rewrite nth_ones by auto.
      assert (sdR n (elem X j) ^ 2 <> 0) as H2 by (apply pow_nonzero; auto). rewrite sd_sq in H2.
      set (v := Sigma n (fun i => (elem X j i - meanR n (elem X j)) ^ 2)) in *.
      assert (v <> 0) by (intros E; apply H2; rewrite E; field; lra).
      transitivity (v / (v / INR n * 1) / INR n); [field; lra|reflexivity].
    + destruct (std_scale arithR (samples y) X _) as [X' scl]. destruct (std_scale arithR (samples y) [y] _) as [y' ysc]. cbn [p_xv].
      rewrite (nth_map_any _ _ []) by auto. unfold square_mean, mean_square.
      rewrite (col_mean_R _ _ y); [|apply (col_len0 X y Sh); auto|reflexivity].
      rewrite (cd_dot_R _ _ n) by (apply (col_len0 X y Sh); auto). rewrite samples_R. fold n. cbn [div sub mul arithR].
      change (meanR n (fun i => nth i (nth j X []) 0)) with (meanR n (elem X j)).
      rewrite (Sigma_ext n (fun i => (elem X j i - 0) ^ 2) (fun i => elem X j i ^ 2)) by (intros; ring).
      rewrite (Sigma_ext n (fun i => nth i (nth j X []) 0 * nth i (nth j X []) 0) (fun i => elem X j i ^ 2)) by (intros; unfold elem; ring).
      assert (H2 : sdR n (elem X j) ^ 2 <> 0) by (apply pow_nonzero; auto). rewrite sd_sq in H2.
      pose proof (sd_alt n (elem X j) (n_pos0 X y Sh)) as A. rewrite A in H2 |- *.
      replace (meanR n (elem X j) * meanR n (elem X j)) with (meanR n (elem X j) ^ 2) by ring.
      set (q := Sigma n (fun i => elem X j i ^ 2)) in *. set (d := q / INR n - meanR n (elem X j) ^ 2) in *.
      field. split; auto. lra.
Qed.
End Norms.

(** the scaled data have mean 0 if there is an intercept *)
Lemma prep_centred m sc X y : sc <> ScNone -> shaped X y -> scalable sc true X y ->
  centred (p_X (prep arithR m sc true X y)) (p_y (prep arithR m sc true X y)).
Proof.
  intros Hsc Sh Sc. destruct (prep_ok m sc true X y Sh Sc) as [_ (Ly & Lx & _ & Dy & Dx)].
  pose proof (n_pos1 X y Sh) as Hn. unfold centred. rewrite Ly, Lx.
  assert (Z : forall f s, Sigma (length y) (fun i => (f i - meanR (length y) f) * s) = 0).
  { intros f s. rewrite Sigma_mulr, Sigma_sub, Sigma_const. unfold meanR. field. lra. }
  split.
  - rewrite (Sigma_ext _ _ _ Dy). unfold Rdiv. unfold m_y. destruct sc; [contradiction| | |]; apply (Z (fun i => nth i y 0)).
  - intros j Hj. rewrite (Sigma_ext (length y) (fun i => elem _ j i) _ (fun i => Dx j i Hj)). unfold Rdiv, m_x. destruct sc; [contradiction| | |]; apply (Z (fun i => elem X j i)).
Qed.

(** ** revert_scaling and scale_warmstart *)
Section Revert.
Context (scales shifts : list R) (p : nat).
Let ys := nth p scales 0.
Lemma revert_loop_spec coef : (p <= length coef)%nat ->
  let r := revert_loop arithR scales shifts coef p in
  length (fst r) = length coef /\
  (forall j, nth j (fst r) 0 = if (j <? p)%nat then ys / nth j scales 0 * nth j coef 0 else nth j coef 0) /\
  snd r = Sigma p (fun j => nth j shifts 0 * (ys / nth j scales 0 * nth j coef 0)).
Proof.
  intros Hl. unfold revert_loop.
  assert (G : forall q, (q <= p)%nat ->
    let r := fold_left (fun (st : list R * R) (k : nat) => let '(c, cum0) := st in
               let v := mul arithR (div arithR (at_ arithR scales p) (at_ arithR scales k)) (at_ arithR c k) in
               (upd c k v, add arithR cum0 (mul arithR (at_ arithR shifts k) v))) (seq 0 q) (coef, zero arithR) in
    length (fst r) = length coef /\
    (forall j, nth j (fst r) 0 = if (j <? q)%nat then ys / nth j scales 0 * nth j coef 0 else nth j coef 0) /\
    snd r = Sigma q (fun j => nth j shifts 0 * (ys / nth j scales 0 * nth j coef 0))).
  { induction q as [|q IH]; intros Hq.
    - cbn. repeat split; reflexivity.
    - rewrite seq_S, fold_left_app. cbn [fold_left Nat.add]. specialize (IH ltac:(lia)). cbn zeta in IH |- *.
      destruct (fold_left _ (seq 0 q) _) as [c cum0]. cbn [fst snd] in IH |- *. destruct IH as (L & Nn & E).
      rewrite upd_len. split; [exact L|]. split.
      + intros j. rewrite (upd_nth 0) by lia. destruct (Nat.eqb_spec j q) as [->|Hj].
        * replace (q <? S q)%nat with true by (symmetry; apply Nat.ltb_lt; lia). unfold at_. cbn [mul div arithR].
          change (zero arithR) with 0. rewrite Nn. replace (q <? q)%nat with false by (symmetry; apply Nat.ltb_ge; lia). reflexivity.
        * rewrite Nn. destruct (Nat.ltb_spec j q), (Nat.ltb_spec j (S q)); try lia; reflexivity.
      + rewrite Sigma_last, <- E. unfold at_. cbn [mul div add arithR]. change (zero arithR) with 0. rewrite Nn.
        replace (q <? q)%nat with false by (symmetry; apply Nat.ltb_ge; lia). reflexivity. }
  apply (G p). lia.
Qed.
Lemma revert_spec sc (icept : bool) (coef : list R) : sc <> ScNone -> length coef = (p + if icept then 1 else 0)%nat ->
  let r := revert arithR sc icept scales shifts p coef in
  length r = length coef /\
  (forall j, (j < p)%nat -> nth j r 0 = ys / nth j scales 0 * nth j coef 0) /\
  (icept = true -> nth p r 0 = nth p shifts 0 + ys * nth p coef 0 - Sigma p (fun j => nth j shifts 0 * nth j r 0)).
Proof.
  intros Hsc Hl. cbn zeta.
  assert (E : revert arithR sc icept scales shifts p coef =
    let '(c, cum0) := revert_loop arithR scales shifts coef p in
    if icept then upd c p (sub arithR (add arithR (at_ arithR shifts p) (mul arithR (at_ arithR scales p) (at_ arithR c p))) cum0) else c)
    by (unfold revert; destruct sc; [contradiction| | |]; reflexivity).
  rewrite E. destruct (revert_loop_spec coef ltac:(destruct icept; lia)) as (L & Nn & C).
  destruct (revert_loop arithR scales shifts coef p) as [c cum0]. cbn [fst snd] in *.
  assert (Nj : forall j, (j < p)%nat -> nth j c 0 = ys / nth j scales 0 * nth j coef 0).
  { intros j Hj. rewrite Nn. replace (j <? p)%nat with true by (symmetry; apply Nat.ltb_lt; auto). reflexivity. }
  destruct icept.
  - rewrite upd_len. split; [exact L|].
    assert (Nu : forall j, (j < p)%nat -> forall v, nth j (upd c p v) 0 = nth j c 0).
    { intros j Hj v. rewrite (upd_nth 0) by lia. destruct (Nat.eqb_spec j p); [lia|reflexivity]. }
    split; [intros j Hj; rewrite Nu; auto|]. intros _.
    rewrite (upd_nth 0) by lia. rewrite Nat.eqb_refl. unfold at_. cbn [sub add mul arithR]. change (zero arithR) with 0.
    rewrite Nn, Nat.ltb_irrefl, C. fold ys. f_equal. apply Sigma_ext. intros j Hj. rewrite Nu, Nj by auto. reflexivity.
  - split; [exact L|]. split; [exact Nj|discriminate].
Qed.

Lemma warm_loop_spec coef : (p <= length coef)%nat ->
  let r := warm_loop arithR scales shifts coef p in
  length (fst r) = length coef /\
  (forall j, nth j (fst r) 0 = if (j <? p)%nat then nth j scales 0 * nth j coef 0 / ys else nth j coef 0) /\
  snd r = Sigma p (fun j => nth j shifts 0 * nth j coef 0).
Proof.
  intros Hl. unfold warm_loop.
  assert (G : forall q, (q <= p)%nat ->
    let r := fold_left (fun (st : list R * R) (k : nat) => let '(c, cum0) := st in
               (upd c k (div arithR (mul arithR (at_ arithR scales k) (at_ arithR c k)) (at_ arithR scales p)),
                add arithR cum0 (mul arithR (at_ arithR shifts k) (at_ arithR c k)))) (seq 0 q) (coef, zero arithR) in
    length (fst r) = length coef /\
    (forall j, nth j (fst r) 0 = if (j <? q)%nat then nth j scales 0 * nth j coef 0 / ys else nth j coef 0) /\
    snd r = Sigma q (fun j => nth j shifts 0 * nth j coef 0)).
  { induction q as [|q IH]; intros Hq.
    - cbn. repeat split; reflexivity.
    - rewrite seq_S, fold_left_app. cbn [fold_left Nat.add]. specialize (IH ltac:(lia)). cbn zeta in IH |- *.
      destruct (fold_left _ (seq 0 q) _) as [c cum0]. cbn [fst snd] in IH |- *. destruct IH as (L & Nn & E).
      rewrite upd_len. split; [exact L|]. split.
      + intros j. rewrite (upd_nth 0) by lia. destruct (Nat.eqb_spec j q) as [->|Hj].
        * replace (q <? S q)%nat with true by (symmetry; apply Nat.ltb_lt; lia). unfold at_. cbn [mul div arithR].
          change (zero arithR) with 0. rewrite Nn. replace (q <? q)%nat with false by (symmetry; apply Nat.ltb_ge; lia). reflexivity.
        * rewrite Nn. destruct (Nat.ltb_spec j q), (Nat.ltb_spec j (S q)); try lia; reflexivity.
      + rewrite Sigma_last, <- E. unfold at_. cbn [mul div add arithR]. change (zero arithR) with 0. rewrite Nn.
        replace (q <? q)%nat with false by (symmetry; apply Nat.ltb_ge; lia). reflexivity. }
  apply (G p). lia.
Qed.
Lemma warm_spec (icept : bool) (coef : list R) : length coef = (p + if icept then 1 else 0)%nat ->
  let r := scale_warmstart arithR icept scales shifts p coef in
  length r = length coef /\
  (forall j, (j < p)%nat -> nth j r 0 = nth j scales 0 * nth j coef 0 / ys) /\
  (icept = true -> nth p r 0 = (nth p coef 0 - nth p shifts 0 + Sigma p (fun j => nth j shifts 0 * nth j coef 0)) / ys).
Proof.
  intros Hl. cbn zeta. unfold scale_warmstart.
  destruct (warm_loop_spec coef ltac:(destruct icept; lia)) as (L & Nn & C).
  destruct (warm_loop arithR scales shifts coef p) as [c cum0]. cbn [fst snd] in *.
  assert (Nj : forall j, (j < p)%nat -> nth j c 0 = nth j scales 0 * nth j coef 0 / ys).
  { intros j Hj. rewrite Nn. replace (j <? p)%nat with true by (symmetry; apply Nat.ltb_lt; auto). reflexivity. }
  destruct icept.
  - rewrite upd_len. split; [exact L|]. split.
    + intros j Hj. rewrite (upd_nth 0) by lia. destruct (Nat.eqb_spec j p); [lia|]. apply Nj; auto.
    + intros _. rewrite (upd_nth 0) by lia. rewrite Nat.eqb_refl. unfold at_. cbn [sub add div arithR]. change (zero arithR) with 0.
      rewrite Nn, Nat.ltb_irrefl, C. reflexivity.
  - split; [exact L|]. split; [exact Nj|discriminate].
Qed.
End Revert.
