From Coq Require Import ZArith List Reals Lra Lia Bool.
From Verif Require Import NnModel RealArith CdModel CdSpec CdProofs LogProofs LinModel LinSpec.
Import ListNotations.
Local Open Scope R_scope.

(** ** mean, variance, columns *)
Lemma samples_R (y : list R) : of_Z arithR (samples y) = INR (length y).
Proof. cbn. unfold samples. rewrite <- INR_IZR_INZ. reflexivity. Qed.
Lemma Sigma_sqr_mean n f m : Sigma n (fun i => (f i - m) ^ 2) = Sigma n (fun i => f i ^ 2) - 2 * m * Sigma n f + INR n * m ^ 2.
Proof.
  rewrite (Sigma_ext n _ (fun i => (f i ^ 2 + (- (2 * m)) * f i) + m ^ 2)) by (intros; ring).
  rewrite !Sigma_add, Sigma_mul, Sigma_const. ring.
Qed.
Lemma sd_alt n f : (0 < n)%nat -> Sigma n (fun i => (f i - meanR n f) ^ 2) / INR n = Sigma n (fun i => f i ^ 2) / INR n - meanR n f ^ 2.
Proof.
  intros Hn. rewrite Sigma_sqr_mean. assert (0 < INR n) by (apply lt_0_INR; auto). unfold meanR. field. lra.
Qed.
Lemma col_mean_R n (c : list R) (y : list R) : length c = length y -> n = samples y -> col_mean arithR n c = meanR (length y) (fun i => nth i c 0).
Proof. intros Hc ->. unfold col_mean. rewrite cd_sum_R, samples_R, Hc. reflexivity. Qed.
Lemma col_var_R (c y : list R) : length c = length y -> (0 < length y)%nat ->
  col_var arithR (samples y) c = Sigma (length y) (fun i => (nth i c 0 - meanR (length y) (fun k => nth k c 0)) ^ 2) / INR (length y).
Proof.
  intros Hc Hn. unfold col_var. rewrite (col_mean_R _ c y Hc eq_refl), cd_sum_R, map_length, Hc, samples_R.
  set (s := Sigma _ (fun i => nth i (map _ _) 0)).
  assert (E : s = Sigma (length y) (fun i => (nth i c 0 - meanR (length y) (fun k => nth k c 0)) ^ 2)).
  { apply Sigma_ext. intros i Hi. rewrite nth_map_R by lia. cbn. ring. }
  rewrite E. destruct (Z.ltb_spec 1 (samples y)) as [H|H]; [reflexivity|].
  assert (length y = 1)%nat as -> by (unfold samples in H; lia). cbn [INR]. field.
Qed.
Lemma eqz_R_dec v : (eqz arithR v = true /\ v = 0) \/ (eqz arithR v = false /\ v <> 0).
Proof.
  destruct (eqz arithR v) eqn:E; [left|right]; split; auto.
  - apply eqz_R, E.
  - intros H. apply eqz_R in H. congruence.
Qed.
Lemma nth_repeat_R (a : R) k j : (j < k)%nat -> nth j (repeat a k) 0 = a.
Proof. revert j. induction k; intros [|j] H; cbn; try lia; auto. apply IHk. lia. Qed.
Lemma nth_zeros k j : nth j (zeros arithR k) 0 = 0.
Proof. unfold zeros. revert j. induction k; intros [|j]; cbn; auto. Qed.
Lemma nth_ones k j : (j < k)%nat -> nth j (ones arithR k) 0 = 1.
Proof. intros H. unfold ones. rewrite nth_repeat_R; auto. Qed.
Lemma all_zero_zeros k : all_zero arithR (zeros arithR k) = true.
Proof. induction k; cbn; auto. replace (eqz arithR (IZR 0)) with true; [exact IHk|]. symmetry. apply eqz_R. reflexivity. Qed.
Lemma all_zero_nth v j : all_zero arithR v = true -> nth j v 0 = 0.
Proof.
  intros H. destruct (Nat.lt_ge_cases j (length v)) as [Hj|Hj]; [|apply nth_overflow; auto].
  unfold all_zero in H. rewrite forallb_forall in H. apply eqz_R, H, nth_In; auto.
Qed.
Lemma nth_map_any {A B} (f : A -> B) (l : list A) (a : A) (b : B) i : (i < length l)%nat -> nth i (map f l) b = f (nth i l a).
Proof. revert i. induction l; intros [|i] H; cbn in *; try lia; auto. apply IHl. lia. Qed.

(** the scale a column is divided by *)
Definition nz (s : R) : R := if Req_EM_T s 0 then 1 else s.
Lemma nz_same s : s <> 0 -> nz s = s. Proof. intros H. unfold nz. destruct (Req_EM_T s 0); [contradiction|auto]. Qed.
Lemma apply_col_spec sh s c i : (i < length c)%nat -> nth i (apply_col arithR sh s c) 0 = (nth i c 0 - sh) / nz s.
Proof.
  intros H. unfold apply_col. rewrite nth_map_R by auto. cbn [div sub arithR]. unfold nz.
  destruct (eqz_R_dec s) as [[-> E]|[-> E]]; destruct (Req_EM_T s 0); try contradiction; reflexivity.
Qed.
Lemma apply_col_len sh s c : length (apply_col arithR sh s c) = length c.
Proof. unfold apply_col. apply map_length. Qed.
Lemma apply_cols_len shs scs X : length shs = length X -> length scs = length X -> length (apply_cols arithR shs scs X) = length X.
Proof. intros H1 H2. unfold apply_cols. rewrite map_length, !combine_length. lia. Qed.
Lemma nth_combine_any {A B} (a : A) (b : B) : forall l1 l2 j, length l1 = length l2 -> nth j (combine l1 l2) (a, b) = (nth j l1 a, nth j l2 b).
Proof. intros. apply combine_nth. auto. Qed.
Lemma apply_cols_nth shs scs X j : length shs = length X -> length scs = length X -> (j < length X)%nat ->
  nth j (apply_cols arithR shs scs X) [] = apply_col arithR (nth j shs 0) (nth j scs 0) (nth j X []).
Proof.
  intros H1 H2 Hj. unfold apply_cols.
  rewrite (nth_map_any _ _ ((0, 0), [])) by (rewrite !combine_length; lia).
  rewrite nth_combine_any by (rewrite combine_length; lia). rewrite nth_combine_any by lia. reflexivity.
Qed.
Lemma apply_cols_shape n shs scs X : length shs = length X -> length scs = length X -> Forall (fun c => length c = n) X ->
  Forall (fun c => length c = n) (apply_cols arithR shs scs X).
Proof.
  intros H1 H2 H. apply Forall_nth. intros j d Hj. rewrite apply_cols_len in Hj by auto.
  rewrite (nth_indep _ d []) by (rewrite apply_cols_len; auto). rewrite apply_cols_nth by auto. rewrite apply_col_len.
  rewrite Forall_nth in H. apply H. auto.
Qed.

Section Columns.
Context (X : list (list R)) (y : list R).
Context (Sh : shaped X y).
Let n := length y.
Let p := length X.
Lemma n_pos0 : (0 < n)%nat. Proof. destruct Sh as [H _]. unfold n. destruct y; cbn; [congruence|lia]. Qed.
Lemma n_pos1 : 0 < INR n. Proof. apply lt_0_INR, n_pos0. Qed.
Lemma col_len0 j : (j < p)%nat -> length (nth j X []) = n.
Proof. intros H. destruct Sh as [_ F]. rewrite Forall_nth in F. apply F. auto. Qed.
Lemma means_nth j : (j < p)%nat -> nth j (map (col_mean arithR (samples y)) X) 0 = meanR n (elem X j).
Proof.
  intros H. rewrite (nth_map_any _ _ []) by auto. rewrite (col_mean_R _ _ y); [reflexivity|apply col_len0; auto|reflexivity].
Qed.
Lemma sds_nth j : (j < p)%nat -> nth j (map (fun c => sqrt arithR (col_var arithR (samples y) c)) X) 0 = sdR n (elem X j).
Proof.
  intros H. rewrite (nth_map_any _ _ []) by auto. rewrite (col_var_R _ y); [reflexivity|apply col_len0; auto|apply n_pos0].
Qed.
Lemma sd_nth2 j : (j < p)%nat ->
  nth j (map (fun c => sqrt arithR (sub arithR (square_mean arithR (samples y) c) (mean_square arithR (samples y) c))) X) 0 = sdR n (elem X j).
Proof.
  intros H. rewrite (nth_map_any _ _ []) by auto. unfold square_mean, mean_square.
  rewrite (col_mean_R _ _ y); [|apply col_len0; auto|reflexivity].
  rewrite (cd_dot_R _ _ n) by (apply col_len0; auto). rewrite samples_R.
  cbn [sqrt sub div mul arithR]. unfold sdR. rewrite sd_alt by apply n_pos0. f_equal. f_equal.
  - f_equal. apply Sigma_ext. intros. unfold elem. ring.
  - change (meanR (length y) (fun i => nth i (nth j X []) 0)) with (meanR n (elem X j)). ring.
Qed.
Lemma y_mean : col_mean arithR (samples y) y = meanR n (fun i => nth i y 0). Proof. apply col_mean_R; auto. Qed.
Lemma y_sd : sqrt arithR (col_var arithR (samples y) y) = sdR n (fun i => nth i y 0).
Proof. rewrite (col_var_R y y eq_refl n_pos0). reflexivity. Qed.
Lemma y_rms : sqrt arithR (div arithR (cd_dot arithR y y) (of_Z arithR (samples y))) = rmsR n (fun i => nth i y 0).
Proof.
  rewrite (cd_dot_R _ _ n) by auto. rewrite samples_R. cbn [sqrt div arithR]. unfold rmsR. f_equal. f_equal.
  apply Sigma_ext. intros. ring.
Qed.
Lemma sqr_nonneg (f : nat -> R) : 0 <= Sigma n (fun i => f i ^ 2). Proof. apply Sigma_nonneg. intros. apply pow2_ge_0. Qed.
Lemma y_norm : sqrt arithR (cd_dot arithR y y) = rmsR n (fun i => nth i y 0) * R_sqrt.sqrt (INR n).
Proof.
  rewrite (cd_dot_R _ _ n) by auto. cbn [sqrt arithR]. unfold rmsR.
  pose proof n_pos1. rewrite <- sqrt_mult_alt.
  - f_equal. rewrite (Sigma_ext n (fun i => nth i y 0 * nth i y 0) (fun i => nth i y 0 ^ 2)) by (intros; ring). field. lra.
  - apply Rmult_le_pos; [apply sqr_nonneg|]. apply Rlt_le, Rinv_0_lt_compat. auto.
Qed.
Lemma root_pos : 0 < R_sqrt.sqrt (INR n). Proof. apply sqrt_lt_R0, n_pos1. Qed.
Lemma root_n_R : sqrt arithR (of_Z arithR (samples y)) = R_sqrt.sqrt (INR n). Proof. rewrite samples_R. reflexivity. Qed.

Lemma app_nth_lt (a : list R) b j : (j < length a)%nat -> nth j (a ++ b) 0 = nth j a 0. Proof. apply app_nth1. Qed.
Lemma app_nth_last (a : list R) v : nth (length a) (a ++ [v]) 0 = v. Proof. rewrite app_nth2, Nat.sub_diag by auto. reflexivity. Qed.
Lemma app_last (a : list R) v k : length a = k -> nth k (a ++ [v]) 0 = v. Proof. intros <-. apply app_nth_last. Qed.

Lemma std_shift_y : std_shift arithR (samples y) [y] [zero arithR] =
  ([apply_col arithR (meanR n (fun i => nth i y 0)) 1 y], [meanR n (fun i => nth i y 0)]).
Proof.
  unfold std_shift. change [zero arithR] with (zeros arithR 1). rewrite all_zero_zeros. cbn [map length]. rewrite y_mean. reflexivity.
Qed.
Lemma std_both_y : std_both arithR (samples y) [y] =
  ([apply_col arithR (meanR n (fun i => nth i y 0)) (sdR n (fun i => nth i y 0)) y], [meanR n (fun i => nth i y 0)], [sdR n (fun i => nth i y 0)]).
Proof. unfold std_both. cbn [map length]. rewrite y_mean, y_sd. reflexivity. Qed.
Lemma std_scale_y s : s <> 0 -> std_scale arithR (samples y) [y] [s] = ([apply_col arithR 0 s y], [s]).
Proof.
  intros H. unfold std_scale. replace (all_zero arithR [s]) with false; [reflexivity|].
  cbn. destruct (eqz_R_dec s) as [[_ E]|[-> _]]; [contradiction|reflexivity].
Qed.
Lemma nz1 : nz 1 = 1. Proof. apply nz_same. lra. Qed.
Lemma meanR_nil_ext f g : (forall i, (i < n)%nat -> f i = g i) -> meanR n f = meanR n g.
Proof. intros H. unfold meanR. f_equal. apply Sigma_ext. auto. Qed.

End Columns.

(** ** What preprocess_data computes is the table *)
Section Prep.
Context (m : solver) (sc : scaling) (icept : bool) (X : list (list R)) (y : list R).
Context (Sh : shaped X y).
Let n := length y.
Let p := length X.
Let P := prep arithR m sc icept X y.
(** the arrays of shifts and scales; meaningless without scaling *)
Definition arrays_ok : Prop :=
  match sc with
  | ScNone => p_scales P = [] /\ p_shifts P = []
  | _ =>
    length (p_scales P) = (p + 1)%nat /\ length (p_shifts P) = (p + 1)%nat /\
    nth p (p_scales P) 0 = s_y sc icept y /\ nth p (p_shifts P) 0 = m_y sc icept y /\
    forall j, (j < p)%nat -> nth j (p_scales P) 0 = s_x sc X y j /\ nth j (p_shifts P) 0 = m_x sc icept X y j
  end.
Definition data_ok : Prop :=
  length (p_y P) = n /\ length (p_X P) = p /\ Forall (fun c => length c = n) (p_X P) /\
  (forall i, (i < n)%nat -> nth i (p_y P) 0 = (nth i y 0 - m_y sc icept y) / (s_y sc icept y * root sc y)) /\
  (forall j i, (j < p)%nat -> (i < n)%nat -> elem (p_X P) j i = (elem X j i - m_x sc icept X y j) / (s_x sc X y j * root sc y)).

Lemma prep_ok : scalable sc icept X y -> arrays_ok /\ data_ok.
Proof.
  intros [Hy Hx]. unfold arrays_ok, data_ok, P, prep. fold p.
  pose proof (n_pos1 X y Sh) as Hn. pose proof (root_pos X y Sh) as Hr.
  assert (Fx : Forall (fun c => length c = n) X) by apply Sh.
  assert (Lz : forall k, length (zeros arithR k) = k) by (intros; apply repeat_length).
  assert (Lo : forall k, length (ones arithR k) = k) by (intros; apply repeat_length).
  assert (Lm : length (map (col_mean arithR (samples y)) X) = p) by apply map_length.
  destruct sc; cbn [s_y m_y s_x m_x root] in *.
  - (* none *)
    split; [split; reflexivity|]. cbn [p_y p_X]. repeat split; auto; intros; field.
  - (* centering *)
    destruct icept.
    + rewrite std_shift_y. unfold std_shift. rewrite all_zero_zeros. cbn [p_scales p_shifts p_X p_y nth]. fold p.
      rewrite app_length, Lm. split.
      * split; [apply Lo|]. split; [reflexivity|]. split; [apply nth_ones; lia|]. split; [apply app_last, Lm|].
        intros j Hj. split; [apply nth_ones; lia|]. rewrite app_nth1 by lia. apply (means_nth X y Sh); auto.
      * split; [apply apply_col_len|]. split; [apply apply_cols_len; auto|]. split; [apply apply_cols_shape; auto|]. split.
        -- intros i Hi. rewrite apply_col_spec, nz1 by auto. rewrite !Rmult_1_r. reflexivity.
        -- intros j i Hj Hi. unfold elem at 1. rewrite apply_cols_nth by auto.
           rewrite apply_col_spec by (rewrite (col_len0 X y Sh); auto). rewrite (means_nth X y Sh), nth_ones, nz1 by auto. rewrite !Rmult_1_r. reflexivity.
    + cbn [p_scales p_shifts p_X p_y]. split.
      * split; [apply Lo|]. split; [apply Lz|]. split; [apply nth_ones; lia|]. split; [apply nth_zeros|].
        intros j Hj. split; [apply nth_ones; lia|apply nth_zeros].
      * repeat split; auto; intros; field.
  - (* scale only *)
    destruct icept.
    + rewrite y_mean, (y_sd X y Sh), root_n_R. unfold std_given.
      set (sh := if all_zero arithR _ then _ else _).
      assert (Esh : sh = map (col_mean arithR (samples y)) X).
      { unfold sh. destruct m; rewrite ?all_zero_zeros; auto. destruct (all_zero _ _); auto. }
      rewrite Esh. cbn [p_scales p_shifts p_X p_y]. rewrite !app_length, Lm, Lo. split.
      * split; [reflexivity|]. split; [reflexivity|]. split; [apply app_last, Lo|]. split; [apply app_last, Lm|].
        intros j Hj. rewrite !app_nth1 by (rewrite ?Lo, ?Lm; auto). split; [apply nth_ones; auto|apply (means_nth X y Sh); auto].
      * assert (Lr : length (repeat (R_sqrt.sqrt (INR n)) p) = p) by apply repeat_length.
        split; [apply map_length|]. split; [apply apply_cols_len; auto|]. split; [apply apply_cols_shape; auto|]. split.
        -- intros i Hi. rewrite nth_map_R by auto. reflexivity.
        -- intros j i Hj Hi. unfold elem at 1. rewrite apply_cols_nth by auto.
           rewrite apply_col_spec by (rewrite (col_len0 X y Sh); auto). rewrite (means_nth X y Sh), nth_repeat_R, nz_same by (auto; apply Rgt_not_eq, Hr).
           rewrite Rmult_1_l. reflexivity.
    + rewrite (y_norm X y Sh), root_n_R. cbn [p_scales p_shifts p_X p_y]. rewrite !app_length, Lo. split.
      * split; [reflexivity|]. split; [apply Lz|]. split.
        -- rewrite (app_last _ _ p (Lo p)). cbn [div arithR]. fold n. field. apply Rgt_not_eq, Hr.
        -- split; [apply nth_zeros|]. intros j Hj. rewrite !app_nth1 by (rewrite Lo; auto). split; [apply nth_ones; auto|apply nth_zeros].
      * split; [apply map_length|]. split; [apply map_length|]. split.
        { apply Forall_map. eapply Forall_impl; [|exact Fx]. intros c Hc. rewrite map_length. exact Hc. }
        split.
        -- intros i Hi. rewrite nth_map_R by auto. cbn [div arithR]. rewrite Rminus_0_r. reflexivity.
        -- intros j i Hj Hi. unfold elem at 1. rewrite (nth_map_any _ _ []) by auto. rewrite nth_map_R by (rewrite (col_len0 X y Sh); auto).
           cbn [div arithR]. unfold elem. rewrite Rminus_0_r, Rmult_1_l. reflexivity.
  - (* standardize *)
    destruct icept.
    + rewrite (std_both_y X y Sh). unfold std_both. cbn [p_scales p_shifts p_X p_y nth].
      assert (Ls : length (map (fun c => sqrt arithR (col_var arithR (samples y) c)) X) = p) by apply map_length.
      rewrite !app_length, Lm, Ls. split.
      * split; [reflexivity|]. split; [reflexivity|]. split; [apply app_last, Ls|]. split; [apply app_last, Lm|].
        intros j Hj. rewrite !app_nth1 by (rewrite ?Ls, ?Lm; auto). split; [apply (sds_nth X y Sh); auto|apply (means_nth X y Sh); auto].
      * split; [apply apply_col_len|]. split; [apply apply_cols_len; auto|]. split; [apply apply_cols_shape; auto|]. split.
        -- intros i Hi. rewrite apply_col_spec, nz_same by auto. rewrite Rmult_1_r. reflexivity.
        -- intros j i Hj Hi. unfold elem at 1. rewrite apply_cols_nth by auto.
           rewrite apply_col_spec by (rewrite (col_len0 X y Sh); auto). rewrite (means_nth X y Sh), (sds_nth X y Sh), nz_same by auto. rewrite Rmult_1_r. reflexivity.
    + rewrite y_rms, std_scale_y by exact Hy. unfold std_scale.
      set (scl := if all_zero arithR _ then _ else _).
      assert (Ls : length scl = p) by (unfold scl; destruct (all_zero _ _); apply map_length).
      assert (Ns : forall j, (j < p)%nat -> nth j scl 0 = sdR n (elem X j)).
      { intros j Hj. unfold scl. destruct (all_zero _ _); [apply (sds_nth X y Sh); auto|apply (sd_nth2 X y Sh); auto]. }
      cbn [p_scales p_shifts p_X p_y nth]. rewrite !app_length, Ls. split.
      * split; [reflexivity|]. split; [apply Lz|]. split; [apply app_last, Ls|]. split; [apply nth_zeros|].
        intros j Hj. rewrite app_nth1 by (rewrite Ls; auto). split; [apply Ns; auto|apply nth_zeros].
      * split; [apply apply_col_len|]. split; [apply apply_cols_len; auto|]. split; [apply apply_cols_shape; auto|]. split.
        -- intros i Hi. rewrite apply_col_spec, nz_same by auto. rewrite Rmult_1_r. reflexivity.
        -- intros j i Hj Hi. unfold elem at 1. rewrite apply_cols_nth by auto.
           rewrite apply_col_spec by (rewrite (col_len0 X y Sh); auto). rewrite nth_zeros, Ns, nz_same by auto. rewrite Rmult_1_r. reflexivity.
Qed.
End Prep.
