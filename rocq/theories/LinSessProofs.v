(** Proofs about LinSessModel. *)
From Coq Require Import ZArith QArith List Bool Lia.
From Verif Require Import Base LinSessModel LinSessSpec.
Import ListNotations.
Local Open Scope Z_scope.

Lemma meth_eqb_eq a b : meth_eqb a b = true <-> a = b.
Proof. destruct a, b; simpl; split; congruence. Qed.
Lemma scal_eqb_eq a b : scal_eqb a b = true <-> a = b.
Proof. destruct a, b; simpl; split; congruence. Qed.
Lemma kind_eqb_eq a b : kind_eqb a b = true <-> a = b.
Proof. destruct a, b; simpl; split; congruence. Qed.

Lemma well_under t i : well t i = false <-> under t i.
Proof. unfold well, under. rewrite Z.leb_gt. lia. Qed.

Lemma well_not_under t i : well t i = true <-> ~ under t i.
Proof. unfold well, under. rewrite Z.leb_le. lia. Qed.

Lemma is_success_true s : is_success s = true <-> s = st_success.
Proof. destruct s; simpl; split; congruence. Qed.
Lemma is_success_false s : is_success s = false <-> s <> st_success.
Proof. destruct s; simpl; split; congruence. Qed.

Lemma qzero_false q : Qeq_bool q 0 = false <-> ~ (q == 0)%Q.
Proof.
  rewrite <- Qeq_bool_iff. destruct (Qeq_bool q 0); split; intros H; try congruence.
Qed.

Lemma qpos_true q : Qle_bool q 0 = false <-> (0 < q)%Q.
Proof.
  split; intros H.
  - apply Qnot_le_lt. intros K. apply Qle_bool_iff in K. congruence.
  - destruct (Qle_bool q 0) eqn:E; [|reflexivity]. apply Qle_bool_iff in E.
    exfalso. eapply Qlt_not_le; eauto.
Qed.

(** The options a fit works with: the member [user_scaling] hides the option once it is set. *)
Definition effective (C : Type) (h : handle C) : opts :=
  mkOpts (o_meth (h_opts C h)) (if scal_eqb (h_us C h) Sauto then o_scal (h_opts C h) else h_us C h)
         (o_alpha (h_opts C h)) (o_lambda (h_opts C h)) (o_icept (h_opts C h)).

Lemma meth_eqb_neq a b : meth_eqb a b = false <-> a <> b.
Proof. destruct a, b; simpl; split; congruence. Qed.

Definition refusedb (k : kind) (o : opts) (m : meth) (t : table) : bool :=
  let reg := negb (Qeq_bool (o_lambda o) 0) in
  match k with
  | Kmse =>
      (negb (meth_eqb m Mcoord) && (negb (Qle_bool (o_alpha o) 0) && reg)) ||
      ((meth_eqb m Mqr && reg) ||
      ((o_icept o && (scal_eqb (o_scal o) Snone &&
        (meth_eqb m Mqr || (meth_eqb m Msvd ||
          (negb (well t true) && negb (meth_eqb m Mlbfgs)))))) ||
      (meth_eqb m Mqr && (negb (well t (o_icept o)) && (o_icept o || scal_eqb (o_scal o) Sstd)))))
  | Klogistic => negb (meth_eqb m Mlbfgs) || (negb (Qeq_bool (o_alpha o) 0) && reg)
  | Kundef => true
  end.

Lemma refusedb_spec k o m t : refusedb k o m t = true <-> refused k o m t.
Proof.
  unfold refusedb, refused. destruct k.
  - tauto.
  - repeat (rewrite ?orb_true_iff, ?andb_true_iff, ?negb_true_iff).
    rewrite !meth_eqb_neq, !meth_eqb_eq, !scal_eqb_eq, qzero_false, qpos_true, !well_under.
    reflexivity.
  - repeat (rewrite ?orb_true_iff, ?andb_true_iff, ?negb_true_iff).
    rewrite !meth_eqb_neq, !qzero_false. reflexivity.
Qed.

Lemma validate_spec k m t o :
  let s := validate k m (o_scal o) (o_icept o) (well t (o_icept o)) (o_alpha o) (o_lambda o) in
  (s = st_success /\ ~ refused k o m t) \/ (s <> st_success /\ refused k o m t).
Proof.
  intros s. rewrite <- refusedb_spec.
  assert (E : s = if refusedb k o m t then (match k with Kundef => st_internal_error
                  | _ => st_incompatible_options end) else st_success).
  { subst s. unfold validate, refusedb.
    destruct k; [reflexivity| |].
    - destruct (Qeq_bool (o_lambda o) 0), (Qle_bool (o_alpha o) 0), (o_icept o); simpl;
        destruct (well t true); try destruct (well t false); destruct m; simpl; try reflexivity;
        destruct (o_scal o); reflexivity.
    - destruct (Qeq_bool (o_lambda o) 0), (Qeq_bool (o_alpha o) 0), m; reflexivity. }
  rewrite E. destruct (refusedb k o m t); [right|left]; split; try congruence.
  destruct k; discriminate.
Qed.

Definition centringb (m : meth) (t : table) (icept : bool) : bool :=
  icept && (meth_eqb m Mcoord || (meth_eqb m Msvd || (meth_eqb m Mqr ||
            (negb (meth_eqb m Mauto) && negb (well t icept))))).

Lemma centringb_spec m t icept : centringb m t icept = true <-> needs_centring m t icept.
Proof.
  unfold centringb, needs_centring. repeat (rewrite ?orb_true_iff, ?andb_true_iff, ?negb_true_iff).
  rewrite !meth_eqb_neq, !meth_eqb_eq, !well_under. reflexivity.
Qed.

Lemma centring_cases m t icept s :
  s = (if centringb m t icept then Scentre else Snone) ->
  (needs_centring m t icept /\ s = Scentre) \/ (~ needs_centring m t icept /\ s = Snone).
Proof.
  rewrite <- centringb_spec. intros ->. destruct (centringb m t icept); [left|right]; split; congruence.
Qed.

Lemma required_first m us icept t :
  m <> Mauto ->
  scaling_is m t icept us (required m us icept (well t icept) false).
Proof.
  intros Hm. unfold scaling_is, required.
  destruct us; simpl; try reflexivity. apply centring_cases. unfold centringb.
  destruct m; try congruence; destruct icept; simpl; rewrite ?andb_false_r; try reflexivity;
    destruct (well t true); reflexivity.
Qed.

Lemma required_retry us icept t :
  retry_scaling_is Msvd t icept us (required Msvd us icept (well t icept) true).
Proof.
  unfold retry_scaling_is, required.
  destruct us; simpl; try (apply centring_cases; unfold centringb; simpl);
    destruct icept; simpl; reflexivity.
Qed.

Lemma required_not_auto m us icept w b : required m us icept w b <> Sauto.
Proof. destruct m, us, icept, w, b; simpl; discriminate. Qed.

(** *** What is known of the prepared data between calls *)
Section Inv.
Variables C W : Type.
Variable solve : call -> W -> da_status * C.
Variable lambda' : call -> Q.
Notation handle := (handle C).

Definition proper_start (t : table) (k : kind) (o : opts) (v : view) : Prop :=
  (v_xv v = true -> o_meth o = Mcoord) /\
  (v = raw t (v_xv v) \/
   (k = Kmse /\ o_meth o <> Mauto /\
    (spoils (o_meth o) = true \/ (o_scal o <> Snone /\ o_scal o <> Sauto))) \/
   (k <> Kmse /\ t_row t = true /\ v = mkView true Snone Snone true false false (v_xv v))).

Definition canonical (t : table) (k : kind) (m : meth) (s : scal) (icept : bool) : view :=
  match k with
  | Kmse => mkView (negb (scal_eqb s Snone) || spoils m) s s
                   (negb (t_row t) || needs_cm m (well t icept))
                   (needs_tr m (well t icept) (t_row t)) false (meth_eqb m Mcoord)
  | _ => mkView (t_row t) Snone Snone true false false false
  end.

Lemma canonical_ready t k m s icept alpha lambda o :
  o_icept o = icept -> o_alpha o = alpha -> o_lambda o = lambda ->
  let c := mkCall t k m s icept alpha lambda (canonical t k m s icept) in
  faithful o t k c /\ fresh_marks c.
Proof.
  intros Hi Ha Hl c.
  assert (P : prepared c /\ fresh_marks c).
  { subst c. unfold canonical. destruct k.
    - split; [constructor|split]; simpl; try reflexivity; try tauto; try discriminate.
      + split; [discriminate|]. intros [K _]. discriminate.
      + split; [discriminate|]. intros [K _]. discriminate.
    - assert (Hu : needs_cm m (well t icept) = true <-> m = Msvd \/ (m = Mqr /\ ~ under t icept)).
      { unfold needs_cm. rewrite orb_true_iff, andb_true_iff, !meth_eqb_eq, well_not_under. reflexivity. }
      split; [constructor|split]; simpl; try reflexivity.
      + split; [|split].
        * intros ->. reflexivity.
        * intros H. apply Hu in H. rewrite H. apply orb_true_r.
        * intros -> N1 N2. simpl. destruct (needs_cm m (well t icept)); [|reflexivity].
          exfalso. destruct (proj1 Hu eq_refl); tauto.
      + unfold needs_tr, transposed. rewrite !andb_true_iff, !negb_true_iff, meth_eqb_eq, well_under.
        tauto.
      + intros _ ->. reflexivity.
      + rewrite meth_eqb_eq. tauto.
      + unfold spoils. rewrite !orb_true_iff, negb_true_iff, !meth_eqb_eq.
        assert (N : scal_eqb s Snone = false <-> s <> Snone) by (destruct s; simpl; split; congruence).
        rewrite N. tauto.
    - split; [constructor|split]; simpl; try reflexivity; try tauto; try discriminate.
      + split; [discriminate|]. intros [K _]. discriminate.
      + split; [discriminate|]. intros [K _]. discriminate. }
  destruct P as [P F]. split; [|exact F].
  unfold faithful. split; [reflexivity|]. split; [reflexivity|]. split; [simpl; auto|].
  split; [simpl; auto|]. split; [simpl; auto|exact P].
Qed.

Lemma view_canonical t k m s icept v :
  let w := well t icept in
  m <> Mauto -> s <> Sauto -> k <> Kundef -> (k = Klogistic -> m = Mlbfgs) ->
  (v_xv v = true -> m = Mcoord) ->
  (v = raw t (v_xv v) \/
   (k = Kmse /\ (spoils m = true \/ s <> Snone)) \/
   (k <> Kmse /\ t_row t = true /\ v = mkView true Snone Snone true false false (v_xv v))) ->
  match k with
  | Kmse => preprocess t m s w v
  | _ => if t_row t then mkView true Snone (v_y v) true false false (v_xv v) else v
  end = canonical t k m s icept.
Proof.
  intros w Hm Hs Hk Hlog Hxv Hv. unfold canonical. destruct k; [congruence| |].
  - fold w. assert (Hv' : (spoils m = false -> s = Snone -> v = raw t (v_xv v))).
    { intros A B. destruct Hv as [H|[[_ [H|H]]|[H _]]]; congruence. }
    clear Hv. unfold preprocess, copying, raw in *.
    destruct v as [vc vx vy vm vt vl vv]. simpl in *.
    clear Hk Hlog.
    clearbody w. unfold needs_cm, needs_tr.
    assert (Ev : vv || meth_eqb m Mcoord = meth_eqb m Mcoord).
    { destruct vv; [rewrite Hxv by reflexivity; reflexivity|reflexivity]. }
    destruct (scal_eqb s Snone) eqn:Es.
    + apply scal_eqb_eq in Es. subst s.
      destruct (spoils m) eqn:Ep.
      * destruct m; try discriminate Ep; simpl in *; rewrite Ev; reflexivity.
      * specialize (Hv' eq_refl eq_refl).
        injection Hv'. intros -> -> -> -> -> ->. clear Hv'.
        destruct m; try discriminate Ep; try (exfalso; apply Hm; reflexivity); simpl in *;
          rewrite ?orb_false_r in *; try rewrite Ev; reflexivity.
    + simpl. rewrite Ev. reflexivity.
  - specialize (Hlog eq_refl). subst m.
    assert (Ex : v_xv v = false) by (destruct (v_xv v); [specialize (Hxv eq_refl); discriminate|reflexivity]).
    rewrite Ex in *.
    destruct Hv as [H|[[H _]|[_ [H1 H2]]]]; [|congruence|].
    + rewrite H. simpl. destruct (t_row t) eqn:E; unfold raw; rewrite ?E; reflexivity.
    + rewrite H1, H2. reflexivity.
Qed.

Lemma again_canonical t us icept s :
  let w := well t icept in
  s = required Mchol us icept w false ->
  again t us icept w s Msvd Mchol (canonical t Kmse Mchol s icept) = false ->
  canonical t Kmse Mchol s icept
  = canonical t Kmse Msvd (required Msvd us icept w true) icept.
Proof.
  intros w Hs Ha. unfold again in Ha. simpl in Ha. fold w in Ha.
  rewrite andb_false_r in Ha.
  destruct (scal_eqb s Snone) eqn:En; simpl in Ha; [discriminate|].
  destruct (scal_eqb s (required Msvd us icept w true)) eqn:Es; simpl in Ha; [|discriminate].
  apply scal_eqb_eq in Es. rewrite <- Es. unfold canonical. rewrite En. simpl. fold w.
  unfold needs_tr. simpl. destruct (t_row t); simpl in *; [discriminate|reflexivity].
Qed.

Lemma loop_documented (st : W) (h : handle) t m e :
  documented_method (h_kind C h) e = Some m -> m <> Mauto ->
  h_us C h = o_scal e -> h_icept C h = o_icept e -> h_alpha C h = o_alpha e ->
  h_lambda C h = o_lambda e ->
  ~ refused (h_kind C h) e m t ->
  (v_xv (h_view C h) = true -> m = Mcoord) ->
  (h_view C h = raw t (v_xv (h_view C h)) \/
   (h_kind C h = Kmse /\ (spoils m = true \/ (o_scal e <> Snone /\ o_scal e <> Sauto))) \/
   (h_kind C h <> Kmse /\ t_row t = true /\
    h_view C h = mkView true Snone Snone true false false (v_xv (h_view C h)))) ->
  let r := loop C W solve lambda' t m st h in
  documented C W solve e t (h_kind C h) st (fst (fst r))
    (if is_success (fst (fst r)) then h_coef C (snd (fst r)) else None) (snd r).
Proof.
  intros Hdoc Hm Hus Hi Ha Hl Hnr Hx Hv r. subst r.
  destruct h as [ho hu ha hl hi hk hd hv ht hc]. simpl in *. subst hu hi ha hl.
  unfold loop. simpl.
  set (w := well t (o_icept e)).
  set (sc := required m (o_scal e) (o_icept e) w false).
  assert (Hsc : sc <> Sauto) by apply required_not_auto.
  assert (Hku : hk <> Kundef). { intros ->. apply Hnr. exact I. }
  assert (Hkl : hk = Klogistic -> m = Mlbfgs).
  { intros ->. destruct (meth_eqb m Mlbfgs) eqn:E; [apply meth_eqb_eq; exact E|].
    exfalso. apply Hnr. left. intros ->. discriminate. }
  assert (Hv1 : hv = raw t (v_xv hv) \/ (hk = Kmse /\ (spoils m = true \/ sc <> Snone)) \/
                (hk <> Kmse /\ t_row t = true /\ hv = mkView true Snone Snone true false false (v_xv hv))).
  { destruct Hv as [V|[[V1 [V2|[V2 V3]]]|V]]; auto.
    right; left. split; [exact V1|]. right. unfold sc, required.
    destruct (scal_eqb (o_scal e) Sauto) eqn:E; [apply scal_eqb_eq in E; congruence|].
    simpl. exact V2. }
  pose proof (view_canonical t hk m sc (o_icept e) hv Hm Hsc Hku Hkl Hx Hv1) as VC. fold w in VC.
  destruct (canonical_ready t hk m sc (o_icept e) (o_alpha e) (o_lambda e) e eq_refl eq_refl eq_refl)
    as [F1 F2].
  unfold attempt. simpl. rewrite VC.
  match type of F1 with faithful _ _ _ ?c => set (c1 := c) in * end.
  assert (HS : scaling_is m t (o_icept e) (o_scal e) (c_scal c1)).
  { simpl. apply required_first. exact Hm. }
  destruct (fst (solve c1 st)) eqn:ES; try
    (simpl; rewrite <- ES;
     match goal with |- documented _ _ _ _ _ _ _ _ ?o _ =>
       replace o with (if is_success (fst (solve c1 st)) then Some (snd (solve c1 st)) else None)
         by (rewrite ES; reflexivity) end;
     apply (doc_solved C W solve e t hk st m c1); auto; rewrite ES; intros _; discriminate).
  destruct (meth_eqb m Mchol) eqn:EM.
  2:{ assert (m <> Mchol) by (intros ->; discriminate).
      destruct m; try congruence; simpl; rewrite <- ES;
      match goal with |- documented _ _ _ _ _ _ _ _ ?o _ =>
        replace o with (if is_success (fst (solve c1 st)) then Some (snd (solve c1 st)) else None)
          by (rewrite ES; reflexivity) end;
      (eapply doc_solved; eauto; congruence). }
  apply meth_eqb_eq in EM. subst m.
  assert (hk = Kmse) by (destruct hk; [congruence|reflexivity|specialize (Hkl eq_refl); discriminate]).
  subst hk.
  (* the retry *)
  unfold retry, attempt. simpl h_kind. cbv iota.
  assert (V1 : forall v, v_lost v = false ->
     mkView (v_copy v) (v_x v) (v_y v) (v_cm v) (v_tr v) (v_lost v || spoils Mchol) (v_xv v) = v).
  { intros [a1 a2 a3 a4 a5 a6 a7] L. simpl in L. subst a6. reflexivity. }
  rewrite (V1 (canonical t Kmse Mchol sc (o_icept e)) eq_refl).
  simpl h_us. simpl h_icept. simpl h_view. simpl h_alpha. simpl h_lambda.
  set (sc2 := required Msvd (o_scal e) (o_icept e) w true).
  assert (Hsc2 : sc2 <> Sauto) by apply required_not_auto.
  set (ag := again t (o_scal e) (o_icept e) w sc Msvd Mchol (canonical t Kmse Mchol sc (o_icept e))).
  assert (V2 : (if ag then preprocess t Msvd sc2 w (if ag then raw t false
                                                    else canonical t Kmse Mchol sc (o_icept e))
                else if ag then raw t false else canonical t Kmse Mchol sc (o_icept e))
               = canonical t Kmse Msvd sc2 (o_icept e)).
  { destruct ag eqn:EA.
    - apply (view_canonical t Kmse Msvd sc2 (o_icept e) (raw t false)); auto; try discriminate.
    - apply again_canonical; auto. }
  rewrite V2.
  destruct (canonical_ready t Kmse Msvd sc2 (o_icept e) (o_alpha e) (o_lambda e) e
              eq_refl eq_refl eq_refl) as [G1 G2].
  match type of G1 with faithful _ _ _ ?c => set (c2 := c) in * end.
  cbn [fst snd h_coef].
  match goal with |- documented _ _ _ _ _ _ _ _ ?o _ =>
    replace o with (if is_success (fst (solve c2 st)) then Some (snd (solve c2 st)) else None) end.
  2:{ destruct (is_success (fst (solve c2 st))); reflexivity. }
  apply (doc_retried C W solve e t Kmse st c1 c2); auto.
  apply required_retry.
Qed.

(** One fit of an untrained handle does what is documented for the options in force. *)
Lemma fit_documented (st : W) (h : handle) t :
  h_data C h = Some t -> h_trained C h = false ->
  proper_start t (h_kind C h) (effective C h) (h_view C h) ->
  let r := fit C W solve lambda' st h in
  documented C W solve (effective C h) t (h_kind C h) st (fst (fst r))
    (if is_success (fst (fst r)) then h_coef C (snd (fst r)) else None) (snd r).
Proof.
  intros Hd Ht [Hx Hv] r. subst r. unfold fit. rewrite Hd, Ht.
  assert (Key : forall m h1, resolve C h = (st_success, h1) -> o_meth (h_opts C h1) = m ->
            documented_method (h_kind C h) (effective C h) = Some m /\ m <> Mauto /\
            h_us C h1 = o_scal (effective C h) /\ h_icept C h1 = o_icept (effective C h) /\
            h_alpha C h1 = o_alpha (effective C h) /\ h_lambda C h1 = o_lambda (effective C h) /\
            h_kind C h1 = h_kind C h /\ h_view C h1 = h_view C h /\ h_data C h1 = h_data C h /\
            (o_meth (effective C h) = Mauto \/ o_meth (effective C h) = m)).
  { intros m h1 R Hm. unfold resolve in R. unfold documented_method.
    destruct h as [[om os oa ol oi] hu ha hl hi hk hd hv ht hc]. simpl in *.
    destruct om; simpl in R; try (injection R as <-; simpl in Hm; subst m; simpl; intuition congruence).
    destruct hk; simpl in R; try discriminate R;
      destruct (Qeq_bool oa 0) eqn:E; simpl in R; try discriminate R; injection R as <-; simpl in Hm; subst m;
      simpl; rewrite ?E; intuition congruence. }
  destruct (resolve C h) as [s0 h1] eqn:R.
  destruct (is_success s0) eqn:E0; simpl.
  - apply is_success_true in E0. subst s0.
    destruct (Key _ h1 eq_refl eq_refl) as (K1&K2&K3&K4&K5&K6&K7&K8&K9&K10).
    set (m := o_meth (h_opts C h1)) in *.
    pose proof (validate_spec (h_kind C h) m t (effective C h)) as V. cbv zeta in V.
    rewrite K3, K4, K5, K6, K7.
    set (vs := validate (h_kind C h) m _ _ _ _ _) in *. clearbody vs.
    destruct (is_success vs) eqn:E1; simpl.
    + apply is_success_true in E1. rewrite <- K7.
      apply loop_documented; rewrite ?K7, ?K8; auto.
      * destruct V as [[_ V]|[V _]]; [exact V|congruence].
      * intros X. specialize (Hx X). destruct K10 as [K|K]; [congruence|congruence].
      * destruct Hv as [Hv|[(Hv1&Hv2&Hv3)|Hv]]; auto.
        right; left. split; [exact Hv1|]. destruct K10 as [K|K]; [congruence|]. rewrite <- K. exact Hv3.
    + rewrite E1. apply is_success_false in E1.
      apply doc_refused with (m := m); auto.
      destruct V as [[V _]|[_ V]]; [congruence|exact V].
  - rewrite E0. apply doc_no_method; [|apply is_success_false; exact E0].
    unfold resolve in R. destruct h as [[om os oa ol oi] hu ha hl hi hk hd hv ht hc]. simpl in *.
    unfold documented_method. simpl.
    destruct om; simpl in R; try (injection R as <- _; discriminate E0).
    destruct hk; simpl in R; try (injection R as <- _; discriminate E0); try reflexivity.
    destruct (Qeq_bool oa 0) eqn:E; simpl in R; [injection R as <- _; discriminate E0|reflexivity].
Qed.

(** What a fit leaves behind. *)
Definition lost_by (k : kind) (m : meth) : bool := match k with Kmse => spoils m | _ => false end.
Definition lose (b : bool) (v : view) : view :=
  mkView (v_copy v) (v_x v) (v_y v) (v_cm v) (v_tr v) (v_lost v || b) (v_xv v).

Lemma loop_state (st : W) (h : handle) t m :
  m <> Mauto -> h_kind C h <> Kundef -> (h_kind C h = Klogistic -> m = Mlbfgs) ->
  o_meth (h_opts C h) = m ->
  (v_xv (h_view C h) = true -> m = Mcoord) ->
  (h_view C h = raw t (v_xv (h_view C h)) \/
   (h_kind C h = Kmse /\ (spoils m = true \/ (h_us C h <> Snone /\ h_us C h <> Sauto))) \/
   (h_kind C h <> Kmse /\ t_row t = true /\
    h_view C h = mkView true Snone Snone true false false (v_xv (h_view C h)))) ->
  let h' := snd (fst (loop C W solve lambda' t m st h)) in
  let sc := required m (h_us C h) (h_icept C h) (well t (h_icept C h)) false in
  h_data C h' = h_data C h /\ h_kind C h' = h_kind C h /\ h_us C h' = h_us C h /\
  o_alpha (h_opts C h') = o_alpha (h_opts C h) /\ o_lambda (h_opts C h') = o_lambda (h_opts C h) /\
  o_icept (h_opts C h') = o_icept (h_opts C h) /\
  (h_trained C h' = is_success (fst (fst (loop C W solve lambda' t m st h)))) /\
  ((o_meth (h_opts C h') = m /\ o_scal (h_opts C h') = sc /\
    h_view C h' = lose (lost_by (h_kind C h) m) (canonical t (h_kind C h) m sc (h_icept C h))) \/
   (h_kind C h = Kmse /\ o_meth (h_opts C h') = Msvd /\ v_xv (h_view C h') = false /\
    exists c, c_meth c = Mchol /\ fst (solve c st) = st_numerical_difficulties)).
Proof.
  intros Hm Hku Hkl Ho Hx Hv h' sc. subst h'.
  destruct h as [ho hu ha hl hi hk hd hv ht hc]. simpl in *.
  unfold loop. simpl.
  set (w := well t hi) in *. fold sc.
  assert (Hsc : sc <> Sauto) by apply required_not_auto.
  assert (Hv1 : hv = raw t (v_xv hv) \/ (hk = Kmse /\ (spoils m = true \/ sc <> Snone)) \/
                (hk <> Kmse /\ t_row t = true /\ hv = mkView true Snone Snone true false false (v_xv hv))).
  { destruct Hv as [V|[[V1 [V2|[V2 V3]]]|V]]; auto.
    right; left. split; [exact V1|]. right. unfold sc, required.
    destruct (scal_eqb hu Sauto) eqn:E; [apply scal_eqb_eq in E; congruence|].
    simpl. exact V2. }
  pose proof (view_canonical t hk m sc hi hv Hm Hsc Hku Hkl Hx Hv1) as VC. fold w in VC.
  unfold attempt. simpl. rewrite VC.
  match goal with |- context [solve ?c st] => set (c1 := c) in * end.
  assert (Keep : forall s0, fst (solve c1 st) = s0 -> (s0 = st_numerical_difficulties -> m <> Mchol) ->
    let r := match s0, m with
             | st_numerical_difficulties, Mchol => false
             | _, _ => true
             end in r = true).
  { intros s0 _ N. destruct s0; try reflexivity. destruct m; try reflexivity. exfalso. apply N; reflexivity. }
  assert (L : lose (lost_by hk m) (canonical t hk m sc hi) =
              mkView (v_copy (canonical t hk m sc hi)) (v_x (canonical t hk m sc hi))
                     (v_y (canonical t hk m sc hi)) (v_cm (canonical t hk m sc hi))
                     (v_tr (canonical t hk m sc hi))
                     (v_lost (canonical t hk m sc hi) || match hk with Kmse => spoils m | _ => false end)
                     (v_xv (canonical t hk m sc hi))) by reflexivity.
  destruct (fst (solve c1 st)) eqn:ES;
    try (simpl; rewrite L; repeat (split; [reflexivity|]); left; repeat split; exact Ho).
  destruct (meth_eqb m Mchol) eqn:EM.
  2:{ assert (m <> Mchol) by (intros ->; discriminate).
      destruct m; try (exfalso; congruence); simpl; rewrite L; repeat (split; [reflexivity|]); left;
        repeat split; exact Ho. }
  apply meth_eqb_eq in EM. rewrite EM in Ho. subst m.
  assert (hk = Kmse) by (destruct hk; [congruence|reflexivity|specialize (Hkl eq_refl); discriminate Hkl]).
  subst hk.
  unfold retry, attempt. simpl h_kind. cbv iota.
  assert (V1 : forall v, v_lost v = false ->
     mkView (v_copy v) (v_x v) (v_y v) (v_cm v) (v_tr v) (v_lost v || spoils Mchol) (v_xv v) = v).
  { intros [a1 a2 a3 a4 a5 a6 a7] Lo. simpl in Lo. subst a6. reflexivity. }
  rewrite (V1 (canonical t Kmse Mchol sc hi) eq_refl).
  cbn [fst snd h_data h_kind h_us h_opts h_trained h_view h_icept h_alpha h_lambda h_coef
       set_scaling with_opts put o_meth o_alpha o_lambda o_icept o_scal v_xv].
  repeat (split; [reflexivity|]). right. repeat split.
  - set (ag := again t hu hi w sc Msvd Mchol (canonical t Kmse Mchol sc hi)).
    destruct ag; [|reflexivity].
    unfold preprocess, copying. simpl. rewrite !andb_false_r. reflexivity.
  - exists c1. split; [reflexivity|exact ES].
Qed.

(** Between calls. *)
Definition Inv (used : bool) (u : opts) (d : option table) (k : kind) (h : handle) : Prop :=
  h_data C h = d /\ h_kind C h = k /\
  o_alpha (h_opts C h) = o_alpha u /\ o_lambda (h_opts C h) = o_lambda u /\
  o_icept (h_opts C h) = o_icept u /\
  match d with
  | None => v_xv (h_view C h) = false /\ h_trained C h = false
  | Some t =>
      proper_start t k (effective C h) (h_view C h) /\
      (used = false -> h_view C h = raw t (v_xv (h_view C h)) /\ h_trained C h = false)
  end.

Lemma effective_read h : effective C (read_options C h) = effective C h.
Proof.
  unfold effective, read_options. destruct h as [[om os oa ol oi] hu ha hl hi hk hd hv ht hc]. simpl.
  destruct hu; simpl; try reflexivity. destruct os; reflexivity.
Qed.

Lemma resolve_state h s0 h1 :
  resolve C h = (s0, h1) ->
  h_us C h1 = o_scal (effective C h) /\
  h_data C h1 = h_data C h /\ h_kind C h1 = h_kind C h /\ h_view C h1 = h_view C h /\
  h_icept C h1 = o_icept (h_opts C h) /\
  o_alpha (h_opts C h1) = o_alpha (h_opts C h) /\ o_lambda (h_opts C h1) = o_lambda (h_opts C h) /\
  o_icept (h_opts C h1) = o_icept (h_opts C h) /\ o_scal (h_opts C h1) = o_scal (h_opts C h) /\
  h_trained C h1 = h_trained C h /\
  o_scal (effective C h1) = o_scal (effective C h) /\
  (s0 = st_success -> o_meth (h_opts C h1) <> Mauto) /\
  (o_meth (h_opts C h) = Mauto \/ o_meth (h_opts C h1) = o_meth (h_opts C h)).
Proof.
  intros R. unfold resolve in R.
  destruct h as [[om os oa ol oi] hu ha hl hi hk hd hv ht hc].
  assert (S : (if scal_eqb (if scal_eqb hu Sauto then os else hu) Sauto then os
               else if scal_eqb hu Sauto then os else hu) = (if scal_eqb hu Sauto then os else hu)).
  { destruct hu; simpl; try reflexivity. destruct os; reflexivity. }
  unfold effective. simpl in *.
  destruct om; simpl in R;
    try (injection R as <- <-; simpl; rewrite S; repeat (split; [reflexivity|]); split;
         [intros _; discriminate|right; reflexivity]).
  destruct hk; simpl in R; try destruct (Qeq_bool oa 0) eqn:E; simpl in R;
    injection R as <- <-; simpl; rewrite S; repeat (split; [reflexivity|]);
    (split; [intros X; discriminate|left; reflexivity]).
Qed.

Lemma proper_resolved t k h h1 :
  proper_start t k (effective C h) (h_view C h) ->
  h_view C h1 = h_view C h ->
  o_scal (effective C h1) = o_scal (effective C h) ->
  (o_meth (h_opts C h) = Mauto \/ o_meth (h_opts C h1) = o_meth (h_opts C h)) ->
  proper_start t k (effective C h1) (h_view C h1).
Proof.
  intros [P1 P2] Ev Es Hm. rewrite Ev.
  assert (Em : o_meth (effective C h) = o_meth (h_opts C h)) by reflexivity.
  assert (Em1 : o_meth (effective C h1) = o_meth (h_opts C h1)) by reflexivity.
  split.
  - intros X. specialize (P1 X). destruct Hm as [Hm|Hm]; congruence.
  - destruct P2 as [P2|[(P2&P3&P4)|P2]]; auto.
    right; left. destruct Hm as [Hm|Hm]; [congruence|].
    rewrite Em1, Hm, Es, <- Em. auto.
Qed.

Lemma fit_inv st used u d k h :
  Inv used u d k h ->
  Inv true u d k (snd (fst (fit C W solve lambda' st h))) /\
  (never_retries solve -> forall t, d = Some t -> h_trained C h = false ->
     let h' := snd (fst (fit C W solve lambda' st h)) in
     h_trained C h' = is_success (fst (fst (fit C W solve lambda' st h))) /\
     (o_meth (h_opts C h) <> Mauto -> o_meth (h_opts C h') = o_meth (h_opts C h)) /\
     (o_scal (effective C h) <> Sauto ->
      h_us C h' = o_scal (effective C h) /\
      (o_scal (h_opts C h') = o_scal (h_opts C h) \/ o_scal (h_opts C h') = o_scal (effective C h)))).
Proof.
  intros (I1&I2&I3&I4&I5&I6). unfold fit. rewrite I1. destruct d as [t|].
  2:{ split; [|intros _ t X; discriminate]. simpl. do 5 (split; [assumption|]). exact I6. }
  destruct I6 as [P U].
  destruct (h_trained C h) eqn:ET.
  { split; [|intros _ t' _ X; discriminate]. simpl. do 5 (split; [assumption|]).
    split; [exact P|discriminate]. }
  destruct (resolve C h) as [s0 h1] eqn:R.
  destruct (resolve_state _ _ _ R) as (Q1&Q2&Q3&Q4&Q5&Q6&Q7&Q8&Q9&Q10&Q11&Q12&Q13).
  assert (P1 : proper_start t k (effective C h1) (h_view C h1)) by (eapply proper_resolved; eauto).
  assert (J1 : Inv true u (Some t) k h1).
  { unfold Inv. rewrite Q2, Q3, Q6, Q7, Q8. do 5 (split; [assumption|]).
    split; [exact P1|discriminate]. }
  assert (K1 : h_trained C h1 = false) by congruence.
  assert (M1 : o_meth (h_opts C h) <> Mauto -> o_meth (h_opts C h1) = o_meth (h_opts C h)) by tauto.
  destruct (is_success s0) eqn:E0; simpl.
  2:{ split; [exact J1|]. intros _ t' _ _. rewrite K1, E0. auto. }
  apply is_success_true in E0. specialize (Q12 E0).
  set (m := o_meth (h_opts C h1)) in *.
  assert (VS := validate_spec (h_kind C h1) m t (effective C h)).
  cbv zeta in VS. rewrite <- Q1 in VS.
  assert (X1 : o_icept (effective C h) = h_icept C h1) by (rewrite Q5; reflexivity).
  assert (X2 : o_alpha (effective C h) = h_alpha C h1 /\ o_lambda (effective C h) = h_lambda C h1).
  { clear - R. unfold resolve in R. destruct h as [[om os oa ol oi] hu ha hl hi hk hd hv ht hc]. simpl in *.
    destruct om; simpl in R; try (injection R as <- <-; split; reflexivity).
    destruct hk; simpl in R; try destruct (Qeq_bool oa 0); simpl in R; injection R as <- <-; split; reflexivity. }
  destruct X2 as [X2 X3]. rewrite X1, X2, X3 in VS.
  set (vs := validate (h_kind C h1) m _ _ _ _ _) in *. clearbody vs.
  destruct (is_success vs) eqn:E1; simpl.
  2:{ split; [exact J1|]. intros _ t' _ _. rewrite K1, E1. auto. }
  apply is_success_true in E1.
  assert (NR : ~ refused (h_kind C h1) (effective C h) m t) by (destruct VS as [[_ V]|[V _]]; [exact V|congruence]).
  assert (Hku : h_kind C h1 <> Kundef). { intros X. rewrite X in NR. apply NR. exact I. }
  assert (Hkl : h_kind C h1 = Klogistic -> m = Mlbfgs).
  { intros X. rewrite X in NR. destruct (meth_eqb m Mlbfgs) eqn:E; [apply meth_eqb_eq; exact E|].
    exfalso. apply NR. left. intros Y. rewrite Y in E. discriminate. }
  destruct P1 as [PA PB].
  assert (HV : h_view C h1 = raw t (v_xv (h_view C h1)) \/
   (h_kind C h1 = Kmse /\ (spoils m = true \/ (h_us C h1 <> Snone /\ h_us C h1 <> Sauto))) \/
   (h_kind C h1 <> Kmse /\ t_row t = true /\
    h_view C h1 = mkView true Snone Snone true false false (v_xv (h_view C h1)))).
  { rewrite Q3, I2, Q1, <- Q11. destruct PB as [PB|[(PB1&_&PB)|PB]]; auto. }
  pose proof (loop_state st h1 t m Q12 Hku Hkl eq_refl PA HV) as LS. cbv zeta in LS.
  set (h' := snd (fst (loop C W solve lambda' t m st h1))) in *.
  destruct LS as (L1&L2&L3&L4&L5&L6&L7&L8).
  set (sc := required m (h_us C h1) (h_icept C h1) (well t (h_icept C h1)) false) in *.
  assert (Hsc : sc <> Sauto) by apply required_not_auto.
  assert (SU : h_us C h1 <> Sauto -> sc = h_us C h1).
  { intros N. unfold sc, required. destruct (scal_eqb (h_us C h1) Sauto) eqn:E; [apply scal_eqb_eq in E; congruence|reflexivity]. }
  split.
  - unfold Inv. rewrite L1, L2, L4, L5, L6, Q2, Q3, Q6, Q7, Q8. do 5 (split; [assumption|]).
    split; [|discriminate].
    destruct L8 as [(A1&A2&A3)|(A1&A2&A3&_)].
    + assert (ES : o_scal (effective C h') = sc).
      { unfold effective. simpl. rewrite L3, A2.
        destruct (scal_eqb (h_us C h1) Sauto) eqn:E; [reflexivity|]. symmetry. apply SU.
        intros X. rewrite X in E. discriminate. }
      assert (EMm : o_meth (effective C h') = m) by exact A1.
      split; rewrite ?EMm, ?ES, A3.
      * rewrite Q3, I2. unfold lose, canonical. destruct k; simpl; try discriminate. apply meth_eqb_eq.
      * rewrite Q3, I2 in *. unfold lose, canonical. destruct k; simpl; [congruence| |].
        -- destruct (spoils m) eqn:Ep; [right; left; repeat split; auto|].
           destruct (scal_eqb sc Snone) eqn:En; [|right; left; repeat split; auto; right; split; auto;
             intros X; rewrite X in En; discriminate].
           left. apply scal_eqb_eq in En. rewrite En. unfold raw, needs_cm, needs_tr. simpl.
           destruct m; try discriminate Ep; simpl; rewrite ?orb_false_r; try reflexivity.
        -- destruct (t_row t) eqn:Er; [right; right; repeat split; discriminate|].
           left. unfold raw. rewrite Er. reflexivity.
    + assert (EMm : o_meth (effective C h') = Msvd) by exact A2.
      split; rewrite ?EMm.
      * rewrite A3. discriminate.
      * right; left. split; [congruence|]. split; [discriminate|left; reflexivity].
  - intros NRt t' _ _. split; [exact L7|].
    destruct L8 as [(A1&A2&A3)|(_&_&_&c&B1&B2)]; [|exfalso; eapply NRt; eauto].
    split; [intros N; rewrite A1; apply M1; exact N|].
    intros N. rewrite L3, A2. split; [exact Q1|right]. rewrite SU; [exact Q1|]. rewrite Q1. exact N.
Qed.

Lemma step_inv used u d k h o :
  Inv used u d k h -> no_switch W used k [o] ->
  exists used', Inv used' (asked W u [o]) (last_data W d [o]) (last_kind W k [o])
                    (step C W solve lambda' h o) /\
                forall l, no_switch W used k (o :: l) -> no_switch W used' (last_kind W k [o]) l.
Proof.
  intros HI NS. destruct o as [s|t|k'|st]; simpl in *.
  - exists false. split; [|intros l H; exact H].
    destruct HI as (I1&I2&I3&I4&I5&I6). unfold Inv, set_option. simpl.
    split; [exact I1|]. split; [exact I2|].
    assert (A : o_alpha (put (h_opts C h) s) = o_alpha (put u s) /\
                o_lambda (put (h_opts C h) s) = o_lambda (put u s) /\
                o_icept (put (h_opts C h) s) = o_icept (put u s)).
    { destruct s; simpl; auto. }
    destruct A as (A1&A2&A3). repeat (split; [assumption|]).
    rewrite I1. destruct d as [t|]; [|split; [apply I6|reflexivity]].
    split; [|intros _; split; reflexivity].
    split; [discriminate|left; reflexivity].
  - exists false. split; [|intros l H; exact H].
    destruct HI as (I1&I2&I3&I4&I5&I6). unfold Inv, define. simpl.
    repeat (split; [assumption || reflexivity|]).
    split; [|intros _; split; reflexivity].
    split; [|left; reflexivity].
    simpl. intros X. destruct d as [t0|]; [|destruct I6; congruence].
    destruct I6 as [[P _] _]. apply P. exact X.
  - exists used. split; [|intros l [_ H]; exact H].
    destruct NS as [NS _]. destruct HI as (I1&I2&I3&I4&I5&I6). unfold Inv, select. simpl.
    repeat (split; [assumption || reflexivity|]).
    destruct d as [t|]; [|destruct I6 as [A B]; rewrite B; split; [exact A|reflexivity]].
    destruct I6 as [P U].
    assert (EE : effective C (mkHandle C (h_opts C h) (h_us C h) (h_alpha C h) (h_lambda C h)
       (h_icept C h) k' (h_data C h) (h_view C h) (h_trained C h && kind_eqb k' (h_kind C h)) (h_coef C h))
       = effective C h) by reflexivity.
    rewrite EE. destruct used.
    + rewrite (NS eq_refl). split; [exact P|discriminate].
    + destruct (U eq_refl) as [U1 U2]. split.
      * destruct P as [P _]. split; [exact P|left; exact U1].
      * intros _. split; [exact U1|]. rewrite U2. reflexivity.
  - exists true. split; [|intros l H; exact H].
    eapply proj1. eapply fit_inv. exact HI.
Qed.

(** The part that holds when no fit changes solver. *)
Definition Kept (u : opts) (d : option table) (k : kind) (h : handle) : Prop :=
  (o_meth u <> Mauto -> o_meth (h_opts C h) = o_meth u) /\
  (o_scal u <> Sauto -> o_scal (h_opts C h) = o_scal u /\
                        (h_us C h = Sauto \/ h_us C h = o_scal u)).

Definition Trained (fits : list W) (u : opts) (d : option table) (k : kind) (h : handle) : Prop :=
  h_trained C h = true -> explicit u ->
  exists t w calls, d = Some t /\ In w fits /\
    documented C W solve u t k w st_success (h_coef C h) calls.

Lemma kept_effective used u d k h :
  Inv used u d k h -> Kept u d k h -> explicit u -> effective C h = u.
Proof.
  intros (I1&I2&I3&I4&I5&_) [K1 K2] [E1 E2]. unfold effective.
  specialize (K1 E1). destruct (K2 E2) as [K3 K4]. destruct u as [um us ua ul ui]. simpl in *.
  rewrite I3, I4, I5, K1, K3. f_equal. destruct K4 as [K4|K4]; rewrite K4; simpl; [reflexivity|].
  destruct us; reflexivity.
Qed.

Lemma documented_some e t k st s co calls :
  documented C W solve e t k st s co calls -> s = st_success -> exists x, co = Some x.
Proof.
  intros D Hs. destruct D; try congruence; rewrite Hs; simpl; eauto.
Qed.

Lemma step_kept used u d k h o fits :
  never_retries solve ->
  Inv used u d k h -> no_switch W used k [o] -> Kept u d k h -> Trained fits u d k h ->
  Kept (asked W u [o]) (last_data W d [o]) (last_kind W k [o]) (step C W solve lambda' h o) /\
  Trained (fits ++ fits_of W [o]) (asked W u [o]) (last_data W d [o]) (last_kind W k [o])
          (step C W solve lambda' h o).
Proof.
  intros NR HI NS HK HT. destruct o as [s|t|k'|st]; simpl in *.
  - split; [|intros X; discriminate].
    destruct HK as [K1 K2]. unfold Kept, set_option. simpl.
    destruct s; simpl; split; auto; intros N; try (destruct (K2 N); auto).
  - split; [exact HK|intros X; discriminate].
  - split; [exact HK|]. rewrite app_nil_r. intros X E. simpl in X. apply andb_true_iff in X. destruct X as [X1 X2].
    apply kind_eqb_eq in X2. assert (Hk : h_kind C h = k) by apply HI. subst k'. rewrite Hk. simpl.
    apply HT; assumption.
  - destruct (fit_inv st used u d k h HI) as [_ F].
    pose proof HI as (I1&I2&I3&I4&I5&I6).
    destruct d as [t|].
    2:{ unfold fit. rewrite I1. simpl. split; [exact HK|]. intros X E.
        destruct I6 as [_ I6]. congruence. }
    destruct (h_trained C h) eqn:ET.
    { unfold fit. rewrite I1, ET. simpl. split; [exact HK|]. intros X E.
      destruct (HT ET E) as (t0&w&calls&A1&A2&A3). exists t0, w, calls. split; [exact A1|].
      split; [apply in_or_app; left; exact A2|exact A3]. }
    destruct (F NR t eq_refl eq_refl) as (F1&F2&F3). clear F.
    split.
    + destruct HK as [K1 K2]. split.
      * intros N. rewrite F2; [apply K1; exact N|rewrite K1; exact N].
      * intros N. destruct (K2 N) as [K3 K4].
        assert (EE : o_scal (effective C h) = o_scal u).
        { unfold effective. simpl. destruct K4 as [K4|K4]; rewrite K4; simpl; [exact K3|].
          destruct (scal_eqb (o_scal u) Sauto) eqn:E; [exact K3|reflexivity]. }
        rewrite EE in F3. destruct (F3 N) as [F4 F5]. rewrite F4. split; [|right; reflexivity].
        destruct F5 as [F5|F5]; congruence.
    + intros X E. rewrite F1 in X.
      assert (EE := kept_effective _ _ _ _ _ HI HK E).
      destruct I6 as [P _]. rewrite <- I2 in P.
      pose proof (fit_documented st h t I1 ET P) as D. cbv zeta in D. rewrite EE, I2, X in D.
      apply is_success_true in X. rewrite X in D.
      exists t, st, (snd (fit C W solve lambda' st h)). split; [reflexivity|].
      split; [apply in_or_app; right; left; reflexivity|exact D].
Qed.

Lemma run_inv ops : forall used u d k h,
  Inv used u d k h -> no_switch W used k ops ->
  exists used', Inv used' (asked W u ops) (last_data W d ops) (last_kind W k ops)
                    (fold_left (step C W solve lambda') ops h).
Proof.
  induction ops as [|o l IH]; intros used u d k h HI NS; [exists used; exact HI|].
  assert (N1 : no_switch W used k [o]) by (destruct o; simpl in *; tauto).
  destruct (step_inv used u d k h o HI N1) as (used' & H1 & H2).
  specialize (H2 l NS).
  destruct (IH used' _ _ _ _ H1 H2) as [used'' H3]. exists used''.
  destruct o; exact H3.
Qed.

Lemma run_kept ops : forall used u d k h fits,
  never_retries solve ->
  Inv used u d k h -> no_switch W used k ops -> Kept u d k h -> Trained fits u d k h ->
  Kept (asked W u ops) (last_data W d ops) (last_kind W k ops)
       (fold_left (step C W solve lambda') ops h) /\
  Trained (fits ++ fits_of W ops) (asked W u ops) (last_data W d ops) (last_kind W k ops)
          (fold_left (step C W solve lambda') ops h).
Proof.
  induction ops as [|o l IH]; intros used u d k h fits NR HI NS HK HT.
  { rewrite app_nil_r. split; assumption. }
  assert (N1 : no_switch W used k [o]) by (destruct o; simpl in *; tauto).
  destruct (step_inv used u d k h o HI N1) as (used' & H1 & H2).
  specialize (H2 l NS).
  destruct (step_kept used u d k h o fits NR HI N1 HK HT) as [H3 H4].
  destruct (IH used' _ _ _ _ _ NR H1 H2 H3 H4) as [H5 H6].
  destruct o; simpl in *; (split; [exact H5|]); try exact H6;
    rewrite ?app_nil_r in H6; try exact H6.
  rewrite <- app_assoc in H6. exact H6.
Qed.

Lemma new_inv : Inv false opts0 None Kundef (new C).
Proof. repeat split. Qed.

Lemma new_kept : Kept opts0 None Kundef (new C).
Proof. split; intros X; exfalso; apply X; reflexivity. Qed.

Lemma new_trained : Trained [] opts0 None Kundef (new C).
Proof. intros X. discriminate X. Qed.

(** A fit after any history that does not switch models. *)
Lemma history_documented ops st t :
  no_switch W false Kundef ops -> last_data W None ops = Some t ->
  let h := run C W solve lambda' ops in
  h_trained C h = false ->
  let r := fit C W solve lambda' st h in
  documented C W solve (effective C h) t (last_kind W Kundef ops) st (fst (fst r))
    (if is_success (fst (fst r)) then h_coef C (snd (fst r)) else None) (snd r) /\
  o_alpha (effective C h) = o_alpha (asked W opts0 ops) /\
  o_lambda (effective C h) = o_lambda (asked W opts0 ops) /\
  o_icept (effective C h) = o_icept (asked W opts0 ops).
Proof.
  intros NS D h T r.
  destruct (run_inv ops false opts0 None Kundef (new C) new_inv NS) as [used (I1&I2&I3&I4&I5&I6)].
  change (fold_left (step C W solve lambda') ops (new C)) with h in *. clearbody h.
  rewrite D in *. destruct I6 as [P _].
  rewrite <- I2. split; [|auto].
  apply fit_documented; auto. rewrite I2. exact P.
Qed.

Lemma documented_calls e t k st s co calls c :
  documented C W solve e t k st s co calls -> In c calls -> faithful e t k c.
Proof.
  intros D Hc. destruct D; simpl in Hc; try tauto.
  - destruct Hc as [<-|[]]. assumption.
  - destruct Hc as [<-|[<-|[]]]; assumption.
Qed.

Lemma history_explicit ops st t :
  never_retries solve ->
  no_switch W false Kundef ops -> last_data W None ops = Some t ->
  explicit (asked W opts0 ops) ->
  let h := run C W solve lambda' ops in
  let u := asked W opts0 ops in
  let k := last_kind W Kundef ops in
  let r := fit C W solve lambda' st h in
  if h_trained C h
  then r = (st_success, h, []) /\
       exists w calls, In w (fits_of W ops) /\ documented C W solve u t k w st_success (h_coef C h) calls
  else documented C W solve u t k st (fst (fst r))
         (if is_success (fst (fst r)) then h_coef C (snd (fst r)) else None) (snd r).
Proof.
  intros NR NS D E h u k r.
  destruct (run_inv ops false opts0 None Kundef (new C) new_inv NS) as [used HI].
  destruct (run_kept ops false opts0 None Kundef (new C) [] NR new_inv NS new_kept new_trained)
    as [HK HT].
  change (fold_left (step C W solve lambda') ops (new C)) with h in *.
  fold u k in HI, HK, HT, E. simpl in HT. rewrite D in HI, HK, HT.
  assert (EE := kept_effective _ _ _ _ _ HI HK E).
  destruct (h_trained C h) eqn:ET.
  - split.
    + subst r. unfold fit. destruct HI as (I1&_). rewrite I1, ET. reflexivity.
    + destruct (HT ET E) as (t0&w&calls&A1&A2&A3). injection A1 as <-. exists w, calls. auto.
  - destruct (history_documented ops st t NS D ET) as [HD _]. fold h in HD. rewrite EE in HD. exact HD.
Qed.

(** The first fit. *)
Lemma first_documented ss t k st :
  let ops := map Oset ss ++ [Odefine t; Oselect k] in
  let h := run C W solve lambda' ops in
  let r := fit C W solve lambda' st h in
  documented C W solve (fold_left put ss opts0) t k st (fst (fst r))
    (if is_success (fst (fst r)) then h_coef C (snd (fst r)) else None) (snd r).
Proof.
  intros ops h r.
  assert (A : forall ss (h0 : handle), h_us C h0 = Sauto -> h_data C h0 = None -> h_trained C h0 = false ->
     v_xv (h_view C h0) = false ->
     let h1 := fold_left (step C W solve lambda') (map Oset ss) h0 in
     h_us C h1 = Sauto /\ h_data C h1 = None /\ h_trained C h1 = false /\ v_xv (h_view C h1) = false /\
     h_opts C h1 = fold_left put ss (h_opts C h0)).
  { clear. induction ss as [|x l IH]; intros h0 A1 A2 A3 A4; simpl; [auto|].
    apply IH; try reflexivity; simpl; auto. rewrite A2. exact A4. }
  destruct (A ss (new C) eq_refl eq_refl eq_refl eq_refl) as (B1&B2&B3&B4&B5).
  assert (Hh : h = select C k (define C t (fold_left (step C W solve lambda') (map Oset ss) (new C)))).
  { unfold h, run, ops. rewrite fold_left_app. reflexivity. }
  set (h1 := fold_left (step C W solve lambda') (map Oset ss) (new C)) in *.
  assert (EE : effective C h = fold_left put ss opts0).
  { rewrite Hh. unfold effective. simpl. rewrite B1. simpl. rewrite B5. simpl.
    destruct (fold_left put ss opts0); reflexivity. }
  rewrite <- EE.
  assert (HK : h_kind C h = k) by (rewrite Hh; reflexivity).
  rewrite <- HK. apply fit_documented.
  - rewrite Hh. reflexivity.
  - rewrite Hh. reflexivity.
  - rewrite Hh. split; simpl; [rewrite B4; discriminate|left; reflexivity].
Qed.

(** Without regularisation nothing is rescaled. *)
Lemma attempt_lambda t m s w b st h :
  h_lambda C (snd (fst (attempt C W solve lambda' t m s w b st h)))
  = lambda' (snd (attempt C W solve lambda' t m s w b st h)).
Proof. reflexivity. Qed.

(** The documented call is unique. *)
Lemma faithful_unique o t k c c' :
  faithful o t k c -> fresh_marks c -> faithful o t k c' -> fresh_marks c' ->
  c_meth c = c_meth c' -> c_scal c = c_scal c' -> c = c'.
Proof.
  destruct c as [d1 k1 m1 s1 i1 a1 l1 v1], c' as [d2 k2 m2 s2 i2 a2 l2 v2].
  intros (F1&F2&F3&F4&F5&P) [M1 M2] (G1&G2&G3&G4&G5&Q) [N1 N2] Hm Hs. simpl in *. subst.
  f_equal. destruct P as [P1 P2 P3 P4 P5 P6], Q as [Q1 Q2 Q3 Q4 Q5 Q6]. simpl in *.
  assert (B : forall a b : bool, (a = true <-> b = true) -> a = b) by (intros [|] [|]; tauto || intuition congruence).
  assert (V1 : v_copy v1 = v_copy v2) by (apply B; tauto).
  assert (V2 : v_tr v1 = v_tr v2) by (apply B; tauto).
  assert (V3 : v_xv v1 = v_xv v2) by (apply B; tauto).
  assert (V4 : v_cm v1 = v_cm v2).
  { unfold layout_cm in *. destruct k; try congruence.
    destruct P4 as (A1&A2&A3), Q4 as (B1&B2&B3). destruct (t_row t) eqn:Er; [|rewrite A1, B1; reflexivity].
    assert (Dm : m2 = Msvd \/ m2 <> Msvd) by (destruct m2; (left; reflexivity) || (right; discriminate)).
    assert (Dq : (m2 = Mqr /\ ~ under t (o_icept o)) \/ ~ (m2 = Mqr /\ ~ under t (o_icept o))).
    { destruct (well t (o_icept o)) eqn:Ew.
      - apply well_not_under in Ew. destruct m2; try (right; intros [X _]; discriminate). left; auto.
      - apply well_under in Ew. right. tauto. }
    destruct Dm as [Dm|Dm]; [rewrite A2, B2 by auto; reflexivity|].
    destruct Dq as [Dq|Dq]; [rewrite A2, B2 by auto; reflexivity|].
    rewrite A3, B3 by auto. reflexivity. }
  destruct v1, v2; simpl in *. subst. reflexivity.
Qed.
End Inv.
