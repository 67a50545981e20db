From Coq Require Import ZArith List Bool Lia Permutation.
From Verif Require Import Base Par SplitModel SplitSpec.
Import ListNotations.
Local Open Scope Z_scope.

Section Exec.
  Context {T : Type} (X : Z -> T).

  Lemma execute_untouched tr : forall mem t d,
    (forall w, In w tr -> ~ (wto w = t /\ wdst w = d)) -> execute X mem tr t d = mem t d.
  Proof.
    induction tr as [|w tr IH]; intros mem t d H; cbn; auto.
    change (execute X (assign X mem w) tr t d = mem t d).
    rewrite IH by (intros; apply H; right; auto).
    pose proof (H w (or_introl eq_refl)) as Hw. unfold assign.
    destruct t, (wto w); auto; destruct (Z.eqb_spec d (wdst w)); auto; exfalso; apply Hw; auto.
  Qed.

  Lemma execute_written tr : forall mem w,
    In w tr ->
    (forall w', In w' tr -> wto w' = wto w -> wdst w' = wdst w -> wsrc w' = wsrc w) ->
    execute X mem tr (wto w) (wdst w) = X (wsrc w).
  Proof.
    induction tr as [|v tr IH]; intros mem w Hin Hc; [contradiction|].
    change (execute X (assign X mem v) tr (wto w) (wdst w) = X (wsrc w)).
    destruct (in_dec (fun x y : write => ltac:(decide equality; try apply Z.eq_dec;
       decide equality) : {x = y} + {x <> y}) w tr) as [Hw|Hw].
    - apply IH; auto. intros; apply Hc; auto. right; auto.
    - destruct Hin as [->|]; [|contradiction].
      destruct (Exists_dec (fun u => wto u = wto w /\ wdst u = wdst w) tr) as [He|He].
      { intros u. destruct (wto u), (wto w), (Z.eq_dec (wdst u) (wdst w));
          try (left; split; congruence); right; intros []; congruence. }
      + exfalso. apply Exists_exists in He. destruct He as (u & Hu & E1 & E2).
        apply Hw. replace w with u; auto.
        destruct u, w; cbn in *; subst. f_equal. apply (Hc _ (or_intror Hu)); auto.
      + rewrite execute_untouched.
        * unfold assign. destruct (wto w); rewrite Z.eqb_refl; auto.
        * intros u Hu Hn. apply He. apply Exists_exists. eauto.
  Qed.
End Exec.

(** The set of assignments of a correct split. *)
Definition good (a : args) (w : write) : Prop :=
  exists t r c, 0 <= r < rows_of a t /\ 0 <= c < n a /\
    w = mkWrite t (pos (ord a) (ld_of a t) r c) (pos (ord a) (ldx a) (chosen a t r) c).

Lemma validate_success bits a : validate bits a = Some st_success -> constraints a.
Proof.
  unfold validate, constraints. intros H.
  destruct (nulX a), (nulTrain a), (nulTest a); try discriminate. cbn [orb] in H.
  destruct (Z.ltb_spec (m a) 2); [discriminate|]. cbn [orb] in H.
  destruct (Z.ltb_spec (n a) 1); [discriminate|]. cbn [orb] in H.
  destruct (ord a).
  - destruct (Z.ltb_spec (ldx a) (n a)), (Z.ltb_spec (ldtr a) (n a)),
      (Z.ltb_spec (ldte a) (n a)); try discriminate. cbn [orb] in H.
    destruct (Z.ltb_spec (train a) 1), (Z.ltb_spec (test a) 1); try discriminate. cbn [orb] in H.
    destruct (fits _ _); [|discriminate]. cbn [negb] in H.
    rewrite Z.gtb_ltb in H. destruct (Z.ltb_spec (m a) (train a + test a)); [discriminate|].
    repeat split; auto; lia.
  - destruct (Z.ltb_spec (ldx a) (m a)), (Z.ltb_spec (ldtr a) (train a)),
      (Z.ltb_spec (ldte a) (test a)); try discriminate. cbn [orb] in H.
    destruct (Z.ltb_spec (train a) 1), (Z.ltb_spec (test a) 1); try discriminate. cbn [orb] in H.
    destruct (fits _ _); [|discriminate]. cbn [negb] in H.
    rewrite Z.gtb_ltb in H. destruct (Z.ltb_spec (m a) (train a + test a)); [discriminate|].
    repeat split; auto; lia.
  - destruct (Z.ltb_spec (train a) 1), (Z.ltb_spec (test a) 1); try discriminate. cbn [orb] in H.
    destruct (fits _ _); [|discriminate]. cbn [negb] in H.
    rewrite Z.gtb_ltb in H. destruct (Z.ltb_spec (m a) (train a + test a)); [discriminate|].
    repeat split; auto; lia.
Qed.

Lemma validate_complete bits a : fits bits (train a + test a) = true -> constraints a ->
  validate bits a = Some st_success.
Proof.
  intros F (N1 & N2 & N3 & H1 & H2 & H3 & H4 & H5 & H6). unfold validate.
  rewrite N1, N2, N3. cbn [orb].
  rewrite F. rewrite (proj2 (Z.ltb_ge _ _) H1), (proj2 (Z.ltb_ge _ _) H2),
    (proj2 (Z.ltb_ge _ _) H3), (proj2 (Z.ltb_ge _ _) H4). cbn [orb negb].
  rewrite Z.gtb_ltb, (proj2 (Z.ltb_ge _ _) H5).
  destruct (ord a); auto; destruct H6 as (A & B & C);
    rewrite (proj2 (Z.ltb_ge _ _) A), (proj2 (Z.ltb_ge _ _) B), (proj2 (Z.ltb_ge _ _) C); auto.
Qed.

Lemma rows_range bits a t r : validate bits a = Some st_success -> indices_in_range a ->
  0 <= r < rows_of a t -> 0 <= chosen a t r < m a.
Proof.
  intros V I H. apply validate_success in V. destruct V as (_ & _ & _ & ? & ? & ? & ? & ? & _).
  unfold chosen, indices_in_range, rows_of in *. destruct t, (shuffle a); try apply I; lia.
Qed.

(** Characterisation of the assignments of every path. *)
Lemma serial_good a w : ord a = row_major -> constraints a ->
  In w (split_row_data_serial a) <-> good a w.
Proof.
  intros O (_ & _ & _ & _ & Hn & Htr & Hte & _). unfold split_row_data_serial, good.
  rewrite O. cbn [pos]. split.
  - intros H. destruct (train a >? test a) eqn:G; rewrite Z.gtb_ltb in G;
      (apply Z.ltb_lt in G || apply Z.ltb_ge in G); apply in_app_or in H; destruct H as [H|H];
      apply in_flat_map in H; destruct H as (i & Hi & H); apply in_zrange in Hi.
    1,3: apply in_flat_map in H; destruct H as (j & Hj & H); apply in_zrange in Hj;
         destruct H as [<-|[<-|[]]].
    + exists Train, i, j. split; [cbn; lia|split; [lia|]]. cbn [ld_of]; unfold chosen; destruct (shuffle a); f_equal; lia.
    + exists Test, i, j. split; [cbn; lia|split; [lia|]]. cbn [ld_of]; unfold chosen;
      rewrite (Z.add_comm i); destruct (shuffle a); f_equal; lia.
    + exists Train, i, j. split; [cbn; lia|split; [lia|]]. cbn [ld_of]; unfold chosen; destruct (shuffle a); f_equal; lia.
    + exists Test, i, j. split; [cbn; lia|split; [lia|]]. cbn [ld_of]; unfold chosen;
      rewrite (Z.add_comm i); destruct (shuffle a); f_equal; lia.
    + apply in_map_iff in H. destruct H as (j & <- & Hj). apply in_zrange in Hj.
      exists Train, (Z.min (train a) (test a) + i), j. split; [cbn; lia|split; [lia|]]. cbn [ld_of];
      unfold chosen; rewrite Z.add_0_r; destruct (shuffle a); f_equal; lia.
    + apply in_map_iff in H. destruct H as (j & <- & Hj). apply in_zrange in Hj.
      exists Test, (Z.min (train a) (test a) + i), j. split; [cbn; lia|split; [lia|]]. cbn [ld_of];
      unfold chosen; rewrite (Z.add_comm _ (train a)); destruct (shuffle a); f_equal; lia.
  - intros (t & r & c & Hr & Hc & ->).
    destruct (Z.ltb_spec r (Z.min (train a) (test a))) as [Hs|Hs].
    + assert (Hin : In (mkWrite t (r * ld_of a t + c) (chosen a t r * ldx a + c))
        (flat_map (fun i =>
           flat_map (fun j =>
             [mkWrite Train (i * ldtr a + j)
                (match shuffle a with None => i | Some f => f i end * ldx a + j);
              mkWrite Test (i * ldte a + j)
                (match shuffle a with None => i + train a | Some f => f (i + train a) end * ldx a + j)])
             (zrange (n a))) (zrange (Z.min (train a) (test a))))).
      { apply in_flat_map. exists r. split; [apply in_zrange; lia|].
        apply in_flat_map. exists c. split; [apply in_zrange; lia|].
        unfold chosen. destruct t; cbn [ld_of]; [left|right; left]; f_equal.
        rewrite (Z.add_comm r). reflexivity. }
      destruct (train a >? test a); apply in_or_app; left; exact Hin.
    + destruct (train a >? test a) eqn:G; rewrite Z.gtb_ltb in G;
      (apply Z.ltb_lt in G || apply Z.ltb_ge in G); apply in_or_app; right;
      (assert (t = if train a >? test a then Train else Test) as ->
        by (destruct t, (train a >? test a) eqn:G'; cbn in Hr; auto;
            rewrite Z.gtb_ltb in G'; (apply Z.ltb_lt in G' || apply Z.ltb_ge in G'); lia)).
      * assert (train a >? test a = true) as -> by (rewrite Z.gtb_ltb; apply Z.ltb_lt; lia).
        assert (train a >? test a = true) as E by (rewrite Z.gtb_ltb; apply Z.ltb_lt; lia).
        rewrite E in Hr. cbn in Hr.
        apply in_flat_map. exists (r - Z.min (train a) (test a)). split; [apply in_zrange; lia|].
        apply in_map_iff. exists c. split; [|apply in_zrange; lia]. cbn [ld_of].
        replace (Z.min (train a) (test a) + (r - Z.min (train a) (test a))) with r by lia.
        rewrite Z.add_0_r. reflexivity.
      * assert (train a >? test a = false) as E by (rewrite Z.gtb_ltb; apply Z.ltb_ge; lia).
        rewrite E in *. cbn in Hr.
        apply in_flat_map. exists (r - Z.min (train a) (test a)). split; [apply in_zrange; lia|].
        apply in_map_iff. exists c. split; [|apply in_zrange; lia]. cbn [ld_of].
        replace (Z.min (train a) (test a) + (r - Z.min (train a) (test a))) with r by lia.
        unfold chosen. rewrite (Z.add_comm r). reflexivity.
Qed.

Lemma parallel_in a t size src ld idx w :
  In w (concat (split_row_data_parallel a t size src ld idx)) <->
  exists r c, 0 <= r < size /\ 0 <= c < n a /\
    w = mkWrite t (ld * r + c)
          ((match idx with None => src + r * ldx a | Some f => src + f r * ldx a end) + c).
Proof.
  unfold split_row_data_parallel. rewrite in_concat. split.
  - intros (l & Hl & Hw). apply in_map_iff in Hl. destruct Hl as (r & <- & Hr).
    apply in_map_iff in Hw. destruct Hw as (c & <- & Hc). apply in_zrange in Hr, Hc. eauto 6.
  - intros (r & c & Hr & Hc & ->). eexists. split.
    + apply in_map_iff. exists r. split; [reflexivity|apply in_zrange; auto].
    + apply in_map_iff. exists c. split; [reflexivity|apply in_zrange; auto].
Qed.

Lemma column_in t size src dst idx w :
  In w (split_column_data t size src dst idx) <->
  exists r, 0 <= r < size /\
    w = mkWrite t (dst + r) (src + match idx with None => r | Some f => f r end).
Proof.
  unfold split_column_data. destruct idx as [f|]; rewrite in_map_iff; split.
  1,3: intros (r & <- & Hr); apply in_zrange in Hr; eauto.
  all: intros (r & Hr & ->); exists r; split; auto; apply in_zrange; auto.
Qed.

Lemma split_good bits th a rs :
  train_test_split bits th a = Some (st_success, rs) -> ord a <> other_order ->
  constraints a /\ forall w, In w (concat (map (@concat _) rs)) <-> good a w.
Proof.
  unfold train_test_split. intros H O.
  destruct (validate bits a) as [[]|] eqn:V; try discriminate.
  pose proof (validate_success _ _ V) as C. split; [exact C|]. intros w.
  inversion H; subst rs; clear H.
  destruct (ord a) eqn:Eo; [| |congruence].
  - destruct (th >? 1).
    + cbn [map concat]. rewrite app_nil_r, in_app_iff, !parallel_in. unfold good. rewrite Eo.
      cbn [pos]. split.
      * intros [(r & c & Hr & Hc & ->)|(r & c & Hr & Hc & ->)].
        -- exists Train, r, c. split; [cbn; lia|split; [lia|]]. cbn [ld_of];
           unfold chosen; destruct (shuffle a); f_equal; lia.
        -- exists Test, r, c. split; [cbn; lia|split; [lia|]]. cbn [ld_of];
           unfold chosen; destruct (shuffle a); f_equal; lia.
      * intros ([] & r & c & Hr & Hc & ->); [left|right]; exists r, c;
          (split; [exact Hr|split; [exact Hc|]]); cbn [ld_of];
          unfold chosen; destruct (shuffle a); f_equal; lia.
    + cbn [map concat]. rewrite !app_nil_r. apply serial_good; auto.
  - cbn [map concat]. rewrite app_nil_r, in_concat. unfold good. rewrite Eo. cbn [pos]. split.
    + intros (l & Hl & Hw). apply in_map_iff in Hl. destruct Hl as (c & <- & Hc).
      apply in_zrange in Hc. apply in_app_or in Hw. destruct Hw as [Hw|Hw];
        apply column_in in Hw; destruct Hw as (r & Hr & ->).
      * exists Train, r, c. split; [cbn; lia|split; [lia|]]. cbn [ld_of];
        unfold chosen; destruct (shuffle a); f_equal; lia.
      * exists Test, r, c. split; [cbn; lia|split; [lia|]]. cbn [ld_of];
        unfold chosen; destruct (shuffle a); f_equal; lia.
    + intros (t & r & c & Hr & Hc & ->). eexists. split.
      * apply in_map_iff. exists c. split; [reflexivity|apply in_zrange; auto].
      * apply in_or_app. destruct t; [left|right]; apply column_in; exists r;
          (split; [exact Hr|]); cbn [ld_of]; unfold chosen;
          destruct (shuffle a); f_equal; lia.
Qed.

Lemma pos_inj o ld rows cols r c r' c' : o <> other_order ->
  (match o with row_major => cols <= ld | _ => rows <= ld end) ->
  0 <= r < rows -> 0 <= c < cols -> 0 <= r' < rows -> 0 <= c' < cols ->
  pos o ld r c = pos o ld r' c' -> r = r' /\ c = c'.
Proof.
  intros Ho Hld Hr Hc Hr' Hc' E. destruct o; cbn [pos] in E; [| |congruence].
  - assert (r = r') by nia. subst. lia.
  - assert (c = c') by nia. subst. lia.
Qed.

Lemma ld_ok a t : constraints a -> ord a <> other_order ->
  match ord a with row_major => n a <= ld_of a t | _ => rows_of a t <= ld_of a t end.
Proof.
  intros (_ & _ & _ & _ & _ & _ & _ & _ & H) O. destruct (ord a), t; cbn; try lia; congruence.
Qed.

Lemma good_functional a w w' : constraints a -> ord a <> other_order ->
  good a w -> good a w' -> wto w' = wto w -> wdst w' = wdst w -> wsrc w' = wsrc w.
Proof.
  intros C O (t & r & c & Hr & Hc & ->) (t' & r' & c' & Hr' & Hc' & ->). cbn. intros -> E.
  destruct (pos_inj (ord a) (ld_of a t) (rows_of a t) (n a) r' c' r c) as (-> & ->); auto.
  apply ld_ok; auto.
Qed.

Lemma split_correct {T} (X : Z -> T) mem bits th a rs tr :
  train_test_split bits th a = Some (st_success, rs) -> ord a <> other_order ->
  indices_in_range a -> regions rs tr ->
  (forall t r c, 0 <= r < rows_of a t -> 0 <= c < n a ->
     execute X mem tr t (pos (ord a) (ld_of a t) r c)
     = X (pos (ord a) (ldx a) (chosen a t r) c)) /\
  (forall t d, ~ inside (ord a) (ld_of a t) (rows_of a t) (n a) d ->
     execute X mem tr t d = mem t d) /\
  (forall w, In w tr -> inside (ord a) (ldx a) (m a) (n a) (wsrc w) /\
     inside (ord a) (ld_of a (wto w)) (rows_of a (wto w)) (n a) (wdst w)).
Proof.
  intros H O I R. destruct (split_good _ _ _ _ H O) as (C & G).
  assert (V : validate bits a = Some st_success).
  { unfold train_test_split in H. destruct (validate bits a) as [[]|]; auto; discriminate. }
  assert (G' : forall w, In w tr <-> good a w).
  { intros w. rewrite <- G. split; apply Permutation_in;
      [apply Permutation_sym|]; apply regions_perm; auto. }
  split; [|split].
  - intros t r c Hr Hc.
    apply (execute_written X tr mem
             (mkWrite t (pos (ord a) (ld_of a t) r c) (pos (ord a) (ldx a) (chosen a t r) c))).
    + apply G'. exists t, r, c. auto.
    + intros w' Hw'. apply (good_functional a); auto.
      * exists t, r, c. auto.
      * apply G'. auto.
  - intros t d Hd. apply execute_untouched. intros w Hw (<- & <-). apply G' in Hw.
    destruct Hw as (t & r & c & Hr & Hc & ->). apply Hd. exists r, c. auto.
  - intros w Hw. apply G' in Hw. destruct Hw as (t & r & c & Hr & Hc & ->). cbn. split.
    + exists (chosen a t r), c. split; auto. eapply rows_range; eauto.
    + exists r, c. auto.
Qed.

Lemma split_status bits th a : fits bits (train a + test a) = true ->
  exists s rs, train_test_split bits th a = Some (s, rs) /\
    (s = st_success <-> constraints a) /\ (s <> st_success -> rs = []).
Proof.
  intros F. unfold train_test_split.
  assert (HV : exists s, validate bits a = Some s).
  { unfold validate. rewrite F. cbn [negb].
    repeat match goal with |- context [if ?b then _ else _] => destruct b; eauto end. }
  destruct HV as (s & V). rewrite V.
  assert (HC : s = st_success <-> constraints a).
  { split.
    - intros ->. eapply validate_success; eauto.
    - intros C. rewrite (validate_complete bits a F C) in V. congruence. }
  destruct s; do 2 eexists; (split; [reflexivity|]); (split; [exact HC|]); congruence.
Qed.
