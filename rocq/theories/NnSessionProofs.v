(** Proofs about the handle of nearest neighbours. *)
From Coq Require Import ZArith List Bool Lia.
From Verif Require Import Base NnSessionModel NnSessionSpec.
Import ListNotations.
Local Open Scope Z_scope.

(** what any history leaves: freed copies and the copy held are of earlier calls; roots are taken only after data were
    set with a metric that needs them *)
Definition kept (ds : list Z) (roots : bool) (s : session) : Prop :=
  (forall d, In d (freed s) -> In d ds) /\ (forall d, x_temp s = Some d -> In d ds) /\
  (get_squares s = true -> roots = true).

Lemma set_params_kept : forall ds r s nf n, kept ds r s -> (rooted (o_metric (opts s)) (o_p (opts s)) = true -> r = true) ->
  kept ds r (snd (set_params s nf n)) /\ opts (snd (set_params s nf n)) = opts s.
Proof.
  intros ds r s nf n (A & B & C) H. unfold set_params.
  destruct (refused _ _ _); [|destruct (rooted _ _) eqn:E]; cbn; unfold kept; cbn; auto.
Qed.
Lemma init_kept : forall ds r s, kept ds r s -> kept ds r (init_tree s) /\ opts (init_tree s) = opts s.
Proof. intros ds r s (A & B & C). unfold init_tree, kept. destruct (working s); cbn; auto. Qed.
Lemma set_data_kept : forall ds r s d n nf rm v, kept ds r s ->
  kept (ds ++ [d]) (rooted (o_metric (opts s)) (o_p (opts s)) || r) (snd (set_data s d n nf rm v)) /\
  opts (snd (set_data s d n nf rm v)) = opts s.
Proof.
  intros ds r s d n nf rm v (A & B & C).
  set (r' := rooted _ _ || r).
  assert (K0 : kept (ds ++ [d]) r' s).
  { split; [|split]; intros; [apply in_or_app; left; auto|apply in_or_app; left; auto|]. unfold r'. rewrite C by auto. apply orb_true_r. }
  assert (K1 : kept (ds ++ [d]) r' (free_copy s)).
  { destruct K0 as (A' & B' & C'). unfold free_copy. split; [|split]; cbn; auto; [|discriminate].
    intros e He. destruct (x_temp s) eqn:E; auto. destruct He as [He|He]; subst; auto. }
  unfold set_data. destruct ((0 <? n_samples s) && negb (n =? n_samples s)); [split; auto|].
  destruct v; [|split; auto].
  assert (K2 : kept (ds ++ [d]) r' (store_data (free_copy s) d rm n)).
  { destruct K1 as (A' & B' & C'). unfold store_data. split; [|split]; cbn in *; auto.
    intros e He. destruct rm; inversion He; subst. apply in_or_app; right; left; auto. }
  set (s2 := store_data (free_copy s) d rm n) in *.
  assert (O2 : opts s2 = opts s) by reflexivity.
  destruct (up_to_date s2).
  - cbn [snd]. destruct (init_kept _ _ _ K2) as [P Q]. split; [exact P|rewrite Q; reflexivity].
  - destruct (set_params_kept _ _ s2 nf n K2) as [P Q].
    { rewrite O2. intros E. unfold r'. rewrite E. reflexivity. }
    destruct (set_params s2 nf n) as [ok s3]. cbn [snd] in *. destruct ok; cbn [snd]; [|split; [exact P|rewrite Q; reflexivity]].
    destruct (init_kept _ _ _ P) as [P' Q']. split; [exact P'|rewrite Q', Q; reflexivity].
Qed.

Lemma kept_more : forall ds ds' r r' s, kept ds r s -> (forall d, In d ds -> In d ds') -> (r = true -> r' = true) -> kept ds' r' s.
Proof. intros ds ds' r r' s (A & B & C) H1 H2. split; [|split]; auto. Qed.

Lemma history_kept : forall cs ds r s, kept ds r s ->
  kept (ds ++ data_of cs) (r || set_with_roots (opts s) cs) (fold_left step cs s).
Proof.
  induction cs as [|c cs IH]; intros ds r s K; cbn [fold_left data_of flat_map set_with_roots].
  { rewrite app_nil_r, orb_false_r. exact K. }
  destruct c as [o|d n nf rm v|]; cbn [app].
  - specialize (IH ds r (set_options s o)). cbn in IH. apply IH. exact K.
  - destruct (set_data_kept ds r s d n nf rm v K) as [P Q].
    specialize (IH _ _ _ P). cbn [step]. rewrite Q in IH.
    eapply kept_more; [exact IH| |].
    + intros e He. rewrite <- app_assoc in He. exact He.
    + intros E. apply orb_true_iff in E. destruct E as [E|E]; [apply orb_true_iff in E; destruct E as [E|E]|];
      rewrite E; repeat rewrite orb_true_r; auto.
  - apply IH. exact K.
Qed.

Lemma automatic_fits : forall m q nf n, automatic m q nf n <> ABrute -> automatic m q nf n = AKd.
Proof. intros m q nf n. unfold automatic. destruct m, (q <? 2), ((nf <? 10) && (100000 <? n)); cbn; congruence. Qed.

Lemma algo_eqb_refl : forall a, algo_eqb a a = true. Proof. destruct a; reflexivity. Qed.
Lemma metric_eqb_refl : forall a, metric_eqb a a = true. Proof. destruct a; reflexivity. Qed.
Lemma metric_eqb_eq : forall a b, metric_eqb a b = true -> a = b. Proof. destruct a, b; cbn; congruence. Qed.
Lemma algo_eqb_eq : forall a b, algo_eqb a b = true -> a = b. Proof. destruct a, b; cbn; congruence. Qed.

Lemma answers_ok : forall cs o d n nf rm s', ~ In d (data_of cs) ->
  rooted (o_metric o) (o_p o) = true \/ set_with_roots default_options cs = false ->
  set_data (set_options (after cs) o) d n nf rm true = (true, s') ->
  exists c, kneighbors s' = Answer d c (o_k o) /\ promised (o_metric o) (o_p o) c.
Proof.
  intros cs o d n nf rm s' Hd Hr E.
  assert (K0 : kept [] false fresh) by (split; [|split]; cbn; try discriminate; tauto).
  pose proof (history_kept cs _ _ _ K0) as (A & B & C). cbn [app orb opts fresh] in A, B, C. fold (after cs) in A, B, C.
  set (s := after cs) in *.
  unfold set_data in E. destruct (_ && _) in E; [discriminate|].
  unfold set_params, store_data, free_copy, set_options in E.
  cbn [opts up_to_date trained algo metric p leaf k working internal get_squares n_samples x_train x_temp kd ball freed] in E.
  destruct (refused _ _ _) eqn:Eref; [discriminate|].
  assert (F : existsb (Z.eqb d) (match x_temp s with Some d0 => d0 :: freed s | None => freed s end) = false).
  { apply not_true_is_false. intros T. apply existsb_exists in T. destruct T as (e & He & Ee).
    apply Z.eqb_eq in Ee. subst e. apply Hd. destruct (x_temp s) eqn:Ex; [destruct He as [He|He]|]; subst; auto. }
  set (q := match o_algo o with AAuto => automatic (o_metric o) (o_p o) nf n | a => a end) in *.
  assert (Hq : q <> AAuto).
  { unfold q. destruct (o_algo o); try discriminate.
    unfold automatic. destruct (o_metric o), (o_p o <? 2), ((nf <? 10) && (100000 <? n)); discriminate. }
  assert (Hs : rooted (o_metric o) (o_p o) = false -> get_squares s = false).
  { intros T. apply not_true_is_false. intros G. destruct Hr as [Hr|Hr]; [congruence|]. rewrite C in Hr by auto. discriminate. }
  destruct (rooted (o_metric o) (o_p o)) eqn:Er; cbv beta iota zeta in E; injection E as E; subst s'; unfold init_tree; cbn [working x_train internal p].
  - destruct q eqn:Eq; [congruence| | |]; unfold kneighbors, check_options; cbn;
      rewrite ?algo_eqb_refl, ?metric_eqb_refl, ?Z.eqb_refl; cbn;
      destruct rm; cbn; rewrite ?F;
      (destruct (o_algo o); cbn; (eexists; split; [reflexivity|]));
      unfold promised; unfold rooted in Er; destruct (o_metric o); try discriminate; cbn; try rewrite Er; reflexivity.
  - specialize (Hs eq_refl).
    destruct q eqn:Eq; [congruence| | |]; unfold kneighbors, check_options; cbn;
      rewrite ?algo_eqb_refl, ?metric_eqb_refl, ?Z.eqb_refl; cbn; unfold answer_of; cbn; rewrite ?Hs;
      destruct rm; cbn; rewrite ?F;
      (destruct (o_algo o); cbn; (eexists; split; [reflexivity|]));
      unfold promised; unfold rooted in Er; destruct (o_metric o); try discriminate; cbn; try rewrite Er; reflexivity.
Qed.

Lemma locked_ok : forall s, o_algo (opts s) = AAuto -> kneighbors s <> Refusal -> same_options s.
Proof.
  intros s Ha H. unfold kneighbors in H. destruct (trained s); cbn in H; [|congruence].
  destruct (check_options s) eqn:E; cbn in H; [|congruence].
  unfold check_options in E. rewrite Ha in E. apply andb_true_iff in E. destruct E as [E E3].
  apply andb_true_iff in E, E3. destruct E as [E1 E2], E3 as [E3 E4]. unfold same_options. rewrite Ha.
  apply algo_eqb_eq in E1. apply Z.eqb_eq in E2, E4. apply metric_eqb_eq in E3. auto.
Qed.
Lemma automatic_offered m p nf n : automatic m p nf n <> ABrute -> refused AKd m p = false /\ refused ABall m p = false.
Proof. unfold automatic, refused. destruct m; try (intros H; elim H; reflexivity); auto. destruct (p <? 2); [intros H; elim H; reflexivity|auto]. Qed.
