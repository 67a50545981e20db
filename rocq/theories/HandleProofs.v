(** Proofs about the public handle calls. *)
From Coq Require Import ZArith List Bool Lia.
From Verif Require Import Base OptionsModel OptionsProofs RegistryModel HandleModel HandleSpec.
Import ListNotations.
Local Open Scope Z_scope.

Section P.
  Variable S : Type.
  Notation handle := (handle S).
  Notation alg := (alg S).

  (** Only the slot of the precision is used. *)
  Definition shaped (p : precision) (ht : Z) (h : handle) : Prop :=
    h_prec h = p /\ h_type h = ht /\
    (match p with da_double => h_s h = None | da_single => h_d h = None end) /\
    (if has_algorithm ht then get_alg_handle S p h <> None else get_alg_handle S p h = None).

  Lemma init_shaped fresh p ht : shaped p ht (da_handle_init S fresh p ht).
  Proof.
    unfold shaped, da_handle_init. destruct p, (has_algorithm ht); simpl; repeat split; congruence.
  Qed.

  Lemma set_status_shaped p ht st h : shaped p ht h -> shaped p ht (set_status S st h).
  Proof. unfold shaped. destruct h as [hp hty d s e], p; simpl; auto. Qed.

  Lemma put_shaped p ht a h : shaped p ht h -> has_algorithm ht = true ->
    shaped p ht (put_alg S (h_prec h) a h).
  Proof.
    unfold shaped. intros (Hp & Ht & Ho & Ha) E. rewrite E in *. subst.
    destruct h as [hp hty d s e]; destruct hp; simpl in *; repeat split; auto; congruence.
  Qed.

  Lemma get_has p ht h a : shaped p ht h -> get_alg_handle S (h_prec h) h = Some a ->
    has_algorithm ht = true.
  Proof.
    intros (Hp & _ & _ & Ha) E. rewrite Hp in E. destruct (has_algorithm ht); congruence.
  Qed.

  Lemma opts_shaped p ht b h st r h' : shaped p ht h -> get_current_opts S b h = (st, r, h') ->
    shaped p ht h'.
  Proof.
    unfold get_current_opts. intros Hs. destruct (get_alg_handle S (h_prec h) h) as [a|] eqn:E.
    - intros H; inversion H; subst. apply put_shaped; auto. eapply get_has; eauto.
    - intros H; inversion H; subst. now apply set_status_shaped.
  Qed.

  Lemma with_opts_shaped p ht r h : shaped p ht h -> shaped p ht (with_opts S r h).
  Proof.
    unfold with_opts. intros Hs. destruct (get_alg_handle S (h_prec h) h) as [a|] eqn:E; auto.
    apply put_shaped; auto. eapply get_has; eauto.
  Qed.

  Lemma after_fail st h h0 : after S (fail S st h) h0 = set_status S st h.
  Proof. reflexivity. Qed.

  Lemma query_after t q d res h h0 : exists st,
    after S (da_handle_get_result S t (Some h) q d res) h0 = set_status S st h.
  Proof.
    unfold da_handle_get_result. destruct d as [d|]; [|eexists; reflexivity].
    destruct (negb res); [eexists; reflexivity|].
    destruct t; simpl; repeat (match goal with |- context [match ?x with _ => _ end] =>
      destruct x; simpl end); eexists; reflexivity.
  Qed.

  Lemma set_shaped p ht h n v h0 : shaped p ht h -> shaped p ht h0 ->
    shaped p ht (after S (da_options_set S (Some h) n v) h0).
  Proof.
    intros Hs H0. unfold da_options_set.
    set (pc := match v with VFloat _ => _ | VDouble _ => _ | _ => _ end).
    destruct (negb (is_success pc)).
    - rewrite after_fail. now do 2 apply set_status_shaped.
    - destruct (get_current_opts S true (clear S h)) as [[st r] h1] eqn:E.
      assert (H1 : shaped p ht h1) by (eapply opts_shaped; [|exact E]; now apply set_status_shaped).
      destruct r as [r|]; [|exact H1].
      destruct (reg_set r n v) as [st' r'].
      destruct (is_success st'); [|rewrite after_fail; apply set_status_shaped];
        now apply with_opts_shaped.
  Qed.

  Lemma get_shaped p ht h n t h0 : shaped p ht h -> shaped p ht h0 ->
    shaped p ht (after S (da_options_get S (Some h) n t) h0).
  Proof.
    intros Hs H0. unfold da_options_get.
    set (pc := match t with TFloat => _ | TDouble => _ | _ => _ end).
    destruct (negb (is_success pc)).
    - rewrite after_fail. now do 2 apply set_status_shaped.
    - destruct (get_current_opts S false (clear S h)) as [[st r] h1] eqn:E.
      assert (H1 : shaped p ht h1) by (eapply opts_shaped; [|exact E]; now apply set_status_shaped).
      destruct r as [r|]; [|exact H1].
      destruct (reg_get r n t) as [st' o].
      destruct (is_success st'); [|rewrite after_fail; apply set_status_shaped]; exact H1.
  Qed.

  Lemma step_shaped p ht h c : shaped p ht h -> shaped p ht (cstep S h c).
  Proof.
    intros Hs. destruct c as [t q d r|n v|n t| | |f]; cbn [cstep].
    - destruct (query_after t q d r h h) as [st ->]. now apply set_status_shaped.
    - now apply set_shaped.
    - now apply get_shaped.
    - destruct Hs as (Hp & Ht & Ho & Ha). destruct h as [hp hty d s e]; simpl in *; subst hp hty.
      unfold shaped; destruct p, (has_algorithm ht); simpl in *; subst; repeat split;
        try (destruct d; simpl; congruence); destruct s; simpl; congruence.
    - unfold da_handle_print_model_versions. destruct (get_alg_handle S (h_prec h) h); exact Hs.
    - destruct Hs as (Hp & Ht & Ho & Ha). destruct h as [hp hty d s e]; simpl in *; subst hp hty.
      unfold shaped; destruct p, (has_algorithm ht); simpl in *; subst; repeat split;
        try (destruct d; simpl; congruence); destruct s; simpl; congruence.
  Qed.

  Lemma reachable_shaped fresh p ht h : reachable fresh p ht h -> shaped p ht h.
  Proof.
    intros [cs ->]. unfold crun.
    assert (G : forall h0, shaped p ht h0 -> shaped p ht (fold_left (cstep S) cs h0)).
    { induction cs as [|c cs IH]; intros h0 H0; simpl; auto. apply IH. now apply step_shaped. }
    apply G, init_shaped.
  Qed.

  Lemma owned_shaped p ht h : shaped p ht h -> owned h = get_alg_handle S p h.
  Proof.
    intros (Hp & _ & Ho & _). unfold owned. destruct p; simpl; [rewrite Ho; reflexivity|].
    destruct (h_d h); auto.
  Qed.

  Lemma null_args_lemma : forall t q d res,
    da_handle_get_result S t None q d res = Ret st_handle_not_initialized None None /\
    (forall h, d = None \/ res = false ->
       rejected st_invalid_input (da_handle_get_result S t (Some h) q d res)).
  Proof.
    intros. split; [reflexivity|]. intros h H. unfold da_handle_get_result, rejected.
    destruct d as [d|]; [|eexists; reflexivity].
    destruct H as [H| ->]; [congruence|]. eexists; reflexivity.
  Qed.

  Lemma wrong_type_lemma : forall fresh p ht h t q d, reachable fresh p ht h -> ~ answers p t ->
    rejected st_wrong_type (da_handle_get_result S t (Some h) q (Some d) true).
  Proof.
    intros fresh p ht h t q d Hr Hn. apply reachable_shaped in Hr.
    destruct Hr as (Hp & _ & _ & _). unfold da_handle_get_result, rejected, check_precision.
    simpl. rewrite Hp. destruct t, p; simpl in Hn |- *; try tauto; eexists; reflexivity.
  Qed.

  Lemma dispatch_lemma : forall fresh p ht h t q d, reachable fresh p ht h -> answers p t ->
    match owned h with
    | Some a => answered (b_query (al_beh a) t (al_state a) q d)
                         (da_handle_get_result S t (Some h) q (Some d) true)
    | None => rejected st_handle_not_initialized
                       (da_handle_get_result S t (Some h) q (Some d) true)
    end.
  Proof.
    intros fresh p ht h t q d Hr Ha. apply reachable_shaped in Hr.
    destruct Hr as (Hp & _ & Ho & _). unfold da_handle_get_result, check_precision, owned.
    destruct h as [hp hty hd hs he]; simpl in *; subst hp.
    destruct t, p; simpl in Ha; try discriminate; simpl; subst;
      try destruct hd; try destruct hs; simpl; eexists; reflexivity.
  Qed.

  Lemma has_owned (fresh : precision -> Z -> alg) p ht (h : handle) : reachable fresh p ht h ->
    has_algorithm ht = true <-> owned h <> None.
  Proof.
    intros Hr. apply reachable_shaped in Hr. rewrite (owned_shaped _ _ _ Hr).
    destruct Hr as (_ & _ & _ & H). destruct (has_algorithm ht); split; congruence.
  Qed.

  Lemma no_alg_lemma : forall fresh p ht h, reachable fresh p ht h -> has_algorithm ht = false ->
    (forall t q d res, is_error (da_handle_get_result S t (Some h) q d res)) /\
    (forall n v, is_error (da_options_set S (Some h) n v)) /\
    (forall n t, is_error (da_options_get S (Some h) n t)) /\
    is_error (da_handle_print_model_versions S (Some h)) /\
    da_handle_refresh S (Some h) = Some h.
  Proof.
    intros fresh p ht h Hr Hf. apply reachable_shaped in Hr.
    destruct Hr as (Hp & _ & Ho & Ha). rewrite Hf in Ha.
    assert (Hd : h_d h = None /\ h_s h = None) by (destruct p; auto).
    destruct Hd as [Hd Hs]. destruct h as [hp hty d s e]; simpl in *; subst hp d s.
    unfold is_error. repeat split.
    - intros t q d res. unfold da_handle_get_result, fail, check_precision, prec_eqb; simpl.
      destruct d; [|repeat eexists; congruence]. destruct res; [|repeat eexists; congruence].
      destruct t, p; simpl; repeat eexists; congruence.
    - intros n v. unfold da_options_set, fail, check_precision, prec_eqb, get_current_opts; simpl.
      destruct v, p; simpl; repeat eexists; congruence.
    - intros n t. unfold da_options_get, fail, check_precision, prec_eqb, get_current_opts; simpl.
      destruct t, p; simpl; repeat eexists; congruence.
    - unfold da_handle_print_model_versions; simpl. destruct p; simpl; repeat eexists; congruence.
  Qed.

  Lemma get_put p a h : get_alg_handle S p (put_alg S p a h) = Some a.
  Proof. destruct p; reflexivity. Qed.
  Lemma prec_put p a (h : handle) : h_prec (put_alg S p a h) = h_prec h.
  Proof. destruct p; reflexivity. Qed.
  Lemma get_status_h p st h : get_alg_handle S p (set_status S st h) = get_alg_handle S p h.
  Proof. destruct p; reflexivity. Qed.

  (** What a refused option change leaves: same registry, state as before or refreshed. *)
  Lemma refused_set_state : forall p ht h n v st h' o,
    shaped p ht h -> da_options_set S (Some h) n v = Ret st (Some h') o -> st <> st_success ->
    shaped p ht h' /\
    match get_alg_handle S p h with
    | None => get_alg_handle S p h' = None
    | Some a => get_alg_handle S p h' = Some a \/
                get_alg_handle S p h'
                = Some (mkAlg (al_opts a) (b_refresh (al_beh a) (al_state a)) (al_beh a))
    end.
  Proof.
    intros p ht h n v st h' o Hs He Hn. split.
    { replace h' with (after S (da_options_set S (Some h) n v) h) by (rewrite He; reflexivity).
      now apply set_shaped. }
    revert He. unfold da_options_set.
    set (pc := match v with VFloat _ => _ | VDouble _ => _ | _ => _ end).
    destruct (negb (is_success pc)).
    - unfold fail. intros He; inversion He; subst. unfold clear. rewrite !get_status_h.
      destruct (get_alg_handle S p h); auto.
    - unfold get_current_opts, clear. rewrite get_status_h. simpl h_prec.
      destruct Hs as (Hp & _). rewrite Hp.
      destruct (get_alg_handle S p h) as [a|] eqn:E.
      + destruct (reg_set (al_opts a) n v) as [st' r'] eqn:Er.
        unfold with_opts. rewrite prec_put. simpl h_prec. rewrite Hp, get_put.
        destruct (is_success st') eqn:Es.
        * intros He; inversion He; subst. congruence.
        * unfold fail. intros He; inversion He; subst. rewrite get_status_h, get_put.
          assert (r' = al_opts a).
          { eapply set_fail_lemma; eauto. }
          subst. simpl. auto.
      + intros He; inversion He; subst. rewrite !get_status_h. exact E.
  Qed.

  Lemma same_alg_same_answers p ht h1 h2 : shaped p ht h1 -> shaped p ht h2 ->
    get_alg_handle S p h1 = get_alg_handle S p h2 -> same_answers h1 h2.
  Proof.
    intros (Hp1 & _ & Ho1 & _) (Hp2 & _ & Ho2 & _) He t q d res.
    destruct h1 as [p1 t1 d1 s1 e1], h2 as [p2 t2 d2 s2 e2]; simpl in *; subst p1 p2.
    unfold da_handle_get_result, fail, ask, check_precision, clear, set_status; simpl.
    destruct d as [d|]; [|do 4 eexists; split; reflexivity].
    destruct res; simpl; [|do 4 eexists; split; reflexivity].
    destruct p; simpl in *; subst; destruct t; simpl;
      repeat match goal with |- context [match ?x with Some _ => _ | None => _ end] => destruct x end;
      do 4 eexists; split; reflexivity.
  Qed.

  Lemma refused_set_lemma : forall fresh p ht h n v st h' o,
    reachable fresh p ht h ->
    da_options_set S (Some h) n v = Ret st (Some h') o -> st <> st_success ->
    option_map al_opts (owned h') = option_map al_opts (owned h) /\
    ((forall a, owned h = Some a -> b_refresh (al_beh a) (al_state a) = al_state a) ->
     same_answers h h').
  Proof.
    intros fresh p ht h n v st h' o Hr He Hn. apply reachable_shaped in Hr.
    destruct (refused_set_state _ _ _ _ _ _ _ _ Hr He Hn) as [Hs' Hg].
    rewrite (owned_shaped _ _ _ Hr), (owned_shaped _ _ _ Hs').
    destruct (get_alg_handle S p h) as [a|] eqn:E.
    - split.
      + destruct Hg as [-> | ->]; reflexivity.
      + intros Hf. eapply same_alg_same_answers; eauto. rewrite E.
        destruct Hg as [-> | ->]; auto. rewrite (Hf a eq_refl). destruct a; reflexivity.
    - split; [rewrite Hg; reflexivity|]. intros _. eapply same_alg_same_answers; eauto.
      congruence.
  Qed.
End P.
