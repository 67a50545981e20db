(** k-means handles. *)
From Coq Require Import List Bool Arith Lia.
From Verif Require Import Base KmSessionModel KmSessionSpec.
Import ListNotations.

Section Session.
Context {T : Type} (zero inf : T) (lt : T -> T -> bool).
Hypothesis lt_trans : forall a b c, lt a b = true -> lt b c = true -> lt a c = true.
Hypothesis lt_irrefl : forall a, lt a a = false.
Notation outcome := (@outcome T).
Notation handle := (@handle T).
Notation all_runs := (all_runs lt).
Notation made := (@runs_made T).

Lemma resize_length {A} n (v : A) l : length (resize n v l) = n.
Proof. unfold resize. rewrite app_length, firstn_length, repeat_length. lia. Qed.

Definition taken (r : outcome) : best := Best (o_centres r) (o_labels r) (o_inertia r) (o_iter r) (Nat.eqb (o_converged r) 0).
Lemma runs_flag runs : forall b v, snd (fold_left (fun bv r => match r with Some r => (consider lt (fst bv) r, true) | None => bv end) runs (b, v)) =
  v || existsb (fun r => match r with Some _ => true | None => false end) runs.
Proof. induction runs as [|[r|] runs IH]; intros b v; cbn [fold_left existsb fst]; rewrite ?IH; [now rewrite orb_false_r|now rewrite orb_true_r|reflexivity]. Qed.
(** the best of the runs *)
Lemma runs_best runs : forall b v seen, b_centres b <> [] -> (forall r, In (Some r) runs -> o_centres r <> []) ->
  ((b_inertia b = inf /\ forall r, In (Some r) seen -> lt (o_inertia r) inf = false) \/
   (exists r, In (Some r) seen /\ b = taken r /\ lt (o_inertia r) inf = true /\ forall r', In (Some r') seen -> lt (o_inertia r') (o_inertia r) = false)) ->
  let b' := fst (fold_left (fun bv r => match r with Some r => (consider lt (fst bv) r, true) | None => bv end) runs (b, v)) in
  ((b' = b /\ b_inertia b = inf /\ forall r, In (Some r) (seen ++ runs) -> lt (o_inertia r) inf = false) \/
   (exists r, In (Some r) (seen ++ runs) /\ b' = taken r /\ lt (o_inertia r) inf = true /\
      forall r', In (Some r') (seen ++ runs) -> lt (o_inertia r') (o_inertia r) = false)).
Proof.
  induction runs as [|[r|] runs IH]; intros b v seen NE HC D b'; unfold b'; clear b'; cbn [fold_left fst].
  - rewrite app_nil_r. destruct D as [[D1 D2]|D]; [left; auto|right; auto].
  - replace (consider lt b r) with (if lt (o_inertia r) (b_inertia b) then taken r else b)
      by (unfold consider; destruct (b_centres b); [congruence|]; rewrite orb_false_r; reflexivity).
    replace (seen ++ Some r :: runs) with ((seen ++ [Some r]) ++ runs) by (rewrite <- app_assoc; reflexivity).
    destruct (lt (o_inertia r) (b_inertia b)) eqn:L.
    + specialize (IH (taken r) true (seen ++ [Some r])). cbv zeta in IH.
      assert (F : lt (o_inertia r) inf = true).
      { destruct D as [[D1 D2]|[r0 [D1 [-> [D3 D4]]]]]; [now rewrite D1 in L|]. cbn [taken b_inertia] in L. eapply lt_trans; eauto. }
      destruct IH as [[Q1 [Q2 Q3]]|IH].
      * cbn. apply HC. left. auto.
      * intros r' H. apply HC. right. auto.
      * right. exists r. split; [apply in_or_app; right; left; auto|]. split; [reflexivity|]. split; auto. intros r' H.
        apply in_app_or in H. destruct H as [H|[H|[]]]; [|injection H as <-; apply lt_irrefl].
        destruct (lt (o_inertia r') (o_inertia r)) eqn:Q; auto.
        destruct D as [[D1 D2]|[r0 [D1 [-> [D3 D4]]]]].
        -- rewrite <- (D2 r' H). symmetry. eapply lt_trans; eauto.
        -- cbn [taken b_inertia] in L. rewrite <- (D4 r' H). symmetry. eapply lt_trans; eauto.
      * exfalso. cbn [taken b_inertia] in Q2. rewrite Q2, lt_irrefl in F. discriminate.
      * right. exact IH.
    + specialize (IH b true (seen ++ [Some r])). cbv zeta in IH. apply IH; auto.
      * intros r' H. apply HC. right. auto.
      * destruct D as [[D1 D2]|[r0 [D1 [-> [D3 D4]]]]].
        -- left. split; auto. intros r' H. apply in_app_or in H. destruct H as [H|[H|[]]]; auto. injection H as <-. now rewrite D1 in L.
        -- right. exists r0. split; [apply in_or_app; auto|]. split; auto. split; auto. intros r' H. apply in_app_or in H.
           destruct H as [H|[H|[]]]; auto. injection H as <-. exact L.
  - replace (seen ++ None :: runs) with ((seen ++ [None]) ++ runs) by (rewrite <- app_assoc; reflexivity).
    specialize (IH b v (seen ++ [None])). cbv zeta in IH. apply IH; auto.
    + intros r' H. apply HC. right. auto.
    + destruct D as [[D1 D2]|[r0 [D1 [D2 [D3 D4]]]]].
      * left. split; auto. intros r' H. apply in_app_or in H. destruct H as [H|[H|[]]]; auto; discriminate.
      * right. exists r0. split; [apply in_or_app; auto|]. split; auto. split; auto. intros r' H. apply in_app_or in H.
        destruct H as [H|[H|[]]]; auto. discriminate.
Qed.
(** at most one run *)
Lemma one_run b r0 : b_inertia b = inf -> lt (o_inertia r0) inf = true -> consider lt b r0 = taken r0.
Proof. intros E L. unfold consider. rewrite E, L. reflexivity. Qed.

Lemma in_firstn {A} n (l : list A) x : In x (firstn n l) -> In x l.
Proof. revert l. induction n as [|n IH]; intros [|y l]; cbn; try tauto. intros [->|H]; auto. Qed.

(** compute with a finite run *)
Theorem compute_best h runs : h_data h = true -> 1 <= h_opt_k h -> 1 <= h_nf h -> h_opt_k h <= h_n h ->
  (forall r, In (Some r) runs -> proper (h_opt_k h) (h_nf h) (h_n h) r) -> some_finite inf lt (made h runs) ->
  (h_opt_supplied h = true -> exists ldc, h_C h = Some (h_opt_k h, h_nf h, ldc)) ->
  exists r h', best_of lt (made h runs) r /\ results_of h' r /\ proper (h_opt_k h) (h_nf h) (h_n h) r /\ h_trained h' = true /\
    h_k h' = h_opt_k h /\ h_n h' = h_n h /\ h_nf h' = h_nf h /\ h_opt_k h' = h_opt_k h /\ h_data h' = true /\
    compute zero inf lt h false runs = Some (h', status (if Nat.eqb (o_converged r) 0 then st_maxit else st_success)).
Proof.
  intros HD K1 F1 KN HP [rf [Hf Lf]] HS. unfold compute. rewrite HD. cbn [negb].
  replace (Nat.ltb (h_n h) (h_opt_k h)) with false by (symmetry; apply Nat.ltb_ge; lia).
  set (n_init := if h_opt_supplied h then 1 else h_opt_init h).
  change (made h runs) with (firstn n_init runs) in *.
  replace (h_opt_supplied h && match h_C h with None => true | Some _ => false end) with false
    by (destruct (h_opt_supplied h); [destruct (HS eq_refl) as [ldc ->]|]; reflexivity).
  replace (h_opt_supplied h && negb match h_C h with None => true | Some C => centres_readable C (h_opt_k h) (h_nf h) end) with false.
  2:{ destruct (h_opt_supplied h) eqn:S; [|reflexivity]. destruct (HS eq_refl) as [ldc ->]. cbn [andb centres_readable].
      symmetry. apply negb_false_iff. apply Nat.leb_le. nia. }
  set (b := h_best h).
  set (b0 := if Nat.ltb 1 n_init then _ else _).
  assert (I0 : b_inertia b0 = inf) by (unfold b0; destruct (Nat.ltb 1 n_init); reflexivity).
  assert (Q : exists r, In (Some r) (firstn n_init runs) /\ fst (all_runs b0 (firstn n_init runs)) = taken r /\
              forall r', In (Some r') (firstn n_init runs) -> lt (o_inertia r') (o_inertia r) = false).
  { unfold KmSessionModel.all_runs. destruct (Nat.ltb_spec 1 n_init) as [M|M].
    - destruct (runs_best (firstn n_init runs) b0 false []) as [[_ [_ Q]]|[r [Q1 [Q2 [_ Q3]]]]].
      + unfold b0. cbn [b_centres]. intros E. apply (f_equal (@length T)) in E. rewrite resize_length in E. cbn in E. nia.
      + intros r H E. apply in_firstn in H. destruct (HP r H) as [H1 _]. rewrite E in H1. cbn in H1. nia.
      + left. split; auto. intros r [].
      + rewrite (Q rf Hf) in Lf. discriminate.
      + exists r. auto.
    - destruct n_init as [|[|]]; [destruct Hf| |lia]. destruct runs as [|r0 runs]; [destruct Hf|]. cbn [firstn] in *.
      destruct Hf as [->|[]]. cbn [fold_left fst]. exists rf. split; [left; auto|]. split; [apply one_run; auto|].
      intros r' [H|[]]. injection H as <-. apply lt_irrefl. }
  destruct Q as [r [Q1 [Q2 Q3]]].
  assert (V : snd (all_runs b0 (firstn n_init runs)) = true).
  { unfold KmSessionModel.all_runs. rewrite runs_flag. cbn [orb]. apply existsb_exists. exists (Some r). auto. }
  rewrite (surjective_pairing (all_runs b0 (firstn n_init runs))). rewrite Q2, V. cbn [negb].
  destruct (HP r (in_firstn _ _ _ Q1)) as [P1 P2]. cbn [taken b_centres]. rewrite P1, Nat.ltb_irrefl.
  exists r. eexists. split; [split; auto|]. split; [|split; [split; auto|]; split; [|split; [|split; [|split; [|split; [|split; [|reflexivity]]]]]]]; reflexivity.
Qed.

(** ** sessions *)
Record inv (h : handle) : Prop := {
  i_k : 1 <= h_opt_k h;
  i_data : h_data h = true -> 1 <= h_n h /\ 1 <= h_nf h;
  i_trained : h_trained h = true -> length (b_centres (h_best h)) = h_k h * h_nf h /\ length (b_labels (h_best h)) = h_n h }.
Lemma inv_refresh h : inv h -> inv (refresh zero h).
Proof. intros [K D R]. constructor; auto. Qed.
Lemma inv_step h c : inv h -> calm inf lt h c -> exists h' r, step zero inf lt h c = Some (h', r) /\ inv h'.
Proof.
  intros IV CA. pose proof IV as [K D R]. destruct c as [k|n|s| |n nf good|ldc|runs| |dim|dim| |]; cbn [step calm] in *.
  - eexists _, _. split; [rewrite <- surjective_pairing; reflexivity|]. unfold set_k. destruct (fits k (h_max_k (refresh zero h))) eqn:F; cbn [fst].
    + apply andb_true_iff in F. destruct F as [F _]. apply Nat.leb_le in F. constructor; auto.
    + apply inv_refresh. auto.
  - eexists _, _. split; [rewrite <- surjective_pairing; reflexivity|]. unfold set_init. destruct (Nat.leb 1 n); cbn [fst]; constructor; auto.
  - eexists _, _. split; [reflexivity|]. constructor; auto.
  - eexists _, _. split; [reflexivity|]. apply inv_refresh. auto.
  - eexists _, _. split; [rewrite <- surjective_pairing; reflexivity|]. unfold set_data.
    destruct (good && Nat.leb 1 n && Nat.leb 1 nf) eqn:G; cbn [fst]; [|apply inv_refresh; auto].
    apply andb_true_iff in G. destruct G as [G G3]. apply andb_true_iff in G. destruct G as [_ G2]. apply Nat.leb_le in G2, G3.
    constructor; cbn; try discriminate; [lia|auto].
  - eexists _, _. split; [rewrite <- surjective_pairing; reflexivity|]. unfold set_centres. destruct (negb (h_data h)); cbn [fst]; auto.
    assert (Q : h_trained h = true -> length (b_centres (h_best h)) = h_opt_k h * h_nf h /\ length (b_labels (h_best h)) = h_n h).
    { intros H. destruct CA as [CA|CA]; [congruence|]. rewrite CA. auto. }
    destruct (Nat.leb (h_opt_k h) ldc); cbn [fst]; constructor; auto.
  - destruct (h_data h) eqn:HD.
    + destruct (CA eq_refl) as [C1 [C2 [C3 C4]]]. destruct (D eq_refl) as [D1 D2].
      destruct (compute_best h runs HD K D2 C1 C2 C3 C4) as [r [h' [_ [Q1 [[P1 P2] [Q2 [Q3 [Q4 [Q5 [Q6 [Q7 ->]]]]]]]]]]].
      eexists _, _. split; [reflexivity|]. constructor.
      * lia.
      * intros _. rewrite Q4, Q5. auto.
      * intros _. rewrite Q1. cbn [b_centres b_labels]. rewrite Q3, Q4, Q5. auto.
    + unfold compute. rewrite HD. cbn [negb]. eexists _, _. split; [reflexivity|auto].
  - unfold compute. destruct (h_data h) eqn:HD; cbn [negb]; eexists _, _; (split; [reflexivity|]); auto. constructor; cbn; auto.
    intros H. destruct CA as [CA|CA]; [congruence|]. rewrite CA. auto.
  - unfold get_centres. destruct (h_trained h) eqn:HT; cbn [negb]; [|eauto].
    destruct (R eq_refl) as [R1 R2]. destruct (Nat.ltb dim (h_k h * h_nf h)); [eauto|].
    unfold read. rewrite R1, Nat.leb_refl. eauto.
  - unfold get_labels. destruct (h_trained h) eqn:HT; cbn [negb]; [|eauto].
    destruct (R eq_refl) as [R1 R2]. destruct (Nat.ltb dim (h_n h)); [eauto|]. unfold read. rewrite R2, Nat.leb_refl. eauto.
  - eauto.
  - unfold predict. destruct (h_trained h) eqn:HT; cbn [negb]; [|eauto]. destruct (R eq_refl) as [R1 R2]. rewrite R1, Nat.ltb_irrefl. eauto.
Qed.
Lemma inv_session cs : forall h, inv h -> calm_session zero inf lt h cs -> exists h' rs, session zero inf lt h cs = Some (h', rs) /\ inv h'.
Proof.
  induction cs as [|c cs IH]; intros h IV CA; cbn [session calm_session] in *; [eauto|]. destruct CA as [C1 C2].
  destruct (inv_step h c IV C1) as [h' [r [E IV']]]. rewrite E in *. destruct (IH h' IV' C2) as [h'' [rs [-> IV'']]]. eauto.
Qed.
Lemma inv_fresh : inv (fresh zero).
Proof. constructor; cbn; try discriminate. lia. Qed.
Theorem session_safe cs : calm_session zero inf lt (fresh zero) cs -> exists h rs, session zero inf lt (fresh zero) cs = Some (h, rs) /\ length rs = length cs.
Proof.
  intros H. destruct (inv_session cs _ inv_fresh H) as [h' [rs [E _]]]. exists h', rs. split; auto.
  clear H. revert E. generalize (fresh zero). revert h' rs. induction cs as [|c cs IH]; intros h' rs h E; cbn [session] in E.
  - injection E as <- <-. reflexivity.
  - destruct (step zero inf lt h c) as [[h1 r]|]; [|discriminate]. destruct (session zero inf lt h1 cs) as [[h2 rs2]|] eqn:E2; [|discriminate].
    injection E as <- <-. cbn. f_equal. eapply IH; eauto.
Qed.
End Session.
