(** One round of training and the whole training loop. *)
From Coq Require Import QArith Qabs List Bool Arith Lia Lqa Sorting Permutation Setoid Morphisms.
From Verif Require Import SvmModel SvmSpec SvmProofs SvmSmoProofs.
Import ListNotations.
Local Open Scope Q_scope.

Lemma ext_gradient p al be k : (forall m, (m < size p)%nat -> al m = be m) ->
  true_gradient p al k == true_gradient p be k.
Proof.
  intro H. unfold true_gradient. rewrite (sum_ext _ (fun m => y p m * be m * kk p k m)); [reflexivity|].
  intros m M. apply in_seq in M. rewrite (H m) by lia. reflexivity.
Qed.

Section Train.
Variables (p : problem) (srt : sorter).
Hypothesis W : well_posed p.
Hypothesis So : sorts p srt.
Hypothesis pos : (0 < size p)%nat.

(** What holds before round [it]. *)
Record inv (it : nat) (s : state) : Prop := {
  i_feas : feasible p (alpha s);
  i_grad : forall k, (k < size p)%nat -> grad s k == true_gradient p (alpha s) k;
  i_idx : it = 0%nat \/ (working_set p (indices s) /\ length (indices s) = ws_size p) }.

Lemma start_inv : inv 0 (start p).
Proof.
  assert (A : forall k, (k < size p)%nat -> alpha (start p) k = 0).
  { intros k K. cbn [start alpha]. rewrite tab_at by exact K. reflexivity. }
  constructor; [split| |left; reflexivity].
  - intros k K. rewrite A by exact K. pose proof (wp_C p W). lra.
  - apply sum_zero. intros k K. apply in_seq in K. rewrite A by lia. ring.
  - intros k K. cbn [start grad]. rewrite tab_at by exact K. unfold true_gradient.
    rewrite (sum_zero _ (seq 0 (size p))); [ring|].
    intros m M. apply in_seq in M. rewrite A by lia. ring.
Qed.

Lemma kept_facts it s : inv it s ->
  working_set p (kept p it s) /\ (length (kept p it s) <= ws_size p)%nat /\
  ((3 <= ws_size p)%nat -> (2 + length (kept p it s) <= ws_size p)%nat).
Proof.
  intros I. destruct it as [|it]; cbn [kept].
  - split; [split; [constructor|intros k []]|]. simpl. lia.
  - destruct (i_idx _ _ I) as [X|[[N In_] L]]; [discriminate|].
    set (h := Nat.div2 (ws_size p)).
    assert (H2 : (h + h <= ws_size p)%nat).
    { unfold h. pose proof (Nat.div2_odd (ws_size p)). lia. }
    assert (Len : (length (firstn h (skipn h (indices s))) <= h)%nat) by apply firstn_le_length.
    split; [split|split].
    + assert (Sk : NoDup (skipn h (indices s))).
      { rewrite <- (firstn_skipn h (indices s)) in N. revert N. generalize (firstn h (indices s)).
        intro a. induction a as [|x a IH]; simpl; [auto|]. intro N. inversion N; subst. auto. }
      rewrite <- (firstn_skipn h (skipn h (indices s))) in Sk. revert Sk.
      generalize (firstn h (skipn h (indices s))) (skipn h (skipn h (indices s))).
      intros a b. induction a as [|x a IH]; simpl; [constructor|].
      intro N'. inversion N'; subst. constructor; auto.
      intro X. apply H1. apply in_app_iff. auto.
    + intros k K. apply In_.
      rewrite <- (firstn_skipn h (indices s)). apply in_app_iff. right.
      rewrite <- (firstn_skipn h (skipn h (indices s))). apply in_app_iff. left. exact K.
    + lia.
    + intro Ge. assert (h + 2 <= ws_size p)%nat.
      { unfold h. rewrite Nat.div2_div in *. pose proof (Nat.div_mod (ws_size p) 2 ltac:(lia)).
        pose proof (Nat.mod_upper_bound (ws_size p) 2 ltac:(lia)). lia. }
      lia.
Qed.

Definition set_of (it : nat) (s : state) : list nat :=
  outer_wss p srt (alpha s) (grad s) (kept p it s).

Lemma set_of_ok it s : inv it s -> working_set p (set_of it s) /\ length (set_of it s) = ws_size p.
Proof.
  intro I. destruct (kept_facts it s I) as (A & B & _). destruct (i_feas _ _ I) as [Bx _].
  apply outer_full; auto.
Qed.

Lemma round_eq it s :
  round p srt it s =
  (let idx := set_of it s in let l := after p idx (alpha s) (grad s) in
   State (scatter p idx (alpha s) l) (update_gradient p idx (grad s) (alpha_diff p idx (alpha s) l))
     idx (diff_of p idx (gather idx (alpha s) (grad s)))
     (if same_diff p (diff_of p idx (gather idx (alpha s) (grad s))) (previous s)
      then S (unchanged s) else 0%nat),
   diff_of p (set_of it s) (gather (set_of it s) (alpha s) (grad s))).
Proof. reflexivity. Qed.

Lemma round_inv it s : inv it s -> inv (S it) (fst (round p srt it s)).
Proof.
  intro I. rewrite round_eq. cbn zeta. cbn [fst].
  destruct (set_of_ok it s I) as [WS L]. set (idx := set_of it s) in *.
  destruct (i_feas _ _ I) as [Bx Bal].
  pose proof (after_linv p idx W WS (alpha s) (grad s) Bx) as LI.
  set (l := after p idx (alpha s) (grad s)) in *.
  constructor; cbn [alpha grad indices].
  - split; [apply scatter_box with (g := grad s); auto|].
    unfold balanced in *.
    rewrite (sum_ext _ (fun k => y p k * alpha s k +
       (y p k * (scatter p idx (alpha s) l k - alpha s k)) * 1)) by (intros; ring).
    rewrite sum_plus, (scatter_sum p idx WS (alpha s) l (fun _ => 1)), Bal.
    destruct LI as (_ & Z & _).
    rewrite (sum_ext _ (e p idx (alpha s) l)) by (intros; ring). rewrite Z. ring.
  - intros k K. unfold update_gradient. rewrite tab_at by exact K.
    rewrite (i_grad _ _ I k K). unfold true_gradient.
    rewrite (sum_ext (fun m => y p m * scatter p idx (alpha s) l m * kk p k m)
      (fun m => y p m * alpha s m * kk p k m +
         (y p m * (scatter p idx (alpha s) l m - alpha s m)) * kk p k m)) by (intros; ring).
    rewrite sum_plus, (scatter_sum p idx WS (alpha s) l (fun m => kk p k m)).
    rewrite (sum_ext (fun q => alpha_diff p idx (alpha s) l q * kk p k (at_ idx q))
       (fun q => e p idx (alpha s) l q * kk p k (at_ idx q))).
    + ring.
    + intros q Q. unfold alpha_diff, e. ring.
  - right. auto.
Qed.

Lemma round_objective it s : symmetric p -> inv it s ->
  objective p (alpha (fst (round p srt it s))) <= objective p (alpha s).
Proof.
  intros Sy I. rewrite round_eq. cbn zeta. cbn [fst alpha].
  destruct (set_of_ok it s I) as [WS L]. set (idx := set_of it s) in *.
  destruct (i_feas _ _ I) as [Bx Bal].
  pose proof (after_phi p idx W WS (alpha s) (grad s) Bx Sy) as Ph.
  set (l := after p idx (alpha s) (grad s)) in *.
  rewrite (objective_expand p Sy (alpha s)).
  set (sc := scatter p idx (alpha s) l).
  assert (E1 : sum (fun k => y p k * (sc k - alpha s k) * true_gradient p (alpha s) k) (seq 0 (size p)) ==
               sum (fun q => e p idx (alpha s) l q * grad s (at_ idx q)) (seq 0 (length idx))).
  { unfold sc. rewrite (scatter_sum p idx WS (alpha s) l (true_gradient p (alpha s))).
    apply sum_ext. intros q Q. apply in_seq in Q. rewrite (i_grad _ _ I); [reflexivity|].
    apply (at_lt p idx WS). lia. }
  assert (E2 : sum (fun k => y p k * (sc k - alpha s k) *
                  sum (fun m => y p m * (sc m - alpha s m) * kk p k m) (seq 0 (size p))) (seq 0 (size p)) ==
               sum (fun q => e p idx (alpha s) l q *
                  sum (fun r => e p idx (alpha s) l r * kk p (at_ idx q) (at_ idx r)) (seq 0 (length idx)))
                 (seq 0 (length idx))).
  { unfold sc. rewrite (scatter_sum p idx WS (alpha s) l
      (fun k => sum (fun m => y p m * (scatter p idx (alpha s) l m - alpha s m) * kk p k m) (seq 0 (size p)))).
    apply sum_ext. intros q Q.
    rewrite (scatter_sum p idx WS (alpha s) l (fun m => kk p (at_ idx q) m)). reflexivity. }
  rewrite E1, E2. unfold phi in Ph.
  rewrite (sum_ext _ (fun q => e p idx (alpha s) l q * grad s (at_ idx q) + (1 # 2) *
     (e p idx (alpha s) l q * sum (fun r => e p idx (alpha s) l r * kk p (at_ idx q) (at_ idx r))
        (seq 0 (length idx))))) in Ph by (intros; ring).
  rewrite sum_plus, sum_scale in Ph. lra.
Qed.

(* A round whose first gap is small leaves everything as it was. *)
Lemma quiet_round it s : inv it s -> small p (snd (round p srt it s)) = true ->
  forall k, (k < size p)%nat -> alpha (fst (round p srt it s)) k = alpha s k.
Proof.
  intros I Sm k K. rewrite round_eq in *. cbn zeta in *. cbn [fst snd alpha] in *.
  destruct (set_of_ok it s I) as [WS L]. set (idx := set_of it s) in *.
  assert (A : after p idx (alpha s) (grad s) = gather idx (alpha s) (grad s)).
  { unfold after, local_smo. cbn [fst]. set (l := gather idx (alpha s) (grad s)) in *.
    destruct (100 * length idx)%nat as [|f]; [reflexivity|]. cbn [smo_loop].
    unfold diff_of in *. destruct (select p idx l) as [[[i [[j r]|]] [d|]]|]; try reflexivity.
    cbn [small] in Sm. apply Qlt_bool_iff in Sm.
    assert (Lt : Qlt_bool d (epsilon_of p (Some d)) = true).
    { apply Qlt_bool_iff. unfold epsilon_of. pose proof (wp_tol p W).
      destruct (Qmax_case (tol p) ((1 # 10) * d)) as [[-> X]|[-> X]]; lra. }
    rewrite Lt. reflexivity. }
  rewrite A. destruct (in_dec Nat.eq_dec k idx) as [X|X].
  - destruct (in_at idx k X) as (q & Q & <-). rewrite (scatter_at p idx WS) by exact Q.
    unfold gather. cbn [la]. rewrite tab_at by exact Q. reflexivity.
  - apply scatter_off; auto.
Qed.

Lemma quiet_gap it s : (3 <= ws_size p)%nat -> inv it s ->
  small p (snd (round p srt it s)) = true -> gap_below p (alpha s) (tol p).
Proof.
  intros Ge I Sm u v Hu Hv R F. rewrite round_eq in Sm. cbn [snd] in Sm.
  destruct (kept_facts it s I) as (Kw & _ & Kl). destruct (i_feas _ _ I) as [Bx _].
  destruct (outer_extremes p srt W So pos (alpha s) (grad s) (kept p it s) Bx Kw (Kl Ge)) as [E1 E2].
  fold (set_of it s) in E1, E2.
  destruct (set_of_ok it s I) as [WS L]. set (idx := set_of it s) in *.
  destruct (E1 u Hu R) as (i & Ii & Ri & Gi). destruct (E2 v Hv F) as (j & Ij & Fj & Gj).
  rewrite <- !(i_grad _ _ I) by auto.
  destruct (in_at idx i Ii) as (a & Qa & Ea). destruct (in_at idx j Ij) as (b & Qb & Eb).
  set (l := gather idx (alpha s) (grad s)) in *.
  assert (La : forall q, (q < length idx)%nat -> la l q = alpha s (at_ idx q)).
  { intros q Q. unfold l, gather. cbn [la]. rewrite tab_at by exact Q. reflexivity. }
  assert (Lg : forall q, (q < length idx)%nat -> lg l q = grad s (at_ idx q)).
  { intros q Q. unfold l, gather. cbn [lg]. rewrite tab_at by exact Q. reflexivity. }
  assert (Ua : up_at p idx l a = true).
  { unfold up_at, ly. rewrite La by exact Qa. rewrite Ea. apply upper_iff; auto.
    destruct WS as [_ X]; auto. }
  assert (Lb : low_at p idx l b = true).
  { unfold low_at, ly. rewrite La by exact Qb. rewrite Eb. apply lower_iff; auto.
    destruct WS as [_ X]; auto. }
  unfold diff_of in Sm. destruct (select p idx l) as [[[i0 oj] d]|] eqn:Se.
  - destruct (select_some p idx l i0 oj d Se) as (_ & _ & Mn & Md & _).
    specialize (Mn a Qa Ua). rewrite (Lg a Qa), Ea in Mn.
    destruct d as [m|].
    + destruct Md as [_ Md]. specialize (Md b Qb Lb). rewrite (Lg b Qb), Eb in Md.
      cbn [small] in Sm. apply Qlt_bool_iff in Sm. lra.
    + rewrite Md in Lb by exact Qb. discriminate.
  - rewrite (select_none p idx l Se a Qa) in Ua. discriminate.
Qed.

Lemma loop_inv fuel it s : inv it s -> exists it', inv it' (fst (compute_loop fuel p srt it s)).
Proof.
  revert it s. induction fuel as [|f IH]; intros it s I; [exists it; exact I|].
  cbn [compute_loop]. pose proof (round_inv it s I) as R.
  destruct (round p srt it s) as [s' d]. cbn [fst] in R.
  destruct (_ && _); [exists (S it); exact R|].
  destruct (_ && _); [exists (S it); exact R|]. apply IH. exact R.
Qed.
Lemma loop_objective fuel it s : symmetric p -> inv it s ->
  objective p (alpha (fst (compute_loop fuel p srt it s))) <= objective p (alpha s).
Proof.
  intro Sy. revert it s. induction fuel as [|f IH]; intros it s I; [simpl; lra|].
  cbn [compute_loop]. pose proof (round_inv it s I) as R. pose proof (round_objective it s Sy I) as O.
  destruct (round p srt it s) as [s' d]. cbn [fst] in R, O.
  destruct (_ && _); [exact O|]. destruct (_ && _); [exact O|].
  specialize (IH (S it) s' R). lra.
Qed.
Lemma loop_gap fuel it s s' : (3 <= ws_size p)%nat -> inv it s ->
  compute_loop fuel p srt it s = (s', converged) -> gap_below p (alpha s') (tol p).
Proof.
  intro Ge. revert it s. induction fuel as [|f IH]; intros it s I E; [discriminate|].
  cbn [compute_loop] in E. pose proof (round_inv it s I) as R.
  pose proof (quiet_round it s I) as Qr. pose proof (quiet_gap it s Ge I) as Qg.
  destruct (round p srt it s) as [s1 d]. cbn [fst snd] in *.
  destruct ((4 <? it)%nat && small p d) eqn:B.
  - injection E as <-. apply andb_true_iff in B. destruct B as [_ Sm].
    specialize (Qr Sm). specialize (Qg Sm).
    intros u v Hu Hv Ri Fa.
    rewrite (ext_gradient p _ _ u Qr), (ext_gradient p _ _ v Qr).
    apply Qg; auto.
    + unfold can_rise in *. rewrite <- (Qr u Hu). exact Ri.
    + unfold can_fall in *. rewrite <- (Qr v Hv). exact Fa.
  - destruct ((4 <? it)%nat && (4 <? unchanged s1)%nat); [discriminate|]. exact (IH (S it) s1 R E).
Qed.
End Train.

(** ** The constant of the decision function *)
Section Bias.
Variables (p : problem) (al g : vec).
Definition freeb (k : nat) : bool := Qlt_bool 0 (al k) && Qlt_bool (al k) (C p).
Definition upb (k : nat) : bool := is_upper p (al k) (y p k).
Definition lowb (k : nat) : bool := is_lower p (al k) (y p k).

Definition tall (seen : list nat) (t : tally) : Prop :=
  gsum t == sum g (filter freeb seen) /\ nfree t = length (filter freeb seen) /\
  match lowest t with
  | None => forall k, In k seen -> upb k = false
  | Some v => (exists k, In k seen /\ upb k = true /\ v = g k) /\
              forall k, In k seen -> upb k = true -> v <= g k
  end /\
  match highest t with
  | None => forall k, In k seen -> lowb k = false
  | Some v => (exists k, In k seen /\ lowb k = true /\ v = g k) /\
              forall k, In k seen -> lowb k = true -> g k <= v
  end.

Lemma tallied_spec l seen t : tall seen t -> exists seen',
  (forall k, In k seen' <-> In k seen \/ In k l) /\
  (length (filter freeb seen') = length (filter freeb seen) + length (filter freeb l))%nat /\
  tall seen' (tallied p al g l t).
Proof.
  revert seen t. induction l as [|a l IH]; intros seen t H.
  - exists seen. simpl. split; [tauto|]. split; [lia|exact H].
  - cbn [tallied]. cbn zeta. fold (freeb a). fold (upb a). fold (lowb a).
    edestruct (IH (a :: seen)) as (seen' & I & L & T).
    2: { exists seen'. split; [intro k; rewrite I; simpl; tauto|]. split; [|exact T].
         rewrite L. simpl. destruct (freeb a); simpl; lia. }
    destruct H as (G & N & Lo & Hi). split; [|split; [|split]]; cbn [gsum nfree lowest highest].
    + simpl. destruct (freeb a); [simpl; rewrite G; ring|exact G].
    + simpl. destruct (freeb a); simpl; lia.
    + destruct (upb a) eqn:U.
      * unfold meet. destruct (lowest t) as [v|].
        -- destruct Lo as ((x & X1 & X2 & X3) & Lo).
           destruct (Qmin_case v (g a)) as [[-> Le]|[-> Le]]; split.
           ++ exists x. simpl. auto.
           ++ intros k [<-|K] Uk; [exact Le|auto].
           ++ exists a. simpl. auto.
           ++ intros k [<-|K] Uk; [lra|]. specialize (Lo k K Uk). lra.
        -- split; [exists a; simpl; auto|]. intros k [<-|K] Uk; [lra|]. rewrite Lo in Uk by auto. discriminate.
      * destruct (lowest t) as [v|].
        -- destruct Lo as ((x & X1 & X2 & X3) & Lo). split; [exists x; simpl; auto|].
           intros k [<-|K] Uk; [congruence|auto].
        -- intros k [<-|K]; auto.
    + destruct (lowb a) eqn:U.
      * unfold meet. destruct (highest t) as [v|].
        -- destruct Hi as ((x & X1 & X2 & X3) & Hi).
           destruct (Qmax_case v (g a)) as [[-> Le]|[-> Le]]; split.
           ++ exists a. simpl. auto.
           ++ intros k [<-|K] Uk; [lra|]. specialize (Hi k K Uk). lra.
           ++ exists x. simpl. auto.
           ++ intros k [<-|K] Uk; [lra|]. auto.
        -- split; [exists a; simpl; auto|]. intros k [<-|K] Uk; [lra|]. rewrite Hi in Uk by auto. discriminate.
      * destruct (highest t) as [v|].
        -- destruct Hi as ((x & X1 & X2 & X3) & Hi). split; [exists x; simpl; auto|].
           intros k [<-|K] Uk; [congruence|auto].
        -- intros k [<-|K]; auto.
Qed.

Hypothesis W : well_posed p.
Variable t : Q.
Hypothesis tpos : 0 < t.
Hypothesis gap : forall u v, (u < size p)%nat -> (v < size p)%nat ->
  can_rise p al u -> can_fall p al v -> g v - g u < t.

Lemma free_both k : (k < size p)%nat -> freeb k = true -> can_rise p al k /\ can_fall p al k.
Proof.
  intros K F. apply andb_true_iff in F. destruct F as [A B]. apply Qlt_bool_iff in A, B.
  unfold can_rise, can_fall. destruct (wp_y p W k K) as [E|E]; auto.
Qed.

Lemma mean_bound (l : list nat) (b c : Q) :
  l <> [] -> b * inject_Z (Z.of_nat (length l)) == - sum g l ->
  ((forall k, In k l -> g k < c) -> 0 < c + b) /\ ((forall k, In k l -> c < g k) -> c + b < 0).
Proof.
  intros N E.
  assert (P : 0 < inject_Z (Z.of_nat (length l))).
  { destruct l; [congruence|]. change 0 with (inject_Z 0). rewrite <- Zlt_Qlt. simpl length. lia. }
  set (n := inject_Z (Z.of_nat (length l))) in *.
  assert (S : forall f : vec, (forall k, In k l -> 0 < f k) -> 0 < sum f l).
  { intros f Hf. destruct l as [|a l']; [congruence|]. simpl.
    pose proof (Hf a (or_introl eq_refl)).
    assert (sum (fun _ => 0) l' <= sum f l').
    { apply sum_le. intros k K. apply Qlt_le_weak, Hf. right. exact K. }
    rewrite (sum_zero (fun _ => 0)) in H0 by reflexivity. lra. }
  split; intro H.
  - assert (0 < sum (fun k => c - g k) l) by (apply S; intros k K; specialize (H k K); lra).
    rewrite sum_minus, sum_const in H0. fold n in H0.
    destruct (Qlt_le_dec 0 (c + b)); [assumption|exfalso]. nra.
  - assert (0 < sum (fun k => g k - c) l) by (apply S; intros k K; specialize (H k K); lra).
    rewrite sum_minus, sum_const in H0. fold n in H0.
    destruct (Qlt_le_dec (c + b) 0); [assumption|exfalso]. nra.
Qed.

Lemma bias_margin b : set_bias p al g = Some b ->
  forall k, (k < size p)%nat ->
    (can_rise p al k -> - t < g k + b) /\ (can_fall p al k -> g k + b < t).
Proof.
  unfold set_bias. intros E k K.
  destruct (tallied_spec (seq 0 (size p)) [] (Tally 0 0 None None)) as (seen & I & _ & T).
  { repeat split; simpl; try reflexivity; intros ? []. }
  assert (I' : forall x, In x seen <-> (x < size p)%nat).
  { intro x. rewrite I, in_seq. simpl. lia. }
  set (ta := tallied p al g (seq 0 (size p)) (Tally 0 0 None None)) in *.
  destruct T as (G & N & Lo & Hi).
  destruct (nfree ta) as [|n] eqn:Nf.
  - destruct (lowest ta) as [a|]; [|discriminate]. destruct (highest ta) as [c|]; [|discriminate].
    injection E as <-.
    destruct Lo as ((x & X1 & X2 & X3) & Lo). destruct Hi as ((z & Z1 & Z2 & Z3) & Hi).
    apply I' in X1, Z1. apply (upper_iff p al x W X1) in X2. apply (lower_iff p al z W Z1) in Z2.
    pose proof (gap x z X1 Z1 X2 Z2) as Gp. rewrite <- X3, <- Z3 in Gp.
    assert (Hf : - (a + c) / 2 == (1 # 2) * (- (a + c))) by field. rewrite Hf.
    split; intro Hk.
    + apply (upper_iff p al k W K) in Hk. apply I' in K. specialize (Lo k K Hk). lra.
    + apply (lower_iff p al k W K) in Hk. apply I' in K. specialize (Hi k K Hk). lra.
  - rewrite N in E.
    assert (Eb : - gsum ta / inject_Z (Z.of_nat (length (filter freeb seen))) = b) by congruence.
    clear E. subst b.
    set (fl := filter freeb seen) in *.
    assert (Ne : fl <> []) by (intro X; rewrite X in N; discriminate).
    assert (Be : - gsum ta / inject_Z (Z.of_nat (length fl)) * inject_Z (Z.of_nat (length fl)) == - sum g fl).
    { rewrite G. field. intro X. rewrite <- N in X. unfold Qeq in X. simpl in X. lia. }
    assert (Fl : forall x, In x fl -> (x < size p)%nat /\ can_rise p al x /\ can_fall p al x).
    { intros x X. apply filter_In in X. destruct X as [X F]. apply I' in X. split; [exact X|].
      apply free_both; auto. }
    split; intro Hk.
    + destruct (mean_bound fl _ (g k + t) Ne Be) as [H _].
      assert (X : forall f, In f fl -> g f < g k + t).
      { intros f F. destruct (Fl f F) as (F1 & F2 & F3). pose proof (gap k f K F1 Hk F3). lra. }
      specialize (H X). lra.
    + destruct (mean_bound fl _ (g k - t) Ne Be) as [_ H].
      assert (X : forall f, In f fl -> g k - t < g f).
      { intros f F. destruct (Fl f F) as (F1 & F2 & F3). pose proof (gap f k F1 K F2 Hk). lra. }
      specialize (H X). lra.
Qed.

Lemma bias_defined : feasible p al ->
  (exists a, (a < size p)%nat /\ y p a = 1) -> (exists c, (c < size p)%nat /\ y p c = -(1)) ->
  exists b, set_bias p al g = Some b.
Proof.
  intros [Bx Bal] (a & A1 & A2) (c & C1 & C2). unfold set_bias.
  destruct (tallied_spec (seq 0 (size p)) [] (Tally 0 0 None None)) as (seen & I & _ & T).
  { repeat split; simpl; try reflexivity; intros ? []. }
  assert (I' : forall x, In x seen <-> (x < size p)%nat).
  { intro x. rewrite I, in_seq. simpl. lia. }
  set (ta := tallied p al g (seq 0 (size p)) (Tally 0 0 None None)) in *.
  destruct T as (G & N & Lo & Hi).
  destruct (nfree ta); [|eexists; reflexivity].
  pose proof (wp_C p W) as HC.
  assert (Zero : forall f, (forall k, (k < size p)%nat -> f k <= 0) -> sum f (seq 0 (size p)) == 0 ->
                 forall k, (k < size p)%nat -> f k == 0).
  { intros f F Z k K. apply (sum_nonpos_zero f (seq 0 (size p))); auto; [|apply in_seq; lia].
    intros x X. apply in_seq in X. apply F. lia. }
  destruct (lowest ta) as [v|].
  2: { exfalso. (* nothing can rise: 1-class at C, other at 0 *)
       assert (V : forall k, (k < size p)%nat -> (y p k = 1 -> C p <= al k) /\ (y p k = -(1) -> al k <= 0)).
       { intros k K. assert (U : upb k = false) by (apply Lo, I', K).
         split; intro E; apply Qnot_lt_le; intro X;
           (assert (Ht : upb k = true) by (apply upper_iff; auto; unfold can_rise; auto)); congruence. }
       assert (Z : sum (fun k => - (y p k * al k)) (seq 0 (size p)) == 0).
       { rewrite (sum_ext _ (fun k => (-(1)) * (y p k * al k))) by (intros; ring).
         rewrite sum_scale. unfold balanced in Bal. rewrite Bal. ring. }
       assert (F : forall k, (k < size p)%nat -> - (y p k * al k) <= 0).
       { intros k K. specialize (Bx k K). destruct (V k K) as [V1 V2].
         destruct (wp_y p W k K) as [E|E]; rewrite E; [lra|]. specialize (V2 E). lra. }
       pose proof (Zero _ F Z a A1) as X. cbv beta in X. rewrite A2 in X. destruct (V a A1) as [V1 _].
       specialize (V1 A2). lra. }
  destruct (highest ta) as [u|]; [eexists; reflexivity|].
  exfalso.
  assert (V : forall k, (k < size p)%nat -> (y p k = 1 -> al k <= 0) /\ (y p k = -(1) -> C p <= al k)).
  { intros k K. assert (U : lowb k = false) by (apply Hi, I', K).
    split; intro E; apply Qnot_lt_le; intro X;
      (assert (Ht : lowb k = true) by (apply lower_iff; auto; unfold can_fall; auto)); congruence. }
  assert (F : forall k, (k < size p)%nat -> y p k * al k <= 0).
  { intros k K. specialize (Bx k K). destruct (V k K) as [V1 V2].
    destruct (wp_y p W k K) as [E|E]; rewrite E; [specialize (V1 E); lra|lra]. }
  pose proof (Zero _ F Bal c C1) as X. cbv beta in X. rewrite C2 in X. destruct (V c C1) as [_ V2].
  specialize (V2 C2). lra.
Qed.
End Bias.

(** Leaving out coefficients of at most [meps] moves a decision value by at most
    [meps] times the row sum of the kernel. *)
Lemma dropped_bound p meps al b kx : well_posed p ->
  Qabs (decision p meps al b kx - (b + sum (fun k => (y p k * al k) * kx k) (seq 0 (size p)))) <=
  meps * sum (fun k => Qabs (kx k)) (filter (fun k => negb (is_sv meps al k)) (seq 0 (size p))).
Proof.
  intro W. unfold decision.
  assert (R : forall l, (forall k, In k l -> (k < size p)%nat) ->
    Qabs (sum (fun k => al k * y p k * kx k) (filter (is_sv meps al) l) -
          sum (fun k => y p k * al k * kx k) l) <=
    meps * sum (fun k => Qabs (kx k)) (filter (fun k => negb (is_sv meps al k)) l)).
  { induction l as [|a l IH]; intro I.
    - cbn [filter sum]. change (Qabs (0 - 0)) with 0. lra.
    - assert (IH' := IH (fun k K => I k (or_intror K))). cbn [filter].
      destruct (is_sv meps al a) eqn:E; cbn [negb sum].
      + setoid_replace (al a * y p a * kx a + sum (fun k => al k * y p k * kx k) (filter (is_sv meps al) l) -
          (y p a * al a * kx a + sum (fun k => y p k * al k * kx k) l)) with
          (sum (fun k => al k * y p k * kx k) (filter (is_sv meps al) l) -
           sum (fun k => y p k * al k * kx k) l) by ring. exact IH'.
      + unfold is_sv in E. apply Qlt_bool_false in E.
        setoid_replace (sum (fun k => al k * y p k * kx k) (filter (is_sv meps al) l) -
          (y p a * al a * kx a + sum (fun k => y p k * al k * kx k) l)) with
          (- (y p a * al a * kx a) + (sum (fun k => al k * y p k * kx k) (filter (is_sv meps al) l) -
           sum (fun k => y p k * al k * kx k) l)) by ring.
        eapply Qle_trans; [apply Qabs_triangle|].
        rewrite Qabs_opp, !Qabs_Qmult.
        assert (Y : Qabs (y p a) == 1).
        { destruct (wp_y p W a (I a (or_introl eq_refl))) as [->| ->]; reflexivity. }
        rewrite Y. pose proof (Qabs_nonneg (kx a)). pose proof (Qabs_nonneg (al a)).
        assert (1 * Qabs (al a) * Qabs (kx a) <= meps * Qabs (kx a)).
        { rewrite Qmult_1_l. apply Qmult_le_compat_r; auto. }
        lra. }
  setoid_replace (b + sum (fun k => al k * y p k * kx k) (filter (is_sv meps al) (seq 0 (size p))) -
     (b + sum (fun k => y p k * al k * kx k) (seq 0 (size p)))) with
     (sum (fun k => al k * y p k * kx k) (filter (is_sv meps al) (seq 0 (size p))) -
      sum (fun k => y p k * al k * kx k) (seq 0 (size p))) by ring.
  apply R. intros k K. apply in_seq in K. lia.
Qed.

(** ** All rounds *)
Section Rounds.
Variables (p : problem) (srt : sorter).
Hypothesis W : well_posed p.
Hypothesis So : sorts p srt.
Hypothesis pos : (0 < size p)%nat.

Lemma rounds_inv n : inv p n (rounds p srt n).
Proof.
  induction n as [|n IH]; [apply start_inv; auto|]. cbn [rounds]. apply round_inv; auto.
Qed.

Lemma rounds_indices n :
  indices (rounds p srt (S n)) =
  outer_wss p srt (alpha (rounds p srt n)) (grad (rounds p srt n)) (kept p n (rounds p srt n)).
Proof.
  cbn [rounds]. unfold round. cbn zeta.
  destruct (local_smo _ _ _ _). reflexivity.
Qed.

Lemma rounds_set n :
  working_set p (indices (rounds p srt (S n))) /\ length (indices (rounds p srt (S n))) = ws_size p.
Proof. rewrite rounds_indices. apply (set_of_ok p srt W So pos n _ (rounds_inv n)). Qed.

Lemma rounds_extremes n : (3 <= ws_size p)%nat ->
  holds_extremes p (alpha (rounds p srt n)) (true_gradient p (alpha (rounds p srt n)))
    (indices (rounds p srt (S n))).
Proof.
  intro Ge. rewrite rounds_indices. pose proof (rounds_inv n) as I.
  destruct (kept_facts p pos n _ I) as (A & B & D). destruct (i_feas _ _ _ I) as [Bx _].
  assert (X : holds_extremes p (alpha (rounds p srt n)) (grad (rounds p srt n))
    (outer_wss p srt (alpha (rounds p srt n)) (grad (rounds p srt n)) (kept p n (rounds p srt n)))).
  { apply outer_extremes; auto. }
  assert (Wk := set_of_ok p srt W So pos n _ I). destruct Wk as [[_ Rg] _]. unfold set_of in Rg.
  destruct X as [X1 X2]. split.
  - intros u Hu R. destruct (X1 u Hu R) as (i & I1 & I2 & I3). exists i. split; [auto|]. split; [auto|].
    rewrite <- (i_grad _ _ _ I u Hu), <- (i_grad _ _ _ I i) by auto. exact I3.
  - intros u Hu R. destruct (X2 u Hu R) as (i & I1 & I2 & I3). exists i. split; [auto|]. split; [auto|].
    rewrite <- (i_grad _ _ _ I u Hu), <- (i_grad _ _ _ I i) by auto. exact I3.
Qed.

Lemma loop_rounds fuel it s : s = rounds p srt it ->
  exists n, fst (compute_loop fuel p srt it s) = rounds p srt n.
Proof.
  revert it s. induction fuel as [|f IH]; intros it s E; [exists it; exact E|].
  cbn [compute_loop]. assert (R : fst (round p srt it s) = rounds p srt (S it)) by (subst; reflexivity).
  destruct (round p srt it s) as [s' d]. cbn [fst] in R.
  destruct (_ && _); [exists (S it); exact R|].
  destruct (_ && _); [exists (S it); exact R|]. apply IH. exact R.
Qed.

Lemma rounds_objective n : symmetric p ->
  objective p (alpha (rounds p srt (S n))) <= objective p (alpha (rounds p srt n)).
Proof. intro Sy. cbn [rounds]. apply round_objective; auto. apply rounds_inv. Qed.
End Rounds.

(** ** The sorter of the examples *)
Lemma insert_perm g k l : Permutation (insert_by g k l) (k :: l).
Proof.
  induction l as [|m l IH]; simpl; [reflexivity|]. destruct (Qle_bool (g k) (g m)); [reflexivity|].
  rewrite IH. apply perm_swap.
Qed.
Lemma insert_sorted g k l : StronglySorted (fun a b => g a <= g b) l ->
  StronglySorted (fun a b => g a <= g b) (insert_by g k l).
Proof.
  induction l as [|m l IH]; intro H; simpl; [constructor; constructor|].
  apply StronglySorted_inv in H as H'. destruct H' as [H1 H2].
  destruct (Qle_bool (g k) (g m)) eqn:E.
  - apply Qle_bool_iff in E. constructor; [exact H|]. constructor; [exact E|].
    eapply Forall_impl; [|exact H2]. intros a A. simpl in A. lra.
  - apply Qle_bool_false in E. constructor; [auto|].
    apply Forall_forall. intros a A. apply (Permutation_in _ (insert_perm g k l)) in A.
    destruct A as [<-|A]; [lra|]. rewrite Forall_forall in H2. apply H2. exact A.
Qed.
Lemma insertion_sorts p : sorts p (insertion (size p)).
Proof.
  intro g. unfold insertion. generalize (seq 0 (size p)). induction l as [|k l [IH1 IH2]]; simpl.
  - split; [reflexivity|constructor].
  - split; [rewrite insert_perm, IH1; reflexivity|apply insert_sorted; exact IH2].
Qed.

(** Kernels of one feature: products of the samples. *)
Lemma product_psd p (x : nat -> Q) : (forall a b, K p a b = x a * x b) -> psd p /\ symmetric p.
Proof.
  intro H. split.
  - intro d. set (U := seq 0 (size p)). set (h := fun k => d k * x (k mod rows p)%nat).
    rewrite (sum_ext _ (fun k => sum h U * h k)).
    + rewrite sum_scale. destruct (Qlt_le_dec (sum h U) 0); nra.
    + intros k _. unfold h at 2. rewrite (sum_ext _ (fun m => x (k mod rows p)%nat * h m)).
      * rewrite sum_scale. ring.
      * intros m _. unfold kk, h. rewrite H. ring.
  - intros a b _ _. unfold kk. rewrite !H. ring.
Qed.
