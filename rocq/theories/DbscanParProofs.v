(** The parallel clustering, under every interleaving. *)
From Coq Require Import ZArith Lia List Bool Relations Permutation.
From Verif Require Import Base Par UtilModel DbscanModel DbscanSpec.
Import ListNotations.
Local Open Scope Z_scope.

(** ** Interleavings *)
Lemma filter_interleaving {A} (f : A -> bool) ts tr : interleaving ts tr -> forall pre t post,
  ts = pre ++ t :: post -> Forall (fun u => filter f u = []) pre -> Forall (fun u => filter f u = []) post ->
  filter f tr = filter f t.
Proof.
  induction 1 as [ts F|pre1 a t1 post1 tr I IH]; intros pre t post E P1 P2.
  - subst. apply Forall_app in F. destruct F as (_ & F). inversion F; subst. reflexivity.
  - assert (S : forall u, filter f (a :: u) = [] -> filter f u = []).
    { intros u. cbn. destruct (f a); [discriminate|auto]. }
    destruct (app_eq_app _ _ _ _ E) as (mid & C). destruct C as [(E1 & E2)|(E1 & E2)].
    + (* the step is at or after the thread *)
      destruct mid as [|u mid].
      * cbn in E2. injection E2 as -> ->. rewrite app_nil_r in E1. subst pre1.
        cbn [filter]. destruct (f a); [f_equal|]; apply (IH pre t1 post1); auto.
      * cbn in E2. injection E2 as -> ->. subst.
        apply Forall_app in P2. destruct P2 as (P3 & P4). inversion P4 as [|? ? P5 P6]; subst.
        assert (f a = false) as Fa. { cbn in P5. destruct (f a); [discriminate|auto]. }
        cbn [filter]. rewrite Fa. apply (IH pre u (mid ++ t1 :: post1)); auto.
        -- rewrite <- app_assoc. reflexivity.
        -- apply Forall_app. split; auto.
    + destruct mid as [|u mid].
      * cbn in E2. injection E2 as <- <-. rewrite app_nil_r in E1. subst pre.
        cbn [filter]. destruct (f a); [f_equal|]; apply (IH pre1 t1 post1); auto.
      * cbn in E2. injection E2 as <- ->. subst.
        apply Forall_app in P1. destruct P1 as (P3 & P4). inversion P4 as [|? ? P5 P6]; subst.
        assert (f a = false) as Fa. { cbn in P5. destruct (f a); [discriminate|auto]. }
        cbn [filter]. rewrite Fa. apply (IH (pre1 ++ t1 :: mid) t post); auto.
        -- rewrite <- app_assoc. reflexivity.
        -- apply Forall_app. split; auto.
Qed.

Section Parallel.
Variable n : Z.
Variable nb : Z -> list Z.
Variable m : Z.
Hypothesis H : neighbour_lists n nb.
Notation near := (fun i j => In j (nb i)).
Notation dense := (fun i => core nb m i = true).
Notation C := (core_sample n dense).
Variable tr : list action.
Hypothesis I : interleaving (first_loop n nb m) tr.

Lemma actions a : In a tr -> exists i, C i /\ In a (iteration nb m i).
Proof.
  intros Ha. apply (Permutation_in _ (Permutation_sym (interleaving_perm _ _ I))) in Ha.
  apply in_concat in Ha. destruct Ha as (l & Hl & Ha). unfold first_loop in Hl. apply in_map_iff in Hl.
  destruct Hl as (i & <- & Hi). apply in_zrange in Hi. exists i. split; auto. split; auto.
  unfold iteration in Ha. destruct (core nb m i); [auto|contradiction].
Qed.
Lemma in_iteration i a : C i -> In a (iteration nb m i) ->
  match a with
  | ReadLabel j x | WriteLabel j x => j = i /\ (x = i \/ In x (nb i))
  | Duplicate x y => y < x /\ 0 <= y /\ ((x = i /\ In y (nb i)) \/ (y = i /\ In x (nb i)))
  end.
Proof.
  intros (Si & Di) Ha. unfold iteration in Ha. rewrite Di in Ha. destruct Ha as [<- |[<- |Ha]]; auto.
  apply in_flat_map in Ha. destruct Ha as (j & Hj & Ha). destruct Ha as [<- |[<- |[<- |[]]]]; auto.
  destruct (proj1 H i j Si Hj) as (Sj & Nj). unfold sample in *. unfold link.
  destruct (Z.ltb_spec i j); split; auto; try lia; split; auto; lia.
Qed.

(** ** What the first loop leaves *)
Lemma labels_from : forall x, labels (fold_left act tr start) x = NOISE \/
  C (labels (fold_left act tr start) x) /\
  (x = labels (fold_left act tr start) x \/ In x (nb (labels (fold_left act tr start) x))).
Proof.
  assert (G : forall l s, (forall a, In a l -> In a tr) ->
    (forall x, labels s x = NOISE \/ C (labels s x) /\ (x = labels s x \/ In x (nb (labels s x)))) ->
    forall x, labels (fold_left act l s) x = NOISE \/ C (labels (fold_left act l s) x) /\
      (x = labels (fold_left act l s) x \/ In x (nb (labels (fold_left act l s) x)))).
  { induction l as [|a l IH]; intros s A P; cbn [fold_left]; auto. apply IH; [intros; apply A; right; auto|].
    destruct (actions a) as (i & Ci & Ha); [apply A; left; auto|]. pose proof (in_iteration i a Ci Ha) as W.
    destruct a as [j x|j x|x y]; cbn [act labels]; auto.
    destruct (_ || _); auto. destruct W as (-> & W). intros z. cbn [labels]. unfold store_at.
    destruct (Z.eqb_spec z x) as [-> |]; auto. }
  apply G; auto.
Qed.
Lemma duplicate_from : forall x, duplicate (fold_left act tr start) x = NOISE \/
  (0 <= duplicate (fold_left act tr start) x < x /\
   exists i, C i /\ ((x = i /\ In (duplicate (fold_left act tr start) x) (nb i)) \/
                     (duplicate (fold_left act tr start) x = i /\ In x (nb i)))).
Proof.
  assert (G : forall l s, (forall a, In a l -> In a tr) ->
    (forall x, duplicate s x = NOISE \/ (0 <= duplicate s x < x /\
       exists i, C i /\ ((x = i /\ In (duplicate s x) (nb i)) \/ (duplicate s x = i /\ In x (nb i))))) ->
    forall x, duplicate (fold_left act l s) x = NOISE \/ (0 <= duplicate (fold_left act l s) x < x /\
       exists i, C i /\ ((x = i /\ In (duplicate (fold_left act l s) x) (nb i)) \/
                         (duplicate (fold_left act l s) x = i /\ In x (nb i))))).
  { induction l as [|a l IH]; intros s A P; cbn [fold_left]; auto. apply IH; [intros; apply A; right; auto|].
    destruct (actions a) as (i & Ci & Ha); [apply A; left; auto|]. pose proof (in_iteration i a Ci Ha) as W.
    destruct a as [j x|j x|x y]; cbn [act duplicate]; auto.
    - destruct (_ || _); auto.
    - intros z. unfold store_at. destruct (Z.eqb_spec z x) as [-> |]; auto. right.
      destruct W as (W1 & W2 & W3). split; [lia|]. exists i. auto. }
  apply G; auto.
Qed.

(** ** Who gets a label *)
Definition own (i : Z) (a : action) : bool :=
  match a with ReadLabel j _ | WriteLabel j _ => j =? i | Duplicate _ _ => false end.
Definition pairs (i : Z) (xs : list Z) : list action := flat_map (fun x => [ReadLabel i x; WriteLabel i x]) xs.
Lemma own_iteration i : core nb m i = true -> filter (own i) (iteration nb m i) = pairs i (i :: nb i).
Proof.
  intros D. unfold iteration. rewrite D. cbn [pairs flat_map app filter own]. rewrite Z.eqb_refl. do 2 f_equal.
  unfold pairs. induction (nb i) as [|j l IH]; auto. cbn [flat_map app filter own]. rewrite Z.eqb_refl.
  replace (own i (link i j)) with false by (unfold link; destruct (i <? j); auto). rewrite IH. auto.
Qed.
Lemma own_other i j : i <> j -> filter (own i) (iteration nb m j) = [].
Proof.
  intros N. unfold iteration. destruct (core nb m j); auto. cbn [filter own].
  destruct (Z.eqb_spec j i); [congruence|]. induction (nb j) as [|x l IH]; auto.
  cbn [flat_map app filter own]. destruct (Z.eqb_spec j i); [congruence|].
  replace (own i (link j x)) with false by (unfold link; destruct (j <? x); auto). auto.
Qed.
Lemma own_trace i : C i -> filter (own i) tr = pairs i (i :: nb i).
Proof.
  intros (Si & Di). rewrite <- own_iteration by auto.
  assert (Hi : In i (zrange n)) by (apply in_zrange; auto).
  apply in_split in Hi. destruct Hi as (l1 & l2 & E). pose proof (zrange_nodup n) as D. rewrite E in D.
  apply NoDup_remove_2 in D.
  apply (filter_interleaving (own i) _ _ I (map (iteration nb m) l1) _ (map (iteration nb m) l2)).
  - unfold first_loop. rewrite E, map_app. reflexivity.
  - apply Forall_forall. intros u Hu. apply in_map_iff in Hu. destruct Hu as (j & <- & Hj). apply own_other.
    intros ->. apply D. apply in_or_app. auto.
  - apply Forall_forall. intros u Hu. apply in_map_iff in Hu. destruct Hu as (j & <- & Hj). apply own_other.
    intros ->. apply D. apply in_or_app. auto.
Qed.
Definition nonneg (a : action) : Prop := match a with WriteLabel j _ => 0 <= j | _ => True end.
Lemma stable x : forall l s, Forall nonneg l -> labels s x <> NOISE -> labels (fold_left act l s) x <> NOISE.
Proof.
  induction l as [|a l IH]; intros s F N; cbn [fold_left]; auto. inversion F as [|? ? F1 F2]; subst.
  apply IH; auto. destruct a as [j y|j y|y z]; cbn [act labels]; auto. destruct (_ || _); auto.
  cbn [labels]. unfold store_at. destruct (x =? y); auto. cbn in F1. unfold NOISE. lia.
Qed.
Lemma owned i : 0 <= i -> forall l s, Forall nonneg l ->
  (forall xs, filter (own i) l = pairs i xs -> forall x, In x xs -> labels (fold_left act l s) x <> NOISE) /\
  (forall y xs, filter (own i) l = WriteLabel i y :: pairs i xs -> tmp s i = NOISE \/ labels s y <> NOISE ->
     forall x, In x (y :: xs) -> labels (fold_left act l s) x <> NOISE).
Proof.
  intros Hi. induction l as [|a l IH]; intros s F.
  - split.
    + intros [|x xs] E z Hz; [contradiction|discriminate].
    + intros y xs E. discriminate.
  - inversion F as [|? ? F1 F2]; subst. cbn [filter fold_left]. destruct (own i a) eqn:O.
    + split.
      * intros [|x xs] E z Hz; [discriminate|]. cbn in E. injection E as -> E.
        destruct (IH (act s (ReadLabel i x)) F2) as (_ & Q). apply (Q x xs E); auto.
        cbn [act tmp labels]. unfold store_at. rewrite Z.eqb_refl.
        destruct (Z.eq_dec (labels s x) NOISE); auto.
      * intros y xs E T z Hz. injection E as -> E.
        assert (Y : labels (act s (WriteLabel i y)) y <> NOISE).
        { cbn [act]. destruct (i <? tmp s i) eqn:A; cbn [orb].
          - cbn [labels]. unfold store_at. rewrite Z.eqb_refl. unfold NOISE. lia.
          - destruct (Z.eqb_spec (tmp s i) NOISE) as [B|B].
            + cbn [labels]. unfold store_at. rewrite Z.eqb_refl. unfold NOISE. lia.
            + destruct T; [congruence|auto]. }
        destruct Hz as [<- |Hz]; [apply stable; auto|]. destruct (IH (act s (WriteLabel i y)) F2) as (Q & _).
        apply (Q xs E); auto.
    + assert (T : tmp (act s a) i = tmp s i).
      { destruct a as [j y|j y|y z]; cbn [act tmp own] in *; auto; [|destruct (_ || _); auto].
        unfold store_at. destruct (Z.eqb_spec i j) as [-> |]; auto. rewrite Z.eqb_refl in O. discriminate. }
      destruct (IH (act s a) F2) as (Q1 & Q2). split.
      * intros xs E. apply Q1. auto.
      * intros y xs E K. apply Q2; auto. rewrite T. destruct K; auto. right.
        apply (stable y [a] s); auto.
Qed.
Lemma nonneg_trace : Forall nonneg tr.
Proof.
  apply Forall_forall. intros a Ha. destruct (actions a Ha) as (i & Ci & Hi). pose proof (in_iteration i a Ci Hi) as W.
  destruct a; cbn; auto. destruct W as (-> & _). destruct Ci as (S & _). unfold sample in S. lia.
Qed.
Lemma gets_label i x : C i -> x = i \/ In x (nb i) -> labels (fold_left act tr start) x <> NOISE.
Proof.
  intros Ci Hx. destruct (owned i) with (l := tr) (s := start) as (Q & _).
  - destruct Ci as (S & _). unfold sample in S. lia.
  - apply nonneg_trace.
  - apply (Q (i :: nb i)); [apply own_trace; auto|]. destruct Hx; [left|right]; auto.
Qed.

(** ** The second loop *)
Let s := fold_left act tr start.
Lemma follow_spec : forall fuel l, 0 <= l <= Z.of_nat fuel -> exists r, follow fuel (duplicate s) l = Some r /\
  0 <= r <= l /\ linked n near dense l r.
Proof.
  induction fuel as [|fuel IH]; intros l Hl; cbn [follow]; destruct (Z.eqb_spec (duplicate s l) NOISE) as [E|E].
  1, 3: exists l; split; auto; split; [lia|apply rst_refl].
  - destruct (duplicate_from l) as [|(B & _)]; [contradiction|]. fold s in B. lia.
  - destruct (duplicate_from l) as [|(B & i & Ci & W)]; [contradiction|]. fold s in B, W.
    destruct (IH (duplicate s l)) as (r & Er & Br & K); [lia|]. exists r. split; auto. split; [lia|].
    eapply rst_trans; [|exact K]. destruct W as [(-> & W)|(-> & W)].
    + apply rst_step. auto.
    + apply rst_sym, rst_step. auto.
Qed.
Lemma second_spec : forall is L, NoDup is ->
  (forall x, In x is -> L x = NOISE \/ (0 <= L x <= n)) ->
  exists L', second_loop n s is L = Some L' /\
    (forall x, ~ In x is -> L' x = L x) /\
    (forall x, In x is -> L x = NOISE -> L' x = NOISE) /\
    (forall x, In x is -> L x <> NOISE -> 0 <= L' x /\ linked n near dense (L x) (L' x)).
Proof.
  induction is as [|i is IH]; intros L D P; cbn [second_loop].
  - exists L. split; auto. split; auto. split; intros x [].
  - inversion D as [|? ? D1 D2]; subst.
    assert (P' : forall x, In x is -> L x = NOISE \/ 0 <= L x <= n) by (intros; apply P; right; auto).
    destruct (Z.eqb_spec (L i) NOISE) as [E|E].
    + destruct (IH L D2 P') as (L' & E' & A & B & B'). exists L'. split; auto. split; [|split].
      * intros x Hx. apply A. intros F. apply Hx. right. auto.
      * intros x [<- |Hx] Ex; [rewrite A; auto|apply B; auto].
      * intros x [<- |Hx] Ex; [congruence|apply B'; auto].
    + destruct (P i) as [|Pi]; [left; auto|contradiction|].
      destruct (follow_spec (Z.to_nat n) (L i)) as (r & Er & Br & K); [lia|]. rewrite Er.
      assert (Ne : forall x, In x is -> store_at L i r x = L x).
      { intros x Hx. unfold store_at. destruct (Z.eqb_spec x i) as [-> |]; auto. contradiction. }
      destruct (IH (store_at L i r) D2) as (L' & E' & A & B & B').
      { intros x Hx. rewrite Ne; auto. }
      exists L'. split; auto. split; [|split].
      * intros x Hx. rewrite A by (intros F; apply Hx; right; auto). unfold store_at.
        destruct (Z.eqb_spec x i) as [-> |]; auto. exfalso. apply Hx. left. auto.
      * intros x [<- |Hx] Ex; [congruence|]. apply B; auto. rewrite Ne; auto.
      * intros x [<- |Hx] Ex.
        -- rewrite A by auto. unfold store_at. rewrite Z.eqb_refl. split; [lia|auto].
        -- rewrite <- (Ne x Hx). apply B'; auto. rewrite Ne; auto.
Qed.

(** ** Renumbering *)
Lemma remap_spec L : (forall x, sample n x -> L x = NOISE \/ 0 <= L x) -> forall q, 0 <= Z.of_nat q <= Z.max 0 n ->
  let '(remap, k) := fold_left (remap_step L) (map Z.of_nat (seq 0 q)) (fun _ => NOISE, 0) in
  0 <= k /\
  (forall r, remap r = NOISE \/ 0 <= remap r < k) /\
  (forall r r', remap r <> NOISE -> remap r = remap r' -> r = r') /\
  (forall x, sample n x -> x < Z.of_nat q -> L x <> NOISE -> remap (L x) <> NOISE) /\
  (forall c, 0 <= c < k -> exists x, sample n x /\ L x <> NOISE /\ remap (L x) = c).
Proof.
  intros HL. induction q as [|q IH]; intros Hq.
  - cbn. repeat split; auto; try lia; intros; try contradiction; unfold sample in *; lia.
  - rewrite seq_S, map_app, fold_left_app. cbn [plus map fold_left].
    specialize (IH ltac:(lia)).
    destruct (fold_left (remap_step L) (map Z.of_nat (seq 0 q)) (fun _ => NOISE, 0)) as (remap & k).
    destruct IH as (K & R1 & R2 & R3 & R4). cbn [remap_step].
    assert (Sq : sample n (Z.of_nat q)) by (unfold sample; lia).
    destruct (Z.eqb_spec (L (Z.of_nat q)) NOISE) as [E|E].
    + split; auto. split; auto. split; auto. split; auto. intros x Sx Lx Nx.
      destruct (Z.eq_dec x (Z.of_nat q)) as [-> |]; [congruence|]. apply R3; auto. lia.
    + destruct (Z.eqb_spec (remap (L (Z.of_nat q))) NOISE) as [F|F].
      * set (r0 := L (Z.of_nat q)) in *.
        assert (Kn : k <> NOISE) by (unfold NOISE; lia).
        split; [lia|]. split; [|split; [|split]].
        -- intros r. unfold store_at. destruct (Z.eqb_spec r r0); [lia|]. destruct (R1 r); auto. lia.
        -- intros r r'. unfold store_at. destruct (Z.eqb_spec r r0), (Z.eqb_spec r' r0); subst; auto.
           ++ intros _ Ek. destruct (R1 r'); lia.
           ++ intros _ Ek. destruct (R1 r); lia.
        -- intros x Sx Lx Nx. unfold store_at. destruct (Z.eqb_spec (L x) r0) as [Ex|Ex]; auto.
           apply R3; auto. assert (x <> Z.of_nat q) by (intros ->; apply Ex; reflexivity). lia.
        -- intros c Hc. destruct (Z.eq_dec c k) as [-> |].
           ++ exists (Z.of_nat q). split; auto. split; auto. unfold store_at. fold r0. rewrite Z.eqb_refl. auto.
           ++ destruct (R4 c) as (x & Sx & Nx & Ex); [lia|]. exists x. split; auto. split; auto.
              unfold store_at. destruct (Z.eqb_spec (L x) r0) as [E'|]; auto. rewrite E' in Ex. unfold NOISE in F. lia.
      * split; auto. split; auto. split; auto. split; auto. intros x Sx Lx Nx.
        destruct (Z.eq_dec x (Z.of_nat q)) as [-> |]; auto. apply R3; auto. lia.
Qed.

Lemma parallel_spec : exists lab k, dbscan_clusters_parallel n tr = Some (lab, k) /\
  labelled_samples n near dense lab k /\
  (forall x y, sample n x -> sample n y -> lab x <> -1 -> lab x = lab y -> linked n near dense x y).
Proof.
  unfold dbscan_clusters_parallel. fold s.
  assert (P : forall x, In x (zrange n) -> labels s x = NOISE \/ 0 <= labels s x <= n).
  { intros x _. destruct (labels_from x) as [|((S & _) & _)]; auto. fold s in S. unfold sample in S. lia. }
  destruct (second_spec (zrange n) (labels s) (zrange_nodup n) P) as (L & -> & _ & B & B').
  assert (HL : forall x, sample n x -> L x = NOISE \/ 0 <= L x).
  { intros x Sx. destruct (Z.eq_dec (labels s x) NOISE) as [E|E].
    - left. apply B; auto. apply in_zrange. auto.
    - right. apply B'; auto. apply in_zrange. auto. }
  pose proof (remap_spec L HL (Z.to_nat n)) as R. specialize (R ltac:(lia)). fold (zrange n) in R.
  destruct (fold_left (remap_step L) (zrange n) (fun _ => NOISE, 0)) as (remap & k). destruct R as (K & R1 & R2 & R3 & R4).
  exists (relabel remap L), k. split; auto.
  assert (N : forall x, sample n x -> L x = NOISE <-> labels s x = NOISE).
  { intros x Sx. split; [|apply B; apply in_zrange; auto]. intros E.
    destruct (Z.eq_dec (labels s x) NOISE) as [|F]; auto. exfalso.
    destruct (B' x) as (Q & _); auto; [apply in_zrange; auto|]. unfold NOISE in E. lia. }
  assert (V : forall x, sample n x -> L x <> NOISE -> 0 <= remap (L x) < k).
  { intros x Sx Nx. destruct (R1 (L x)) as [E|]; auto. exfalso. apply (R3 x); auto. unfold sample in Sx. lia. }
  assert (Z1 : forall x, sample n x -> relabel remap L x = -1 <-> labels s x = NOISE).
  { intros x Sx. rewrite <- N by auto. unfold relabel. destruct (Z.eqb_spec (L x) NOISE) as [E|E].
    - split; auto.
    - split; [|contradiction]. intros F. pose proof (V x Sx E). lia. }
  split; [split; [|split]|].
  - intros x Sx. rewrite Z1 by auto. split.
    + intros E. split.
      * intros D. apply (gets_label x x); auto. split; auto.
      * intros (j & Cj & Hj). apply (gets_label j x); auto.
    + intros (Dx & Rx). destruct (labels_from x) as [|(Ci & W)]; auto. exfalso. fold s in Ci, W. destruct W as [W|W].
      * rewrite <- W in Ci. destruct Ci. auto.
      * apply Rx. exists (labels s x). auto.
  - intros x Sx. unfold relabel. destruct (Z.eqb_spec (L x) NOISE) as [E|E]; auto.
  - intros c Hc. destruct (R4 c Hc) as (x & Sx & Nx & Ex). exists x. split; auto. unfold relabel.
    destruct (Z.eqb_spec (L x) NOISE); [contradiction|auto].
  - intros x y Sx Sy Nx Exy.
    assert (Nx' : labels s x <> NOISE) by (intros F; apply Nx; apply Z1; auto).
    assert (Ny' : labels s y <> NOISE) by (intros F; apply Nx; rewrite Exy; apply Z1; auto).
    assert (Lx : L x <> NOISE) by (rewrite N; auto). assert (Ly : L y <> NOISE) by (rewrite N; auto).
    unfold relabel in Exy. destruct (Z.eqb_spec (L x) NOISE); [contradiction|]. destruct (Z.eqb_spec (L y) NOISE); [contradiction|].
    apply R2 in Exy; [|pose proof (V x Sx Lx); unfold NOISE; lia].
    destruct (B' x) as (_ & Kx); auto; [apply in_zrange; auto|]. destruct (B' y) as (_ & Ky); auto; [apply in_zrange; auto|].
    assert (Lk : forall z, labels s z <> NOISE -> linked n near dense (labels s z) z).
    { intros z Nz. destruct (labels_from z) as [|(Ci & W)]; [contradiction|]. fold s in Ci, W. destruct W as [W|W].
      - rewrite <- W. apply rst_refl.
      - apply rst_step. auto. }
    eapply rst_trans; [apply rst_sym, Lk; auto|]. eapply rst_trans; [exact Kx|]. rewrite Exy.
    eapply rst_trans; [apply rst_sym, Ky|]. apply Lk. auto.
Qed.
End Parallel.
