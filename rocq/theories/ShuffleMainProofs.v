From Coq Require Import ZArith Reals List Bool Lia Lra Permutation.
From Flocq Require Import Core BinarySingleNaN.
From Verif Require Import Base ListFacts Par F64 ShuffleModel ShuffleSpec ShuffleFreqProofs
  ShuffleProofs.
Import ListNotations.
Local Open Scope nat_scope.

Lemma skipn_skipn {A} (a b : nat) (l : list A) : skipn a (skipn b l) = skipn (a + b) l.
Proof.
  revert l. induction b as [|b IH]; intros l; [rewrite Nat.add_0_r; reflexivity|].
  rewrite Nat.add_succ_r. destruct l as [|x l]; [rewrite !skipn_nil; reflexivity|]. cbn. apply IH.
Qed.

Lemma max_element_is r : forall d v vals, is d v -> Forall2 is r vals ->
  exists b, is (max_element d r) b /\ In b (v :: vals) /\ Forall (fun x => (x <= b)%R) (v :: vals).
Proof.
  induction r as [|x r IH]; intros d v vals Hd H; inversion H as [|y vx l' vals' Hx Hr E1 E2]; subst.
  - exists v. cbn. repeat split; try apply Hd; auto. constructor; auto. lra.
  - unfold max_element. cbn [fold_left]. fold (max_element (if f64_lt d x then x else d) r).
    pose proof (f64_lt_is d x v vx Hd Hx) as L.
    destruct (f64_lt d x).
    + destruct (IH x vx vals' Hx Hr) as (b & I & B & F). exists b. split; auto. split; [right; auto|].
      constructor; auto. inversion F; subst. assert (v < vx)%R by tauto. lra.
    + destruct (IH d v vals' Hd Hr) as (b & I & B & F). exists b. split; auto.
      split; [destruct B; [left|right; right]; auto|].
      inversion F; subst. constructor; auto. constructor; auto.
      assert (~ (v < vx)%R) by (intros C; apply L in C; discriminate). lra.
Qed.

Lemma in_positions p l : forall j i, In i (positions p l j) <->
  j <= i /\ exists x, nth_error l (i - j) = Some x /\ p x = true.
Proof.
  induction l as [|x r IH]; intros j i; cbn [positions].
  - split; [intros []|]. intros (_ & y & H & _). destruct (i - j); discriminate.
  - assert (K : In i (positions p r (S j)) <->
      S j <= i /\ exists y, nth_error (x :: r) (i - j) = Some y /\ p y = true).
    { rewrite IH. split; intros (H1 & y & H2 & H3); (split; [lia|exists y; split; auto]).
      - replace (i - j) with (S (i - S j)) by lia. exact H2.
      - replace (i - j) with (S (i - S j)) in H2 by lia. exact H2. }
    destruct (p x) eqn:Px; cbn [In]; rewrite K; clear K IH.
    + split.
      * intros [->|(H & E)]; [|split; [lia|auto]]. split; auto. exists x.
        rewrite Nat.sub_diag. auto.
      * intros (H & y & E & Hy). destruct (Nat.eq_dec j i); [auto|right; split; [lia|eauto]].
    + split.
      * intros (H & E). split; [lia|auto].
      * intros (H & y & E & Hy). split; [|eauto].
        destruct (Nat.eq_dec j i) as [->|]; [|lia]. rewrite Nat.sub_diag in E. cbn in E. congruence.
Qed.

Lemma zsum_set_at l i x l' y : set_at l i x = Some l' -> nth_error l i = Some y ->
  zsum l' = (zsum l + x - y)%Z.
Proof.
  intros H1 H2. assert (H : forall i l y, nth_error l i = Some y ->
    zsum (firstn i l ++ x :: skipn (S i) l) = (zsum l + x - y)%Z).
  { clear. induction i as [|i IH]; intros [|z l] y H; cbn in H; try discriminate.
    - inversion H; subst. cbn [firstn skipn app]. unfold zsum. cbn [fold_right]. lia.
    - specialize (IH _ _ H). cbn [firstn app].
      change (skipn (S (S i)) (z :: l)) with (skipn (S i) l).
      unfold zsum in *. cbn [fold_right]. rewrite IH. lia. }
  unfold set_at in H1. destruct (i <? length l); [|discriminate].
  assert (E : firstn i l ++ x :: skipn (S i) l = l') by congruence. subst l'. auto.
Qed.

Section Distribute.
  Variable draw : nat -> nat -> nat.
  Hypothesis draw_ok : uniform draw.

  Lemma Forall2_set rem vals i rem' : Forall2 is rem vals -> set_at rem i (f64_of_Z 0) = Some rem' ->
    exists vals', Forall2 is rem' vals' /\
      forall j, nth j vals' 0%R = if j =? i then 0%R else nth j vals 0%R.
  Proof.
    intros H E. unfold set_at in E. destruct (Nat.ltb_spec i (length rem)) as [Hi|]; [|discriminate].
    assert (Er : firstn i rem ++ f64_of_Z 0 :: skipn (S i) rem = rem') by congruence. subst rem'.
    exists (firstn i vals ++ 0%R :: skipn (S i) vals). split.
    - apply Forall2_app; [apply Forall2_firstn; auto|].
      constructor; [|apply Forall2_skipn; auto]. apply (f64_of_Z_is 0). lia.
    - apply Forall2_len in H. intros j.
      assert (S : set_at vals i 0%R = Some (firstn i vals ++ 0%R :: skipn (S i) vals)).
      { unfold set_at. destruct (Nat.ltb_spec i (length vals)); auto. lia. }
      destruct (set_at_nth _ _ _ _ S) as (_ & _ & N).
      rewrite <- (nth_default_eq j _ 0%R), <- (nth_default_eq j vals 0%R).
      unfold nth_default. rewrite N. destruct (j =? i); auto.
  Qed.

  Lemma distribute_ok left : forall freq rem vals E k,
    Forall2 is rem vals -> length freq = length rem -> NoDup E ->
    (forall e, In e E -> e < length rem) -> left <= length E ->
    (forall e, In e E -> (0 < nth e vals 0)%R) ->
    (forall e g, In e E -> ~ In g E -> (nth g vals 0 < nth e vals 0)%R) ->
    exists S freq' k', distribute draw left freq rem k = Some (freq', k') /\
      incl S E /\ NoDup S /\ length freq' = length freq /\
      zsum freq' = (zsum freq + Z.of_nat left)%Z /\
      forall i f, nth_error freq i = Some f ->
        nth_error freq' i = Some (if in_dec Nat.eq_dec i S then f + 1 else f)%Z.
  Proof.
    induction left as [|left IH]; intros freq rem vals E k Hr Hl Hn Hb Hc Hp Hg.
    - exists [], freq, k. cbn. repeat split; auto; try lia; try (intros x []); try constructor.
    - cbn [distribute]. destruct rem as [|d r].
      { destruct E as [|e E]; cbn in Hc; [lia|]. specialize (Hb e (or_introl eq_refl)). cbn in Hb. lia. }
      inversion Hr as [|d' v r' vr Hd Hr' E1 E2]; subst.
      destruct (max_element_is r d v vr Hd Hr') as (b & Ib & Inb & Fb).
      set (biggest := max_element d r) in *.
      set (inds := positions (fun x => f64_eq x biggest) (d :: r) 0).
      assert (Vat : forall i x, nth_error (d :: r) i = Some x -> is x (nth i (v :: vr) 0%R)).
      { clear -Hr. induction Hr as [|x y l m H H' IH]; intros [|i] z Hz; cbn in Hz; try discriminate.
        - inversion Hz; subst. cbn. auto. - cbn. auto. }
      assert (Hin : forall i, In i inds -> In i E).
      { intros i Hi. apply in_positions in Hi. destruct Hi as (_ & x & Hx & Ex).
        rewrite Nat.sub_0_r in Hx. pose proof (Vat _ _ Hx) as Vx.
        apply (f64_eq_is x biggest _ _ Vx Ib) in Ex.
        destruct (in_dec Nat.eq_dec i E) as [|Hni]; auto. exfalso.
        destruct E as [|e E]; [cbn in Hc; lia|].
        specialize (Hg e i (or_introl eq_refl) Hni). rewrite Ex in Hg.
        assert (Hbe : (nth e (v :: vr) 0 <= b)%R).
        { rewrite Forall_forall in Fb. apply Fb. apply nth_In.
          rewrite <- (Forall2_len _ _ _ Hr). apply Hb. left; auto. }
        lra. }
      assert (Hne : inds <> []).
      { apply (In_nth _ _ 0%R) in Inb. destruct Inb as (i & Hi & Ei).
        rewrite <- (Forall2_len _ _ _ Hr) in Hi.
        destruct (nth_error (d :: r) i) as [x|] eqn:Ex; [|apply nth_error_None in Ex; lia].
        intros C. assert (Hin' : In i inds).
        { apply in_positions. split; [lia|]. exists x. rewrite Nat.sub_0_r. split; auto.
          apply (f64_eq_is x biggest _ _ (Vat _ _ Ex) Ib). auto. }
        rewrite C in Hin'. destruct Hin'. }
      set (sk := if length inds =? 1 then (nth_error inds 0, k)
                 else (nth_error inds (draw k (length inds - 1)), S k)).
      assert (Hs : exists i k', sk = (Some i, k') /\ In i inds).
      { unfold sk. destruct (Nat.eqb_spec (length inds) 1).
        - destruct inds as [|i l]; [congruence|]. exists i, k. split; auto. left; auto.
        - pose proof (draw_ok k (length inds - 1)).
          destruct (nth_error inds (draw k (length inds - 1))) as [i|] eqn:Ei.
          + exists i, (S k). split; auto. eapply nth_error_In; eauto.
          + apply nth_error_None in Ei. destruct inds; [congruence|cbn in *; lia]. }
      destruct Hs as (i & k' & Es & Hi). rewrite Es. clear Es sk.
      specialize (Hin i Hi). pose proof (Hb i Hin) as Bi.
      destruct (nth_error freq i) as [f|] eqn:Ef; [|apply nth_error_None in Ef; lia].
      destruct (set_at_some freq i (f + 1)%Z) as (freq1 & S1); [lia|]. rewrite S1.
      destruct (set_at_some (d :: r) i (f64_of_Z 0)) as (rem1 & S2); [lia|]. rewrite S2.
      destruct (set_at_nth _ _ _ _ S1) as (L1 & _ & N1).
      destruct (set_at_nth _ _ _ _ S2) as (L2 & _ & _).
      destruct (Forall2_set _ _ _ _ Hr S2) as (vals1 & F1 & V1).
      set (E' := remove Nat.eq_dec i E).
      assert (HE' : forall e, In e E' <-> In e E /\ e <> i).
      { intros e. unfold E'. split.
        - intros H. apply in_remove in H. auto.
        - intros (H & H'). apply in_in_remove; auto. }
      destruct (IH freq1 rem1 vals1 E' k') as (S & freq' & k2 & D & I & ND & L & Z & N); auto.
      + lia.
      + unfold E'. clear -Hn. induction Hn; cbn [remove]; [constructor|].
        destruct (Nat.eq_dec i x); auto. constructor; auto.
        intros C. apply in_remove in C. tauto.
      + intros e He. apply HE' in He. rewrite L2. apply Hb. apply He.
      + assert (Hlen : length E <= S (length E')).
        { unfold E'. clear -Hn. induction Hn as [|x l Hx Hl IHl]; cbn [remove length]; [lia|].
          destruct (Nat.eq_dec i x) as [->|]; cbn [length]; [|lia].
          rewrite notin_remove by auto. lia. }
        lia.
      + intros e He. apply HE' in He. rewrite V1.
        destruct (Nat.eqb_spec e i); [tauto|]. apply Hp. apply He.
      + intros e g He Hg'. apply HE' in He. rewrite !V1.
        destruct (Nat.eqb_spec e i); [tauto|]. destruct (Nat.eqb_spec g i).
        * apply Hp. apply He.
        * apply Hg; [apply He|]. intros C. apply Hg'. apply HE'. auto.
      + exists (i :: S), freq', k2. split; [exact D|]. split; [|split; [|split; [lia|split]]].
        * intros x [<-|Hx]; auto. apply I in Hx. apply HE' in Hx. apply Hx.
        * constructor; auto. intros C. apply I in C. apply HE' in C. tauto.
        * rewrite Z. rewrite (zsum_set_at _ _ _ _ _ S1 Ef). lia.
        * intros j fj Hj. destruct (Nat.eq_dec j i) as [->|Hji].
          -- assert (fj = f) by congruence. subst fj.
             rewrite (N i (f + 1)%Z) by (rewrite N1, Nat.eqb_refl; auto).
             destruct (in_dec Nat.eq_dec i S) as [C|]; [apply I in C; apply HE' in C; tauto|].
             destruct (in_dec Nat.eq_dec i (i :: S)) as [|C]; [auto|]. exfalso. apply C. left; auto.
          -- rewrite (N j fj) by (rewrite N1; destruct (Nat.eqb_spec j i); [tauto|auto]).
             destruct (in_dec Nat.eq_dec j S), (in_dec Nat.eq_dec j (i :: S)) as [C|C]; auto.
             ++ exfalso. apply C. right; auto.
             ++ destruct C; [congruence|contradiction].
  Qed.

  Local Open Scope Z_scope.

  Lemma zsum_le (l : list Z) : (forall x, In x l -> 0 <= x) -> forall x, In x l -> x <= zsum l.
  Proof.
    induction l as [|y l IH]; cbn [In zsum fold_right]; intros H x Hx; [contradiction|].
    fold (zsum l). assert (P : 0 <= zsum l).
    { clear -H. assert (H' : forall x, In x l -> 0 <= x) by (intros; apply H; auto). clear H.
      induction l as [|z l IHl]; cbn; [lia|]. fold (zsum l).
      specialize (IHl ltac:(intros; apply H'; right; auto)).
      specialize (H' z (or_introl eq_refl)). lia. }
    destruct Hx as [->|Hx]; [lia|]. specialize (IH ltac:(intros; apply H; auto) _ Hx).
    specialize (H y (or_introl eq_refl)). lia.
  Qed.

  Lemma class_frequency_ok (n m : Z) (counts : list Z) k :
    (forall c, In c counts -> 0 <= c) -> zsum counts = m -> 2 <= m <= 2 ^ 25 -> 0 <= n <= m ->
    exists freq k', class_frequency_approximation draw n m counts k = Some (freq, k') /\
      length freq = length counts /\ zsum freq = n /\
      forall i c f, nth_error counts i = Some c -> nth_error freq i = Some f ->
        0 <= f <= c /\ Z.abs (f * m - c * n) <= m.
  Proof.
    intros Hc Hm Hm2 Hn. unfold class_frequency_approximation.
    assert (Hcm : forall c, In c counts -> 0 <= c <= m).
    { intros c H. split; auto. rewrite <- Hm. apply zsum_le; auto. }
    set (F := fun c => floored c m n). set (R := fun c => remainder c m n).
    assert (K : forall c, In c counts -> exists v, is (R c) v /\ freq_contract c m n (F c) v).
    { intros c H. apply floored_remainder; auto. }
    set (elig := fun c => if n <? m then f64_lt (f64_of_Z 0) (R c) else F c <? c).
    assert (Kv : exists vals, Forall2 is (map R counts) vals /\
      forall i c, nth_error counts i = Some c ->
        freq_contract c m n (F c) (nth i vals 0%R) /\ is (R c) (nth i vals 0%R)).
    { clear -K. induction counts as [|c l IH]; [exists []; split; [constructor|intros [] ? ?; discriminate]|].
      destruct (K c (or_introl eq_refl)) as (v & Hv & Cv).
      destruct IH as (vals & F2 & Hvals); [intros; apply K; right; auto|].
      exists (v :: vals). split; [constructor; auto|]. intros [|i] c' E; cbn in E.
      - inversion E; subst. cbn. auto. - cbn. auto. }
    destruct Kv as (vals & Fv & Kv).
    assert (Hel : forall i c, nth_error counts i = Some c ->
      let v := nth i vals 0%R in
      (elig c = true -> F c + 1 <= c /\ (0 < v)%R /\ (n = m -> (v > / 2)%R)) /\
      (elig c = false -> F c * m = c * n /\ (n < m -> v = 0%R) /\ (n = m -> (v < / 2)%R))).
    { intros i c Ei v. destruct (Kv i c Ei) as ((C0 & C1 & C2 & C3 & C4 & C5 & C6) & Iv).
      fold v in C1, C3, C4, C5, C6, Iv. unfold elig.
      assert (Ic : 0 <= c <= m) by (apply Hcm; eapply nth_error_In; eauto).
      destruct (Z.ltb_spec n m) as [Hlt|Hge].
      - pose proof (f64_lt_is (f64_of_Z 0) (R c) 0%R v (f64_of_Z_is 0 ltac:(lia)) Iv) as L.
        split; intros He.
        + assert (0 < v)%R by (apply L; auto). split; [|split; [auto|lia]].
          assert (c <> 0) by (intros Hz; apply C6 in Hz; lra). nia.
        + assert (~ (0 < v)%R) by (intros C; apply L in C; congruence).
          assert (v = 0%R) by lra. split; [auto|]. split; [auto|lia].
      - assert (n = m) by lia. subst n. split; intros He.
        + apply Z.ltb_lt in He. assert (F c + 1 = c) by nia.
          assert ((v > / 2)%R) by (apply C4; rewrite H; lia). split; [lia|]. split; [lra|auto].
        + apply Z.ltb_ge in He. assert (F c = c) by nia.
          split; [lia|]. split; [lia|]. intros _. apply C5. rewrite H. lia. }
    set (E := filter (fun i => elig (nth i counts 0)) (seq 0 (length counts))).
    assert (HE : forall e, In e E <-> exists c, nth_error counts e = Some c /\ elig c = true).
    { intros e. unfold E. rewrite filter_In, in_seq. split.
      - intros ((_ & H1) & H2). destruct (nth_error counts e) as [c|] eqn:Ec;
          [|apply nth_error_None in Ec; lia].
        rewrite (nth_error_nth _ _ 0 Ec) in H2. eauto.
      - intros (c & Ec & Hc'). rewrite (nth_error_nth _ _ 0 Ec). split; auto.
        split; [lia|]. apply nth_error_Some. congruence. }
    assert (LE : length E = length (filter elig counts)).
    { unfold E. clear. induction counts as [|c l IH]; auto. cbn [length seq filter nth].
      rewrite <- seq_shift.
      assert (G : forall A B (f : A -> B) p l, filter p (map f l) = map f (filter (fun x => p (f x)) l)).
      { clear. induction l as [|x l IH]; cbn; auto. destruct (p (f x)); cbn; rewrite IH; auto. }
      destruct (elig c); cbn [length]; rewrite G, map_length; cbn [nth]; rewrite IH; auto. }
    assert (Fpos : forall c, In c counts -> 0 <= F c /\ F c * m <= c * n /\ c * n <= (F c + 1) * m).
    { intros c Hc'. destruct (K c Hc') as (v & _ & C0 & _ & C2 & _). lia. }
    assert (Sum : zsum (map F counts) * m <= m * n <= zsum (map F counts) * m + m * Z.of_nat (length E)).
    { assert (G : forall l, (forall i c, nth_error l i = Some c -> In c counts /\
                  (elig c = false -> F c * m = c * n)) ->
        zsum (map F l) * m <= zsum l * n <= zsum (map F l) * m + m * Z.of_nat (length (filter elig l))).
      { induction l as [|c l IH]; intros Hl; [cbn; lia|].
        specialize (IH ltac:(intros i; apply (Hl (S i)))).
        destruct (Hl 0%nat c eq_refl) as (Ic & Ec). destruct (Fpos c Ic) as (P1 & P2 & P3).
        cbn [map zsum fold_right filter]. fold (zsum (map F l)) (zsum l).
        destruct (elig c); cbn [length]; [|specialize (Ec eq_refl)]; nia. }
      rewrite LE. specialize (G counts). rewrite Hm in G. apply G.
      intros i c Ei. split; [eapply nth_error_In; eauto|]. intros H. apply (Hel i c Ei). auto. }
    destruct (distribute_ok (Z.to_nat (n - zsum (map F counts))) (map F counts) (map R counts)
                vals E k) as (S & freq & k' & D & I & ND & L & Z' & N).
    - auto.
    - rewrite !map_length. auto.
    - unfold E. apply NoDup_filter. apply seq_NoDup.
    - intros e He. apply HE in He. destruct He as (c & Ec & _). rewrite map_length.
      apply nth_error_Some. congruence.
    - nia.
    - intros e He. apply HE in He. destruct He as (c & Ec & Hc'). apply (Hel e c Ec). auto.
    - intros e g He Hg. apply HE in He. destruct He as (c & Ec & Hc').
      destruct (Hel e c Ec) as (He & _). destruct (He Hc') as (_ & P1 & P2).
      destruct (nth_error counts g) as [cg|] eqn:Eg.
      + destruct (Hel g cg Eg) as (_ & Hg').
        destruct (elig cg) eqn:Ecg; [exfalso; apply Hg; apply HE; eauto|].
        destruct (Hg' eq_refl) as (_ & Q1 & Q2).
        destruct (Z.eq_dec n m) as [Hnm|Hnm].
        * specialize (P2 Hnm). specialize (Q2 Hnm). lra.
        * rewrite Q1 by lia. auto.
      + rewrite (nth_overflow vals); auto. rewrite <- (Forall2_len _ _ _ Fv), map_length.
        apply nth_error_None. auto.
    - exists freq, k'. split; [exact D|]. rewrite map_length in L. split; [auto|]. split.
      + rewrite Z'. rewrite Z2Nat.id; [lia|]. nia.
      + intros i c f Hci Hfi. assert (Ic : In c counts) by (eapply nth_error_In; eauto).
        destruct (Fpos c Ic) as (P1 & P2 & P3). pose proof (Hcm c Ic) as Pc.
        assert (Ef : f = if in_dec Nat.eq_dec i S then F c + 1 else F c).
        { rewrite (N i (F c)) in Hfi; [congruence|]. rewrite nth_error_map, Hci. auto. }
        destruct (in_dec Nat.eq_dec i S) as [Hs|Hs]; rewrite Ef.
        * apply I in Hs. apply HE in Hs. destruct Hs as (c' & Ec' & He).
          assert (c' = c) by congruence. subst c'.
          destruct (Hel i c Hci) as (He' & _). destruct (He' He) as (Q & _). split; [lia|]. nia.
        * split; [|nia]. split; [lia|]. nia.
  Qed.

  (** ** The whole function *)
  Lemma zsum_map_length cm : zsum (map (fun p : Z * list Z => Z.of_nat (length (snd p))) cm)
    = Z.of_nat (length (indices cm)).
  Proof.
    unfold indices. induction cm as [|p cm IH]; cbn; auto. fold (zsum (map (fun p : Z * list Z => Z.of_nat (length (snd p))) cm)).
    rewrite IH, app_length. lia.
  Qed.

  Lemma nth_error_combine {A B} (l : list A) (r : list B) : forall i a b,
    nth_error l i = Some a -> nth_error r i = Some b -> nth_error (combine l r) i = Some (a, b).
  Proof.
    revert r. induction l as [|x l IH]; intros [|y r] [|i] a b H1 H2; cbn in *; try discriminate; auto.
    congruence.
  Qed.

  Lemma combine_inv {A B} (l : list A) (r : list B) : forall i a b,
    nth_error (combine l r) i = Some (a, b) -> nth_error l i = Some a /\ nth_error r i = Some b.
  Proof.
    revert r. induction l as [|x l IH]; intros [|y r] [|i] a b H; cbn in *; try discriminate; auto.
    split; congruence.
  Qed.

  Lemma zsum_left counts freq : length freq = length counts ->
    zsum (map (fun p => fst p - snd p) (combine counts freq)) = zsum counts - zsum freq.
  Proof.
    revert freq. induction counts as [|c l IH]; intros [|f r] H; cbn in H; try discriminate; auto.
    cbn [combine map zsum fold_right fst snd].
    fold (zsum (map (fun p => fst p - snd p) (combine l r))) (zsum l) (zsum r).
    rewrite IH by lia. lia.
  Qed.

  Lemma stratified_correct m train test classes arr k st arr' :
    m = Z.of_nat (length classes) -> m <= 2 ^ 25 -> train + test <= Z.of_nat (length arr) ->
    stratified_shuffle draw m train test classes arr k = Some (st, arr') ->
    (st = st_success /\ exists tr te,
       arr' = map Some tr ++ map Some te ++ skipn (Z.to_nat (train + test)) arr /\
       stratified m train test classes tr te) \/
    (st = st_invalid_input /\ arr' = arr).
  Proof.
    intros Hm Hm2 Ha. unfold stratified_shuffle.
    set (cm := class_map classes). set (counts := map _ cm).
    destruct (validate_stratified m train test counts) eqn:V; cbn [negb].
    2:{ intros E. inversion E; subst. auto. }
    unfold validate_stratified in V. rewrite !andb_true_iff in V.
    destruct V as ((((V1 & V2) & V3) & V4) & V5).
    apply Z.leb_le in V1, V2, V3, V4. rewrite forallb_forall in V5.
    assert (Pm : Permutation (indices cm) (zrange m)).
    { unfold cm, class_map. rewrite class_map_indices. cbn [indices map concat app].
      rewrite <- Hm. rewrite map_id. auto. }
    assert (Cz : zsum counts = m).
    { unfold counts. rewrite zsum_map_length, (Permutation_length Pm), zrange_len. lia. }
    assert (Cp : forall c, In c counts -> 0 <= c).
    { intros c Hc. apply V5 in Hc. apply Z.leb_le in Hc. lia. }
    destruct (class_frequency_ok train m counts k) as (fa & k1 & E1 & L1 & Z1 & N1); auto; try lia.
    rewrite E1. set (left := map _ (combine counts fa)).
    assert (Lz : zsum left = m - train) by (unfold left; rewrite zsum_left; lia).
    assert (Lat : forall i c f, nth_error counts i = Some c -> nth_error fa i = Some f ->
      nth_error left i = Some (c - f)).
    { intros i c f Hc Hf. unfold left.
      rewrite nth_error_map, (nth_error_combine _ _ _ _ _ Hc Hf). reflexivity. }
    assert (Lp : forall c, In c left -> 0 <= c).
    { intros c Hc. unfold left in Hc. apply in_map_iff in Hc. destruct Hc as ((x & y) & <- & Hxy).
      apply In_nth_error in Hxy. destruct Hxy as (i & Hi). cbn [fst snd].
      apply combine_inv in Hi. destruct Hi as (Hx & Hy).
      destruct (N1 i x y Hx Hy). lia. }
    destruct (class_frequency_ok test (m - train) left k1) as (fb & k2 & E2 & L2 & Z2 & N2); auto; try lia.
    rewrite E2.
    assert (Ll : length left = length counts).
    { unfold left. rewrite map_length, combine_length. lia. }
    assert (Lc : length counts = length cm) by (unfold counts; apply map_length).
    assert (Sh : shares cm fa fb).
    { split; [lia|]. split; [lia|]. intros i p a b Hp Ha' Hb'.
      assert (Hc : nth_error counts i = Some (Z.of_nat (length (snd p)))).
      { unfold counts. rewrite nth_error_map, Hp. reflexivity. }
      pose proof (N1 _ _ _ Hc Ha') as (? & _).
      pose proof (N2 _ _ _ (Lat _ _ _ Hc Ha') Hb') as (? & _). lia. }
    set (U := firstn (Z.to_nat train) arr).
    set (W := firstn (Z.to_nat test) (skipn (Z.to_nat train) arr)).
    set (C := skipn (Z.to_nat (train + test)) arr).
    assert (LU : length U = Z.to_nat train) by (unfold U; rewrite firstn_length; lia).
    assert (LW : length W = Z.to_nat test)
      by (unfold W; rewrite firstn_length, skipn_length; lia).
    assert (Earr : arr = [] ++ U ++ [] ++ W ++ C).
    { cbn [app]. unfold U, W, C. rewrite <- (firstn_skipn (Z.to_nat train) arr) at 1. f_equal.
      rewrite <- (firstn_skipn (Z.to_nat test) (skipn (Z.to_nat train) arr)) at 1. f_equal.
      rewrite skipn_skipn. f_equal. lia. }
    destruct (fill_ok draw draw_ok cm fa fb [] U [] W C k2 Sh) as (XS & YS & k3 & Hp & Hf & HX & HY);
      [lia|lia|].
    rewrite <- Earr in Hf. cbn [length app] in Hf. rewrite LU, Nat.add_0_r, Nat.add_0_l in Hf. rewrite Hf.
    set (xs := concat XS) in *. set (ys := concat YS) in *.
    assert (LX : length (map Some xs) = Z.to_nat train) by (rewrite map_length; lia).
    assert (LY : length (map Some ys) = Z.to_nat test) by (rewrite map_length; lia).
    rewrite <- LX at 1. rewrite firstn_app, Nat.sub_diag, firstn_all. cbn [firstn]. rewrite app_nil_r.
    destruct (shuffle_perm draw draw_ok (map Some xs) k3) as (s1 & k4 & Es1 & Ps1). rewrite Es1.
    rewrite <- LX at 1. rewrite skipn_app, skipn_all, Nat.sub_diag. cbn [skipn app].
    rewrite <- LY at 1. rewrite firstn_app, Nat.sub_diag, firstn_all. cbn [firstn]. rewrite app_nil_r.
    destruct (shuffle_perm draw draw_ok (map Some ys) k4) as (s2 & k5 & Es2 & Ps2). rewrite Es2.
    intros E. inversion E; subst st arr'. left. split; auto.
    assert (Inv : forall (l : list Z) s, Permutation (map Some l) s ->
              exists l', s = map Some l' /\ Permutation l l').
    { intros l s H. apply Permutation_sym in H. apply Permutation_map_inv in H.
      destruct H as (l' & -> & H). eauto. }
    destruct (Inv _ _ Ps1) as (tr & -> & Ptr). destruct (Inv _ _ Ps2) as (te & -> & Pte).
    exists tr, te. split.
    { f_equal. f_equal. rewrite app_assoc, <- LX, <- LY, <- app_length.
      rewrite skipn_app, skipn_all, Nat.sub_diag. reflexivity. }
    destruct (parts_perm _ _ _ _ _ Hp) as (rest & Pr). fold xs ys in Pr.
    assert (Pall : Permutation (zrange m) ((tr ++ te) ++ rest)).
    { rewrite <- Pm, Pr, app_assoc. apply Permutation_app_tail. apply Permutation_app; auto. }
    assert (Inc : increasing (keys cm)) by (apply class_map_increasing; cbn; auto).
    assert (Mem : forall c' l, In (c', l) cm -> forall x, In x l -> nth (Z.to_nat x) classes 0 = c').
    { unfold cm, class_map. apply (class_map_members classes classes []); auto. intros ? ? []. }
    assert (Tot : forall c, total classes c = members classes c (indices cm)).
    { intros c. rewrite (members_perm _ _ _ _ Pm), Hm. symmetry. apply members_range. }
    assert (TotK : forall i c l, nth_error cm i = Some (c, l) -> total classes c = Z.of_nat (length l)).
    { intros i c l Hi. rewrite Tot. unfold indices.
      clear -Inc Mem Hi. revert i Hi. induction cm as [|[c0 l0] r IH]; intros i Hi; [destruct i; discriminate|].
      cbn [keys map fst increasing] in Inc. destruct Inc as (I1 & I2). cbn [map concat snd].
      rewrite members_split. destruct i as [|i]; cbn in Hi.
      - inversion Hi; subst. rewrite (members_all classes c l).
        2:{ apply (Mem c l). left; auto. }
        rewrite (members_none classes c); [lia|].
        intros x Hx. apply in_concat in Hx. destruct Hx as (l' & Hl' & Hx).
        apply in_map_iff in Hl'. destruct Hl' as ((c1 & l1) & <- & H1).
        rewrite (Mem c1 l1 (or_intror H1) x Hx).
        specialize (I1 c1 (in_map fst _ _ H1)). lia.
      - assert (H1 : In (c, l) r) by (eapply nth_error_In; eauto).
        rewrite (members_none classes c l0).
        + apply (IH I2 ltac:(intros; eapply Mem; [right; eauto|auto]) i Hi).
        + intros x Hx. rewrite (Mem c0 l0 (or_introl eq_refl) x Hx).
          specialize (I1 c (in_map fst _ _ H1)). cbn in I1. lia. }
    assert (TotN : forall c, ~ In c (keys cm) -> total classes c = 0).
    { intros c Hc. rewrite Tot. apply members_none. intros x Hx.
      apply in_concat in Hx. destruct Hx as (l' & Hl' & Hx).
      apply in_map_iff in Hl'. destruct Hl' as ((c1 & l1) & <- & H1).
      rewrite (Mem c1 l1 H1 x Hx). intros ->. apply Hc. apply (in_map fst _ _ H1). }
    split; [rewrite <- (Permutation_length Ptr); lia|].
    split; [rewrite <- (Permutation_length Pte); lia|].
    split; [eapply nodup_app_l; eapply Permutation_NoDup; [exact Pall|apply zrange_nodup]|].
    split.
    { intros i Hi. apply in_zrange. rewrite Pall. apply in_or_app. auto. }
    assert (Cl : forall c,
      Z.abs (members classes c xs * m - total classes c * train) <= m /\
      Z.abs (members classes c ys * (m - train)
             - (total classes c - members classes c xs) * test) <= m - train).
    { intros c. destruct (parts_class classes cm fa fb XS YS c Hp Inc Mem) as (P1 & P2).
      fold xs ys in P1, P2. destruct (in_dec Z.eq_dec c (keys cm)) as [Hk|Hk].
      - destruct (P1 Hk) as (i & l & a & b & Hi & Hfa & Hfb & -> & ->).
        rewrite (TotK _ _ _ Hi).
        assert (Hc : nth_error counts i = Some (Z.of_nat (length l))).
        { unfold counts. rewrite nth_error_map, Hi. reflexivity. }
        destruct (N1 _ _ _ Hc Hfa) as (_ & B1).
        destruct (N2 _ _ _ (Lat _ _ _ Hc Hfa) Hfb) as (_ & B2). auto.
      - destruct (P2 Hk) as (-> & ->). rewrite (TotN c Hk). cbn. lia. }
    split; intros c; [rewrite <- (members_perm classes c _ _ Ptr)|
      rewrite <- (members_perm classes c _ _ Ptr), <- (members_perm classes c _ _ Pte)]; apply Cl.
  Qed.

  (** No access outside an array. *)
  Lemma stratified_defined m train test classes arr k :
    m = Z.of_nat (length classes) -> m <= 2 ^ 25 -> train + test <= Z.of_nat (length arr) ->
    stratified_shuffle draw m train test classes arr k <> None.
  Proof.
    intros Hm Hm2 Ha. unfold stratified_shuffle.
    set (cm := class_map classes). set (counts := map _ cm).
    destruct (validate_stratified m train test counts) eqn:V; cbn [negb]; [|discriminate].
    unfold validate_stratified in V. rewrite !andb_true_iff in V.
    destruct V as ((((V1 & V2) & V3) & V4) & V5).
    apply Z.leb_le in V1, V2, V3, V4. rewrite forallb_forall in V5.
    assert (Pm : Permutation (indices cm) (zrange m)).
    { unfold cm, class_map. rewrite class_map_indices. cbn [indices map concat app].
      rewrite <- Hm. rewrite map_id. auto. }
    assert (Cz : zsum counts = m).
    { unfold counts. rewrite zsum_map_length, (Permutation_length Pm), zrange_len. lia. }
    assert (Cp : forall c, In c counts -> 0 <= c).
    { intros c Hc. apply V5 in Hc. apply Z.leb_le in Hc. lia. }
    destruct (class_frequency_ok train m counts k) as (fa & k1 & E1 & L1 & Z1 & N1); auto; try lia.
    rewrite E1. set (left := map _ (combine counts fa)).
    assert (Lz : zsum left = m - train) by (unfold left; rewrite zsum_left; lia).
    assert (Lat : forall i c f, nth_error counts i = Some c -> nth_error fa i = Some f ->
      nth_error left i = Some (c - f)).
    { intros i c f Hc Hf. unfold left.
      rewrite nth_error_map, (nth_error_combine _ _ _ _ _ Hc Hf). reflexivity. }
    assert (Lp : forall c, In c left -> 0 <= c).
    { intros c Hc. unfold left in Hc. apply in_map_iff in Hc. destruct Hc as ((x & y) & <- & Hxy).
      apply In_nth_error in Hxy. destruct Hxy as (i & Hi). cbn [fst snd].
      apply combine_inv in Hi. destruct Hi as (Hx & Hy).
      destruct (N1 i x y Hx Hy). lia. }
    destruct (class_frequency_ok test (m - train) left k1) as (fb & k2 & E2 & L2 & Z2 & N2); auto; try lia.
    rewrite E2.
    assert (Ll : length left = length counts).
    { unfold left. rewrite map_length, combine_length. lia. }
    assert (Lc : length counts = length cm) by (unfold counts; apply map_length).
    assert (Sh : shares cm fa fb).
    { split; [lia|]. split; [lia|]. intros i p a b Hp Ha' Hb'.
      assert (Hc : nth_error counts i = Some (Z.of_nat (length (snd p)))).
      { unfold counts. rewrite nth_error_map, Hp. reflexivity. }
      pose proof (N1 _ _ _ Hc Ha') as (? & _).
      pose proof (N2 _ _ _ (Lat _ _ _ Hc Ha') Hb') as (? & _). lia. }
    set (U := firstn (Z.to_nat train) arr).
    set (W := firstn (Z.to_nat test) (skipn (Z.to_nat train) arr)).
    set (C := skipn (Z.to_nat (train + test)) arr).
    assert (LU : length U = Z.to_nat train) by (unfold U; rewrite firstn_length; lia).
    assert (LW : length W = Z.to_nat test)
      by (unfold W; rewrite firstn_length, skipn_length; lia).
    assert (Earr : arr = [] ++ U ++ [] ++ W ++ C).
    { cbn [app]. unfold U, W, C. rewrite <- (firstn_skipn (Z.to_nat train) arr) at 1. f_equal.
      rewrite <- (firstn_skipn (Z.to_nat test) (skipn (Z.to_nat train) arr)) at 1. f_equal.
      rewrite skipn_skipn. f_equal. lia. }
    destruct (fill_ok draw draw_ok cm fa fb [] U [] W C k2 Sh) as (XS & YS & k3 & Hp & Hf & HX & HY);
      [lia|lia|].
    rewrite <- Earr in Hf. cbn [length app] in Hf. rewrite LU, Nat.add_0_r, Nat.add_0_l in Hf. rewrite Hf.
    match goal with |- context [shuffle draw ?l ?k] =>
      destruct (shuffle_perm draw draw_ok l k) as (s1 & k4 & -> & _) end.
    match goal with |- context [shuffle draw ?l ?k] =>
      destruct (shuffle_perm draw draw_ok l k) as (s2 & k5 & -> & _) end.
    discriminate.
  Qed.

  (** ** da_get_shuffled_indices *)
  Lemma plain_shuffle m seed train test arr :
    1 < m -> -1 <= seed -> m <= Z.of_nat (length arr) ->
    exists l, get_shuffled_indices draw m seed train test None (Some arr)
      = Some (st_success, Some (map Some l ++ skipn (Z.to_nat m) arr)) /\
      Permutation (zrange m) l.
  Proof.
    intros H1 H2 H3. unfold get_shuffled_indices.
    destruct (Z.leb_spec m 1); [lia|]. destruct (Z.ltb_spec seed (-1)); [lia|].
    fold (zrange m).
    assert (Ea : arr = [] ++ firstn (Z.to_nat m) arr ++ skipn (Z.to_nat m) arr)
      by (cbn [app]; symmetry; apply firstn_skipn).
    assert (Ec : copy_to arr 0 (zrange m) = Some (map Some (zrange m) ++ skipn (Z.to_nat m) arr)).
    { rewrite Ea at 1. change 0%nat with (length (@nil (option Z))) at 1.
      rewrite copy_to_ok by (rewrite zrange_len, firstn_length; lia).
      rewrite skipn_all2 by (rewrite zrange_len, firstn_length; lia). reflexivity. }
    rewrite Ec.
    assert (L : length (map Some (zrange m)) = Z.to_nat m) by (rewrite map_length; apply zrange_len).
    assert (F1 : firstn (Z.to_nat m) (map Some (zrange m) ++ skipn (Z.to_nat m) arr)
                 = map Some (zrange m)).
    { rewrite firstn_app, L, Nat.sub_diag. cbn [firstn]. rewrite app_nil_r. apply firstn_all2. lia. }
    assert (F2 : skipn (Z.to_nat m) (map Some (zrange m) ++ skipn (Z.to_nat m) arr)
                 = skipn (Z.to_nat m) arr).
    { rewrite skipn_app, L, Nat.sub_diag, skipn_all2 by lia. reflexivity. }
    rewrite F1, F2.
    destruct (shuffle_perm draw draw_ok (map Some (zrange m)) 0) as (s & k & -> & P).
    apply Permutation_sym, Permutation_map_inv in P. destruct P as (l & -> & P).
    exists l. split; auto.
  Qed.
End Distribute.

Lemma sample_ok (draw : nat -> nat -> nat) (H : uniform draw) {A} (pop : list A) n k :
  exists out k', sample draw pop n k = Some (out, k') /\
    length out = Nat.min n (length pop) /\ subseq out pop.
Proof. apply sample_loop_ok; auto. lia. Qed.
