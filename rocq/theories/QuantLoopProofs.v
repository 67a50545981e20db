(** The quantiles of one row or column, and of all of them. *)
From Coq Require Import ZArith Reals Lia Lra List Bool Permutation.
From Flocq Require Import Core IEEE754.BinarySingleNaN.
From Verif Require Import Base Par F64 SplitModel SplitSpec UtilModel QuantModel QuantSpec QuantFloatProofs QuantProofs.
Import ListNotations.
Local Open Scope Z_scope.

Section Loop.
Variable T : Type.
Variable leb : T -> T -> bool.
Hypothesis P : preorder leb.
Variable nth_element : list T -> nat -> list T.
Hypothesis N : selects leb nth_element.
Variable mean : T -> T -> T.
Variable interp : f64 -> Z -> T -> T -> T.
Variable t : quantile_type.
Hypothesis Ht : t <> QOther.
Variable l : list T.
Let len := Z.of_nat (length l).
Hypothesis L : 1 <= len <= 2 ^ 50.
Notation is_kth := (is_kth leb).

(** [h] is a fractional index minus 1. *)
Definition index_of (y : f64) (h : f64) : Prop :=
  h = f64_sub y (f64_of_Z 1) /\ exists v, is y v /\ (h_low t <= v <= IZR (len + 1))%R.
Definition good (h : f64) : Prop := exists y, index_of y h.
Lemma good_ranks h : good h -> exists a b, ranks t len h = Some (a, b) /\ 0 <= a <= b /\ b <= a + 1 /\ b < len.
Proof.
  intros (y & -> & v & Y & V). destruct (ranks_documented t len Ht L y v Y V) as (i & j & _ & E).
  do 2 eexists. split; [exact E|]. eapply ranks_range; eauto.
Qed.
Lemma good_next h h' a b a' b' : good h -> good h' -> f64_lt h' h = false ->
  ranks t len h = Some (a, b) -> ranks t len h' = Some (a', b') -> (a' = a /\ b' = b) \/ b <= a'.
Proof.
  intros (y & -> & v & Y & V) (y' & -> & v' & Y' & V') Lt E E'.
  exact (ranks_next t len Ht L y v y' v' a b a' b' Y Y' V V' Lt E E').
Qed.
Lemma ranks_equal h a b : t = Q1 \/ t = Q3 -> ranks t len h = Some (a, b) -> a = b.
Proof.
  intros [E|E] R; unfold ranks in R; rewrite E in R; [destruct (fceil h)|destruct (fnearest h)]; congruence.
Qed.

Definition result (h : f64) (v : T) : Prop :=
  exists a b v1 v2, ranks t len h = Some (a, b) /\ is_kth l a v1 /\ is_kth l b v2 /\
    stored T mean interp t h a b v1 v2 = Some v.

Definition split_at (c : Z) (work : list T) : Prop :=
  forall p q, In p (firstn (Z.to_nat c) work) -> In q (skipn (Z.to_nat c) work) -> leb p q = true.

Variable idx : nat -> Z.
Lemma loop_spec : forall hs first work lf lc tmp1 tmp2 out,
  Permutation l work -> split_at lc work -> 0 <= lc < len ->
  (first = true -> lc = 0) ->
  (first = false -> is_kth l lf tmp1 /\ is_kth l lc tmp2 /\
     forall k h a b, In (k, h) hs -> ranks t len h = Some (a, b) -> (a = lf /\ b = lc) \/ lc <= a) ->
  (forall k h, In (k, h) hs -> good h) ->
  ForallOrdPairs (fun p q => f64_lt (snd q) (snd p) = false) hs ->
  (forall k k' h h', In (k, h) hs -> In (k', h') hs -> idx k = idx k' -> k = k') -> NoDup (map fst hs) ->
  exists out', quantile_loop T leb nth_element mean interp t len idx hs first work lf lc tmp1 tmp2 out
               = QDone st_success out' /\
    (forall k h, In (k, h) hs -> result h (out' (idx k))) /\
    (forall p, (forall k h, In (k, h) hs -> idx k <> p) -> out' p = out p).
Proof.
  induction hs as [|[k h] hs IH]; intros first work lf lc tmp1 tmp2 out Pm Sp Hc H1 H2 G O I D.
  - cbn [quantile_loop]. eexists. split; [reflexivity|]. split; [intros ? ? []|auto].
  - cbn [quantile_loop].
    destruct (good_ranks h) as (a & b & R & Ra & Rb & Rc); [eapply G; left; eauto|]. rewrite R.
    set (sel := if first || _ || _ then _ else _).
    assert (S : exists work' v1 v2, sel = Selected work' v1 v2 /\ Permutation l work' /\ split_at b work' /\
                 is_kth l a v1 /\ is_kth l b v2).
    { unfold sel. clear sel. destruct (first || negb (a =? lf) || negb (b =? lc)) eqn:C.
      - assert (La : lc <= a).
        { destruct first eqn:F; [rewrite H1 by auto; lia|]. destruct (H2 eq_refl) as (_ & _ & H3).
          destruct (H3 k h a b) as [[-> ->]|H4]; auto; [left; auto|]. cbn in C. rewrite !Z.eqb_refl in C. discriminate. }
        assert (Lw : length work = length l) by (symmetry; apply Permutation_length; auto).
        assert (Lf : length (firstn (Z.to_nat lc) work) = Z.to_nat lc).
        { rewrite firstn_length. unfold len in *. lia. }
        destruct (quick_selection_spec T leb P nth_element N (skipn (Z.to_nat lc) work) (a - lc) (b - lc))
          as (x & v1 & v2 & E & Px & K1 & K2 & Sx & _); try lia.
        { rewrite skipn_length. unfold len in *. lia. }
        rewrite E. do 3 eexists. split; [reflexivity|].
        assert (Pw : Permutation work (firstn (Z.to_nat lc) work ++ x)).
        { rewrite <- (firstn_skipn (Z.to_nat lc) work) at 1. apply Permutation_app_head. auto. }
        split; [eapply Permutation_trans; eauto|].
        assert (Kp : forall c v, is_kth (skipn (Z.to_nat lc) work) (c - lc) v -> is_kth l c v).
        { intros c v K. apply (is_kth_perm T leb work); [apply Permutation_sym; auto|].
          rewrite <- (firstn_skipn (Z.to_nat lc) work).
          replace c with (Z.of_nat (length (firstn (Z.to_nat lc) work)) + (c - lc)) by lia.
          apply is_kth_after; auto. }
        split; [|split; auto].
        assert (Q1 : firstn (Z.to_nat b) (firstn (Z.to_nat lc) work ++ x)
                     = firstn (Z.to_nat lc) work ++ firstn (Z.to_nat (b - lc)) x).
        { rewrite firstn_app, Lf. rewrite firstn_all2 by lia. f_equal. f_equal. lia. }
        assert (Q2 : skipn (Z.to_nat b) (firstn (Z.to_nat lc) work ++ x) = skipn (Z.to_nat (b - lc)) x).
        { rewrite skipn_app, Lf. rewrite skipn_all2 by lia. cbn [app]. f_equal. lia. }
        intros p q Hp Hq. rewrite Q1 in Hp. rewrite Q2 in Hq. apply in_app_or in Hp. destruct Hp as [Hp|Hp].
        + apply Sp; auto. apply (Permutation_in q (Permutation_sym Px)).
          rewrite <- (firstn_skipn (Z.to_nat (b - lc)) x). apply in_or_app. auto.
        + apply Sx; auto.
      - apply orb_false_iff in C. destruct C as [C C3]. apply orb_false_iff in C. destruct C as [C1 C2].
        apply negb_false_iff, Z.eqb_eq in C2, C3. subst. destruct (H2 eq_refl) as (K1 & K2 & _).
        do 3 eexists. split; [reflexivity|]. auto. }
    destruct S as (work' & v1 & v2 & -> & Pm' & Sp' & K1 & K2).
    assert (St : exists v, stored T mean interp t h a b v1 v2 = Some v).
    { unfold stored. destruct (Z.eqb_spec a b) as [|Nab]; eauto.
      assert (t <> Q1 /\ t <> Q3) as [N1 N3]
        by (split; intros Et; apply Nab, (ranks_equal h a b); auto).
      destruct t; try (eexists; reflexivity); congruence. }
    destruct St as (v & St). rewrite St.
    inversion O as [|? ? O1 O2]; subst. cbn [map] in D. inversion D as [|? ? D1 D2]; subst.
    rewrite Forall_forall in O1.
    destruct (IH false work' a b v1 v2 (store_at out (idx k) v)) as (out' & E & R1 & R2); auto; try lia; try discriminate.
    + intros _. split; auto. split; auto. intros k' h' a' b' Hin E'.
      apply (good_next h h' a b a' b'); auto.
      * eapply G. left. eauto.
      * eapply G. right. eauto.
      * apply (O1 (k', h')). auto.
    + intros k' h' Hin. apply (G k' h'). right. auto.
    + intros k1 k2 h1 h2 Hin1 Hin2. apply (I k1 k2 h1 h2); right; auto.
    + exists out'. split; auto. split.
      * intros k' h' [Eq|Hin].
        -- injection Eq as <- <-. rewrite R2.
           ++ unfold store_at. rewrite Z.eqb_refl. exists a, b, v1, v2. auto.
           ++ intros k2 h2 Hin Eq. apply D1. rewrite <- (I k2 k h2 h); auto; [|right; auto|left; auto].
              apply (in_map fst) in Hin. auto.
        -- apply (R1 k' h'). auto.
      * intros p Hp. rewrite R2.
        -- unfold store_at. destruct (Z.eqb_spec p (idx k)) as [-> |]; auto. exfalso. apply (Hp k h); [left|]; auto.
        -- intros k2 h2 Hin. apply (Hp k2 h2). right. auto.
Qed.

(** What is stored is the documented value. *)
Lemma result_value y r h v : index_of y h -> is y r -> result h v -> quantile_value leb mean interp t r l v.
Proof.
  intros (-> & r' & Y' & V) Y (a & b & v1 & v2 & R & K1 & K2 & St).
  assert (r' = r) as ->. { destruct Y, Y'. congruence. }
  destruct (ranks_documented t len Ht L y r Y V) as (i & j & D & E). rewrite R in E. injection E as -> ->.
  exists i, j, v1, v2. fold len. split; auto. split; auto. split; auto.
  unfold stored in St. destruct (Z.eq_dec (within len i) (within len j)) as [W|W].
  - rewrite W, Z.eqb_refl in St. congruence.
  - destruct (Z.eqb_spec (within len i - 1) (within len j - 1)); [lia|].
    assert (Ij : i <= j).
    { destruct t; cbn [documented] in D; try contradiction; try (destruct D as [_ ->]; lia); destruct D as [-> ->].
      - pose proof (at_adjacent Q2 (r - 1)) as A. cbn [lower_at upper_at] in A.
        pose proof (Zceil_minus1 (r - / 2)) as Z1. pose proof (Zfloor_minus1 (r + / 2)) as Z2.
        replace (r - / 2 - 1)%R with (r - 1 - / 2)%R in Z1 by lra. replace (r + / 2 - 1)%R with (r - 1 + / 2)%R in Z2 by lra. lia.
      - pose proof (at_adjacent Q4 r) as A. cbn [lower_at upper_at] in A. lia.
      - pose proof (at_adjacent Q4 r) as A. cbn [lower_at upper_at] in A. lia.
      - pose proof (at_adjacent Q4 r) as A. cbn [lower_at upper_at] in A. lia.
      - pose proof (at_adjacent Q4 r) as A. cbn [lower_at upper_at] in A. lia.
      - pose proof (at_adjacent Q4 r) as A. cbn [lower_at upper_at] in A. lia.
      - pose proof (at_adjacent Q4 r) as A. cbn [lower_at upper_at] in A. lia. }
    assert (Wi : 1 <= i <= len -> within len i = i) by (unfold within; lia).
    destruct (Z_lt_le_dec i 1) as [I1|I1].
    { (* the lower position was moved: both are the first *)
      exfalso. destruct (good_ranks (f64_sub y (f64_of_Z 1))) as (a & b & R' & A1 & A2 & A3).
      { exists y. split; eauto. }
      rewrite R in R'. injection R' as <- <-. apply W. unfold within in *.
      assert (j <= 1); [|lia].
      destruct t; cbn [documented] in D; try contradiction; try (destruct D as [_ ->]; lia); destruct D as [Di Dj];
        try (assert (r < 1)%R by (pose proof (Zfloor_ub r); assert (IZR (Zfloor r) + 1 <= 1)%R by (rewrite <- plus_IZR; apply IZR_le; lia); lra);
             subst j; apply Zceil_glb; lra).
      subst j. assert (r - / 2 <= 0)%R by (apply Rle_trans with (IZR i); [rewrite Di; apply Zceil_ub|apply IZR_le; lia]).
      assert (Zfloor (r + / 2) < 2); [|lia]. apply lt_IZR. pose proof (Zfloor_lb (r + / 2)). lra. }
    destruct (Z_lt_le_dec len i) as [I2|I2]; [unfold within in W; lia|].
    assert (Hh : (/ 2 <= r)%R -> is (f64_sub y (f64_of_Z 1)) (r - 1)).
    { intros Hr. rewrite <- (minus1_exact len L y r Y) by lra. apply (minus1_is t len) ; auto. }
    rewrite Wi in St by lia. destruct t; try congruence;
      exists (f64_sub y (f64_of_Z 1)); (split; [|split; [lia|congruence]]); apply Hh;
      destruct D as [Di _]; (assert (1 <= r)%R; [|lra]);
      (apply Rle_trans with (IZR i); [apply IZR_le; lia|rewrite Di; apply Zfloor_lb]).
Qed.
End Loop.
