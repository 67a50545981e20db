(** Selection of order statistics with a shared work array. *)
From Coq Require Import ZArith Reals Lia List Bool Permutation.
From Flocq Require Import Core IEEE754.BinarySingleNaN.
From Verif Require Import Base Par F64 SplitModel SplitSpec UtilModel QuantModel QuantSpec QuantFloatProofs.
Import ListNotations.
Local Open Scope Z_scope.

Lemma count_nil {T} (f : T -> bool) : count f [] = 0.
Proof. reflexivity. Qed.
Lemma count_cons {T} (f : T -> bool) x l : count f (x :: l) = (if f x then 1 else 0) + count f l.
Proof. unfold count. cbn [filter]. destruct (f x); cbn [length]; lia. Qed.
Lemma count_app {T} (f : T -> bool) l l' : count f (l ++ l') = count f l + count f l'.
Proof. unfold count. rewrite filter_app, app_length. lia. Qed.
Lemma count_nonneg {T} (f : T -> bool) l : 0 <= count f l.
Proof. unfold count. lia. Qed.
Lemma count_le {T} (f : T -> bool) l : count f l <= Z.of_nat (length l).
Proof.
  induction l as [|x l IH]; [cbn; lia|]. rewrite count_cons. cbn [length]. destruct (f x); lia.
Qed.
Lemma count_all {T} (f : T -> bool) l : Forall (fun x => f x = true) l -> count f l = Z.of_nat (length l).
Proof. induction 1 as [|x l H _ IH]; [reflexivity|]. rewrite count_cons, H, IH. cbn [length]. lia. Qed.
Lemma count_none {T} (f : T -> bool) l : Forall (fun x => f x = false) l -> count f l = 0.
Proof. induction 1 as [|x l H _ IH]; [reflexivity|]. rewrite count_cons, H, IH. lia. Qed.
Lemma count_perm {T} (f : T -> bool) l l' : Permutation l l' -> count f l = count f l'.
Proof. induction 1; rewrite ?count_cons; lia. Qed.
Lemma count_in_true {T} (f : T -> bool) l x : In x l -> f x = true -> 1 <= count f l.
Proof.
  induction l as [|y l IH]; intros []; intros E; rewrite count_cons.
  - subst. rewrite E. pose proof (count_nonneg f l). lia.
  - pose proof (IH H E). destruct (f y); lia.
Qed.
Lemma count_in_false {T} (f : T -> bool) l x : In x l -> f x = false -> count f l <= Z.of_nat (length l) - 1.
Proof.
  induction l as [|y l IH]; intros []; intros E; rewrite count_cons; cbn [length].
  - subst. rewrite E. pose proof (count_le f l). lia.
  - pose proof (IH H E). destruct (f y); lia.
Qed.

Section Selection.
Variable T : Type.
Variable leb : T -> T -> bool.
Hypothesis P : preorder leb.
Notation ltb := (ltb T leb).
Notation is_kth := (is_kth leb).

Lemma leb_refl x : leb x x = true.
Proof. destruct (proj1 P x x); auto. Qed.
Lemma ltb_false x y : leb y x = true -> ltb x y = false.
Proof. intros H. unfold QuantModel.ltb. rewrite H. auto. Qed.
Lemma ltb_leb x y : ltb x y = true -> leb x y = true.
Proof.
  unfold QuantModel.ltb. rewrite negb_true_iff. destruct (proj1 P x y); auto. congruence.
Qed.
Lemma ltb_false_leb x y : ltb x y = false -> leb y x = true.
Proof. unfold QuantModel.ltb. rewrite negb_false_iff. auto. Qed.

Lemma is_kth_perm l l' k v : Permutation l l' -> is_kth l k v -> is_kth l' k v.
Proof.
  intros H (I & C). split; [apply (Permutation_in _ H); auto|]. rewrite <- !(count_perm _ _ _ H). auto.
Qed.
(** With smaller elements before. *)
Lemma is_kth_after a l k v : (forall x y, In x a -> In y l -> leb x y = true) ->
  is_kth l k v -> is_kth (a ++ l) (Z.of_nat (length a) + k) v.
Proof.
  intros H (I & C). split; [apply in_or_app; auto|]. rewrite !count_app.
  pose proof (count_le (fun x => ltb x v) a). rewrite (count_all (fun x => leb x v) a); [lia|].
  apply Forall_forall. intros x Hx. apply H; auto.
Qed.
Lemma is_kth_range l k v : is_kth l k v -> 0 <= k < Z.of_nat (length l).
Proof. intros (_ & C). pose proof (count_nonneg (fun x => ltb x v) l). pose proof (count_le (fun x => leb x v) l). lia. Qed.

(** [v] between smaller and larger elements *)
Lemma is_kth_split a v b : Forall (fun x => leb x v = true) a -> Forall (fun x => leb v x = true) b ->
  is_kth (a ++ v :: b) (Z.of_nat (length a)) v.
Proof.
  intros A B. split; [apply in_elt|]. rewrite !count_app, !count_cons.
  rewrite (count_all (fun x => leb x v) a) by auto. rewrite leb_refl.
  rewrite (ltb_false v v) by apply leb_refl.
  pose proof (count_le (fun x => ltb x v) a). pose proof (count_nonneg (fun x => leb x v) b).
  rewrite (count_none (fun x => ltb x v) b); [lia|].
  eapply Forall_impl; [|exact B]. intros x Hx. cbn in Hx. apply ltb_false. auto.
Qed.

Lemma max_element_spec l : forall x, let m := max_element T leb x l in
  In m (x :: l) /\ Forall (fun y => leb y m = true) (x :: l).
Proof.
  unfold max_element. induction l as [|y l IH]; intros x; cbn [fold_left].
  - split; [left; auto|]. constructor; auto using leb_refl.
  - destruct (IH (if ltb x y then y else x)) as [I F]. inversion F as [|? ? F1 F2]; subst.
    split; [destruct I as [I|I]; [|right; right; auto]; rewrite <- I; destruct (ltb x y); cbn; auto|].
    assert (L : leb x (if ltb x y then y else x) = true /\ leb y (if ltb x y then y else x) = true).
    { destruct (ltb x y) eqn:E; split; auto using leb_refl, ltb_leb, ltb_false_leb. }
    destruct L. repeat (constructor; [eapply (proj2 P); eauto|]). auto.
Qed.
Lemma min_element_spec l : forall x, let m := min_element T leb x l in
  In m (x :: l) /\ Forall (fun y => leb m y = true) (x :: l).
Proof.
  unfold min_element. induction l as [|y l IH]; intros x; cbn [fold_left].
  - split; [left; auto|]. constructor; auto using leb_refl.
  - destruct (IH (if ltb y x then y else x)) as [I F]. inversion F as [|? ? F1 F2]; subst.
    split; [destruct I as [I|I]; [|right; right; auto]; rewrite <- I; destruct (ltb y x); cbn; auto|].
    assert (L : leb (if ltb y x then y else x) x = true /\ leb (if ltb y x then y else x) y = true).
    { destruct (ltb y x) eqn:E; split; auto using leb_refl, ltb_leb, ltb_false_leb. }
    destruct L. repeat (constructor; [eapply (proj2 P); eauto|]). auto.
Qed.

Variable nth_element : list T -> nat -> list T.
Hypothesis N : selects leb nth_element.

Lemma nth_split_spec l k : (k < length l)%nat -> exists a v b,
  nth_element l k = a ++ v :: b /\ length a = k /\ Permutation l (a ++ v :: b) /\
  Forall (fun x => leb x v = true) a /\ Forall (fun x => leb v x = true) b.
Proof.
  intros H. destruct (N l k H) as [Pm S]. assert (Ln := Permutation_length Pm).
  destruct (nth_error (nth_element l k) k) as [v|] eqn:E.
  - destruct (nth_error_split _ _ E) as (a & b & Eq & La). exists a, v, b. rewrite Eq in *.
    split; auto. split; auto. split; auto. split; apply Forall_forall; intros x Hx.
    + apply In_nth_error in Hx. destruct Hx as (i & Hi).
      assert (i < length a)%nat by (apply nth_error_Some; congruence).
      apply (S i x v); auto; [rewrite nth_error_app1; auto|lia].
    + apply In_nth_error in Hx. destruct Hx as (i & Hi).
      apply (S (k + 1 + i)%nat x v); auto; [|lia].
      rewrite nth_error_app2 by lia. replace (k + 1 + i - length a)%nat with (Datatypes.S i) by lia. auto.
  - apply nth_error_None in E. lia.
Qed.

Lemma quick_selection_spec x i1 i2 : 0 <= i1 <= i2 -> i2 <= i1 + 1 -> i2 < Z.of_nat (length x) ->
  exists x' v1 v2, quick_selection T leb nth_element x i1 i2 = Selected x' v1 v2 /\
    Permutation x x' /\ is_kth x i1 v1 /\ is_kth x i2 v2 /\
    (forall p q, In p (firstn (Z.to_nat i2) x') -> In q (skipn (Z.to_nat i2) x') -> leb p q = true) /\
    (i1 = i2 -> v1 = v2).
Proof.
  intros H1 H2 H3. unfold quick_selection.
  destruct (Z.ltb_spec i2 i1); [lia|].
  replace (negb (i2 - i1 =? 0) && negb (i2 - i1 =? 1)) with false
    by (destruct (Z.eqb_spec (i2 - i1) 0), (Z.eqb_spec (i2 - i1) 1); auto; lia).
  destruct (Z.ltb_spec i1 0); [lia|]. destruct (Z.leb_spec (Z.of_nat (length x)) i2); [lia|]. cbn [orb].
  destruct (Z.eqb_spec i1 i2) as [-> |D].
  - destruct (nth_split_spec x (Z.to_nat i2)) as (a & v & b & E & La & Pm & A & B); [lia|].
    rewrite E. rewrite nth_error_app2 by lia. rewrite La, Nat.sub_diag. cbn [nth_error].
    exists (a ++ v :: b), v, v. split; auto. split; auto.
    assert (K : is_kth x i2 v).
    { apply (is_kth_perm (a ++ v :: b)); [apply Permutation_sym; auto|].
      replace i2 with (Z.of_nat (length a)) by lia. apply is_kth_split; auto. }
    split; auto. split; auto. split; auto.
    rewrite <- La, firstn_app, skipn_app, Nat.sub_diag, firstn_all, skipn_all. cbn.
    rewrite app_nil_r. intros p q Hp Hq. rewrite Forall_forall in A, B.
    destruct Hq as [<- |Hq]; auto. eapply (proj2 P); eauto.
  - assert (D' : i2 = i1 + 1) by lia. subst i2. clear D.
    destruct (Z.ltb_spec i1 (Z.of_nat (length x) - 1 - (i1 + 1))) as [Sm|Lg].
    + destruct (nth_split_spec x (Z.to_nat (i1 + 1))) as (a & v & b & E & La & Pm & A & B); [lia|].
      rewrite E. rewrite nth_error_app2 by lia. rewrite La, Nat.sub_diag. cbn [nth_error].
      assert (Fi : firstn (Z.to_nat (i1 + 1)) (a ++ v :: b) = a).
      { rewrite <- La, firstn_app, Nat.sub_diag, firstn_all. cbn [firstn]. apply app_nil_r. }
      assert (Sk : skipn (Z.to_nat (i1 + 1)) (a ++ v :: b) = v :: b).
      { rewrite <- La, skipn_app, Nat.sub_diag, skipn_all. reflexivity. }
      rewrite Fi.
      destruct a as [|u a]; [cbn [length] in La; lia|].
      destruct (max_element_spec a u) as [Mi Mf]. set (m := max_element T leb u a) in *. cbn zeta in *.
      do 3 eexists. split; [reflexivity|]. split; [auto|]. split; [|split].
      * apply (is_kth_perm ((u :: a) ++ v :: b)); [apply Permutation_sym; auto|].
        split; [apply in_or_app; auto|]. rewrite !count_app.
        rewrite (count_all (fun x => leb x m) (u :: a)) by auto.
        pose proof (count_in_false (fun x => ltb x m) (u :: a) m Mi (ltb_false _ _ (leb_refl m))).
        rewrite (count_none (fun x => ltb x m) (v :: b)); [pose proof (count_nonneg (fun x => leb x m) (v :: b)); lia|].
        rewrite Forall_forall in A. pose proof (A m Mi) as Am. cbn in Am.
        constructor; [apply ltb_false; auto|]. eapply Forall_impl; [|exact B].
        intros z Hz. cbn in Hz. apply ltb_false. eapply (proj2 P); eauto.
      * apply (is_kth_perm ((u :: a) ++ v :: b)); [apply Permutation_sym; auto|].
        replace (i1 + 1) with (Z.of_nat (length (u :: a))) by lia. apply is_kth_split; auto.
      * split; [|intros; lia].
        rewrite Fi, Sk. intros p q Hp Hq. rewrite Forall_forall in A, B.
        destruct Hq as [<- |Hq]; auto. eapply (proj2 P); eauto.
    + destruct (nth_split_spec x (Z.to_nat i1)) as (a & v & b & E & La & Pm & A & B); [lia|].
      rewrite E. rewrite nth_error_app2 by lia. rewrite La, Nat.sub_diag. cbn [nth_error].
      assert (Ln := Permutation_length Pm). rewrite app_length in Ln. cbn [length] in Ln.
      assert (Sk : skipn (Z.to_nat (i1 + 1)) (a ++ v :: b) = b).
      { replace (Z.to_nat (i1 + 1)) with (length a + 1)%nat by lia.
        rewrite skipn_app, skipn_all2 by lia. replace (length a + 1 - length a)%nat with 1%nat by lia. auto. }
      assert (Fi : firstn (Z.to_nat (i1 + 1)) (a ++ v :: b) = a ++ [v]).
      { replace (Z.to_nat (i1 + 1)) with (length a + 1)%nat by lia.
        rewrite firstn_app, firstn_all2 by lia. replace (length a + 1 - length a)%nat with 1%nat by lia. auto. }
      rewrite Sk. destruct b as [|u b]; [cbn [length] in Ln; lia|].
      destruct (min_element_spec b u) as [Mi Mf]. set (m := min_element T leb u b) in *. cbn zeta in *.
      do 3 eexists. split; [reflexivity|]. split; [auto|]. split; [|split].
      * apply (is_kth_perm (a ++ v :: u :: b)); [apply Permutation_sym; auto|].
        replace i1 with (Z.of_nat (length a)) by lia. apply is_kth_split; auto.
      * apply (is_kth_perm (a ++ v :: u :: b)); [apply Permutation_sym; auto|].
        rewrite Forall_forall in B. pose proof (B m Mi) as Bm. cbn in Bm.
        split; [apply in_or_app; right; right; auto|]. rewrite !count_app, !(count_cons _ v).
        rewrite (count_all (fun x => leb x m) a).
        2:{ eapply Forall_impl; [|exact A]. intros z Hz. cbn in Hz. eapply (proj2 P); eauto. }
        rewrite Bm. pose proof (count_in_true (fun x => leb x m) (u :: b) m Mi (leb_refl m)).
        rewrite (count_none (fun x => ltb x m) (u :: b)).
        2:{ eapply Forall_impl; [|exact Mf]. intros z Hz. cbn in Hz. apply ltb_false. auto. }
        pose proof (count_le (fun x => ltb x m) a). destruct (ltb v m); lia.
      * split; [|intros; lia]. rewrite Sk, Fi. intros p q Hp Hq. rewrite Forall_forall in A, B.
        apply in_app_or in Hp. destruct Hp as [Hp|[<- |[]]]; [|apply B; auto].
        eapply (proj2 P); [apply A; eauto|apply B; auto].
Qed.
End Selection.
