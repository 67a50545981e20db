From Coq Require Import ZArith List Bool Lia Permutation FinFun.
From Verif Require Import Base ListFacts Par ShuffleModel ShuffleSpec.
Import ListNotations.
Local Open Scope nat_scope.

(** ** set_at, swap, shuffle *)
Lemma set_at_some {A} (l : list A) i x : i < length l -> exists l', set_at l i x = Some l'.
Proof. intros H. unfold set_at. apply Nat.ltb_lt in H. rewrite H. eauto. Qed.

Lemma set_at_nth {A} (l l' : list A) i x : set_at l i x = Some l' ->
  length l' = length l /\ i < length l /\
  forall k, nth_error l' k = if k =? i then Some x else nth_error l k.
Proof.
  unfold set_at. destruct (Nat.ltb_spec i (length l)) as [H|]; [|discriminate].
  intros E. assert (El : firstn i l ++ x :: skipn (S i) l = l') by congruence. subst l'. clear E.
  assert (L : length (firstn i l) = i) by (rewrite firstn_length; lia).
  split; [rewrite app_length, L; cbn [length]; rewrite skipn_length; lia|]. split; auto.
  intros k. destruct (Nat.eqb_spec k i) as [->|N].
  - rewrite nth_error_app2 by lia. rewrite L, Nat.sub_diag. reflexivity.
  - destruct (Nat.lt_ge_cases k i).
    + rewrite nth_error_app1 by lia. 
      rewrite <- (firstn_skipn i l) at 2. rewrite nth_error_app1; auto. lia.
    + rewrite nth_error_app2 by lia. rewrite L.
      replace (k - i) with (S (k - S i)) by lia. cbn [nth_error].
      rewrite <- (firstn_skipn (S i) l) at 2.
      rewrite nth_error_app2; rewrite firstn_length, Nat.min_l by lia; auto. lia.
Qed.

Lemma swap_perm {A} (l : list A) i j : i < length l -> j < length l ->
  exists l', swap l i j = Some l' /\ Permutation l l'.
Proof.
  intros Hi Hj. unfold swap.
  destruct (nth_error l i) as [x|] eqn:Ei; [|apply nth_error_None in Ei; lia].
  destruct (nth_error l j) as [y|] eqn:Ej; [|apply nth_error_None in Ej; lia].
  destruct (set_at_some l i y Hi) as (l1 & E1). rewrite E1.
  destruct (set_at_nth _ _ _ _ E1) as (L1 & _ & N1).
  destruct (set_at_some l1 j x) as (l2 & E2); [lia|]. rewrite E2.
  destruct (set_at_nth _ _ _ _ E2) as (L2 & _ & N2).
  exists l2. split; auto. apply Permutation_nth_error. split; [lia|].
  exists (fun k => if k =? j then i else if k =? i then j else k). split.
  - intros a b. repeat match goal with |- context [?p =? ?q] => destruct (Nat.eqb_spec p q) end; lia.
  - intros k. rewrite N2. destruct (Nat.eqb_spec k j) as [->|]; [congruence|].
    rewrite N1. destruct (Nat.eqb_spec k i) as [->|]; congruence.
Qed.

Section WithDraw.
  Variable draw : nat -> nat -> nat.
  Hypothesis draw_ok : uniform draw.

  Lemma shuffle_loop_perm {A} i : forall (l : list A) k, i < length l \/ i = 0 ->
    exists l' k', shuffle_loop draw i l k = Some (l', k') /\ Permutation l l'.
  Proof.
    induction i as [|i IH]; intros l k H; cbn [shuffle_loop].
    - eauto.
    - pose proof (draw_ok k (S i)) as D.
      destruct (swap_perm l (S i) (draw k (S i))) as (l1 & E & P); try lia. rewrite E.
      destruct (IH l1 (S k)) as (l2 & k2 & E2 & P2).
      { rewrite <- (Permutation_length P). lia. }
      rewrite E2. do 2 eexists; split; [reflexivity|]. eapply Permutation_trans; eauto.
  Qed.

  Lemma shuffle_perm {A} (l : list A) k :
    exists l' k', shuffle draw l k = Some (l', k') /\ Permutation l l'.
  Proof. apply shuffle_loop_perm. lia. Qed.

  (** ** Selection sampling *)
  Lemma sample_loop_ok {A} (pop : list A) : forall n k, n <= length pop ->
    exists out k', sample_loop draw pop n k = Some (out, k') /\ length out = n /\ subseq out pop.
  Proof.
    induction pop as [|x r IH]; intros [|n] k H; cbn [sample_loop]; cbn [length] in H;
      try (do 2 eexists; repeat split; [constructor]; fail); try lia.
    destruct (Nat.ltb_spec (draw k (length r)) (S n)).
    - destruct (IH n (S k)) as (o & k' & E & L & S); [lia|]. rewrite E.
      do 2 eexists; repeat split; [cbn; lia|constructor; auto].
    - pose proof (draw_ok k (length r)).
      destruct (IH (S n) (S k)) as (o & k' & E & L & S); [lia|]. rewrite E.
      do 2 eexists; repeat split; [auto|constructor; auto].
  Qed.

  (** ** Copies *)
  Lemma copy_to_ok l : forall (P U V : list (option Z)), length l <= length U ->
    copy_to (P ++ U ++ V) (length P) l = Some ((P ++ map Some l) ++ skipn (length l) U ++ V).
  Proof.
    induction l as [|x r IH]; intros P U V H; cbn [copy_to map length skipn] in *.
    - rewrite app_nil_r. auto.
    - destruct U as [|u U]; cbn [length] in H; [lia|].
      unfold set_at. destruct (Nat.ltb_spec (length P) (length (P ++ (u :: U) ++ V))) as [_|Hn];
        [|rewrite !app_length in Hn; cbn [length] in Hn; lia].
      assert (E : firstn (length P) (P ++ (u :: U) ++ V)
                  ++ Some x :: skipn (S (length P)) (P ++ (u :: U) ++ V)
                  = (P ++ [Some x]) ++ U ++ V).
      { rewrite firstn_app, Nat.sub_diag, firstn_all. cbn [firstn].
        rewrite app_nil_r, skipn_app.
        rewrite skipn_all2 by lia. replace (S (length P) - length P) with 1 by lia.
        cbn [skipn app]. rewrite <- app_assoc. reflexivity. }
      rewrite E. replace (S (length P)) with (length (P ++ [Some x])) by (rewrite app_length; cbn; lia).
      rewrite IH by lia. rewrite <- !app_assoc. reflexivity.
  Qed.
End WithDraw.

(** ** The class map *)
Local Open Scope Z_scope.
Definition keys (cm : list (Z * list Z)) := map fst cm.
Definition indices (cm : list (Z * list Z)) := concat (map snd cm).

Lemma map_push_indices c i cm : Permutation (indices (map_push c i cm)) (indices cm ++ [i]).
Proof.
  unfold indices. induction cm as [|[c' l] r IH]; cbn [map_push map concat snd app]; auto.
  destruct (c =? c').
  - cbn [map concat snd]. rewrite <- !app_assoc. apply Permutation_app_head.
    apply Permutation_app_comm.
  - destruct (c <? c').
    + cbn [map concat snd]. apply (Permutation_app_comm [i]).
    + cbn [map concat snd]. rewrite <- app_assoc. apply Permutation_app_head. exact IH.
Qed.

Lemma class_map_indices classes : forall i cm,
  Permutation (indices (class_map_from i classes cm))
              (indices cm ++ map (fun k => i + k) (zrange (Z.of_nat (length classes)))).
Proof.
  induction classes as [|c r IH]; intros i cm; cbn [class_map_from length].
  - cbn. rewrite app_nil_r. auto.
  - rewrite IH, map_push_indices, <- app_assoc. apply Permutation_app_head.
    unfold zrange. rewrite !Nat2Z.id. cbn [seq map app].
    replace (i + Z.of_nat 0) with i by lia. apply perm_skip.
    rewrite <- seq_shift, !map_map. apply Permutation_refl'. apply map_ext. intros; lia.
Qed.

Lemma map_push_members (P : Z -> Z -> Prop) c i cm :
  (forall c' l, In (c', l) cm -> forall x, In x l -> P c' x) -> P c i ->
  forall c' l, In (c', l) (map_push c i cm) -> forall x, In x l -> P c' x.
Proof.
  induction cm as [|[c0 l0] r IH]; cbn [map_push]; intros H Hi c' l Hin x Hx.
  - destruct Hin as [E|[]]. inversion E; subst. destruct Hx as [<-|[]]; auto.
  - destruct (Z.eqb_spec c c0) as [->|].
    + destruct Hin as [E|Hin].
      * inversion E; subst. apply in_app_or in Hx. destruct Hx as [Hx|[<-|[]]]; auto.
        apply (H c' l0); auto. left; auto.
      * apply (H c' l); auto. right; auto.
    + destruct (c <? c0).
      * destruct Hin as [E|Hin]; [inversion E; subst; destruct Hx as [<-|[]]; auto|].
        apply (H c' l); auto.
      * destruct Hin as [E|Hin]; [apply (H c' l); auto; left; auto|].
        apply (IH) with (l := l); auto. intros; eapply H; eauto. right; eauto.
Qed.

Lemma class_map_members all : forall classes pre cm,
  all = pre ++ classes ->
  (forall c l, In (c, l) cm -> forall x, In x l -> nth (Z.to_nat x) all 0 = c) ->
  forall c l, In (c, l) (class_map_from (Z.of_nat (length pre)) classes cm) ->
  forall x, In x l -> nth (Z.to_nat x) all 0 = c.
Proof.
  induction classes as [|c0 r IH]; intros pre cm E H c l Hin x Hx; cbn [class_map_from] in Hin.
  - eapply H; eauto.
  - replace (Z.of_nat (length pre) + 1) with (Z.of_nat (length (pre ++ [c0]))) in Hin
      by (rewrite app_length; cbn; lia).
    refine (IH (pre ++ [c0]) _ _ _ c l Hin x Hx).
    + rewrite <- app_assoc. exact E.
    + apply (map_push_members (fun c x => nth (Z.to_nat x) all 0 = c)); auto.
      rewrite E, Nat2Z.id, app_nth2, Nat.sub_diag by lia. reflexivity.
Qed.

(** keys are strictly increasing *)
Fixpoint increasing (l : list Z) : Prop :=
  match l with
  | [] => True
  | x :: r => (forall y, In y r -> x < y) /\ increasing r
  end.
Lemma increasing_nodup l : increasing l -> NoDup l.
Proof.
  induction l as [|x r IH]; cbn; intros H; constructor; try apply IH; try apply H.
  intros Hin. destruct H as (H & _). specialize (H _ Hin). lia.
Qed.

Lemma map_push_keys c i cm x : In x (keys (map_push c i cm)) <-> x = c \/ In x (keys cm).
Proof.
  unfold keys. induction cm as [|[c0 l0] r IH]; cbn [map_push map fst In].
  - split; intros [H|H]; auto; tauto.
  - destruct (Z.eqb_spec c c0) as [->|].
    + cbn [map fst In]. split; [tauto|]. intros [->|H]; auto.
    + destruct (c <? c0); cbn [map fst In].
      * split; intros [H|H]; auto.
      * rewrite IH. tauto.
Qed.

Lemma map_push_increasing c i cm : increasing (keys cm) -> increasing (keys (map_push c i cm)).
Proof.
  unfold keys. induction cm as [|[c0 l0] r IH]; cbn [map_push map fst increasing].
  - intros _. split; auto. intros y [].
  - intros (H1 & H2). destruct (Z.eqb_spec c c0) as [->|].
    + cbn [map fst increasing]. auto.
    + destruct (Z.ltb_spec c c0); cbn [map fst increasing].
      * split; [|auto]. intros y [<-|Hy]; auto. specialize (H1 _ Hy). lia.
      * split; [|auto]. intros y Hy. apply map_push_keys in Hy. destruct Hy as [->|Hy]; auto. lia.
Qed.

Lemma class_map_increasing classes : forall i cm, increasing (keys cm) ->
  increasing (keys (class_map_from i classes cm)).
Proof.
  induction classes; intros; cbn [class_map_from]; auto. apply IHclasses.
  apply map_push_increasing. auto.
Qed.

Lemma members_split classes c l1 l2 :
  members classes c (l1 ++ l2) = members classes c l1 + members classes c l2.
Proof. unfold members. rewrite filter_app, app_length. lia. Qed.

Lemma members_perm classes c l1 l2 : Permutation l1 l2 ->
  members classes c l1 = members classes c l2.
Proof.
  intros H. unfold members. f_equal. apply Permutation_length.
  induction H; cbn [filter]; repeat match goal with |- context [if ?b then _ else _] => destruct b end;
    eauto using Permutation. 
Qed.

Lemma members_all classes c l : (forall x, In x l -> nth (Z.to_nat x) classes 0 = c) ->
  members classes c l = Z.of_nat (length l).
Proof.
  intros H. unfold members. f_equal. f_equal. induction l as [|x r IH]; cbn; auto.
  rewrite (H x (or_introl eq_refl)), Z.eqb_refl. f_equal. apply IH. intros; apply H; right; auto.
Qed.

Lemma members_none classes c l : (forall x, In x l -> nth (Z.to_nat x) classes 0 <> c) ->
  members classes c l = 0.
Proof.
  intros H. unfold members. replace (filter _ l) with (@nil Z); auto.
  induction l as [|x r IH]; cbn; auto. destruct (Z.eqb_spec (nth (Z.to_nat x) classes 0) c) as [E|].
  - exfalso. apply (H x); [left; auto|auto].
  - apply IH. intros; apply H; right; auto.
Qed.

Lemma members_range classes : forall c,
  members classes c (zrange (Z.of_nat (length classes))) = total classes c.
Proof.
  intros c. unfold members, total, zrange. rewrite Nat2Z.id. f_equal.
  assert (G : forall all cl pre, all = pre ++ cl ->
    length (filter (fun i => nth (Z.to_nat i) all 0 =? c) (map Z.of_nat (seq (length pre) (length cl))))
    = count_occ Z.eq_dec cl c).
  { intros all cl. induction cl as [|x r IH]; intros pre E; [reflexivity|].
    cbn [length seq map filter count_occ].
    rewrite E at 1. rewrite Nat2Z.id, app_nth2, Nat.sub_diag by lia. cbn [nth].
    specialize (IH (pre ++ [x])). rewrite <- app_assoc in IH. specialize (IH E).
    rewrite app_length in IH. cbn [length] in IH. rewrite Nat.add_1_r in IH.
    destruct (Z.eqb_spec x c), (Z.eq_dec x c); try contradiction; cbn [length]; rewrite IH; auto. }
  apply (G classes classes []). reflexivity.
Qed.

(** ** Filling the two blocks *)
Section Fill.
  Variable draw : nat -> nat -> nat.
  Hypothesis draw_ok : uniform draw.

  (** What one class contributes. *)
  Definition contributes (p : Z * list Z) (a b : Z) (xs ys : list Z) : Prop :=
    Z.of_nat (length xs) = a /\ Z.of_nat (length ys) = b /\
    exists rest, Permutation (snd p) (xs ++ ys ++ rest).

  Inductive parts : list (Z * list Z) -> list Z -> list Z -> list (list Z) -> list (list Z) -> Prop :=
  | parts_nil : forall fa fb, parts [] fa fb [] []
  | parts_cons : forall p a b xs ys cm fa fb XS YS,
      contributes p a b xs ys -> parts cm fa fb XS YS ->
      parts (p :: cm) (a :: fa) (b :: fb) (xs :: XS) (ys :: YS).

  Definition shares (cm : list (Z * list Z)) (fa fb : list Z) : Prop :=
    length fa = length cm /\ length fb = length cm /\
    forall i p a b, nth_error cm i = Some p -> nth_error fa i = Some a -> nth_error fb i = Some b ->
      0 <= a /\ 0 <= b /\ a + b <= Z.of_nat (length (snd p)).

  Lemma fill_ok cm : forall fa fb P U Q V C k, shares cm fa fb ->
    zsum fa = Z.of_nat (length U) -> zsum fb = Z.of_nat (length V) ->
    exists XS YS k', parts cm fa fb XS YS /\
      fill_classes draw cm fa fb (length P) (length P + length U + length Q)
        (P ++ U ++ Q ++ V ++ C) k
      = Some ((P ++ map Some (concat XS)) ++ (Q ++ map Some (concat YS)) ++ C, k') /\
      Z.of_nat (length (concat XS)) = zsum fa /\ Z.of_nat (length (concat YS)) = zsum fb.
  Proof.
    induction cm as [|[c l] cm IH]; intros fa fb P U Q V C k (L1 & L2 & S) Hu Hv.
    - destruct fa; [|discriminate]. destruct fb; [|discriminate].
      destruct U; [|cbn in Hu; lia]. destruct V; [|cbn in Hv; lia].
      exists [], [], k. cbn. rewrite !app_nil_r. repeat split; constructor.
    - destruct fa as [|a fa]; [discriminate|]. destruct fb as [|b fb]; [discriminate|].
      cbn [length] in L1, L2.
      destruct (S 0%nat (c, l) a b) as (Ha & Hb & Hab); auto. cbn [snd] in Hab.
      assert (S' : shares cm fa fb).
      { split; [lia|]. split; [lia|]. intros i p x y. apply (S (Datatypes.S i)). }
      assert (Spos : forall f : list Z, (forall x, In x f -> 0 <= x) -> 0 <= zsum f).
      { induction f as [|z f IHf]; cbn; intros Hp; [lia|].
        specialize (IHf ltac:(intros; apply Hp; right; auto)).
        specialize (Hp z (or_introl eq_refl)). unfold zsum in IHf. lia. }
      assert (Pa : 0 <= zsum fa).
      { apply Spos. intros x Hx. apply In_nth_error in Hx. destruct Hx as (i & Hi).
        destruct S' as (_ & Lb & S').
        destruct (nth_error cm i) as [p|] eqn:Ep; [|apply nth_error_None in Ep;
          apply (f_equal (fun o => match o with Some _ => true | None => false end)) in Hi;
          assert (i < length fa)%nat by (apply nth_error_Some; destruct (nth_error fa i); congruence); lia].
        destruct (nth_error fb i) as [y|] eqn:Ey;
          [|apply nth_error_None in Ey; assert (i < length cm)%nat by (apply nth_error_Some; congruence); lia].
        apply (S' i p x y); auto. }
      assert (Pb : 0 <= zsum fb).
      { apply Spos. intros y Hy. apply In_nth_error in Hy. destruct Hy as (i & Hi).
        destruct S' as (La & Lb & S').
        assert (i < length fb)%nat by (apply nth_error_Some; congruence).
        destruct (nth_error cm i) as [p|] eqn:Ep; [|apply nth_error_None in Ep; lia].
        destruct (nth_error fa i) as [x|] eqn:Ex; [|apply nth_error_None in Ex; lia].
        apply (S' i p x y); auto. }
      cbn [zsum fold_right] in Hu, Hv. fold (zsum fa) in Hu. fold (zsum fb) in Hv.
      cbn [fill_classes].
      destruct (shuffle_perm draw draw_ok l k) as (s & k1 & Es & Ps). rewrite Es.
      pose proof (Permutation_length Ps) as Ls.
      unfold take_front. rewrite rev_length.
      destruct (Nat.leb_spec (Z.to_nat a) (length s)); [|lia].
      destruct (Nat.leb_spec (Z.to_nat b) (length s)); [|lia].
      set (xs := firstn (Z.to_nat a) s). set (ys := firstn (Z.to_nat b) (rev s)).
      assert (Lx : length xs = Z.to_nat a) by (unfold xs; rewrite firstn_length; lia).
      assert (Ly : length ys = Z.to_nat b) by (unfold ys; rewrite firstn_length, rev_length; lia).
      rewrite (copy_to_ok xs P U (Q ++ V ++ C)) by lia.
      replace (length P + length U + length Q)%nat
        with (length ((P ++ map Some xs) ++ skipn (length xs) U ++ Q)).
      2:{ rewrite !app_length, map_length, skipn_length. lia. }
      replace ((P ++ map Some xs) ++ skipn (length xs) U ++ Q ++ V ++ C)
        with (((P ++ map Some xs) ++ skipn (length xs) U ++ Q) ++ V ++ C)
        by (rewrite <- !app_assoc; auto).
      rewrite (copy_to_ok ys _ V C) by lia.
      destruct (IH fa fb (P ++ map Some xs) (skipn (length xs) U) (Q ++ map Some ys)
                  (skipn (length ys) V) C k1 S') as (XS & YS & k2 & Hp & He & H1 & H2).
      + rewrite skipn_length. lia.
      + rewrite skipn_length. lia.
      + exists (xs :: XS), (ys :: YS), k2. split; [|split; [|split]].
        * constructor; auto. split; [lia|]. split; [lia|]. cbn [snd].
          exists (skipn (Z.to_nat a) (firstn (length s - Z.to_nat b) s)).
          rewrite Ps. unfold xs, ys.
          rewrite firstn_rev.
          set (t := firstn (length s - Z.to_nat b) s).
          assert (Et : firstn (Z.to_nat a) s = firstn (Z.to_nat a) t).
          { unfold t. rewrite firstn_firstn. f_equal. lia. }
          rewrite Et. 
          rewrite (Permutation_app_comm (rev _)), app_assoc, (firstn_skipn (Z.to_nat a) t).
          rewrite <- (firstn_skipn (length s - Z.to_nat b) s) at 1. fold t.
          apply Permutation_app_head. apply Permutation_rev.
        * replace (length P + length xs)%nat with (length (P ++ map Some xs))
            by (rewrite app_length, map_length; lia).
          match goal with |- fill_classes _ _ _ _ _ ?te ?arr _ = _ =>
            replace te with (length (P ++ map Some xs) + length (skipn (length xs) U)
                             + length (Q ++ map Some ys))%nat;
            [replace arr with ((P ++ map Some xs) ++ skipn (length xs) U ++ (Q ++ map Some ys)
                               ++ skipn (length ys) V ++ C)|] end.
          -- rewrite He. cbn [concat]. rewrite !map_app, <- !app_assoc. reflexivity.
          -- rewrite <- !app_assoc. reflexivity.
          -- rewrite !app_length, !map_length, !skipn_length. lia.
        * cbn [concat zsum fold_right]. fold (zsum fa). rewrite app_length. lia.
        * cbn [concat zsum fold_right]. fold (zsum fb). rewrite app_length. lia.
  Qed.

  Lemma parts_perm cm fa fb XS YS : parts cm fa fb XS YS ->
    exists rest, Permutation (indices cm) (concat XS ++ concat YS ++ rest).
  Proof.
    induction 1 as [|p a b xs ys cm fa fb XS YS (_ & _ & r & Hr) _ (rest & IH)].
    - exists []. constructor.
    - exists (r ++ rest). unfold indices in *. cbn [map concat]. rewrite Hr, IH.
      rewrite <- !app_assoc. apply Permutation_app_head.
      rewrite (app_assoc ys r). rewrite (Permutation_app_comm ys r), <- app_assoc.
      rewrite (app_assoc (concat XS)).
      rewrite (Permutation_app_comm (concat XS) ys) at 1 || idtac.
      (* r ++ ys ++ cX ++ cY ++ rest ~ cX ++ ys ++ cY ++ r ++ rest *)
      rewrite <- !app_assoc.
      rewrite (Permutation_app_comm r). rewrite <- !app_assoc.
      rewrite (app_assoc ys (concat XS)), (Permutation_app_comm ys (concat XS)), <- !app_assoc.
      do 3 apply Permutation_app_head. apply Permutation_app_comm.
  Qed.

  Lemma parts_class classes cm fa fb XS YS c : parts cm fa fb XS YS ->
    increasing (keys cm) ->
    (forall c' l, In (c', l) cm -> forall x, In x l -> nth (Z.to_nat x) classes 0 = c') ->
    (In c (keys cm) -> exists i l a b, nth_error cm i = Some (c, l) /\ nth_error fa i = Some a /\
        nth_error fb i = Some b /\ members classes c (concat XS) = a /\
        members classes c (concat YS) = b) /\
    (~ In c (keys cm) -> members classes c (concat XS) = 0 /\ members classes c (concat YS) = 0).
  Proof.
    induction 1 as [|p a b xs ys cm fa fb XS YS (Lx & Ly & r & Hr) Hp IH]; intros Hi Hm.
    - cbn. split; [tauto|]. auto.
    - destruct p as [c0 l0]. cbn [keys map fst snd] in *.
      assert (Mx : forall x, In x xs -> nth (Z.to_nat x) classes 0 = c0).
      { intros x Hx. apply (Hm c0 l0); [left; auto|]. rewrite Hr. apply in_or_app; auto. }
      assert (My : forall x, In x ys -> nth (Z.to_nat x) classes 0 = c0).
      { intros x Hx. apply (Hm c0 l0); [left; auto|]. rewrite Hr. apply in_or_app; right.
        apply in_or_app; auto. }
      destruct Hi as (Hi1 & Hi2).
      destruct (IH Hi2 ltac:(intros; eapply Hm; [right; eauto|auto])) as (I1 & I2).
      cbn [concat]. rewrite !members_split. split.
      + intros [<-|Hin].
        * exists 0%nat, l0, a, b. cbn. repeat split; auto.
          -- rewrite (members_all classes c0 xs), (proj1 (I2 ltac:(intros Hc; specialize (Hi1 _ Hc); lia))); auto. lia.
          -- rewrite (members_all classes c0 ys), (proj2 (I2 ltac:(intros Hc; specialize (Hi1 _ Hc); lia))); auto. lia.
        * destruct (I1 Hin) as (i & l & a' & b' & E1 & E2 & E3 & E4 & E5).
          exists (S i), l, a', b'. cbn. specialize (Hi1 _ Hin).
          rewrite (members_none classes c xs), (members_none classes c ys).
          -- repeat split; auto.
          -- intros x Hx. rewrite (My x Hx). lia.
          -- intros x Hx. rewrite (Mx x Hx). lia.
      + intros Hn. destruct I2 as (-> & ->); [intros Hc; apply Hn; right; exact Hc|].
        rewrite (members_none classes c xs), (members_none classes c ys); [split; lia| |].
        * intros x Hx. rewrite (My x Hx). intros ->. apply Hn. left; auto.
        * intros x Hx. rewrite (Mx x Hx). intros ->. apply Hn. left; auto.
  Qed.
End Fill.
