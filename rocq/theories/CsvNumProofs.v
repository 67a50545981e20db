(** Proofs about the conversion of text to numbers. *)
From Coq Require Import ZArith List Bool Lia.
From Verif Require Import Base CsvNumModel CsvNumSpec.
Import ListNotations.
Local Open Scope Z_scope.

Lemma isdigit_iff c : isdigit_ascii c = true <-> is_digit c.
Proof. unfold isdigit_ascii, is_digit. rewrite andb_true_iff, !Z.leb_le. tauto. Qed.
Lemma isspace_iff c : isspace_ascii c = true <-> is_space c.
Proof.
  unfold isspace_ascii, is_space. rewrite orb_true_iff, andb_true_iff, !Z.leb_le, Z.eqb_eq. tauto.
Qed.
Lemma digit_not_space c : is_digit c -> ~ is_space c.
Proof. unfold is_digit, is_space. lia. Qed.

Lemma sign_case {A : Type} (l : list Z) (f g : list Z -> A) (h : A) :
  match l with 45 :: p' => f p' | 43 :: p' => g p' | _ => h end
  = if head l =? 45 then f (tl l) else if head l =? 43 then g (tl l) else h.
Proof.
  destruct l as [|c l]; [reflexivity|]. cbn [head tl].
  destruct (c =? 45) eqn:E; [apply Z.eqb_eq in E; subst; reflexivity|].
  destruct (c =? 43) eqn:E2; [apply Z.eqb_eq in E2; subst; reflexivity|].
  apply Z.eqb_neq in E. apply Z.eqb_neq in E2.
  destruct c as [|c|c]; try reflexivity.
  do 6 (destruct c as [c|c|]; try reflexivity; try lia).
Qed.

Lemma skip_spaces_split l : exists sp, l = sp ++ skip_spaces l /\ Forall is_space sp /\
  ~ is_space (head (skip_spaces l)).
Proof.
  induction l as [|c l (sp & E & F & N)]; cbn [skip_spaces].
  - exists []. repeat split; auto. unfold head, is_space. lia.
  - destruct (isspace_ascii c) eqn:Hc.
    + exists (c :: sp). cbn. rewrite <- E. repeat split; auto. constructor; auto.
      apply isspace_iff; auto.
    + exists []. repeat split; auto. cbn. intros H. apply isspace_iff in H. congruence.
Qed.
Lemma skip_spaces_app sp l : Forall is_space sp -> ~ is_space (head l) -> skip_spaces (sp ++ l) = l.
Proof.
  induction 1 as [|c sp Hc _ IH]; intros N; cbn [app skip_spaces].
  - destruct l as [|c l]; [reflexivity|]. cbn in *.
    destruct (isspace_ascii c) eqn:E; [apply isspace_iff in E; tauto|reflexivity].
  - apply isspace_iff in Hc. rewrite Hc. auto.
Qed.
Lemma head_zero_nil l : chars l -> head l = 0 -> l = [].
Proof. destruct l; auto. inversion 1; subst. cbn. lia. Qed.
Lemma chars_app a b : chars (a ++ b) <-> chars a /\ chars b.
Proof. unfold chars. apply Forall_app. Qed.

(** ** Integers *)
Section Digits.
Variables lo hi tsep : Z.
Hypothesis lo0 : lo <= 0.
Hypothesis hi0 : 0 <= hi.
Definition numeric (c : Z) : bool := is_sep tsep c || isdigit_ascii c.
Fixpoint pre (l : list Z) : list Z :=
  match l with c :: l' => if numeric c then c :: pre l' else [] | [] => [] end.
Fixpoint post (l : list Z) : list Z :=
  match l with c :: l' => if numeric c then post l' else l | [] => [] end.
Definition value_from (m : Z) (l : list Z) : Z := fold_left (fun n d => n * 10 + (d - 48)) l m.
Definition nosep (l : list Z) : list Z := filter (fun c => negb (is_sep tsep c)) l.

Lemma pre_post l : l = pre l ++ post l.
Proof. induction l; cbn; auto. destruct (numeric a); cbn; congruence. Qed.
Lemma pre_numeric l : Forall (fun c => numeric c = true) (pre l).
Proof. induction l; cbn; auto. destruct (numeric a) eqn:E; auto. Qed.
Lemma post_head l : post l = [] \/ numeric (head (post l)) = false.
Proof. induction l; cbn; auto. destruct (numeric a) eqn:E; auto. Qed.
Lemma value_from_mono m l : 0 <= m -> Forall is_digit l -> m <= value_from m l.
Proof.
  intros H F. revert m H. induction F as [|d l Hd _ IH]; cbn; intros m Hm; [lia|].
  unfold is_digit in Hd. specialize (IH (m * 10 + (d - 48)) ltac:(lia)). unfold value_from in *. lia.
Qed.
Lemma nosep_digits l : Forall (fun c => numeric c = true) l -> Forall is_digit (nosep l).
Proof.
  induction 1 as [|c l Hc _ IH]; cbn; auto. destruct (is_sep tsep c) eqn:E; cbn; auto.
  constructor; auto. unfold numeric in Hc. rewrite E in Hc. apply isdigit_iff; auto.
Qed.

Definition limit (isneg : bool) : Z := if isneg then - lo else hi.
Lemma digits_ok isneg l m : 0 <= m <= limit isneg ->
  digits lo hi isneg tsep (signed (negb isneg) m) l
  = let v := value_from m (nosep (pre l)) in
    if v <=? limit isneg then Value (signed (negb isneg) v, post l) else ParsingError.
Proof.
  revert m. induction l as [|d l IH]; intros m Hm; cbn zeta.
  - cbn. replace (m <=? limit isneg) with true by (symmetry; apply Z.leb_le; lia). auto.
  - cbn [digits pre post].
    change (numeric d) with (is_sep tsep d || isdigit_ascii d). fold (is_sep tsep d).
    destruct (is_sep tsep d) eqn:Hs; cbn [orb].
    + rewrite IH by auto. cbn [nosep filter]. rewrite Hs. cbn [negb]. reflexivity.
    + destruct (isdigit_ascii d) eqn:Hd; cbn [negb].
      2:{ cbn. replace (m <=? limit isneg) with true by (symmetry; apply Z.leb_le; lia). auto. }
      cbn [nosep filter]. rewrite Hs. cbn [negb value_from fold_left].
      fold (value_from (m * 10 + (d - 48)) (nosep (pre l))).
      apply isdigit_iff in Hd as Hd'. unfold is_digit in Hd'.
      set (room := if isneg then _ else _).
      assert (R : room = (m * 10 + (d - 48) <=? limit isneg)).
      { subst room. unfold limit, signed. destruct isneg; cbn [negb].
        - pose proof (Z.quot_rem' lo 10) as Q.
          assert (B' : -10 < Z.rem lo 10 <= 0).
          { pose proof (Z.rem_opp_l lo 10 ltac:(lia)) as O.
            pose proof (Z.rem_bound_pos (- lo) 10 ltac:(lia) ltac:(lia)) as B.
            rewrite O in B. generalize dependent (Z.rem lo 10). intros; lia. }
          generalize dependent (Z.rem lo 10). generalize dependent (Z.quot lo 10).
          intros q r Q B'.
          apply eq_true_iff_eq. rewrite orb_true_iff, andb_true_iff, Z.gtb_lt, Z.eqb_eq, !Z.leb_le. lia.
        - pose proof (Z.quot_rem' hi 10) as Q.
          pose proof (Z.rem_bound_pos hi 10 ltac:(lia) ltac:(lia)) as B.
          generalize dependent (Z.rem hi 10). generalize dependent (Z.quot hi 10).
          intros q r Q B.
          apply eq_true_iff_eq. rewrite orb_true_iff, andb_true_iff, Z.ltb_lt, Z.eqb_eq, !Z.leb_le. lia. }
      rewrite R. destruct (m * 10 + (d - 48) <=? limit isneg) eqn:Hr.
      * apply Z.leb_le in Hr.
        assert (E : (if isneg then signed (negb isneg) m * 10 - (d - 48)
                     else signed (negb isneg) m * 10 + (d - 48))
                    = signed (negb isneg) (m * 10 + (d - 48))).
        { unfold signed. destruct isneg; cbn; lia. }
        rewrite E. rewrite (IH (m * 10 + (d - 48))) by lia.
        replace (_ && _ && _ && _) with true; [reflexivity|].
        symmetry. rewrite !andb_true_iff, !Z.leb_le. unfold signed, limit in *.
        destruct isneg; cbn; lia.
      * apply Z.leb_gt in Hr.
        pose proof (value_from_mono (m * 10 + (d - 48)) (nosep (pre l)) ltac:(lia)
                      (nosep_digits _ (pre_numeric l))) as V.
        match goal with |- _ = (if ?x <=? _ then _ else _) =>
          replace (x <=? limit isneg) with false; [reflexivity|]; symmetry; apply Z.leb_gt;
          change x with (value_from (m * 10 + (d - 48)) (nosep (pre l))); lia
        end.
Qed.

Lemma numeric_iff c : numeric c = true <-> is_digit c \/ is_sep tsep c = true.
Proof. unfold numeric. rewrite orb_true_iff, isdigit_iff. tauto. Qed.

Lemma pre_app a b : Forall (fun c => numeric c = true) a -> pre (a ++ b) = a ++ pre b.
Proof. induction 1 as [|c a H _ IH]; cbn; auto. rewrite H, IH. auto. Qed.
Lemma post_app a b : Forall (fun c => numeric c = true) a -> post (a ++ b) = post b.
Proof. induction 1 as [|c a H _ IH]; cbn; auto. rewrite H, IH. auto. Qed.
Lemma spaces_pre sp : Forall is_space sp -> nosep (pre sp) = [] /\ Forall is_space (post sp).
Proof.
  induction 1 as [|c sp H F [IH1 IH2]]; cbn [pre post nosep filter]; auto.
  destruct (numeric c) eqn:N; cbn [filter].
  - split; auto. destruct (is_sep tsep c) eqn:S; cbn [negb]; auto.
    apply numeric_iff in N as [N|N]; [|congruence]. apply digit_not_space in N. tauto.
  - split; auto.
Qed.
Lemma nosep_app a b : nosep (a ++ b) = nosep a ++ nosep b.
Proof. apply filter_app. Qed.

Lemma char_to_int_eq l : char_to_int lo hi tsep l =
  let p := skip_spaces l in
  let isneg := head p =? 45 in
  let p := if (head p =? 45) || (head p =? 43) then tl p else p in
  if negb (isdigit_ascii (head p)) then ParsingError
  else let v := value_from 0 (nosep (pre p)) in
       if v <=? limit isneg then
         if head (skip_spaces (post p)) =? 0 then Value (signed (negb isneg) v) else ParsingError
       else ParsingError.
Proof.
  unfold char_to_int. cbn zeta. rewrite sign_case.
  set (p := skip_spaces l).
  assert (G : forall isneg q, negb (isdigit_ascii (head q)) = false ->
    match digits lo hi isneg tsep 0 q with
    | Value (number, p0) => if head (skip_spaces p0) =? 0 then Value number else ParsingError
    | ParsingError => ParsingError | Overflow => Overflow | OutOfRange => OutOfRange
    end = (let v := value_from 0 (nosep (pre q)) in
       if v <=? limit isneg then
         if head (skip_spaces (post q)) =? 0 then Value (signed (negb isneg) v) else ParsingError
       else ParsingError)).
  { intros isneg q _. cbn zeta.
    assert (L : 0 <= limit isneg) by (unfold limit; destruct isneg; lia).
    pose proof (digits_ok isneg q 0 ltac:(lia)) as D. cbn zeta in D.
    replace (signed (negb isneg) 0) with 0 in D by (unfold signed; destruct (negb isneg); lia).
    rewrite D. destruct (_ <=? _); auto. }
  destruct (head p =? 45) eqn:E1; [|destruct (head p =? 43) eqn:E2]; cbn [orb];
    match goal with |- (if ?b then _ else _) = _ => destruct b eqn:B end; auto.
Qed.

Lemma char_to_int_iff l v : chars l ->
  char_to_int lo hi tsep l = Value v <-> integer_text tsep l v /\ lo <= v <= hi.
Proof.
  intros Hl. rewrite char_to_int_eq. cbn zeta.
  destruct (skip_spaces_split l) as (sp1 & El & F1 & N1).
  remember (skip_spaces l) as p eqn:Ep0.
  split.
  - set (q := if (head p =? 45) || (head p =? 43) then tl p else p).
    set (isneg := head p =? 45).
    destruct (isdigit_ascii (head q)) eqn:Hd; cbn [negb]; [|discriminate].
    destruct (value_from 0 (nosep (pre q)) <=? limit isneg) eqn:Hv; [|discriminate].
    destruct (head (skip_spaces (post q)) =? 0) eqn:Hz; [|discriminate].
    intros E. injection E as <-.
    apply Z.leb_le in Hv. apply Z.eqb_eq in Hz.
    assert (V0 : 0 <= value_from 0 (nosep (pre q))).
    { apply value_from_mono; [lia|]. apply nosep_digits, pre_numeric. }
    split.
    2:{ unfold limit, signed in *. destruct isneg; cbn; lia. }
    destruct (skip_spaces_split (post q)) as (sp2 & E2 & F2 & _).
    assert (Es : exists s, p = s ++ q /\ is_sign s (negb isneg)).
    { unfold q, isneg. destruct p as [|c p']; cbn [head tl].
      - exists []. split; auto. left. auto.
      - destruct (c =? 45) eqn:C1; [|destruct (c =? 43) eqn:C2]; cbn [orb].
        + apply Z.eqb_eq in C1. subst. exists [45]. split; auto. right; right. auto.
        + apply Z.eqb_eq in C2. subst. exists [43]. split; auto. right; left. auto.
        + exists []. split; auto. left; auto. }
    destruct Es as (s & Es & Hs).
    assert (Cq : chars (post q)).
    { rewrite El, Es in Hl. apply chars_app in Hl as [_ Hl]. apply chars_app in Hl as [_ Hl].
      rewrite (pre_post q) in Hl. apply chars_app in Hl. tauto. }
    assert (E3 : skip_spaces (post q) = []).
    { apply head_zero_nil; auto. rewrite E2 in Cq. apply chars_app in Cq. tauto. }
    rewrite E3, app_nil_r in E2.
    pose proof (pre_numeric q) as PN. pose proof (pre_post q) as PP.
    destruct (pre q) as [|d body] eqn:Pq.
    { exfalso. destruct q as [|c q']; [cbn in Hd; discriminate|]. cbn in Pq, Hd.
      replace (numeric c) with true in Pq; [discriminate|]. unfold numeric. rewrite Hd.
      symmetry. apply orb_true_r. }
    exists sp1, s, d, body, sp2, (negb isneg).
    split; [|split; [auto|split; [exact F2|split; [auto|split; [|split; [|reflexivity]]]]]].
    + rewrite El, Es. f_equal. f_equal. rewrite PP, E2. auto.
    + destruct q as [|c q']; [discriminate|]. cbn in PP. injection PP as -> _.
      apply isdigit_iff. auto.
    + pose proof (Forall_inv_tail PN) as H2. revert H2. apply Forall_impl. intros c. apply numeric_iff.
  - intros [(sp1' & s & d & body & sp2 & positive & E & G1 & G2 & Hs & Hd & Hb & Ev) Hr]. subst v.
    assert (Ep : p = s ++ (d :: body) ++ sp2).
    { rewrite Ep0, E. apply skip_spaces_app; auto.
      destruct Hs as [[-> _]|[[-> _]|[-> _]]]; cbn; [apply digit_not_space; auto| |]; unfold is_space; lia. }
    assert (Eneg : (head p =? 45) = negb positive).
    { rewrite Ep. unfold is_digit in Hd. destruct Hs as [[-> ->]|[[-> ->]|[-> ->]]]; cbn; auto.
      apply Z.eqb_neq. lia. }
    assert (Eq : (if (head p =? 45) || (head p =? 43) then tl p else p) = (d :: body) ++ sp2).
    { rewrite Ep. unfold is_digit in Hd. destruct Hs as [[-> ->]|[[-> ->]|[-> ->]]]; cbn; auto.
      replace (d =? 45) with false by (symmetry; apply Z.eqb_neq; lia).
      replace (d =? 43) with false by (symmetry; apply Z.eqb_neq; lia). auto. }
    rewrite Eq, Eneg. rewrite negb_involutive.
    assert (Fb : Forall (fun c => numeric c = true) (d :: body)).
    { constructor; [apply numeric_iff; auto|]. revert Hb. apply Forall_impl. intros c. apply numeric_iff. }
    rewrite (pre_app (d :: body)), (post_app (d :: body)) by auto.
    destruct (spaces_pre sp2 G2) as [P1 P2].
    rewrite nosep_app, P1, app_nil_r.
    change (decimal_value (filter (fun c => negb (is_sep tsep c)) (d :: body)))
      with (value_from 0 (nosep (d :: body))) in *.
    generalize dependent (value_from 0 (nosep (d :: body))). intros w Hw.
    cbn [app head]. apply isdigit_iff in Hd as Hd'. rewrite Hd'. cbn [negb].
    replace (w <=? limit (negb positive)) with true.
    2:{ symmetry. apply Z.leb_le. unfold limit, signed in *. destruct positive; cbn; lia. }
    pose proof (skip_spaces_app (post sp2) [] P2) as SS. rewrite app_nil_r in SS.
    rewrite SS by (cbn; unfold is_space; lia). reflexivity.
Qed.

Lemma char_to_int_no_overflow l : char_to_int lo hi tsep l <> Overflow /\ char_to_int lo hi tsep l <> OutOfRange.
Proof.
  rewrite char_to_int_eq. cbn zeta. destruct (negb _); [split; discriminate|].
  destruct (_ <=? _); [|split; discriminate]. destruct (_ =? 0); split; discriminate.
Qed.
End Digits.
