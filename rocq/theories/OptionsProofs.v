From Coq Require Import ZArith List Bool Lia.
From Flocq Require Import IEEE754.Binary IEEE754.Bits.
From Verif Require Import Base OptionsModel OptionsSpec.
Import ListNotations.
Local Open Scope Z_scope.

(** ** Names *)
Lemma is_space_lower c : is_space (to_lower c) = is_space c.
Proof.
  unfold to_lower, is_space. destruct ((65 <=? c) && (c <=? 90)) eqn:E; auto. lia.
Qed.

Lemma to_lower_idem c : to_lower (to_lower c) = to_lower c.
Proof.
  unfold to_lower. destruct ((65 <=? c) && (c <=? 90)) eqn:E; [|rewrite E; auto].
  replace ((65 <=? c + 32) && (c + 32 <=? 90)) with false by lia. reflexivity.
Qed.

Definition nosp (w : str) : Prop := forallb (fun c => negb (is_space c)) w = true.

Lemma nosp_app a b : nosp (a ++ b) <-> nosp a /\ nosp b.
Proof. unfold nosp. rewrite forallb_app, andb_true_iff. tauto. Qed.

Lemma nosp_cons c b : nosp (c :: b) <-> is_space c = false /\ nosp b.
Proof. unfold nosp. simpl. rewrite andb_true_iff, negb_true_iff. tauto. Qed.

Lemma words_from_word w : forall cur rest, nosp w ->
  words_from cur (w ++ rest) = words_from (cur ++ w) rest.
Proof.
  induction w as [|c w IH]; intros cur rest H; simpl.
  - rewrite app_nil_r. reflexivity.
  - apply nosp_cons in H as [H1 H2]. rewrite H1. rewrite IH by auto.
    rewrite <- app_assoc. reflexivity.
Qed.

Fixpoint join (ws : list str) : str :=
  match ws with
  | [] => []
  | [w] => w
  | w :: r => w ++ 32 :: join r
  end.

Definition good_words (ws : list str) : Prop := Forall (fun w => w <> [] /\ nosp w) ws.

Lemma words_from_good s : forall cur, nosp cur -> good_words (words_from cur s).
Proof.
  induction s as [|c s IH]; intros cur H; simpl.
  - destruct cur; [constructor|]. constructor; [split; [discriminate|auto]|constructor].
  - destruct (is_space c) eqn:E.
    + destruct cur; [apply IH; reflexivity|]. constructor; [split; auto; discriminate|].
      apply IH; reflexivity.
    + apply IH. apply nosp_app. split; auto. apply nosp_cons. split; auto. reflexivity.
Qed.

Lemma words_join ws : good_words ws -> words (join ws) = ws.
Proof.
  unfold words. induction ws as [|w ws IH]; intros H; [reflexivity|].
  inversion H as [|? ? [Hw Hn] Hr]; subst. destruct ws as [|w2 ws].
  - simpl. rewrite <- (app_nil_r w) at 1. rewrite words_from_word by auto. simpl.
    destruct w; [congruence|reflexivity].
  - change (join (w :: w2 :: ws)) with (w ++ 32 :: join (w2 :: ws)).
    rewrite words_from_word by auto.
    cbn [words_from app]. change (is_space 32) with true. cbv iota.
    destruct w; [congruence|]. rewrite IH; auto.
Qed.

Lemma drop_spaces_words s : words_from [] (drop_spaces s) = words_from [] s.
Proof.
  induction s as [|c s IH]; simpl; auto.
  destruct (is_space c) eqn:E; auto. simpl. rewrite E. reflexivity.
Qed.

Lemma words_from_spaces s : forall cur, forallb is_space s = true ->
  words_from cur s = match cur with [] => [] | _ => [cur] end.
Proof.
  induction s as [|c s IH]; intros cur H; simpl; auto.
  simpl in H. apply andb_true_iff in H as [H1 H2]. rewrite H1.
  rewrite IH by auto. destruct cur; auto.
Qed.

Lemma words_from_trailing t : forall s cur, forallb is_space t = true ->
  words_from cur (s ++ t) = words_from cur s.
Proof.
  induction s as [|c s IH]; intros cur H; simpl.
  - rewrite words_from_spaces by auto. reflexivity.
  - destruct (is_space c); rewrite !IH by auto; reflexivity.
Qed.

Lemma drop_spaces_split s : exists t, s = t ++ drop_spaces s /\ forallb is_space t = true.
Proof.
  induction s as [|c s (t & IH & Ht)]; simpl.
  - exists []; auto.
  - destruct (is_space c) eqn:E.
    + exists (c :: t). simpl. rewrite E, Ht. split; [congruence|reflexivity].
    + exists []; auto.
Qed.

Lemma forallb_rev {A} (f : A -> bool) l : forallb f (rev l) = forallb f l.
Proof.
  induction l as [|x l IH]; simpl; auto. rewrite forallb_app, IH. simpl.
  rewrite andb_true_r, andb_comm. reflexivity.
Qed.

Lemma drop_spaces_head s : match drop_spaces s with [] => True | c :: _ => is_space c = false end.
Proof. induction s as [|c s IH]; simpl; auto. destruct (is_space c) eqn:E; auto. Qed.

Lemma words_trim s : words (trim s) = words s.
Proof.
  unfold words, trim.
  destruct (drop_spaces_split (rev (drop_spaces s))) as (t & H & Ht).
  assert (E : drop_spaces s = rev (drop_spaces (rev (drop_spaces s))) ++ rev t).
  { rewrite <- rev_app_distr, <- H, rev_involutive. reflexivity. }
  rewrite <- (drop_spaces_words s). rewrite E at 2.
  rewrite words_from_trailing; auto. rewrite forallb_rev. auto.
Qed.

(** A trimmed string has no leading and no trailing blank. *)
Definition no_trailing (s : str) : Prop := forall p c, s = p ++ [c] -> is_space c = false.

Lemma trim_no_trailing s : no_trailing (trim s).
Proof.
  intros p c H. unfold trim in H.
  assert (E : drop_spaces (rev (drop_spaces s)) = c :: rev p).
  { rewrite <- (rev_involutive (drop_spaces _)), H, rev_app_distr. reflexivity. }
  pose proof (drop_spaces_head (rev (drop_spaces s))) as D. rewrite E in D. auto.
Qed.

Lemma trim_head s : match trim s with [] => True | c :: _ => is_space c = false end.
Proof.
  unfold trim. pose proof (drop_spaces_head s) as D.
  destruct (drop_spaces_split (rev (drop_spaces s))) as (t & H & Ht).
  assert (E : drop_spaces s = rev (drop_spaces (rev (drop_spaces s))) ++ rev t).
  { rewrite <- rev_app_distr, <- H, rev_involutive. reflexivity. }
  destruct (rev (drop_spaces (rev (drop_spaces s)))) as [|c r] eqn:F; auto.
  rewrite E in D. exact D.
Qed.

Lemma no_trailing_tl c s : no_trailing (c :: s) -> no_trailing s.
Proof. intros H p d E. apply (H (c :: p) d). rewrite E. reflexivity. Qed.

Lemma no_trailing_all_spaces s : no_trailing s -> forallb is_space s = true -> s = [].
Proof.
  intros H F. destruct s as [|x s] using rev_ind; auto.
  rewrite forallb_app in F. apply andb_true_iff in F as [_ F]. simpl in F.
  rewrite (H s x eq_refl) in F. discriminate.
Qed.

(** [squeeze] on a string without trailing blanks, with a pending word. *)
Lemma squeeze_words s : no_trailing s ->
  (forall cur, cur <> [] -> cur ++ squeeze false s = join (words_from cur s)) /\
  (squeeze true s = join (words_from [] s) /\
   (s <> [] -> words_from [] s <> [])).
Proof.
  induction s as [|c s IH]; intros H.
  - simpl. split; [|split; [reflexivity|congruence]].
    intros cur Hc. rewrite app_nil_r. destruct cur; [congruence|reflexivity].
  - destruct (IH (no_trailing_tl _ _ H)) as (I1 & I2 & I3). simpl.
    destruct (is_space c) eqn:E.
    + assert (Hs : s <> []).
      { intros ->. rewrite (H [] c eq_refl) in E. discriminate. }
      split; [|split; [auto|intros _; apply I3; auto]].
      intros cur Hc. destruct cur as [|d cur]; [congruence|].
      rewrite I2. specialize (I3 Hs).
      destruct (words_from [] s) eqn:W; [congruence|]. reflexivity.
    + split; [|split].
      * intros cur Hc. replace (cur ++ c :: squeeze false s) with ((cur ++ [c]) ++ squeeze false s)
          by (rewrite <- app_assoc; reflexivity).
        apply I1. destruct cur; discriminate.
      * change (c :: squeeze false s) with ([c] ++ squeeze false s). apply I1. discriminate.
      * intros _. clear. assert (G : forall cur, cur <> [] -> words_from cur s <> []).
        { induction s as [|d s IHs]; intros cur Hc; simpl.
          - destruct cur; [congruence|discriminate].
          - destruct (is_space d).
            + destruct cur; [congruence|discriminate].
            + apply IHs. destruct cur; discriminate. }
        apply G. discriminate.
Qed.

Lemma squeeze_trim s : squeeze false (trim s) = join (words s).
Proof.
  rewrite <- words_trim. pose proof (trim_no_trailing s) as N. pose proof (trim_head s) as D.
  unfold words. destruct (trim s) as [|c r]; [reflexivity|].
  destruct (squeeze_words r (no_trailing_tl _ _ N)) as (I1 & _ & _).
  simpl. rewrite D. change (c :: squeeze false r) with ([c] ++ squeeze false r).
  apply I1. discriminate.
Qed.

Lemma map_join f ws : f 32 = 32 -> map f (join ws) = join (map (map f) ws).
Proof.
  intros H. induction ws as [|w ws IH]; auto. destruct ws as [|w2 ws]; auto.
  change (join (w :: w2 :: ws)) with (w ++ 32 :: join (w2 :: ws)).
  rewrite map_app. cbn [map]. rewrite H, IH. reflexivity.
Qed.

Lemma prep_str_words s : prep_str s = join (map (map to_lower) (words s)).
Proof. unfold prep_str. rewrite squeeze_trim. apply map_join. reflexivity. Qed.

Lemma good_words_lower ws : good_words ws -> good_words (map (map to_lower) ws).
Proof.
  unfold good_words. rewrite Forall_map. apply Forall_impl. intros w [H1 H2]. split.
  - destruct w; [congruence|discriminate].
  - unfold nosp in *. rewrite forallb_forall in *. intros x Hx. apply in_map_iff in Hx as (y & <- & Hy).
    rewrite is_space_lower. auto.
Qed.

Lemma words_prep s : words (prep_str s) = map (map to_lower) (words s).
Proof.
  rewrite prep_str_words. apply words_join. apply good_words_lower.
  apply words_from_good. reflexivity.
Qed.

Lemma prep_str_same a b : prep_str a = prep_str b <-> same_name a b.
Proof.
  unfold same_name. split.
  - intros H. rewrite <- !words_prep. congruence.
  - intros H. rewrite !prep_str_words. congruence.
Qed.

Lemma prep_str_idem s : prep_str (prep_str s) = prep_str s.
Proof.
  rewrite prep_str_words, words_prep. rewrite (prep_str_words s). f_equal.
  rewrite map_map. apply map_ext. intros w. rewrite map_map. apply map_ext.
  intros; apply to_lower_idem.
Qed.

(** ** Association lists *)
Lemma assoc_in {A} k (l : list (str * A)) v : assoc k l = Some v -> In (k, v) l.
Proof.
  induction l as [|[k' v'] l IH]; simpl; [discriminate|].
  destruct (str_eqb k k') eqn:E.
  - apply str_eqb_eq in E. intros H; inversion H; subst. auto.
  - auto.
Qed.

Lemma assoc_none {A} k (l : list (str * A)) : assoc k l = None <-> ~ In k (map fst l).
Proof.
  induction l as [|[k' v'] l IH]; simpl; [tauto|].
  destruct (str_eqb k k') eqn:E.
  - apply str_eqb_eq in E. subst. split; [discriminate|]. intros H; exfalso; auto.
  - apply str_eqb_neq in E. rewrite IH. split; [intros H [->|H']; auto|tauto].
Qed.

Lemma assoc_update_same {A} k (v : A) l v0 : assoc k l = Some v0 ->
  assoc k (update k v l) = Some v.
Proof.
  induction l as [|[k' v'] l IH]; simpl; [discriminate|].
  destruct (str_eqb k k') eqn:E; simpl; rewrite E; auto.
Qed.

Lemma assoc_update_other {A} k k2 (v : A) l : k2 <> k ->
  assoc k2 (update k v l) = assoc k2 l.
Proof.
  intros H. induction l as [|[k' v'] l IH]; simpl; auto.
  destruct (str_eqb k k') eqn:E; simpl.
  - apply str_eqb_eq in E. subst. replace (str_eqb k2 k') with false; auto.
    symmetry. apply str_eqb_neq. auto.
  - rewrite IH. reflexivity.
Qed.

Lemma update_same {A} k (l : list (str * A)) v : assoc k l = Some v -> update k v l = l.
Proof.
  induction l as [|[k' v'] l IH]; simpl; auto.
  destruct (str_eqb k k') eqn:E; intros H; [inversion H; auto|]. rewrite IH; auto.
Qed.

Lemma update_keys {A} k (v : A) l : map fst (update k v l) = map fst l.
Proof.
  induction l as [|[k' v'] l IH]; simpl; auto. destruct (str_eqb k k'); simpl; congruence.
Qed.

Lemma in_update {A} k (v : A) l e : In e (update k v l) -> In e l \/ e = (k, v).
Proof.
  induction l as [|[k' v'] l IH]; simpl; [tauto|].
  destruct (str_eqb k k') eqn:E; simpl.
  - apply str_eqb_eq in E. subst. intros [<-|H]; auto.
  - intros [<-|H]; auto. apply IH in H. tauto.
Qed.

Lemma in_remove_key {A} k (l : list (str * A)) e : In e (remove_key k l) -> In e l.
Proof.
  induction l as [|[k' v'] l IH]; simpl; auto.
  destruct (str_eqb k k'); simpl; tauto.
Qed.

Lemma assoc_remove_key {A} k (l : list (str * A)) : assoc k (remove_key k l) = None.
Proof.
  induction l as [|[k' v'] l IH]; simpl; auto.
  destruct (str_eqb k k') eqn:E; simpl; auto. rewrite E. auto.
Qed.

(** ** Resolution *)
Lemma resolve_assoc r n k o : resolve r n = Some (k, o) ->
  assoc k (entries r) = Some o /\ (k = n \/ k = prep_str n).
Proof.
  unfold resolve. destruct (assoc n (entries r)) eqn:E.
  - intros H; inversion H; subst; auto.
  - destruct (assoc (prep_str n) (entries r)) eqn:E2; [|discriminate].
    intros H; inversion H; subst; auto.
Qed.

Lemma assoc_tidy r n o : tidy_registry r -> assoc n (entries r) = Some o -> tidy n.
Proof.
  intros T H. apply assoc_in in H. unfold tidy_registry in T. rewrite Forall_forall in T.
  apply T in H. auto.
Qed.

Lemma resolve_tidy r n : tidy_registry r ->
  resolve r n = match assoc (prep_str n) (entries r) with
                | Some o => Some (prep_str n, o)
                | None => None
                end.
Proof.
  intros T. unfold resolve. destruct (assoc n (entries r)) eqn:E; auto.
  pose proof (assoc_tidy _ _ _ T E) as Hn. unfold tidy in Hn. rewrite Hn, E. reflexivity.
Qed.

Lemma resolve_same r a b : tidy_registry r -> same_name a b -> resolve r a = resolve r b.
Proof.
  intros T H. apply prep_str_same in H. rewrite !resolve_tidy by auto. rewrite H. reflexivity.
Qed.

(** ** Setting *)
Lemma num_set_fail {T} (cmp : T -> T -> option comparison) o v st o' :
  num_set cmp o v = (st, o') -> st <> st_success -> o' = o.
Proof.
  unfold num_set. destruct (quick_check _ _ _ _ _ _); simpl; intros H; inversion H; congruence.
Qed.

Lemma num_set_ok {T} (cmp : T -> T -> option comparison) o v o' :
  num_set cmp o v = (st_success, o') -> n_value o' = v.
Proof.
  unfold num_set. destruct (quick_check _ _ _ _ _ _); simpl; intros H; inversion H; auto.
Qed.

Lemma opt_set_fail o v st o' : opt_set o v = Some (st, o') -> st <> st_success -> o' = o.
Proof.
  destruct o, v; simpl; try discriminate; intros H N.
  - destruct (num_set zcmp o z) eqn:E. inversion H; subst.
    apply num_set_fail in E; auto. congruence.
  - destruct (num_set fcmp o f) eqn:E. inversion H; subst.
    apply num_set_fail in E; auto. congruence.
  - destruct (num_set dcmp o d) eqn:E. inversion H; subst.
    apply num_set_fail in E; auto. congruence.
  - destruct (str_set o s) eqn:E. inversion H; subst.
    unfold str_set in E. destruct (s_labels o); [inversion E; congruence|].
    destruct (assoc s _); [inversion E; congruence|].
    destruct (assoc (prep_str s) _); inversion E; subst; congruence.
  - inversion H; subst; congruence.
Qed.

Lemma opt_set_ok o v o' : opt_set o v = Some (st_success, o') ->
  type_of_opt o' = type_of_val v /\ stored_as v (opt_get o').
Proof.
  destruct o, v; simpl; try discriminate; intros H.
  - destruct (num_set zcmp o z) eqn:E. inversion H; subst.
    apply num_set_ok in E. simpl. rewrite E; auto.
  - destruct (num_set fcmp o f) eqn:E. inversion H; subst.
    apply num_set_ok in E. simpl. rewrite E; auto.
  - destruct (num_set dcmp o d) eqn:E. inversion H; subst.
    apply num_set_ok in E. simpl. rewrite E; auto.
  - destruct (str_set o s) eqn:E. inversion H; subst. simpl. split; auto.
    unfold str_set in E. destruct (s_labels o).
    { inversion E; subst. simpl. destruct (s_strict o); auto. }
    destruct (assoc s _); [inversion E; subst; auto|].
    destruct (assoc (prep_str s) _); inversion E; subst; auto.
  - inversion H; subst. auto.
Qed.

Lemma otype_eqb_eq a b : otype_eqb a b = true <-> a = b.
Proof. destruct a, b; simpl; split; congruence. Qed.

(** The model's internal error branch is unreachable. *)
Lemma reg_set_typed o v : type_of_opt o = type_of_val v -> opt_set o v <> None.
Proof.
  destruct o, v; simpl; try discriminate; intros _.
  - destruct (num_set zcmp o z); discriminate.
  - destruct (num_set fcmp o f); discriminate.
  - destruct (num_set dcmp o d); discriminate.
  - destruct (str_set o s); discriminate.
Qed.

Lemma reg_set_cases r n v st r' : reg_set r n v = (st, r') ->
  (st <> st_success /\ r' = r) \/
  (st = st_success /\ readonly r = false /\ exists k o o',
      resolve r n = Some (k, o) /\ opt_set o v = Some (st_success, o') /\
      r' = mkReg (readonly r) (update k o' (entries r))).
Proof.
  unfold reg_set. destruct (readonly r) eqn:R.
  { intros H; inversion H; subst. left. split; [discriminate|auto]. }
  destruct (resolve r n) as [[k o]|] eqn:Rs; cycle 1.
  { intros H; inversion H; subst. left. split; [discriminate|auto]. }
  destruct (otype_eqb (type_of_opt o) (type_of_val v)) eqn:T; simpl; cycle 1.
  { intros H; inversion H; subst. left. split; [discriminate|auto]. }
  destruct (opt_set o v) as [[st' o']|] eqn:S; cycle 1.
  { apply otype_eqb_eq in T. apply reg_set_typed in T. congruence. }
  intros H; inversion H; subst.
  destruct (status_eq_dec st st_success) as [->|N].
  - right. split; auto. split; auto. eauto 10.
  - left. split; auto. apply opt_set_fail in S; auto. subst.
    apply resolve_assoc in Rs as [A _]. rewrite update_same by auto.
    rewrite <- R. destruct r; reflexivity.
Qed.

Lemma set_fail_lemma r n v st r' : reg_set r n v = (st, r') -> st <> st_success -> r' = r.
Proof.
  intros H N. apply reg_set_cases in H as [[_ H]|[H _]]; auto. congruence.
Qed.

Lemma resolve_after_update r k o' n : assoc k (entries r) <> None ->
  resolve (mkReg (readonly r) (update k o' (entries r))) n =
  match resolve r n with
  | Some (k2, o2) => Some (k2, if str_eqb k2 k then o' else o2)
  | None => None
  end.
Proof.
  intros Hk. destruct (assoc k (entries r)) as [o0|] eqn:A; [|congruence]. clear Hk.
  unfold resolve. simpl.
  assert (G : forall q, assoc q (update k o' (entries r)) =
     match assoc q (entries r) with
     | Some o2 => Some (if str_eqb q k then o' else o2) | None => None end).
  { intros q. destruct (str_eqb q k) eqn:E.
    - apply str_eqb_eq in E. subst. rewrite A. eapply assoc_update_same; eauto.
    - apply str_eqb_neq in E. rewrite assoc_update_other by auto.
      destruct (assoc q (entries r)); auto. }
  rewrite !G. destruct (assoc n (entries r)); auto.
  destruct (assoc (prep_str n) (entries r)); auto.
Qed.

Lemma set_get_lemma r n v r' : reg_set r n v = (st_success, r') ->
  exists v', stored_as v v' /\ reg_get r' n (type_of_val v) = (st_success, Some v').
Proof.
  intros H. apply reg_set_cases in H as [[H _]|(_ & _ & k & o & o' & Rs & S & ->)]; [congruence|].
  pose proof (resolve_assoc _ _ _ _ Rs) as [A _].
  apply opt_set_ok in S as [T St]. exists (opt_get o'). split; auto.
  unfold reg_get. rewrite resolve_after_update by congruence. rewrite Rs, str_eqb_refl, T.
  replace (otype_eqb (type_of_val v) (type_of_val v)) with true; auto.
  symmetry; apply otype_eqb_eq; auto.
Qed.

Lemma set_frame_lemma r n v st r' n2 t : tidy_registry r ->
  reg_set r n v = (st, r') -> ~ same_name n2 n -> reg_get r' n2 t = reg_get r n2 t.
Proof.
  intros T H N. apply reg_set_cases in H as [[_ ->]|(_ & _ & k & o & o' & Rs & S & ->)]; auto.
  pose proof (resolve_assoc _ _ _ _ Rs) as [A _].
  unfold reg_get. rewrite resolve_after_update by congruence.
  rewrite (resolve_tidy r n2) by auto.
  rewrite (resolve_tidy r n) in Rs by auto.
  destruct (assoc (prep_str n2) (entries r)) eqn:E; auto.
  destruct (assoc (prep_str n) (entries r)); [|discriminate]. inversion Rs; subst.
  replace (str_eqb (prep_str n2) (prep_str n)) with false; auto.
  symmetry. apply str_eqb_neq. rewrite prep_str_same. auto.
Qed.

Lemma tidy_reg_set r n v st r' : tidy_registry r -> reg_set r n v = (st, r') -> tidy_registry r'.
Proof.
  intros T H. apply reg_set_cases in H as [[_ ->]|(_ & _ & k & o & o' & Rs & S & ->)]; auto.
  unfold tidy_registry in *. simpl. rewrite Forall_forall in *. intros e He.
  apply in_update in He as [He| ->]; auto. simpl.
  apply resolve_assoc in Rs as [A _]. apply assoc_in in A. apply T in A. auto.
Qed.

Lemma register_nooverwrite_cases r n o st r' :
  register_opt r n o false = Some (st, r') ->
  r' = r \/ (assoc n (entries r) = None /\ r' = mkReg (readonly r) ((n, o) :: entries r)).
Proof.
  unfold register_opt. destruct (readonly r) eqn:R.
  { intros H; inversion H; auto. }
  destruct (assoc n (entries r)) eqn:A; intros H; inversion H; subst; auto.
  left. rewrite <- R. destruct r; auto.
Qed.

Lemma unrelated_step r op n t st r' : tidy_registry r -> unrelated n op ->
  resolve r n <> None ->
  rstep r op = Some (st, r') ->
  tidy_registry r' /\ resolve r' n <> None /\ reg_get r' n t = reg_get r n t.
Proof.
  intros T U Hn H. destruct op as [n' o w|n' v| |]; simpl in H, U.
  - destruct U as [-> U].
    apply register_nooverwrite_cases in H as [->|[A ->]]; auto.
    assert (T' : tidy_registry (mkReg (readonly r) ((n', o) :: entries r))).
    { unfold tidy_registry. simpl. constructor; auto. }
    assert (E : resolve (mkReg (readonly r) ((n', o) :: entries r)) n = resolve r n).
    { rewrite !resolve_tidy in * by auto. simpl.
      destruct (str_eqb (prep_str n) n') eqn:E; auto. apply str_eqb_eq in E. subst n'.
      rewrite A in Hn. congruence. }
    split; auto. unfold reg_get. rewrite E. auto.
  - inversion H; subst. destruct (reg_set r n' v) as [s q] eqn:S. inversion H1; subst.
    split; [eapply tidy_reg_set; eauto|]. split.
    + pose proof S as S'. apply reg_set_cases in S as [[_ ->]|(_ & _ & k & o & o' & Rs & _ & ->)]; auto.
      apply resolve_assoc in Rs as [A _]. rewrite resolve_after_update by congruence.
      destruct (resolve r n) as [[? ?]|]; congruence.
    + eapply set_frame_lemma; eauto. intros Q. apply U. unfold same_name in *. auto.
  - inversion H; subst. split; auto.
  - inversion H; subst. split; auto.
Qed.

Lemma unrelated_history ops : forall r n t r',
  tidy_registry r -> resolve r n <> None -> Forall (unrelated n) ops -> rrun r ops = Some r' ->
  reg_get r' n t = reg_get r n t.
Proof.
  induction ops as [|op ops IH]; intros r n t r' T Hn F H; simpl in H.
  - inversion H; auto.
  - destruct (rstep r op) as [[st r1]|] eqn:S; [|discriminate].
    inversion F; subst. destruct (unrelated_step r op n t st r1) as (T1 & H1 & E); auto.
    rewrite <- E. eapply IH; eauto.
Qed.

Lemma set_then_history_lemma r n v r1 ops r2 :
  tidy_registry r -> reg_set r n v = (st_success, r1) ->
  Forall (unrelated n) ops -> rrun r1 ops = Some r2 ->
  exists v', stored_as v v' /\ reg_get r2 n (type_of_val v) = (st_success, Some v').
Proof.
  intros T S F H. destruct (set_get_lemma _ _ _ _ S) as (v' & St & G).
  exists v'. split; auto. rewrite <- G. eapply unrelated_history; eauto.
  - eapply tidy_reg_set; eauto.
  - apply reg_set_cases in S as [[S _]|(_ & _ & k & o & o' & Rs & _ & ->)]; [congruence|].
    pose proof (resolve_assoc _ _ _ _ Rs) as [A _]. rewrite resolve_after_update by congruence.
    rewrite Rs. discriminate.
Qed.

(** ** Spelling *)
Lemma spelling_lemma r a b : tidy_registry r -> same_name a b ->
  (forall v, reg_set r a v = reg_set r b v) /\
  (forall t, reg_get r a t = reg_get r b t) /\ reg_get_id r a = reg_get_id r b.
Proof.
  intros T H. pose proof (resolve_same r a b T H) as E.
  repeat split; intros; [unfold reg_set|unfold reg_get|unfold reg_get_id]; rewrite E; auto.
Qed.

(** ** Domains *)
Lemma quick_check_within {T} (cmp : T -> T -> option comparison) lo lb hi ub v :
  cmp v lo <> None -> cmp v hi <> None ->
  (quick_check cmp lo lb hi ub v = st_success <-> within cmp lo lb hi ub v).
Proof.
  intros H1 H2. unfold quick_check, within, leb, ltb, geb, gtb.
  destruct (cmp v lo) as [[]|] eqn:E1; try congruence;
  destruct (cmp v hi) as [[]|] eqn:E2; try congruence;
  destruct lb, ub; simpl; intuition (try congruence).
Qed.

Lemma quick_check_status {T} (cmp : T -> T -> option comparison) lo lb hi ub v :
  quick_check cmp lo lb hi ub v = st_success \/
  quick_check cmp lo lb hi ub v = st_option_invalid_value.
Proof.
  unfold quick_check. destruct (_ || _); auto.
Qed.

Lemma Bcompare_some prec emax (a b : binary_float prec emax) :
  is_nan _ _ a = false -> is_nan _ _ b = false -> Bcompare prec emax a b <> None.
Proof.
  intros Ha Hb. destruct a as [sa|sa|sa pl Hpl|sa m e He], b as [sb|sb|sb pl' Hpl'|sb m' e' He'];
    simpl in *; try discriminate; unfold Bcompare; simpl;
    repeat match goal with |- context [match ?s with _ => _ end] => destruct s; simpl; try discriminate end.
Qed.

Definition comparable (o : opt) (v : oval) : Prop :=
  match o, v with
  | OFloat n, VFloat f => fcmp f (n_lower n) <> None /\ fcmp f (n_upper n) <> None
  | ODouble n, VDouble f => dcmp f (n_lower n) <> None /\ dcmp f (n_upper n) <> None
  | _, _ => True
  end.

Lemma comparable_ok o v : bounds_ok o -> not_nan v -> comparable o v.
Proof.
  destruct o, v; simpl; auto; intros [H1 H2] N; split; apply Bcompare_some; auto.
Qed.

Lemma num_set_domain {T} (cmp : T -> T -> option comparison) o v o' :
  cmp v (n_lower o) <> None -> cmp v (n_upper o) <> None ->
  num_set cmp o v = (st_success, o') ->
  within cmp (n_lower o') (n_lbound o') (n_upper o') (n_ubound o') (n_value o') /\
  n_lower o' = n_lower o /\ n_upper o' = n_upper o.
Proof.
  intros H1 H2. unfold num_set.
  destruct (quick_check cmp (n_lower o) (n_lbound o) (n_upper o) (n_ubound o) v) eqn:E; simpl;
    intros H; inversion H; subst; simpl.
  split; auto. apply quick_check_within; auto.
Qed.

Lemma opt_set_domain o v o' : bounds_ok o -> not_nan v ->
  opt_set o v = Some (st_success, o') -> in_domain o' /\ bounds_ok o'.
Proof.
  intros B N H. pose proof (comparable_ok o v B N) as C.
  destruct o, v; simpl in *; try discriminate.
  - destruct (num_set zcmp o z) eqn:E. inversion H; subst.
    apply num_set_domain in E as (W & _); try (unfold zcmp; discriminate). simpl. auto.
  - destruct (num_set fcmp o f) eqn:E. inversion H; subst. destruct C.
    apply num_set_domain in E as (W & E1 & E2); auto. simpl. rewrite E1, E2 in *. auto.
  - destruct (num_set dcmp o d) eqn:E. inversion H; subst. destruct C.
    apply num_set_domain in E as (W & E1 & E2); auto. simpl. rewrite E1, E2 in *. auto.
  - destruct (str_set o s) eqn:E. inversion H; subst. simpl. split; auto.
    unfold str_set in E. destruct (s_labels o) as [|e ls] eqn:L.
    { inversion E; subst. simpl. auto. }
    right. destruct (assoc s (e :: ls)) eqn:A; [inversion E; subst; simpl s_value; simpl s_labels|].
    { apply assoc_in in A. apply in_map_iff. exists (s, z). split; auto. }
    destruct (assoc (prep_str s) (e :: ls)) eqn:A2; inversion E; subst; simpl s_value; simpl s_labels.
    apply assoc_in in A2. apply in_map_iff. exists (prep_str s, z). auto.
  - inversion H; subst; simpl; auto.
Qed.

Lemma mk_numopt_domain {T} (cmp : T -> T -> option comparison) isnan lo lb hi ub v n :
  (forall a b, isnan a = false -> isnan b = false -> cmp a b <> None) ->
  mk_numopt cmp isnan lo lb hi ub v = Some n ->
  within cmp lo lb hi ub v /\ isnan lo = false /\ isnan hi = false.
Proof.
  intros HC. unfold mk_numopt, validate_all.
  destruct (isnan hi) eqn:N1; simpl; [discriminate|].
  destruct (isnan lo) eqn:N2; simpl; [discriminate|].
  destruct (ltb cmp hi lo && _); simpl; [discriminate|].
  destruct (eqb cmp lo hi && _ && _ && _); simpl; [discriminate|].
  destruct (isnan v) eqn:N3; simpl; [discriminate|].
  destruct (quick_check cmp lo lb hi ub v) eqn:Q; simpl; try discriminate.
  intros _. split; auto. apply quick_check_within; auto.
Qed.

Lemma constructed_domain o : constructed o -> in_domain o /\ bounds_ok o.
Proof.
  destruct o; simpl; intros H.
  - apply mk_numopt_domain in H; [tauto|]. intros; unfold zcmp; discriminate.
  - apply mk_numopt_domain in H; [tauto|]. intros; apply Bcompare_some; auto.
  - apply mk_numopt_domain in H; [tauto|]. intros; apply Bcompare_some; auto.
  - split; auto. unfold mk_stropt in H. destruct (negb _); [discriminate|].
    destruct (s_labels o) as [|e ls] eqn:L; [auto|]. right.
    destruct (str_eqb (s_value o) []); [discriminate|].
    match type of H with (if ?c then _ else _) = _ => destruct c eqn:E; [|discriminate] end.
    apply andb_true_iff in E as [_ E]. apply existsb_exists in E as (x & Hx & E).
    apply str_eqb_eq in E. rewrite <- E. apply in_map. auto.
  - auto.
Qed.

Definition good_registry (r : registry) : Prop :=
  forall k o, In (k, o) (entries r) -> in_domain o /\ bounds_ok o.

Lemma good_step r op st r' : good_registry r -> wf_op op -> rstep r op = Some (st, r') ->
  good_registry r'.
Proof.
  intros G W H. destruct op as [n o w|n v| |]; simpl in *.
  - destruct W as [_ W]. unfold register_opt in H. destruct (readonly r).
    { inversion H; subst; auto. }
    destruct w.
    + destruct (assoc n (entries r)); [|discriminate].
      rewrite assoc_remove_key in H. inversion H; subst. intros k q [E|E].
      * inversion E; subst. apply constructed_domain; auto.
      * apply in_remove_key in E. eauto.
    + destruct (assoc n (entries r)); inversion H; subst; [intros k q E; eauto|].
      intros k q [E|E]; [inversion E; subst; apply constructed_domain; auto|eauto].
  - inversion H as [H1]. apply reg_set_cases in H1 as [[_ ->]|(_ & _ & k & o & o' & Rs & S & ->)]; auto.
    apply resolve_assoc in Rs as [A _]. apply assoc_in in A. apply G in A as [D B].
    apply opt_set_domain in S; auto.
    intros k2 o2 Hin. apply in_update in Hin as [Hin|E]; [eauto|]. inversion E; subst. auto.
  - inversion H; subst. intros k q Hq. eapply G; eauto.
  - inversion H; subst. intros k q Hq. eapply G; eauto.
Qed.

Lemma good_run ops : forall r r', good_registry r -> Forall wf_op ops -> rrun r ops = Some r' ->
  good_registry r'.
Proof.
  induction ops as [|op ops IH]; intros r r' G F H; simpl in H.
  - inversion H; subst; auto.
  - destruct (rstep r op) as [[st r1]|] eqn:S; [|discriminate]. inversion F; subst.
    eapply IH; [|eauto|eauto]. eapply good_step; eauto.
Qed.

Lemma domain_lemma ops r : Forall wf_op ops -> rrun empty_registry ops = Some r ->
  forall k o, In (k, o) (entries r) -> in_domain o.
Proof.
  intros F H k o Hin. assert (G : good_registry r).
  { eapply good_run; [|eauto|eauto]. intros ? ? []. }
  apply G in Hin. tauto.
Qed.

(** A value outside the domain is refused. *)
Lemma refused_int_lemma r n k o v : readonly r = false -> resolve r n = Some (k, OInt o) ->
  ~ within zcmp (n_lower o) (n_lbound o) (n_upper o) (n_ubound o) v ->
  reg_set r n (VInt v) = (st_option_invalid_value, r).
Proof.
  intros R Rs N. destruct (reg_set r n (VInt v)) as [st r'] eqn:E.
  assert (Q : quick_check zcmp (n_lower o) (n_lbound o) (n_upper o) (n_ubound o) v = st_option_invalid_value).
  { destruct (quick_check_status zcmp (n_lower o) (n_lbound o) (n_upper o) (n_ubound o) v) as [Q|Q]; auto.
    exfalso. apply N. apply quick_check_within in Q; auto; unfold zcmp; discriminate. }
  assert (st = st_option_invalid_value).
  { unfold reg_set in E. rewrite R, Rs in E. simpl in E. unfold num_set in E. rewrite Q in E.
    simpl in E. inversion E; auto. }
  subst. f_equal. eapply set_fail_lemma; eauto. discriminate.
Qed.

(** ** Categorical labels *)
Lemma get_id_lemma ops r n : Forall wf_op ops -> rrun empty_registry ops = Some r ->
  match reg_get_id r n with
  | GThrow => False
  | GValue s id => forall k o, resolve r n = Some (k, OStr o) -> s_value o = s /\
       ((s_labels o = [] /\ id = -1) \/ In (s, id) (s_labels o))
  | GStatus st => st = st_option_not_found \/ st = st_option_wrong_type
  end.
Proof.
  intros F H. unfold reg_get_id. destruct (resolve r n) as [[k o]|] eqn:Rs; auto.
  destruct o as [o|o|o|o|o]; auto.
  pose proof (resolve_assoc _ _ _ _ Rs) as [A _]. apply assoc_in in A.
  pose proof (domain_lemma _ _ F H _ _ A) as D. simpl in D. unfold str_get_id.
  destruct (s_labels o) as [|e ls] eqn:L.
  - intros k2 o2 E. inversion E; subst. auto.
  - destruct D as [D|D]; [discriminate|]. destruct (assoc (s_value o) (e :: ls)) eqn:As.
    + intros k2 o2 E. inversion E; subst. split; auto. right. rewrite L. apply assoc_in; auto.
    + apply assoc_none in As. auto.
Qed.

(** ** Locking *)
Definition is_unlock (o : rop) : bool := match o with RUnlock => true | _ => false end.

Lemma locked_step r op : readonly r = true -> is_unlock op = false ->
  exists st, rstep r op = Some (st, r) /\
    match op with RRegister _ _ _ | RSet _ _ => st = st_option_locked | _ => st = st_success end.
Proof.
  intros R U. destruct op; simpl in *; try discriminate.
  - unfold register_opt. rewrite R. eauto.
  - unfold reg_set. rewrite R. eauto.
  - exists st_success. split; auto. unfold lock. f_equal. f_equal. destruct r; simpl in *; congruence.
Qed.

Lemma locked_lemma ops : forall r, readonly r = true -> existsb is_unlock ops = false ->
  rrun r ops = Some r.
Proof.
  induction ops as [|op ops IH]; intros r R U; simpl in *; auto.
  apply orb_false_iff in U as [U1 U2]. destruct (locked_step r op R U1) as (st & -> & _). auto.
Qed.

(** ** String buffers *)
Lemma string_buffer_lemma r n lvalue : 0 <= lvalue < 2 ^ 63 ->
  match options_get_string r n lvalue with
  | BufWrite bytes =>
      Z.of_nat (length bytes) <= lvalue /\
      exists s, reg_get r n TString = (st_success, Some (VStr s)) /\ bytes = s ++ [0]
  | BufTooSmall needed =>
      lvalue < needed /\
      exists s, reg_get r n TString = (st_success, Some (VStr s)) /\
        needed = Z.of_nat (length s) + 1 /\
        (needed < 2 ^ 63 -> options_get_string r n needed = BufWrite (s ++ [0]))
  | BufStatus st => fst (reg_get r n TString) = st /\ st <> st_success
  end.
Proof.
  intros H. unfold options_get_string, reg_get.
  destruct (resolve r n) as [[k o]|]; [|split; [reflexivity|discriminate]].
  destruct o as [o|o|o|o|o]; simpl; try (split; [reflexivity|discriminate]).
  unfold to_size_t. rewrite (Z.mod_small lvalue) by lia.
  destruct (lvalue <=? Z.of_nat (length (s_value o))) eqn:E.
  - split; [lia|]. exists (s_value o). split; auto. split; auto.
    intros Hn. rewrite Z.mod_small by lia.
    replace (Z.of_nat (length (s_value o)) + 1 <=? Z.of_nat (length (s_value o))) with false by lia.
    reflexivity.
  - split; [|eauto]. rewrite app_length. simpl. lia.
Qed.
