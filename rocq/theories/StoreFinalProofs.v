(** Histories put together with reading and extraction. *)
From Coq Require Import ZArith List Bool Lia Arith Sorted.
From Verif Require Import Base ListFacts IntervalModel StoreModel StoreSpec StoreSelSpec
  StoreProofs StoreConcatProofs StoreReadProofs StoreSelProofs StoreExtractProofs.
Import ListNotations.
Local Open Scope Z_scope.

Section Final.
  Variable V : Type.
  Variable is_missing : V -> bool.
  Implicit Types (a b : mat V) (v w : view V).

  Lemma elements_ok : forall hs l b c0, spec_run hs (start c0) = Some (l, b) ->
    exists t, run_store hs empty_store = Some (l, t) /\
      (filling b = None -> forall ty i j, get_element ty i j t = Some (spec_get b ty i j)).
  Proof.
    intros hs l b c0 E. destruct (history_ok V hs empty_store _ l b (rep_empty V c0) E) as (t & T1 & T2).
    exists t. split; auto. intros F ty i j. apply get_element_ok; auto.
  Qed.
  Lemma column_ok : forall hs l b c0, spec_run hs (start c0) = Some (l, b) ->
    exists t, run_store hs empty_store = Some (l, t) /\
      forall ty i sz, extract_column ty i sz t = Some (spec_column b ty i sz).
  Proof.
    intros hs l b c0 E. destruct (history_ok V hs empty_store _ l b (rep_empty V c0) E) as (t & T1 & T2).
    exists t. split; auto. intros ty i sz. apply extract_column_ok; auto.
  Qed.
  Lemma selection_ok : forall hs l w c0, spec_srun is_missing hs (mkView (start c0) []) = Some (l, w) ->
    exists t, srun_store is_missing hs empty_store = Some (l, t) /\
      (filling (dat w) = None -> 0 < rows (dat w) -> 0 < n_cols (dat w) -> forall k rm ty ld dflt,
       match extraction_of w k with
       | None => extract_selection k rm ty ld dflt t = Some (st_invalid_input, [])
       | Some (rs, cs, st0) =>
        fits rm ld rs cs ->
        (all_cols (dat w) ty cs -> exists wr, extract_selection k rm ty ld dflt t = Some (st0, wr) /\
           forall mem p, writes mem wr p = match placed (dat w) rm ld rs cs p with Some x => x | None => mem p end)
        /\ (~ all_cols (dat w) ty cs -> exists wr, extract_selection k rm ty ld dflt t = Some (st_invalid_input, wr) /\
           forall mem p, writes mem wr p = mem p \/ placed (dat w) rm ld rs cs p = Some (writes mem wr p))
       end).
  Proof.
    intros hs l w c0 E. destruct (srun_ok V is_missing hs empty_store _ l w (vrep_empty V c0) E) as (t & T1 & T2).
    exists t. split; auto. intros F P1 P2 k rm ty ld dflt. apply extract_selection_ok; auto.
  Qed.
  Lemma refused_ok : forall hs l w c0 c st t t',
    spec_srun is_missing hs (mkView (start c0) []) = Some (l, w) ->
    srun_store is_missing hs empty_store = Some (l, t) ->
    spec_scall is_missing c w <> SIrregular ->
    scall_store is_missing c t = Some (st, t') -> st <> st_success -> same_store t t'.
  Proof.
    intros hs l w c0 c st t t' E T N C S.
    destruct (srun_ok V is_missing hs empty_store _ l w (vrep_empty V c0) E) as (t0 & T1 & T2).
    rewrite T in T1. injection T1 as T1. subst t0.
    pose proof (scall_ok V is_missing c t w T2) as Q. destruct (spec_scall is_missing c w); [| |congruence].
    - destruct Q as (s' & Q & _). congruence.
    - destruct Q as (s' & Q & _ & Q2). congruence.
  Qed.

  Lemma spec_srun_app : forall hs1 hs2 v l1 v1, spec_srun is_missing hs1 v = Some (l1, v1) ->
    spec_srun is_missing (hs1 ++ hs2) v =
      match spec_srun is_missing hs2 v1 with Some (l2, v2) => Some (l1 ++ l2, v2) | None => None end.
  Proof.
    induction hs1 as [|c hs1 IH]; intros hs2 v l1 v1 E; simpl in *.
    - injection E as E1 E2. subst. destruct (spec_srun is_missing hs2 v1) as [[l2 v2]|]; auto.
    - destruct (spec_scall is_missing c v) as [v'|st|]; [| |discriminate].
      + destruct (spec_srun is_missing hs1 v') as [[l' b']|] eqn:E'; [|discriminate]. injection E as E1 E2. subst.
        rewrite (IH hs2 v' l' v1 E'). destruct (spec_srun is_missing hs2 v1) as [[l2 v2]|]; auto.
      + destruct (spec_srun is_missing hs1 v) as [[l' b']|] eqn:E'; [|discriminate]. injection E as E1 E2. subst.
        rewrite (IH hs2 v l' v1 E'). destruct (spec_srun is_missing hs2 v1) as [[l2 v2]|]; auto.
  Qed.
  Lemma picked_sorted : forall f z, StronglySorted Z.lt (picked f z).
  Proof.
    intros f z. unfold picked.
    assert (U : StronglySorted Z.lt (upto z)) by (rewrite upto_irange; apply irange_sorted).
    pose proof (filter_sorted f _ U) as Q. destruct (filter f (upto z)); auto.
  Qed.
  Lemma picked_in : forall f z x, In x (picked f z) -> 0 <= x < z.
  Proof.
    intros f z x I. unfold picked in I. apply in_upto.
    destruct (filter f (upto z)) eqn:E; auto. rewrite <- E in I. apply filter_In in I. tauto.
  Qed.
  Lemma picked_list : forall z keep, keep <> [] -> StronglySorted Z.lt keep -> (forall x, In x keep -> 0 <= x < z) ->
    picked (fun x => existsb (Z.eqb x) keep) z = keep.
  Proof.
    intros z keep NE S B. unfold picked.
    assert (E : filter (fun x => existsb (Z.eqb x) keep) (upto z) = keep).
    { apply sorted_unique; auto.
      - apply filter_sorted. rewrite upto_irange. apply irange_sorted.
      - intros x. rewrite filter_In, in_upto, existsb_exists. split.
        + intros (_ & y & I & Q). apply Z.eqb_eq in Q. subst. auto.
        + intros I. split; auto. exists x. split; auto. apply Z.eqb_refl. }
    rewrite E. destruct keep; auto. contradiction.
  Qed.
  Lemma lookup_assign : forall k x t, lookup k (assign k x t) = Some x.
  Proof.
    intros k x. induction t as [|[k' y] t IH]; simpl.
    - rewrite key_eqb_refl. auto.
    - destruct (key_eqb k k') eqn:E; simpl; rewrite E; auto.
  Qed.
  Lemma non_missing_ok : forall hs l w c0 k (full : bool) fr fc,
    spec_srun is_missing hs (mkView (start c0) []) = Some (l, w) ->
    filling (dat w) = None -> 0 < rows (dat w) -> 0 < n_cols (dat w) ->
    chosen_or_none k (chosen w) = (fr, fc) ->
    let cs := picked fc (n_cols (dat w)) in
    let keep := filter (fun r => negb (has_missing is_missing (dat w)
                                         (if full then upto (n_cols (dat w)) else cs) r))
                       (picked fr (rows (dat w))) in
    keep <> [] ->
    exists t, srun_store is_missing (hs ++ [NonMissing k full]) empty_store = Some (l ++ [st_success], t) /\
      forall rm ty ld dflt, fits rm ld keep cs -> all_cols (dat w) ty cs ->
      exists wr, extract_selection k rm ty ld dflt t = Some (st_success, wr) /\
        forall mem p, writes mem wr p = match placed (dat w) rm ld keep cs p with Some x => x | None => mem p end.
  Proof.
    intros hs l w c0 k full fr fc E F P1 P2 CN cs keep NE.
    set (fc' := match lookup k (chosen w) with None => none_chosen | Some _ => fc end).
    set (w' := mkView (dat w) (assign k (fun x => existsb (Z.eqb x) keep, fc') (chosen w))).
    assert (SR : spec_srun is_missing (hs ++ [NonMissing k full]) (mkView (start c0) []) = Some (l ++ [st_success], w')).
    { rewrite (spec_srun_app hs _ _ l w E). cbn [spec_srun spec_scall]. rewrite F, CN.
      destruct (Z.leb_spec (rows (dat w)) 0); [lia|]. destruct (Z.leb_spec (n_cols (dat w)) 0); [lia|].
      cbn [orb]. cbv zeta. fold cs.
      assert (KE : filter (fun r => negb (has_missing is_missing (dat w)
                (if full then upto (n_cols (dat w)) else cs) r)) (picked fr (rows (dat w))) = keep) by reflexivity.
      rewrite KE. unfold w', fc'. destruct keep as [|z zs]; [contradiction|].
      destruct (lookup k (chosen w)); reflexivity. }
    destruct (selection_ok _ _ _ _ SR) as (t & T1 & T2). exists t. split; auto.
    intros rm ty ld dflt FT AC. specialize (T2 F P1 P2 k rm ty ld dflt).
    assert (EX : extraction_of w' k = Some (keep, cs, st_success)).
    { unfold extraction_of. cbn [chosen dat w'].
      destruct (assign k (fun x : Z => existsb (Z.eqb x) keep, fc') (chosen w)) eqn:AE.
      - destruct (chosen w) as [|[k' y] r]; simpl in AE; [discriminate|]. destruct (key_eqb k k'); discriminate.
      - rewrite <- AE, lookup_assign. do 2 f_equal. f_equal.
        + apply picked_list; auto.
          * apply filter_sorted. apply picked_sorted.
          * intros x I. apply filter_In in I. eapply picked_in; apply I.
        + unfold fc', cs. unfold chosen_or_none in CN. destruct (lookup k (chosen w)); auto.
          injection CN as _ CN. subst fc. auto. }
    rewrite EX in T2. destruct (T2 FT) as (T3 & _). apply T3. exact AC.
  Qed.

  Lemma past_end_ok : forall hs l w c0 k (full : bool) fr fc t,
    spec_srun is_missing hs (mkView (start c0) []) = Some (l, w) ->
    srun_store is_missing hs empty_store = Some (l, t) ->
    filling (dat w) = None -> 0 < rows (dat w) -> 0 < n_cols (dat w) ->
    chosen_or_none k (chosen w) = (fr, fc) ->
    let cs := if full then upto (n_cols (dat w)) else picked fc (n_cols (dat w)) in
    exists t' oob, select_non_missing is_missing k full t = Some (st_success, t', oob) /\
      (oob = true <-> In (rows (dat w) - 1) (picked fr (rows (dat w)))
                      /\ has_missing is_missing (dat w) cs (rows (dat w) - 1) = true).
  Proof.
    intros hs l w c0 k full fr fc t E T F P1 P2 CN.
    destruct (srun_ok V is_missing hs empty_store _ l w (vrep_empty V c0) E) as (t0 & T1 & T2).
    rewrite T in T1. injection T1 as T1. subst t0.
    pose proof (select_non_missing_ok V is_missing t w k full T2 F P1 P2) as Q. cbv zeta in Q. rewrite CN in Q.
    destruct Q as (s' & oob & Q1 & _ & Q2). exists s', oob. auto.
  Qed.
  Lemma slice_ok : forall hs l b c0 ty rws cls ld,
    spec_run hs (start c0) = Some (l, b) -> filling b = None ->
    0 <= lower rws -> lower rws <= upper rws < rows b ->
    0 <= lower cls -> lower cls <= upper cls < n_cols b -> upper rws - lower rws + 1 <= ld ->
    exists t st wr, run_store hs empty_store = Some (l, t) /\ extract_slice ty rws cls ld 0 t = Some (st, wr) /\
      ((st = st_success /\ all_type b ty (lower cls) (upper cls))
       \/ (st = st_invalid_input /\ ~ all_type b ty (lower cls) (upper cls))) /\
      (st = st_success -> forall mem p, writes mem wr p =
         match placed b false ld (span rws) (span cls) p with Some x => x | None => mem p end) /\
      (forall mem p, writes mem wr p = mem p \/ placed b false ld (span rws) (span cls) p = Some (writes mem wr p)).
  Proof.
    intros hs l b c0 ty rws cls ld E F R0 R1 C0 C1 LD.
    destruct (history_ok V hs empty_store _ l b (rep_empty V c0) E) as (t & T1 & T2).
    destruct (extract_slice_ok V t b ty rws cls ld 0 T2 F R0 R1 C0 C1 LD) as (st & wr & X1 & X2 & X3 & X4).
    exists t, st, wr. split; auto. split; auto. split; auto.
    assert (LS := span_len rws ltac:(lia)). unfold isize in LS.
    assert (A : forall d x, In (d, x) wr -> exists R C r j, nth_error (span rws) R = Some r
        /\ nth_error (span cls) C = Some j /\ d = Z.of_nat C * ld + Z.of_nat R /\ x = cell b r j).
    { intros d x I. apply X3 in I. destruct I as (r & c & Q1 & Q2 & Q3 & Q4).
      exists (Z.to_nat (r - lower rws)), (Z.to_nat (c - lower cls)), r, c.
      split; [apply nth_span; lia|]. split; [apply nth_span; lia|]. split; [rewrite !Z2Nat.id by lia; lia|auto]. }
    split.
    - intros S mem p. apply writes_cm; auto; try lia.
      intros R C r j N J. apply nth_span in N. apply nth_span in J.
      replace (Z.of_nat C * ld + Z.of_nat R) with (0 + (j - lower cls) * ld + (r - lower rws)) by lia.
      apply X4; auto; lia.
    - intros mem p. apply writes_some; auto; lia.
  Qed.
End Final.
