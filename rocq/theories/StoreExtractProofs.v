(** Extraction of a selection into the caller's array. *)
From Coq Require Import ZArith List Bool Lia Arith Sorted.
From Verif Require Import Base ListFacts IntervalModel IntervalSpec IntervalProofs StoreModel StoreSpec StoreSelSpec
  StoreProofs StoreConcatProofs StoreReadProofs StoreSelProofs.
Import ListNotations.
Local Open Scope Z_scope.

Lemma nth_span : forall i R r, nth_error (span i) R = Some r <->
  r = lower i + Z.of_nat R /\ lower i <= r <= upper i.
Proof.
  intros i R r. unfold span. split.
  - intros E. assert (L : (R < Z.to_nat (upper i - lower i + 1))%nat).
    { assert (N : nth_error (irange (lower i) (Z.to_nat (upper i - lower i + 1))) R <> None) by congruence.
      apply nth_error_Some in N. rewrite irange_len in N. auto. }
    rewrite irange_nth in E by auto. injection E as E. lia.
  - intros (E & L). rewrite irange_nth by lia. congruence.
Qed.
Lemma span_len : forall i, lower i <= upper i -> Z.of_nat (length (span i)) = isize i.
Proof. intros i L. unfold span, isize. rewrite irange_len. lia. Qed.
Lemma elems_len : forall l, Forall (fun i => lower i <= upper i) l -> Z.of_nat (length (elems l)) = total l.
Proof.
  induction l as [|i l IH]; intros F; auto. apply Forall_cons_iff in F. destruct F as (F1 & F2).
  change (elems (i :: l)) with (span i ++ elems l). rewrite app_length, Nat2Z.inj_add, IH, span_len; auto.
Qed.
Lemma total_nonneg : forall l, Forall (fun i => lower i <= upper i) l -> 0 <= total l.
Proof. intros l F. rewrite <- elems_len by auto. lia. Qed.

Section Extract.
  Variable V : Type.
  Variable is_missing : V -> bool.
  Implicit Types (s : store V) (a : mat V) (v : view V).

  Lemma ranges_le : forall z l, Forall (fun i => ok_range i z = true) l -> Forall (fun i => lower i <= upper i) l.
  Proof. intros z l F. eapply Forall_impl; [|exact F]. intros i Q. apply ok_range_iff in Q. lia. Qed.

  Lemma sel_rows_ok : forall s a ty c ld, rep s a -> filling a = None -> ok_range c (n_cols a) = true ->
    forall rs idx, Forall (fun i => ok_range i (rows a) = true) rs -> total rs <= ld ->
    exists st wr, sel_rows ty s rs c ld idx = Some (st, wr) /\
      ((st = st_success /\ (rs = [] \/ all_type a ty (lower c) (upper c)))
       \/ (st = st_invalid_input /\ ~ all_type a ty (lower c) (upper c))) /\
      (forall d x, In (d, x) wr -> exists R r j, nth_error (elems rs) R = Some r /\ lower c <= j <= upper c
        /\ d = idx + (j - lower c) * ld + Z.of_nat R /\ x = cell a r j) /\
      (st = st_success -> forall R r j, nth_error (elems rs) R = Some r -> lower c <= j <= upper c ->
        In (idx + (j - lower c) * ld + Z.of_nat R, cell a r j) wr).
  Proof.
    intros s a ty c ld RP FN OC. induction rs as [|i rs IH]; intros idx F T.
    - exists st_success, []. simpl. split; auto. split; auto. split; [tauto|].
      intros _ R r j E. destruct R; discriminate.
    - apply Forall_cons_iff in F. destruct F as (F1 & F2). pose proof (total_nonneg rs (ranges_le _ _ F2)) as TN.
      apply ok_range_iff in F1. assert (OC' := OC). apply ok_range_iff in OC'.
      simpl total in T. unfold isize in T.
      destruct (extract_slice_ok V s a ty i c ld idx RP FN ltac:(lia) ltac:(lia) ltac:(lia) ltac:(lia) ltac:(lia))
        as (st1 & w1 & E1 & S1 & A1 & B1).
      change (elems (i :: rs)) with (span i ++ elems rs). cbn [sel_rows]. rewrite E1.
      assert (L1 : forall d x, In (d, x) w1 -> exists R r j, nth_error (span i ++ elems rs) R = Some r
                /\ lower c <= j <= upper c /\ d = idx + (j - lower c) * ld + Z.of_nat R /\ x = cell a r j).
      { intros d x I. apply A1 in I. destruct I as (r & j & Q1 & Q2 & Q3 & Q4).
        exists (Z.to_nat (r - lower i)), r, j. split; [|split; [auto|split; [lia|auto]]].
        rewrite nth_error_app1.
        - apply nth_span. lia.
        - apply Nat2Z.inj_lt. rewrite span_len by lia. unfold isize. lia. }
      destruct S1 as [(S1 & S2)|(S1 & S2)]; subst st1.
      + destruct (IH (idx + isize i) F2 ltac:(unfold isize in *; lia)) as (st2 & w2 & E2 & T2 & A2 & B2).
        rewrite E2. exists st2, (w1 ++ w2). split; auto. split; [|split].
        * destruct T2 as [(T1 & T2)|T2]; auto.
        * intros d x I. apply in_app_or in I. destruct I as [I|I]; auto.
          apply A2 in I. destruct I as (R & r & j & Q1 & Q2 & Q3 & Q4).
          exists (length (span i) + R)%nat, r, j. split; [|split; [auto|split; [|auto]]].
          { rewrite nth_error_app2 by lia. rewrite <- Q1. f_equal. lia. }
          rewrite Nat2Z.inj_add, span_len by lia. lia.
        * intros Q R r j N J. apply in_or_app. destruct (lt_dec R (length (span i))) as [L|L].
          { left. rewrite nth_error_app1 in N by auto. apply nth_span in N. destruct N as (N1 & N2).
            replace (Z.of_nat R) with (r - lower i) by lia. apply B1; auto. }
          { right. rewrite nth_error_app2 in N by lia. specialize (B2 Q _ _ _ N J).
            rewrite Nat2Z.inj_sub, span_len in B2 by lia.
            replace (idx + (j - lower c) * ld + Z.of_nat R)
              with (idx + isize i + (j - lower c) * ld + (Z.of_nat R - isize i)) by lia. auto. }
      + exists st_invalid_input, w1. split; auto. split; auto. split; auto. discriminate.
  Qed.

  Lemma sel_cols_ok : forall s a ty ld rs, rep s a -> filling a = None -> rs <> [] ->
    Forall (fun i => ok_range i (rows a) = true) rs -> total rs <= ld ->
    forall cs nc, Forall (fun i => ok_range i (n_cols a) = true) cs ->
    exists st wr, sel_cols ty s rs cs ld ld nc = Some (st, wr) /\
      ((st = st_success /\ all_cols a ty (elems cs))
       \/ (st = st_invalid_input /\ ~ all_cols a ty (elems cs))) /\
      (forall d x, In (d, x) wr -> exists R C r j, nth_error (elems rs) R = Some r /\ nth_error (elems cs) C = Some j
        /\ d = (nc + Z.of_nat C) * ld + Z.of_nat R /\ x = cell a r j) /\
      (st = st_success -> forall R C r j, nth_error (elems rs) R = Some r -> nth_error (elems cs) C = Some j ->
        In ((nc + Z.of_nat C) * ld + Z.of_nat R, cell a r j) wr).
  Proof.
    intros s a ty ld rs RP FN NE FR T. induction cs as [|c cs IH]; intros nc F.
    - exists st_success, []. simpl. split; auto. split; [left; split; auto; intros j []|]. split; [tauto|].
      intros _ R C r j _ E. destruct C; discriminate.
    - apply Forall_cons_iff in F. destruct F as (F1 & F2).
      destruct (sel_rows_ok s a ty c ld RP FN F1 rs (nc * ld) FR T) as (st1 & w1 & E1 & S1 & A1 & B1).
      apply ok_range_iff in F1.
      change (elems (c :: cs)) with (span c ++ elems cs). cbn [sel_cols]. rewrite E1.
      assert (L1 : forall d x, In (d, x) w1 -> exists R C r j, nth_error (elems rs) R = Some r
                /\ nth_error (span c ++ elems cs) C = Some j /\ d = (nc + Z.of_nat C) * ld + Z.of_nat R /\ x = cell a r j).
      { intros d x I. apply A1 in I. destruct I as (R & r & j & Q1 & Q2 & Q3 & Q4).
        exists R, (Z.to_nat (j - lower c)), r, j. split; auto. split; [|split; [|auto]].
        - rewrite nth_error_app1.
          + apply nth_span. lia.
          + apply Nat2Z.inj_lt. rewrite span_len by lia. unfold isize. lia.
        - rewrite Z2Nat.id by lia. lia. }
      destruct S1 as [(S1 & S2)|(S1 & S2)]; subst st1.
      + destruct S2 as [S2|S2]; [contradiction|].
        destruct (IH (nc + isize c) F2) as (st2 & w2 & E2 & T2 & A2 & B2).
        rewrite E2. exists st2, (w1 ++ w2). split; auto. split; [|split].
        * destruct T2 as [(T1 & T2)|(T1 & T2)]; [left|right]; split; auto.
          { intros j J. apply in_app_or in J. destruct J as [J|J]; auto. apply S2. apply in_span; auto. }
          { intros Q. apply T2. intros j J. apply Q. apply in_or_app. auto. }
        * intros d x I. apply in_app_or in I. destruct I as [I|I]; auto.
          apply A2 in I. destruct I as (R & C & r & j & Q1 & Q2 & Q3 & Q4).
          exists R, (length (span c) + C)%nat, r, j. split; auto. split; [|split; [|auto]].
          { rewrite nth_error_app2 by lia. rewrite <- Q2. f_equal. lia. }
          rewrite Nat2Z.inj_add, span_len by lia. lia.
        * intros Q R C r j N J. apply in_or_app. destruct (lt_dec C (length (span c))) as [L|L].
          { left. rewrite nth_error_app1 in J by auto. apply nth_span in J. destruct J as (J1 & J2).
            specialize (B1 eq_refl R r j N J2).
            replace ((nc + Z.of_nat C) * ld + Z.of_nat R)
              with (nc * ld + (j - lower c) * ld + Z.of_nat R) by lia. auto. }
          { right. rewrite nth_error_app2 in J by lia. specialize (B2 Q _ _ _ _ N J).
            rewrite Nat2Z.inj_sub, span_len in B2 by lia.
            replace (nc + Z.of_nat C) with (nc + isize c + (Z.of_nat C - isize c)) by lia. auto. }
      + exists st_invalid_input, w1. split; auto. split; [|split; auto; discriminate].
        right. split; auto. intros Q. apply S2. intros j J. apply Q. apply in_or_app. left. apply in_span. auto.
  Qed.

  (** ** Positions *)
  Lemma divmod : forall C ld R, 0 <= R < ld -> (C * ld + R) / ld = C /\ (C * ld + R) mod ld = R.
  Proof.
    intros C ld R L. split.
    - rewrite Z.div_add_l by lia. rewrite Z.div_small by lia. lia.
    - rewrite Z.add_comm, Z.mod_add by lia. apply Z.mod_small. lia.
  Qed.
  Lemma nth_lt : forall (A : Type) (l : list A) i x, nth_error l i = Some x -> (i < length l)%nat.
  Proof. intros A l i x E. apply nth_error_Some. congruence. Qed.

  (** column-major positions *)
  Lemma placed_cm : forall a ld rs cs R C r j, Z.of_nat (length rs) <= ld ->
    nth_error rs R = Some r -> nth_error cs C = Some j ->
    placed a false ld rs cs (Z.of_nat C * ld + Z.of_nat R) = Some (cell a r j).
  Proof.
    intros a ld rs cs R C r j L N J. pose proof (nth_lt _ _ _ _ N).
    destruct (divmod (Z.of_nat C) ld (Z.of_nat R) ltac:(lia)) as (D1 & D2). unfold placed.
    destruct (Z.ltb_spec (Z.of_nat C * ld + Z.of_nat R) 0); [nia|].
    rewrite D1, D2, !Nat2Z.id, N, J. auto.
  Qed.
  Lemma placed_cm_inv : forall a ld rs cs p x, 0 < ld -> placed a false ld rs cs p = Some x ->
    exists R C r j, nth_error rs R = Some r /\ nth_error cs C = Some j
      /\ p = Z.of_nat C * ld + Z.of_nat R /\ x = cell a r j.
  Proof.
    intros a ld rs cs p x L E. unfold placed in E. destruct (Z.ltb_spec p 0); [discriminate|].
    destruct (nth_error rs _) as [r|] eqn:N; [|discriminate].
    destruct (nth_error cs _) as [j|] eqn:J; [|discriminate]. injection E as E.
    exists (Z.to_nat (p mod ld)), (Z.to_nat (p / ld)), r, j. split; auto. split; auto. split; auto.
    pose proof (Z.mod_pos_bound p ld L). pose proof (Z.div_pos p ld ltac:(lia) L).
    rewrite !Z2Nat.id by lia. pose proof (Z.div_mod p ld ltac:(lia)). lia.
  Qed.
  Lemma placed_swap : forall a ld rs cs p, placed a true ld rs cs p =
    placed (mkMat (rows a) (cols a) (fun r c => cell a c r) (filling a)) false ld cs rs p.
  Proof.
    intros a ld rs cs p. unfold placed. destruct (p <? 0); auto. simpl.
    destruct (nth_error rs _), (nth_error cs _); auto.
  Qed.
  Lemma writes_cm : forall a ld rs cs (w : list (Z * V)) mem, 0 < ld -> Z.of_nat (length rs) <= ld ->
    (forall d x, In (d, x) w -> exists R C r j, nth_error rs R = Some r /\ nth_error cs C = Some j
        /\ d = Z.of_nat C * ld + Z.of_nat R /\ x = cell a r j) ->
    (forall R C r j, nth_error rs R = Some r -> nth_error cs C = Some j ->
        In (Z.of_nat C * ld + Z.of_nat R, cell a r j) w) ->
    forall p, writes mem w p = match placed a false ld rs cs p with Some x => x | None => mem p end.
  Proof.
    intros a ld rs cs w mem L0 L A B p.
    assert (AP : forall x, In (p, x) w -> placed a false ld rs cs p = Some x).
    { intros x I. apply A in I. destruct I as (R & C & r & j & N & J & D & X). subst. apply placed_cm; auto. }
    destruct (placed a false ld rs cs p) as [x|] eqn:P.
    - apply placed_cm_inv in P; auto. destruct P as (R & C & r & j & N & J & D & X). subst.
      apply writes_in; [apply B; auto|]. intros x' I. apply AP in I. congruence.
    - apply writes_out. intros x I. apply AP in I. discriminate.
  Qed.
  Lemma writes_some : forall a ld rs cs (w : list (Z * V)) mem, 0 < ld -> Z.of_nat (length rs) <= ld ->
    (forall d x, In (d, x) w -> exists R C r j, nth_error rs R = Some r /\ nth_error cs C = Some j
        /\ d = Z.of_nat C * ld + Z.of_nat R /\ x = cell a r j) ->
    forall p, writes mem w p = mem p \/ placed a false ld rs cs p = Some (writes mem w p).
  Proof.
    intros a ld rs cs w mem L0 L A p.
    assert (AP : forall x, In (p, x) w -> placed a false ld rs cs p = Some x).
    { intros x I. apply A in I. destruct I as (R & C & r & j & N & J & D & X). subst. apply placed_cm; auto. }
    destruct (existsb (fun y => fst y =? p) w) eqn:E.
    - apply existsb_exists in E. destruct E as ([d x] & I & Q). simpl in Q. apply Z.eqb_eq in Q. subst d.
      right. rewrite (writes_in V w mem p x I); auto. intros x' I'. apply AP in I'. apply AP in I. congruence.
    - left. apply writes_out. intros x I.
      assert (existsb (fun y => fst y =? p) w = true); [|congruence].
      apply existsb_exists. exists (p, x). split; auto. apply Z.eqb_refl.
  Qed.

  (** ** Selected columns in one interval *)
  Lemma single : forall z l f, set_rep z l f -> consecutive (elems l) -> (length l <= 1)%nat.
  Proof.
    intros z l f R K. destruct l as [|i [|j l]]; simpl; try lia. exfalso.
    pose proof (sr_wf _ _ _ R) as W. pose proof (wf_in _ i W (or_introl eq_refl)) as L1.
    pose proof (wf_in _ j W (or_intror (or_introl eq_refl))) as L2.
    apply wf_cons_iff in W. destruct W as (_ & _ & G). specialize (G j (or_introl eq_refl)). unfold lt_gap in G.
    assert (LS := span_len i ltac:(lia)). unfold isize in LS.
    specialize (K (length (span i) - 1)%nat (upper i) (lower j)).
    change (elems (i :: j :: l)) with (span i ++ span j ++ elems l) in K.
    assert (lower j = upper i + 1); [|lia]. apply K.
    - rewrite nth_error_app1 by lia. apply nth_span. lia.
    - rewrite nth_error_app2 by lia. rewrite nth_error_app1.
      + apply nth_span. lia.
      + assert (LJ := span_len j ltac:(lia)). unfold isize in LJ. lia.
  Qed.

  Lemma in_outer : forall (f : Z -> Z -> Z * V) nr nc x,
    In x (flat_map (fun i => map (fun j => f i j) (irange 0 nc)) (irange 0 nr)) <->
    exists i j, 0 <= i < Z.of_nat nr /\ 0 <= j < Z.of_nat nc /\ x = f i j.
  Proof.
    intros f nr nc x. rewrite in_flat_map. split.
    - intros (i & I & Q). apply in_map_iff in Q. destruct Q as (j & Q & J). apply in_irange in I.
      apply in_irange in J. exists i, j. split; [lia|]. split; [lia|auto].
    - intros (i & j & I & J & Q). exists i. split; [apply in_irange; lia|]. apply in_map_iff. exists j.
      split; [auto|apply in_irange; lia].
  Qed.

  Lemma go_ok : forall s a ty rm ld dflt rws cls fr fc st0, rep s a -> filling a = None ->
    0 < rows a -> 0 < n_cols a -> set_rep (rows a) rws fr -> set_rep (n_cols a) cls fc ->
    rws <> [] -> cls <> [] -> fits rm ld (elems rws) (elems cls) ->
    let res := if rm then
          match sel_cols ty s rws cls ld (n_rows_rm rws cls) 0 with
          | None => None
          | Some (st_success, w) =>
              match transpose_out (n_rows_rm rws cls) (total cls) (n_rows_rm rws cls) ld dflt w with
              | None => None
              | Some w' => Some (st0, w')
              end
          | Some (st, w) => Some (st, [])
          end
        else
          match sel_cols ty s rws cls ld ld 0 with
          | None => None
          | Some (st_success, w) => Some (st0, w)
          | Some (st, w) => Some (st, w)
          end in
    (all_cols a ty (elems cls) -> exists w, res = Some (st0, w) /\
       forall mem p, writes mem w p = match placed a rm ld (elems rws) (elems cls) p with Some x => x | None => mem p end)
    /\ (~ all_cols a ty (elems cls) -> exists w, res = Some (st_invalid_input, w) /\
       forall mem p, writes mem w p = mem p \/ placed a rm ld (elems rws) (elems cls) p = Some (writes mem w p)).
  Proof.
    intros s a ty rm ld dflt rws cls fr fc st0 RP FN PR PC RR RC NR NC FT res.
    assert (FR := set_ranges _ _ _ RR). assert (FC := set_ranges _ _ _ RC).
    assert (TR := elems_len _ (ranges_le _ _ FR)). assert (TC := elems_len _ (ranges_le _ _ FC)).
    assert (TP : forall z l f, set_rep z l f -> l <> [] -> 0 < total l).
    { intros z [|i l] f R NE; [contradiction|]. pose proof (ranges_le _ _ (set_ranges _ _ _ R)) as F.
      apply Forall_cons_iff in F. destruct F as (F1 & F2). apply total_nonneg in F2. simpl. unfold isize. lia. }
    pose proof (TP _ _ _ RR NR) as TRP. pose proof (TP _ _ _ RC NC) as TCP.
    destruct rm; unfold fits in FT.
    - destruct FT as (K & LD). pose proof (single _ _ _ RC K) as SI.
      destruct cls as [|c [|c' cls]]; [contradiction| |simpl in SI; lia].
      assert (NM : n_rows_rm rws [c] = total rws) by (unfold n_rows_rm; cbn [length]; lia).
      assert (CS : total [c] = isize c) by (unfold total; cbn [fold_right]; lia).
      assert (SE : sel_cols ty s rws [c] ld (total rws) 0 = sel_cols ty s rws [c] (total rws) (total rws) 0) by reflexivity.
      destruct (sel_cols_ok s a ty (total rws) rws RP FN NR FR ltac:(lia) [c] 0 FC) as (st & w & E & ST & A & B).
      unfold res. rewrite NM, SE, E. cbn [Z.add] in A, B.
      assert (ZZ : forall C : nat, 0 + Z.of_nat C = Z.of_nat C) by (intros; lia).
      destruct ST as [(S1 & S2)|(S1 & S2)]; subst st; split; intros Q; try contradiction.
      + unfold transpose_out.
        assert (BD : forallb (fun x : Z * V => (0 <=? fst x) && (fst x <? total [c] * total rws)) w = true).
        { apply forallb_forall. intros [d x] I. apply A in I. destruct I as (R & C & r & j & Q1 & Q2 & Q3 & Q4).
          simpl fst. apply nth_lt in Q1. apply nth_lt in Q2.
          assert (Z.of_nat C < total [c]) by lia. assert (Z.of_nat R < total rws) by lia.
          apply andb_true_iff. rewrite Z.leb_le, Z.ltb_lt. subst d. split; nia. }
        rewrite BD. eexists; split; [reflexivity|]. intros mem p. rewrite placed_swap.
        apply writes_cm; try lia.
        * intros d x I. apply in_outer in I. destruct I as (i & j & I & J & E2). injection E2 as E2 E3. subst d x.
          rewrite !Z2Nat.id in * by lia.
          destruct (nth_error (elems rws) (Z.to_nat i)) as [r|] eqn:N1.
          2:{ apply nth_error_None in N1. lia. }
          destruct (nth_error (elems [c]) (Z.to_nat j)) as [jj|] eqn:N2.
          2:{ apply nth_error_None in N2. lia. }
          exists (Z.to_nat j), (Z.to_nat i), jj, r. split; auto. split; auto.
          rewrite !Z2Nat.id by lia. split; [lia|]. simpl cell.
          replace (i + j * total rws) with (Z.of_nat (Z.to_nat j) * total rws + Z.of_nat (Z.to_nat i)) by lia.
          rewrite (writes_cm a (total rws) (elems rws) (elems [c])); try lia; auto.
          rewrite (placed_cm a (total rws) (elems rws) (elems [c]) _ _ r jj); auto. lia.
        * intros C R j r N J. pose proof (nth_lt _ _ _ _ N). pose proof (nth_lt _ _ _ _ J).
          simpl cell. apply in_outer. exists (Z.of_nat R), (Z.of_nat C). rewrite !Z2Nat.id by lia.
          split; [lia|]. split; [lia|].
          replace (Z.of_nat R + Z.of_nat C * total rws) with (Z.of_nat C * total rws + Z.of_nat R) by lia.
          rewrite (writes_cm a (total rws) (elems rws) (elems [c])); try lia; auto.
          rewrite (placed_cm a (total rws) (elems rws) (elems [c]) _ _ r j); auto; [|lia]. f_equal. lia.
      + exists []. split; auto.
    - destruct (sel_cols_ok s a ty ld rws RP FN NR FR ltac:(lia) cls 0 FC) as (st & w & E & ST & A & B).
      cbn [Z.add] in A, B. unfold res. rewrite E.
      destruct ST as [(S1 & S2)|(S1 & S2)]; subst st; split; intros Q; try contradiction;
        exists w; (split; [reflexivity|]); intros mem p.
      + apply writes_cm; auto; lia.
      + apply writes_some; auto; lia.
  Qed.

  Lemma extract_selection_ok : forall s v k rm ty ld dflt, vrep s v -> filling (dat v) = None ->
    0 < rows (dat v) -> 0 < n_cols (dat v) ->
    match extraction_of v k with
    | None => extract_selection k rm ty ld dflt s = Some (st_invalid_input, [])
    | Some (rs, cs, st0) =>
        fits rm ld rs cs ->
        (all_cols (dat v) ty cs -> exists w, extract_selection k rm ty ld dflt s = Some (st0, w) /\
           forall mem p, writes mem w p = match placed (dat v) rm ld rs cs p with Some x => x | None => mem p end)
        /\ (~ all_cols (dat v) ty cs -> exists w, extract_selection k rm ty ld dflt s = Some (st_invalid_input, w) /\
           forall mem p, writes mem w p = mem p \/ placed (dat v) rm ld rs cs p = Some (writes mem w p))
    end.
  Proof.
    intros s v k rm ty ld dflt (R & T) FN PR PC. set (a := dat v) in *.
    destruct (rep_mn V s a R) as (M1 & M2 & _).
    assert (PD : pend s = false) by (rewrite (rep_pend V s a R), FN; auto).
    unfold extract_selection. rewrite PD. unfold extraction_of. fold a.
    assert (NOF : forall r z, orfull r z <> []) by (intros [|i r] z; simpl; discriminate).
    pose proof (tab_find _ _ k _ _ T) as TF. unfold tab_rep in T.
    assert (SN : match sels s, chosen v with [], [] => True | _ :: _, _ :: _ => True | _, _ => False end).
    { clear TF. destruct T; auto. }
    destruct (sels s) as [|e0 es] eqn:SE; destruct (chosen v) as [|t0 ts] eqn:CE; try contradiction.
    - rewrite !ok_valid, M1, M2. unfold ok_range. cbn [lower upper].
      replace ((0 <=? 0) && (0 <=? n_cols a - 1) && (n_cols a - 1 <? n_cols a)) with true by (symmetry; lia).
      replace ((0 <=? 0) && (0 <=? rows a - 1) && (rows a - 1 <? rows a)) with true by (symmetry; lia).
      cbn [negb orb]. cbv zeta. cbn [orb].
      pose proof (full_rep (rows a) PR) as F1. pose proof (full_rep (n_cols a) PC) as F2.
      assert (E1 : elems [mkI 0 (rows a - 1)] = upto (rows a)) by (rewrite (elems_filter _ _ _ F1); apply filter_upto_full).
      assert (E2 : elems [mkI 0 (n_cols a - 1)] = upto (n_cols a)) by (rewrite (elems_filter _ _ _ F2); apply filter_upto_full).
      rewrite <- E1, <- E2. intros FT.
      apply (go_ok s a ty rm ld dflt _ _ _ _ st_full_extraction R FN PR PC F1 F2); auto; discriminate.
    - destruct (sel_find k (e0 :: es)) as [[r0 c0]|] eqn:SF; destruct (lookup k (t0 :: ts)) as [[fr fc]|] eqn:LK;
        try contradiction; auto.
      destruct TF as (T1 & T2).
      destruct (orfull_rep (rows a) r0 fr PR T1) as (g1 & G1 & G2).
      destruct (orfull_rep (n_cols a) c0 fc PC T2) as (g2 & G3 & G4).
      rewrite <- G2, <- G4. intros FT. cbv zeta.
      change (match r0 with [] => [mkI 0 (m s - 1)] | _ => r0 end) with (orfull r0 (m s)).
      change (match c0 with [] => [mkI 0 (n s - 1)] | _ => c0 end) with (orfull c0 (n s)).
      rewrite M1, M2.
      apply (go_ok s a ty rm ld dflt _ _ _ _ st_success R FN PR PC G1 G3); auto.
  Qed.
End Extract.
