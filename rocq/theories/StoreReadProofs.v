(** Histories of calls; extraction of columns and slices. *)
From Coq Require Import ZArith List Bool Lia Arith.
From Verif Require Import Base ListFacts IntervalModel StoreModel StoreSpec StoreProofs StoreConcatProofs.
Import ListNotations.
Local Open Scope Z_scope.

Section Read.
  Variable V : Type.
  Implicit Types (h : list (node V)) (l : list (nat * Z)) (s : store V) (a : mat V)
                 (it : item) (its : list item).

  Lemma rep_empty : forall c0 : Z -> Z -> V, rep empty_store (mkMat 0 [] c0 None).
  Proof.
    intros c0. exists [], O, 0. constructor; simpl; auto; try lia.
    - unfold fill_rep. simpl. auto.
    - constructor; simpl; [constructor|intros ? ? []|intros ? ? []].
  Qed.

  Lemma call_ok : forall c s a, rep s a ->
    match spec_call c a with
    | Irregular => True
    | Refuse st => exists s', call_store c s = Some (st, s') /\ rep s' a /\ same_store s s'
    | Accept a' => exists s', call_store c s = Some (st_success, s') /\ rep s' a'
    end.
  Proof.
    intros [mc nc ty rm dat|mr nr ty rm dat|ty i j v] s a R; simpl.
    - pose proof (concat_columns_ok V s a mc nc ty rm dat R) as Q.
      destruct (add_columns mc nc ty rm dat a); auto.
      + destruct Q as (s' & Q1 & Q2). exists s'. rewrite Q1. auto.
      + exists s. rewrite Q. split; auto. split; auto. apply same_store_refl.
    - apply concat_rows_ok. auto.
    - pose proof (set_element_ok V s a ty i j v R) as Q. destruct (set_cell ty i j v a); auto.
      exists s. split; auto. split; auto. apply same_store_refl.
  Qed.

  Lemma history_ok : forall hs s a (l : list da_status) b, rep s a -> spec_run hs a = Some (l, b) ->
    exists t, run_store hs s = Some (l, t) /\ rep t b.
  Proof.
    induction hs as [|c hs IH]; intros s a l b R E; simpl in *.
    - injection E as E1 E2; subst. exists s. auto.
    - pose proof (call_ok c s a R) as Q. destruct (spec_call c a) as [a'|st|]; [| |discriminate].
      + destruct (spec_run hs a') as [[l' b']|] eqn:E'; [|discriminate]. injection E as E1 E2; subst.
        destruct Q as (s' & Q1 & Q2). destruct (IH _ _ _ _ Q2 E') as (t & T1 & T2).
        exists t. rewrite Q1, T1. auto.
      + destruct (spec_run hs a) as [[l' b']|] eqn:E'; [|discriminate]. injection E as E1 E2; subst.
        destruct Q as (s' & Q1 & Q2 & _). destruct (IH _ _ _ _ Q2 E') as (t & T1 & T2).
        exists t. rewrite Q1, T1. auto.
  Qed.

  (** ** Column ranges *)
  Lemma irange_len : forall k lo, length (irange lo k) = k.
  Proof. induction k; simpl; auto. Qed.
  Lemma irange_app : forall j k lo, irange lo (j + k) = irange lo j ++ irange (lo + Z.of_nat j) k.
  Proof.
    induction j as [|j IH]; intros k lo; simpl.
    - f_equal. lia.
    - rewrite IH. do 2 f_equal. f_equal. lia.
  Qed.
  Lemma in_irange : forall k lo x, In x (irange lo k) <-> lo <= x < lo + Z.of_nat k.
  Proof.
    induction k as [|k IH]; intros lo x; simpl; [lia|]. rewrite IH. lia.
  Qed.
  Lemma irange_nth : forall k lo t, (t < k)%nat -> nth_error (irange lo k) t = Some (lo + Z.of_nat t).
  Proof.
    induction k as [|k IH]; intros lo [|t] L; simpl; try lia.
    - f_equal. lia.
    - rewrite IH by lia. f_equal. lia.
  Qed.

  Lemma fetch_copy : forall (b : blk V) (f : Z -> V) stride k p d,
    (forall t, 0 <= t < Z.of_nat k -> read_at b (p + t * stride) = Some (f (d + t))) ->
    fetch b (copy_rows k p stride d) = Some (map (fun i => (i, f i)) (irange d k)).
  Proof.
    intros b f stride. induction k as [|k IH]; intros p d H; simpl; auto.
    assert (H0 : read_at b p = Some (f d)).
    { replace p with (p + 0 * stride) by lia. rewrite H by lia. f_equal. f_equal. lia. }
    rewrite H0, IH; auto. intros t R. replace (p + stride + t * stride) with (p + (t + 1) * stride) by lia.
    rewrite H by lia. do 2 f_equal. lia.
  Qed.
  Lemma read_cell : forall (b : blk V) r c, 0 <= r < bm b -> 0 <= c < bn b ->
    read_at b (cell_pos b r c) = Some (bdat b (cell_pos b r c)).
  Proof.
    intros b r c R C. unfold read_at. pose proof (cell_pos_range _ b r c R C).
    destruct (Z.leb_spec 0 (cell_pos b r c)); [|lia].
    destruct (Z.ltb_spec (cell_pos b r c) (bm b * bn b)); [|lia]. reflexivity.
  Qed.

  Lemma column_walk_ok : forall cf lo w ty idx l fuel h o e, links h l o e ->
    Forall (node_rep h cf lo w ty) l -> lo <= idx < lo + w -> (length l <= fuel)%nat ->
    column_walk fuel h (headid l) idx o
    = Some (map (fun i => (i, cf i idx)) (irange o (Z.to_nat (e - o)))).
  Proof.
    intros cf lo w ty idx. induction l as [|[x ox] l IH]; intros fuel h o e L F R FU.
    - simpl in L. subst e. rewrite Z.sub_diag. destruct fuel; reflexivity.
    - simpl in L. destruct L as (E & nd & A & P & X & L). subst ox.
      apply Forall_cons_iff in F. destruct F as ((nd' & A' & T & O1 & O2 & D) & F).
      cbn [fst snd] in *. rewrite A in A'. injection A' as A'. subst nd'.
      destruct fuel as [|f]; [simpl in FU; lia|]. cbn [column_walk headid hd_error option_map fst].
      rewrite A. assert (C : 0 <= idx - noff nd < bn (nb nd)) by lia.
      unfold get_col. destruct (Z.ltb_spec (idx - noff nd) 0); [lia|].
      destruct (Z.leb_spec (bn (nb nd)) (idx - noff nd)); [lia|]. cbn [orb].
      assert (FC : forall p stride, (forall t, 0 <= t < bm (nb nd) ->
                 p + t * stride = cell_pos (nb nd) t (idx - noff nd)) ->
               fetch (nb nd) (copy_rows (Z.to_nat (bm (nb nd))) p stride o)
               = Some (map (fun i => (i, cf i idx)) (irange o (Z.to_nat (bm (nb nd)))))).
      { intros p stride H'. apply fetch_copy with (f := fun i => cf i idx). intros t RT.
        rewrite H' by lia. rewrite read_cell by lia. rewrite D by lia. reflexivity. }
      assert (RL : irange o (Z.to_nat (e - o))
                   = irange o (Z.to_nat (bm (nb nd)))
                     ++ irange (o + bm (nb nd)) (Z.to_nat (e - (o + bm (nb nd))))).
      { pose proof (links_le _ _ _ _ _ L).
        replace (Z.to_nat (e - o)) with (Z.to_nat (bm (nb nd)) + Z.to_nat (e - (o + bm (nb nd))))%nat by lia.
        rewrite irange_app. do 2 f_equal. lia. }
      rewrite X. fold (headid l). rewrite (IH f h _ _ L F R) by (simpl in FU; lia).
      rewrite RL, map_app.
      destruct (brow (nb nd)) eqn:BR; cbv beta iota.
      + rewrite FC; [reflexivity|]. intros t RT. unfold cell_pos. rewrite BR. lia.
      + rewrite FC; [reflexivity|]. intros t RT. unfold cell_pos. rewrite BR. lia.
  Qed.

  (** what is known about the column block holding column j *)
  Lemma rep_column : forall s a its k g2 j, rep_with s a its k g2 -> 0 <= j < n s ->
    exists x it y, its = x ++ it :: y /\ ilo it <= j < ilo it + iw it
      /\ find_col j (cmap s) = Some (mkI (ilo it) (ilo it + iw it - 1), ib it)
      /\ type_of a j = Some (ity it)
      /\ exists nd, at_node (heap s) (ib it) = Some nd /\ bty (nb nd) = ity it.
  Proof.
    intros s a its k g2 j R RJ.
    pose proof (rep_widths _ _ _ _ _ _ R) as FW. pose proof (r_cont _ _ _ _ _ _ R) as C.
    rewrite (rep_ncols _ _ _ _ _ _ R) in RJ.
    destruct (item_at its 0 j C FW ltac:(lia)) as (x & it & y & E & RI).
    exists x, it, y. split; auto. split; auto.
    assert (I : In it its) by (rewrite E; apply in_or_app; right; left; auto).
    split; [|split].
    - rewrite (r_cmap _ _ _ _ _ _ R). rewrite E in C, FW |- *. apply (find_entry x it y 0 j); auto.
    - unfold type_of. rewrite (r_cols _ _ _ _ _ _ R). rewrite E in C, FW |- *. rewrite <- (Z.sub_0_r j).
      apply (type_in_item x it y 0 j C FW RI).
    - destruct (rep_item _ _ _ _ _ _ _ R I) as (ht & (IW & HD & LK & NR) & _).
      assert (HI := headid_in _ _ HD). rewrite Forall_forall in NR.
      unfold ids in HI. apply in_map_iff in HI. destruct HI as ((z & oz) & E1 & E2).
      destruct (NR _ E2) as (nd & A & T & _). exists nd. simpl in *. subst z. auto.
  Qed.
  Lemma rep_type_none : forall s a its k g2 j, rep_with s a its k g2 -> ~ (0 <= j < n s) -> type_of a j = None.
  Proof.
    intros s a its k g2 j R N. unfold type_of. rewrite (r_cols _ _ _ _ _ _ R).
    apply type_in_out; [eapply rep_widths; eauto|]. rewrite <- (rep_ncols _ _ _ _ _ _ R). lia.
  Qed.

  Lemma extract_column_ok : forall s a ty idx sz, rep s a ->
    extract_column ty idx sz s = Some (spec_column a ty idx sz).
  Proof.
    intros s a ty idx sz (its & k & g2 & R). unfold extract_column, spec_column.
    pose proof (r_fill _ _ _ _ _ _ R) as W. unfold fill_rep in W.
    destruct (filling a) as [[k' hg]|] eqn:FN.
    { destruct W as (W & _). rewrite W. reflexivity. }
    destruct W as (W1 & W2 & W3). rewrite W1, (r_m _ _ _ _ _ _ R).
    destruct (Z.eqb_spec sz (rows a)); cbn [negb]; [|reflexivity].
    destruct (Z.ltb_spec idx 0).
    { rewrite (rep_type_none _ _ _ _ _ _ R) by lia. reflexivity. }
    destruct (Z.leb_spec (n s) idx).
    { rewrite (rep_type_none _ _ _ _ _ _ R) by lia. reflexivity. }
    cbn [orb]. destruct (rep_column _ _ _ _ _ idx R ltac:(lia)) as (x & it & y & E & RI & FE & TY & nd & A & T).
    rewrite FE, TY, A, T. destruct (btype_eqb (ity it) ty) eqn:B; cbn [negb]; [|reflexivity].
    assert (I : In it its) by (rewrite E; apply in_or_app; right; left; auto).
    destruct (rep_item _ _ _ _ _ _ _ R I) as (ht & (IW & HD & LK & NR) & _ & HT). rewrite (HT FN) in LK.
    rewrite <- HD.
    rewrite (column_walk_ok (cell a) (ilo it) (iw it) (ity it) idx _ _ _ _ _ LK NR RI).
    - rewrite Z.sub_0_r. reflexivity.
    - pose proof (chain_short _ _ _ _ _ LK (chain_nodup _ _ (r_share _ _ _ _ _ _ R) I (headid_ne _ _ HD))). lia.
  Qed.

  (** ** Slices *)
  Lemma in_copy_rows : forall k idx step idx_d d p,
    In (d, p) (copy_rows k idx step idx_d)
    <-> exists r, 0 <= r < Z.of_nat k /\ d = idx_d + r /\ p = idx + r * step.
  Proof.
    induction k as [|k IH]; intros idx step idx_d d p; simpl.
    - split; [tauto|]. intros (r & R & _). lia.
    - rewrite IH. split.
      + intros [E|(r & R & E1 & E2)].
        * injection E as E1 E2. exists 0. lia.
        * exists (r + 1). lia.
      + intros (r & R & E1 & E2). destruct (Z.eq_dec r 0).
        * left. subst r. f_equal; lia.
        * right. exists (r - 1). lia.
  Qed.
  Lemma in_copy_cm : forall k bm0 rl nrows start ld idx idx_d d p, 0 <= nrows ->
    In (d, p) (copy_cols_cm k bm0 rl nrows start ld idx idx_d)
    <-> exists c r, 0 <= c < Z.of_nat k /\ 0 <= r < nrows
          /\ d = idx_d + start + c * ld + r /\ p = idx + rl + c * bm0 + r.
  Proof.
    induction k as [|k IH]; intros bm0 rl nrows start ld idx idx_d d p N; cbn [copy_cols_cm].
    - simpl. split; [tauto|]. intros (c & r & R & _). lia.
    - rewrite in_app_iff, in_copy_rows, IH by auto. rewrite Z2Nat.id by auto. split.
      + intros [(r & R & E1 & E2)|(c & r & R1 & R2 & E1 & E2)].
        * exists 0, r. split; [lia|]. split; [lia|]. lia.
        * exists (c + 1), r. split; [lia|]. split; [lia|]. lia.
      + intros (c & r & R1 & R2 & E1 & E2). destruct (Z.eq_dec c 0).
        * left. exists r. subst c. lia.
        * right. exists (c - 1), r. split; [lia|]. split; [lia|]. lia.
  Qed.
  Lemma in_copy_rm : forall k bn0 first nrows start ld j idx_d d p, 0 <= nrows ->
    In (d, p) (copy_cols_rm k bn0 first nrows start ld j idx_d)
    <-> exists c r, 0 <= c < Z.of_nat k /\ 0 <= r < nrows
          /\ d = idx_d + start + c * ld + r /\ p = first + j + c + r * bn0.
  Proof.
    induction k as [|k IH]; intros bn0 first nrows start ld j idx_d d p N; cbn [copy_cols_rm].
    - simpl. split; [tauto|]. intros (c & r & R & _). lia.
    - rewrite in_app_iff, in_copy_rows, IH by auto. rewrite Z2Nat.id by auto. split.
      + intros [(r & R & E1 & E2)|(c & r & R1 & R2 & E1 & E2)].
        * exists 0, r. split; [lia|]. split; [lia|]. lia.
        * exists (c + 1), r. split; [lia|]. split; [lia|]. lia.
      + intros (c & r & R1 & R2 & E1 & E2). destruct (Z.eq_dec c 0).
        * left. exists r. subst c. lia.
        * right. exists (c - 1), r. split; [lia|]. split; [lia|]. lia.
  Qed.
  Lemma in_copy_slice : forall (b : blk V) cs rs start ld,
    0 <= lower cs -> lower cs <= upper cs < bn b -> 0 <= lower rs -> lower rs <= upper rs < bm b ->
    exists cl, copy_slice b cs rs start ld = Some cl /\
      forall d p, In (d, p) cl <-> exists r c, lower rs <= r <= upper rs /\ lower cs <= c <= upper cs
        /\ d = start + (c - lower cs) * ld + (r - lower rs) /\ p = cell_pos b r c.
  Proof.
    intros b cs rs start ld C1 C2 R1 R2. unfold copy_slice, is_valid_idx.
    destruct (Z.ltb_spec (upper cs) (lower cs)); [lia|]. destruct (Z.ltb_spec (lower cs) 0); [lia|].
    destruct (Z.leb_spec (bn b) (upper cs)); [lia|]. destruct (Z.ltb_spec (upper rs) (lower rs)); [lia|].
    destruct (Z.ltb_spec (lower rs) 0); [lia|]. destruct (Z.leb_spec (bm b) (upper rs)); [lia|].
    cbn [orb negb]. eexists; split; [reflexivity|]. intros d p. unfold cell_pos.
    destruct (brow b).
    - rewrite in_copy_rm by lia. split.
      + intros (c & r & Q1 & Q2 & Q3 & Q4). exists (lower rs + r), (lower cs + c). lia.
      + intros (r & c & Q1 & Q2 & Q3 & Q4). exists (c - lower cs), (r - lower rs). lia.
    - rewrite in_copy_cm by lia. split.
      + intros (c & r & Q1 & Q2 & Q3 & Q4). exists (lower rs + r), (lower cs + c). lia.
      + intros (r & c & Q1 & Q2 & Q3 & Q4). exists (c - lower cs), (r - lower rs). lia.
  Qed.
  Lemma fetch_in : forall (b : blk V) cl, (forall d p, In (d, p) cl -> exists v, read_at b p = Some v) ->
    exists w, fetch b cl = Some w /\
      forall d v, In (d, v) w <-> exists p, In (d, p) cl /\ read_at b p = Some v.
  Proof.
    intros b. induction cl as [|[d p] cl IH]; intros H.
    - exists []. split; auto. intros d v. simpl. split; [tauto|]. intros (p & [] & _).
    - destruct (H d p (or_introl eq_refl)) as (v & RV).
      destruct IH as (w & FW & IW). { intros d' p' I. apply (H d' p'). right. auto. }
      exists ((d, v) :: w). simpl. rewrite RV, FW. split; auto. intros d' v'. split.
      + intros [E|I].
        * injection E as E1 E2; subst. exists p. auto.
        * apply IW in I. destruct I as (p' & I & Q). exists p'. auto.
      + intros (p' & [E|I] & Q).
        * injection E as E1 E2; subst. left. congruence.
        * right. apply IW. exists p'. auto.
  Qed.

  Lemma slice_rows_ok : forall cf lo w ty lcol uc lrow urow ld l fuel h first e idxr lr,
    links h l first e -> Forall (node_rep h cf lo w ty) l ->
    lo <= lcol <= uc -> uc < lo + w -> 0 <= first -> 0 <= lrow -> urow < e ->
    lr = Z.max first lrow -> (length l <= fuel)%nat ->
    exists wr, slice_rows fuel h (headid l) lcol uc lrow urow lr first ld idxr = Some wr /\
      forall d v, In (d, v) wr <-> exists r c, lr <= r <= urow /\ lcol <= c <= uc
        /\ d = idxr + (c - lcol) * ld + (r - lr) /\ v = cf r c.
  Proof.
    intros cf lo w ty lcol uc lrow urow ld.
    induction l as [|[x ox] l IH]; intros fuel h first e idxr lr L F C1 C2 F0 L0 U LR FU.
    - simpl in L. subst e.
      assert (N : (urow - lr >=? 0) = false).
      { rewrite Z.geb_leb. apply Z.leb_gt. lia. }
      exists []. split.
      + destruct fuel; cbn [slice_rows]; rewrite N; reflexivity.
      + intros d v. simpl. split; [tauto|]. intros (r & c & R & _). lia.
    - simpl in L. destruct L as (E & nd & A & P & X & L). subst ox.
      apply Forall_cons_iff in F. destruct F as ((nd' & A' & T & O1 & O2 & D) & F).
      cbn [fst snd] in *. rewrite A in A'. injection A' as A'. subst nd'.
      destruct fuel as [|f]; [simpl in FU; lia|]. cbn [slice_rows headid hd_error option_map fst].
      destruct (urow - lr >=? 0) eqn:GE.
      2:{ exists []. split; auto. intros d v. simpl. split; [tauto|]. intros (r & c & R & _).
          rewrite Z.geb_leb in GE. apply Z.leb_gt in GE. lia. }
      rewrite Z.geb_leb in GE. apply Z.leb_le in GE. rewrite A. cbn [lower upper].
      pose proof (links_le _ _ _ _ _ L) as LE.
      set (ur := Z.min urow (first + bm (nb nd) - 1)).
      rewrite X. fold (headid l).
      destruct (Z.leb_spec (lr - first) (ur - first)) as [B|B].
      + destruct (in_copy_slice (nb nd) (mkI (lcol - noff nd) (uc - noff nd)) (mkI (lr - first) (ur - first)) idxr ld)
          as (cl & CE & CI); cbn [lower upper]; try lia.
        rewrite CE. cbn [lower upper] in CI.
        destruct (fetch_in (nb nd) cl) as (w1 & FE & FI).
        { intros d p I. apply CI in I. destruct I as (r & c & Q1 & Q2 & Q3 & Q4). subst p.
          rewrite read_cell by lia. eauto. }
        rewrite FE.
        destruct (IH f h (first + bm (nb nd)) e (idxr + (ur - lr + 1)) (Z.max (first + bm (nb nd)) lrow) L F C1 C2)
          as (w2 & S2 & I2); try lia; [simpl in FU; lia|].
        (* the recursive call either continues at the next block or stops *)
        destruct (Z_le_gt_dec (first + bm (nb nd)) urow) as [G|G].
        * assert (UR : ur = first + bm (nb nd) - 1) by lia.
          replace (Z.max (ur + 1) lrow) with (Z.max (first + bm (nb nd)) lrow) by lia.
          replace (ur + 1) with (first + bm (nb nd)) by lia. rewrite S2.
          eexists; split; [reflexivity|]. intros d v. rewrite in_app_iff, FI, I2. split.
          { intros [(p & I & RV)|(r & c & Q1 & Q2 & Q3 & Q4)].
            - apply CI in I. destruct I as (r & c & Q1 & Q2 & Q3 & Q4). subst p.
              rewrite read_cell in RV by lia. injection RV as RV. subst v.
              exists (first + r), (c + noff nd). split; [lia|]. split; [lia|]. split; [lia|].
              rewrite <- D by lia. do 2 f_equal. lia.
            - exists r, c. split; [lia|]. split; [lia|]. split; [lia|auto]. }
          { intros (r & c & Q1 & Q2 & Q3 & Q4). destruct (Z_le_gt_dec r ur).
            - left. exists (cell_pos (nb nd) (r - first) (c - noff nd)). split.
              + apply CI. exists (r - first), (c - noff nd). split; [lia|]. split; [lia|]. split; [lia|auto].
              + rewrite read_cell by lia. rewrite D by lia. subst v. do 2 f_equal. lia.
            - right. exists r, c. split; [lia|]. split; [lia|]. split; [lia|auto]. }
        * assert (UR : ur = urow) by lia.
          assert (ST : slice_rows f h (headid l) lcol uc lrow urow (Z.max (ur + 1) lrow) (ur + 1) ld
                                  (idxr + (ur - lr + 1)) = Some []).
          { assert (N : (urow - Z.max (ur + 1) lrow >=? 0) = false).
            { rewrite Z.geb_leb. apply Z.leb_gt. lia. }
            destruct f; cbn [slice_rows]; rewrite N; reflexivity. }
          rewrite ST. eexists; split; [reflexivity|]. intros d v. rewrite app_nil_r, FI. split.
          { intros (p & I & RV). apply CI in I. destruct I as (r & c & Q1 & Q2 & Q3 & Q4). subst p.
            rewrite read_cell in RV by lia. injection RV as RV. subst v.
            exists (first + r), (c + noff nd). split; [lia|]. split; [lia|]. split; [lia|].
            rewrite <- D by lia. do 2 f_equal. lia. }
          { intros (r & c & Q1 & Q2 & Q3 & Q4). exists (cell_pos (nb nd) (r - first) (c - noff nd)). split.
            - apply CI. exists (r - first), (c - noff nd). split; [lia|]. split; [lia|]. split; [lia|auto].
            - rewrite read_cell by lia. rewrite D by lia. subst v. do 2 f_equal. lia. }
      + (* the slice starts further down *)
        assert (UR : ur = first + bm (nb nd) - 1) by lia.
        destruct (IH f h (first + bm (nb nd)) e idxr (Z.max (first + bm (nb nd)) lrow) L F C1 C2)
          as (w2 & S2 & I2); try lia; [simpl in FU; lia|].
        replace (Z.max (ur + 1) lrow) with (Z.max (first + bm (nb nd)) lrow) by lia.
        replace (ur + 1) with (first + bm (nb nd)) by lia. rewrite S2.
        exists w2. split; auto. intros d v. rewrite I2.
        replace (Z.max (first + bm (nb nd)) lrow) with lr by lia. reflexivity.
  Qed.

  Lemma slice_cols_ok : forall s a its ty rws ucol ld, rep_with s a its O (rows a) -> filling a = None ->
    0 <= lower rws -> lower rws <= upper rws < rows a -> ucol < n s ->
    forall post pre lcol fuel idx,
      its = pre ++ post -> (lcol <= ucol -> lcol = iwidths pre \/
         exists it r, post = it :: r /\ ilo it <= lcol < ilo it + iw it) ->
      0 <= lcol -> (length post < fuel)%nat ->
      exists st wr, slice_cols fuel ty s rws lcol ucol ld idx = Some (st, wr) /\
        ((st = st_success /\ all_type a ty lcol ucol) \/ (st = st_invalid_input /\ ~ all_type a ty lcol ucol)) /\
        (forall d v, In (d, v) wr -> exists r c, lower rws <= r <= upper rws /\ lcol <= c <= ucol
          /\ d = idx + (c - lcol) * ld + (r - lower rws) /\ v = cell a r c) /\
        (st = st_success -> forall r c, lower rws <= r <= upper rws -> lcol <= c <= ucol ->
          In (idx + (c - lcol) * ld + (r - lower rws), cell a r c) wr).
  Proof.
    intros s a its ty rws ucol ld R FN R0 R1 U.
    assert (FW := rep_widths _ _ _ _ _ _ R). assert (NN := rep_ncols _ _ _ _ _ _ R).
    assert (CT := r_cont _ _ _ _ _ _ R).
    induction post as [|it post IH]; intros pre lcol fuel idx SP PL L0 FU.
    - assert (N : (ucol - lcol >=? 0) = false).
      { rewrite Z.geb_leb. apply Z.leb_gt. destruct (Z_le_gt_dec lcol ucol) as [Q|Q]; [|lia]. exfalso.
        rewrite app_nil_r in SP. subst pre. destruct (PL Q) as [Q1|(t & r & Q1 & _)]; [lia|discriminate]. }
      exists st_success, []. destruct fuel as [|f]; [simpl in FU; lia|]. cbn [slice_cols]. rewrite N.
      split; auto. rewrite Z.geb_leb in N. apply Z.leb_gt in N. split.
      { left. split; auto. intros j Q. lia. }
      split; [intros d v []|]. intros _ r c Q1 Q2. lia.
    - destruct fuel as [|f]; [simpl in FU; lia|]. cbn [slice_cols].
      destruct (ucol - lcol >=? 0) eqn:GE; rewrite Z.geb_leb in GE.
      2:{ apply Z.leb_gt in GE. exists st_success, []. split; auto. split.
          { left. split; auto. intros j Q. lia. }
          split; [intros d v []|]. intros _ r c Q1 Q2. lia. }
      apply Z.leb_le in GE.
      assert (CI : ilo it = iwidths pre).
      { rewrite SP in CT. apply contig_app in CT. destruct CT as (_ & CT). simpl in CT. tauto. }
      assert (I : In it its) by (rewrite SP; apply in_or_app; right; left; auto).
      destruct (rep_item _ _ _ _ _ _ _ R I) as (ht & (IW & HD & LK & NR) & _ & HT). specialize (HT FN). subst ht.
      assert (RL : ilo it <= lcol < ilo it + iw it).
      { destruct (PL ltac:(lia)) as [Q|(t & r & Q1 & Q2)]; [lia|]. injection Q1 as Q1 _. subst t. auto. }
      assert (FE : find_col lcol (cmap s) = Some (mkI (ilo it) (ilo it + iw it - 1), ib it)).
      { rewrite (r_cmap _ _ _ _ _ _ R). rewrite SP in CT, FW |- *. apply (find_entry pre it post 0 lcol); auto. }
      assert (TYJ : forall j, ilo it <= j < ilo it + iw it -> type_of a j = Some (ity it)).
      { intros j RJ. unfold type_of. rewrite (r_cols _ _ _ _ _ _ R). rewrite SP in CT, FW |- *.
        rewrite <- (Z.sub_0_r j). apply (type_in_item pre it post 0 j CT FW RJ). }
      assert (HB : exists nd, at_node (heap s) (ib it) = Some nd /\ bty (nb nd) = ity it).
      { assert (HI := headid_in _ _ HD). rewrite Forall_forall in NR.
        unfold ids in HI. apply in_map_iff in HI. destruct HI as ((z & oz) & E1 & E2).
        destruct (NR _ E2) as (nd & A & T & _). exists nd. simpl in *. subst z. auto. }
      destruct HB as (nd & A & T). rewrite FE, A, T.
      destruct (btype_eqb (ity it) ty) eqn:B; cbn [negb].
      2:{ exists st_invalid_input, []. split; auto. split.
          - right. split; auto. intro Q. specialize (Q lcol ltac:(lia)). rewrite TYJ in Q by lia.
            injection Q as Q. rewrite (proj2 (btype_eqb_eq (ity it) ty)) in B; congruence.
          - split; [intros d v []|discriminate]. }
      apply btype_eqb_eq in B. cbn [upper].
      set (uc := Z.min ucol (ilo it + iw it - 1)).
      destruct (slice_rows_ok (cell a) (ilo it) (iw it) (ity it) lcol uc (lower rws) (upper rws) ld
                  (ich it) (S (length (heap s))) (heap s) 0 (rows a) idx (lower rws) LK NR
                  ltac:(lia) ltac:(lia) ltac:(lia) ltac:(lia) ltac:(lia) ltac:(lia)
                  ltac:(pose proof (chain_short _ _ _ _ _ LK
                          (chain_nodup _ _ (r_share _ _ _ _ _ _ R) I (headid_ne _ _ HD))); lia))
        as (w1 & S1 & I1).
      rewrite HD in S1. rewrite S1.
      assert (SP2 : its = (pre ++ [it]) ++ post) by (rewrite <- app_assoc; exact SP).
      assert (PW : iwidths (pre ++ [it]) = iwidths pre + iw it).
      { rewrite iwidths_app. unfold iwidths at 2. simpl. lia. }
      destruct (IH (pre ++ [it]) (uc + 1) f (idx + ld * (uc - lcol + 1)) SP2) as (st & w2 & S2 & ST & I2 & J2).
      { intros Q. left. rewrite PW. lia. }
      { lia. } { simpl in FU. lia. }
      rewrite S2. exists st, (w1 ++ w2). split; auto. split; [|split].
      + destruct ST as [(Q1 & Q2)|(Q1 & Q2)]; [left|right]; split; auto.
        * intros j Q. destruct (Z_le_gt_dec j uc); [rewrite TYJ by lia; congruence|]. apply Q2. lia.
        * intro Q. apply Q2. intros j RJ. apply Q. lia.
      + intros d v Q. apply in_app_or in Q. destruct Q as [Q|Q].
        * apply I1 in Q. destruct Q as (r & c & Q1 & Q2 & Q3 & Q4). exists r, c. split; [lia|]. split; [lia|auto].
        * apply I2 in Q. destruct Q as (r & c & Q1 & Q2 & Q3 & Q4). exists r, c. split; [lia|]. split; [lia|].
          split; [|auto]. rewrite Q3. lia.
      + intros Q r c Q1 Q2. apply in_or_app. destruct (Z_le_gt_dec c uc).
        * left. apply I1. exists r, c. split; [lia|]. split; [lia|auto].
        * right. specialize (J2 Q r c Q1 ltac:(lia)).
          replace (idx + (c - lcol) * ld + (r - lower rws))
            with (idx + ld * (uc - lcol + 1) + (c - (uc + 1)) * ld + (r - lower rws)) by lia. exact J2.
  Qed.

  Lemma extract_slice_ok : forall s a ty rws cls ld first, rep s a -> filling a = None ->
    0 <= lower rws -> lower rws <= upper rws < rows a ->
    0 <= lower cls -> lower cls <= upper cls < n_cols a -> upper rws - lower rws + 1 <= ld ->
    exists st wr, extract_slice ty rws cls ld first s = Some (st, wr) /\
      ((st = st_success /\ all_type a ty (lower cls) (upper cls))
       \/ (st = st_invalid_input /\ ~ all_type a ty (lower cls) (upper cls))) /\
      (forall d v, In (d, v) wr -> exists r c, lower rws <= r <= upper rws /\ lower cls <= c <= upper cls
        /\ d = first + (c - lower cls) * ld + (r - lower rws) /\ v = cell a r c) /\
      (st = st_success -> forall r c, lower rws <= r <= upper rws -> lower cls <= c <= upper cls ->
        In (first + (c - lower cls) * ld + (r - lower rws), cell a r c) wr).
  Proof.
    intros s a ty rws cls ld first RP FN R0 R1 C0 C1 LD.
    destruct RP as (its & k & g2 & R).
    assert (W := r_fill _ _ _ _ _ _ R). unfold fill_rep in W. rewrite FN in W. destruct W as (W1 & W2 & W3).
    subst k g2. unfold extract_slice, is_valid_idx.
    rewrite <- (r_n _ _ _ _ _ _ R) in C1. rewrite (r_m _ _ _ _ _ _ R).
    destruct (Z.ltb_spec (upper cls) (lower cls)); [lia|]. destruct (Z.ltb_spec (lower cls) 0); [lia|].
    destruct (Z.leb_spec (n s) (upper cls)); [lia|]. destruct (Z.ltb_spec (upper rws) (lower rws)); [lia|].
    destruct (Z.ltb_spec (lower rws) 0); [lia|]. destruct (Z.leb_spec (rows a) (upper rws)); [lia|].
    destruct (Z.ltb_spec ld (upper rws - lower rws + 1)); [lia|]. cbn [orb negb].
    destruct (rep_column _ _ _ _ _ (lower cls) R ltac:(lia)) as (x & it & y & E & RI & _).
    apply (slice_cols_ok s a its ty rws (upper cls) ld R FN R0 R1 ltac:(lia) (it :: y) x); auto.
    - intros _. right. exists it, y. auto.
    - rewrite (r_cmap _ _ _ _ _ _ R), map_length, E, app_length. lia.
  Qed.

  (** ** The caller's memory *)
  Lemma writes_snoc : forall (w : list (Z * V)) x mem, writes mem (w ++ [x]) = write (writes mem w) x.
  Proof. intros. unfold writes. rewrite fold_left_app. reflexivity. Qed.
  Lemma writes_out : forall (w : list (Z * V)) mem p, (forall v, ~ In (p, v) w) -> writes mem w p = mem p.
  Proof.
    induction w as [|[d v] w IH] using rev_ind; intros mem p H; auto.
    rewrite writes_snoc. unfold write. simpl. destruct (Z.eqb_spec p d).
    - subst. exfalso. apply (H v). apply in_or_app. right. left. auto.
    - apply IH. intros u I. apply (H u). apply in_or_app. auto.
  Qed.
  Lemma writes_in : forall (w : list (Z * V)) mem p v, In (p, v) w ->
    (forall v', In (p, v') w -> v' = v) -> writes mem w p = v.
  Proof.
    induction w as [|[d u] w IH] using rev_ind; intros mem p v I H; [destruct I|].
    rewrite writes_snoc. unfold write. simpl. destruct (Z.eqb_spec p d).
    - subst. apply H. apply in_or_app. right. left. auto.
    - apply in_app_or in I. destruct I as [I|[I|[]]]; [|congruence].
      apply IH; auto. intros v' J. apply H. apply in_or_app. auto.
  Qed.
End Read.
