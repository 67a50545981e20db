(** MacQueen's algorithm. *)
From Coq Require Import ZArith Reals List Bool Lia Lra Arith Permutation.
From Verif Require Import Base Par UtilModel NnModel RealArith KmModel KmMacModel KmSpec KmKernelProofs KmLloydProofs KmCostProofs KmLoopProofs KmAnyProofs.
Import ListNotations.

(** ** labels in range, in any arithmetic *)
Section Range.
Local Open Scope nat_scope.
Context {T : Type} (N : arith T).
Variables (prod : list T -> list T -> T) (lange : list (list T) -> T) (isfin : T -> bool).
Variables (bs k nf : nat) (X : list (list T)) (mode : empties) (tol : T).
Hypothesis k_pos : k <> 0.
Definition in_range (ls : list nat) : Prop := length ls = length X /\ forall l, In l ls -> l < k.

Lemma scan_range ltb vals : forall j label (s : T) b, label < b -> j + length vals <= b -> scan_min ltb vals j label s < b.
Proof.
  induction vals as [|v vals IH]; intros j label s b H L; cbn [scan_min length] in *; auto.
  destruct (ltb v s); apply IH; lia.
Qed.
Lemma start_label_range norms C flat i x : length C = k -> start_label N prod norms C flat i x < k.
Proof.
  intros L. unfold start_label. apply scan_range; [lia|]. rewrite skipn_length, map_length, combine_length. lia.
Qed.
Lemma start_block_range norms C xs : length C = k -> length (start_block N prod norms C xs) = length xs /\
  forall l, In l (start_block N prod norms C xs) -> l < k.
Proof.
  intros L. unfold start_block. split.
  - rewrite map_length, combine_length, seq_length. lia.
  - intros l Hl. apply in_map_iff in Hl. destruct Hl as [ix [<- _]]. apply start_label_range; auto.
Qed.
Lemma start_range C : bs <> 0 -> length C = k -> in_range (start_labels N prod bs X C).
Proof.
  intros bs_pos L. unfold start_labels. set (norms := map _ C). split.
  - rewrite <- (concat_blocks bs bs_pos (length X) X eq_refl) at 2.
    induction (seq 0 (n_blocks (length X) bs)) as [|b l IH]; cbn [map concat]; auto.
    rewrite !app_length, IH. f_equal. apply start_block_range; auto.
  - intros l Hl. apply in_concat in Hl. destruct Hl as [bl [Hb Hl]]. apply in_map_iff in Hb. destruct Hb as [b [<- _]].
    apply (start_block_range norms C (block X bs b) L). auto.
Qed.
Lemma closest_from_range ds : forall j best s b, best < b -> j + length ds <= b -> closest_from N isfin ds j best s < b.
Proof.
  induction ds as [|d ds IH]; intros j best s b H L; cbn [closest_from length] in *; auto.
  destruct (isfin d && match s with None => true | Some s => lt N d s end); apply IH; lia.
Qed.
Lemma closest_range C norms x : length C = k -> closest N prod isfin C norms x < k.
Proof.
  intros L. unfold closest. set (v := map _ _). assert (Lv : length v <= k) by (unfold v; rewrite map_length, combine_length; lia).
  destruct v as [|d ds]; [lia|]. cbn [length] in Lv. apply closest_from_range; lia.
Qed.
Definition good_range (s : @mac_state T) : Prop := length (m_C s) = k /\ in_range (m_ls s).
Lemma step_range upd s i : good_range s -> good_range (mac_step N prod isfin nf X upd s i).
Proof.
  intros [LC [L H]]. unfold mac_step. destruct (Nat.eqb _ _); [split; [|split]; auto|].
  destruct upd; (split; [|split]); cbn [m_C m_ls]; rewrite ?put_length; auto;
    intros l Hl; apply in_put in Hl; destruct Hl as [->|Hl]; auto; apply closest_range; auto.
Qed.
Lemma pass_range upd s : good_range s -> good_range (mac_pass N prod isfin nf X upd s).
Proof. unfold mac_pass. revert s. induction (seq 0 (length X)) as [|i l IH]; intros s H; cbn [fold_left]; auto using step_range. Qed.
Lemma split_range C ls : length C = k -> in_range ls ->
  length (fst (split_empty N isfin k X C ls)) = k /\ in_range (snd (split_empty N isfin k X C ls)).
Proof.
  intros LC H. unfold split_empty. cbn [snd fst]. set (ne := length (filter _ _)).
  set (s := SplitState _ _ _ _). assert (H' : length (sp_C s) = k /\ in_range (sp_ls s)) by (split; [exact LC|exact H]). clearbody s ne. clear LC H. rename H' into H.
  assert (J : forall c, In c (seq 0 k) -> c < k) by (intros c Hc; apply in_seq in Hc; lia).
  revert s H J. induction (seq 0 k) as [|c cs IH]; intros s H J; cbn [split_loop]; auto.
  destruct (nth c (sp_counts s) 0 =? 0)%Z; [|apply IH; auto; intros; apply J; right; auto].
  unfold split_one. destruct (find_donor N isfin (sp_ls s) (sp_ds s) (sp_counts s) 0 None (of_Z N (-1))); auto. cbv zeta.
  apply IH; [|intros; apply J; right; auto]. cbn [sp_ls sp_C]. destruct H as [LC [L H]]. rewrite !put_length. split; auto. split; [rewrite put_length; auto|].
  intros l Hl. apply in_put in Hl. destruct Hl as [->|Hl]; auto. apply J; left; auto.
Qed.
Lemma mac_loop_range fuel : forall iter s, good_range s ->
  match mac_loop N prod lange isfin k nf X mode tol fuel iter s with
  | EmptyCluster => mode = Error
  | Finished _ ls _ _ => in_range ls
  end.
Proof.
  induction fuel as [|fuel IH]; intros iter s H; cbn [mac_loop].
  - apply pass_range; auto.
  - pose proof (pass_range true s H) as R. set (s' := mac_pass N prod isfin nf X true s) in *.
    assert (Test : match (match convergence_test N lange iter (m_ls s') (m_ls s) tol (m_C s) (m_C s') with
        | O => mac_loop N prod lange isfin k nf X mode tol fuel (S iter) s'
        | 1 => Finished (m_C s') (m_ls (mac_pass N prod isfin nf X false s')) iter 1
        | c => Finished (m_C s') (m_ls s') iter c end) with EmptyCluster => mode = Error | Finished _ ls _ _ => in_range ls end).
    { destruct (convergence_test N lange iter (m_ls s') (m_ls s) tol (m_C s) (m_C s')) as [|[|c]];
        [apply IH; exact R|apply pass_range; exact R|apply R]. }
    destruct mode eqn:M; auto.
    + destruct (any_empty k (m_ls s')); auto.
    + destruct (any_empty k (m_ls s')); auto. pose proof (split_range (m_C s') (m_ls s') (proj1 R) (proj2 R)) as Q.
      destruct (split_empty N isfin k X (m_C s') (m_ls s')) as [C'' ls'']. cbn [fst snd] in Q. rewrite <- M. rewrite <- M in IH. apply IH.
      exact Q.
Qed.
Theorem macqueen_range max_iter C : bs <> 0 -> length C = k ->
  match macqueen N prod lange isfin bs k nf X mode tol max_iter C with
  | EmptyCluster => mode = Error
  | Finished _ ls _ _ => length ls = length X /\ forall l, In l ls -> l < k
  end.
Proof.
  intros bs_pos L. apply mac_loop_range. unfold mac_start. split; cbn [m_C m_ls]; [rewrite map_length, seq_length; auto|].
  apply start_range; auto.
Qed.
End Range.

(** ** exact arithmetic *)
Local Open Scope R_scope.
Section Exact.
Variables (bs k nf : nat) (X : list rw) (prod : rw -> rw -> R) (lange : list rw -> R) (isfin : R -> bool) (mode : empties) (tol : R).
Hypothesis k_pos : k <> 0%nat.
Hypothesis bs_pos : bs <> 0%nat.
Hypothesis TX : table nf X.
Hypothesis prod_exact : gemm_contract nf prod.
Hypothesis fin : forall r, isfin r = true.
Notation valid := (valid k X).
Notation pot := (potential k nf X).
Notation low := (lower k nf 1 X).

Lemma closest_from_ok ds : forall j best s, (best < j)%nat ->
  let r := closest_from arithR isfin ds j best (Some s) in
  let v := fun i => if Nat.eqb i best then s else nth (i - j) ds 0 in
  (r = best \/ (j <= r < j + length ds)%nat) /\
  v r <= s /\ (v r = s -> (r <= best)%nat) /\
  forall i, (j <= i < j + length ds)%nat -> v r <= nth (i - j) ds 0 /\ (v r = nth (i - j) ds 0 -> (r <= i)%nat).
Proof.
  induction ds as [|d ds IH]; intros j best s B; cbn [closest_from length].
  - cbv zeta. rewrite Nat.eqb_refl. repeat split; auto; try lra; lia.
  - rewrite fin. cbn [andb]. destruct (lt arithR d s) eqn:E.
    + apply Rltb_true in E. specialize (IH (S j) j d ltac:(lia)). cbv zeta in *. set (r := closest_from arithR isfin ds (S j) j (Some d)) in *.
      destruct IH as [I1 [I2 [I3 I4]]].
      assert (V : (if Nat.eqb r best then s else nth (r - j) (d :: ds) 0) = (if Nat.eqb r j then d else nth (r - S j) ds 0)).
      { destruct (Nat.eqb_spec r best); [lia|]. destruct (Nat.eqb_spec r j) as [->|]; [rewrite Nat.sub_diag; reflexivity|].
        replace (r - j)%nat with (S (r - S j)) by lia. reflexivity. }
      rewrite V. split; [lia|]. split; [lra|]. split; [intros; lra|]. intros i Hi.
      destruct (Nat.eq_dec i j) as [->|].
      * rewrite Nat.sub_diag. cbn [nth]. split; auto.
      * replace (i - j)%nat with (S (i - S j)) by lia. cbn [nth]. apply I4. lia.
    + apply Rltb_false in E. specialize (IH (S j) best s ltac:(lia)). cbv zeta in *.
      set (r := closest_from arithR isfin ds (S j) best (Some s)) in *. destruct IH as [I1 [I2 [I3 I4]]].
      assert (V : (if Nat.eqb r best then s else nth (r - j) (d :: ds) 0) = (if Nat.eqb r best then s else nth (r - S j) ds 0)).
      { destruct (Nat.eqb_spec r best); auto. replace (r - j)%nat with (S (r - S j)) by lia. reflexivity. }
      rewrite V. split; [lia|]. split; [lra|]. split; [auto|]. intros i Hi.
      destruct (Nat.eq_dec i j) as [->|].
      * rewrite Nat.sub_diag. cbn [nth]. split; [lra|]. intros Q. assert (r <= best)%nat by (apply I3; lra). lia.
      * replace (i - j)%nat with (S (i - S j)) by lia. cbn [nth]. apply I4. lia.
Qed.
Definition norms_ok (C : list rw) (norms : list R) : Prop := norms = map (square_norm arithR) C.
Lemma closest_ok C x : centres k nf C -> length x = nf ->
  let r := closest arithR prod isfin C (map (square_norm arithR) C) x in
  (r < k)%nat /\ forall j, (j < k)%nat -> sqdist x (nth r C []) <= sqdist x (nth j C []) /\
     (sqdist x (nth r C []) = sqdist x (nth j C []) -> (r <= j)%nat).
Proof.
  intros [LC TC] Lx r. set (v := fun c => prod x c + square_norm arithR c).
  assert (EV : map (fun cn => add arithR (prod x (fst cn)) (snd cn)) (combine C (map (square_norm arithR) C)) = map v C).
  { clear. induction C as [|c C IH]; cbn [combine map]; auto. rewrite IH. reflexivity. }
  assert (SV : forall c, In c C -> v c = sqdist x c - dot x x).
  { intros c Hc. unfold v. rewrite square_norm_dot, (prod_exact x c Lx (TC c Hc)). rewrite (sqdist_expand x c) by (rewrite (TC c Hc); auto). lra. }
  assert (Res : (r < k)%nat /\ forall j, (j < k)%nat -> v (nth r C []) <= v (nth j C []) /\ (v (nth r C []) = v (nth j C []) -> (r <= j)%nat)).
  { unfold r, closest. rewrite EV. destruct C as [|c C]; [cbn in LC; lia|]. cbn [map]. rewrite fin.
    pose proof (closest_from_ok (map v C) 1 0 (v c) ltac:(lia)) as Q. cbv zeta in Q.
    set (r0 := closest_from arithR isfin (map v C) 1 0 (Some (v c))) in *. rewrite map_length in Q. destruct Q as [Q1 [Q2 [Q3 Q4]]].
    cbn [length] in LC. split; [lia|].
    assert (V : (if Nat.eqb r0 0 then v c else nth (r0 - 1) (map v C) 0) = v (nth r0 (c :: C) [])).
    { destruct (Nat.eqb_spec r0 0) as [->|]; [reflexivity|]. destruct r0 as [|r1]; [lia|]. cbn [nth Nat.sub]. rewrite Nat.sub_0_r.
      apply nth_map_in. lia. }
    rewrite V in *. intros j J. destruct j as [|j].
    - cbn [nth]. split; auto.
    - cbn [nth]. specialize (Q4 (S j) ltac:(lia)). replace (S j - 1)%nat with j in Q4 by lia. rewrite (nth_map_in _ C []) in Q4 by lia. exact Q4. }
  destruct Res as [R1 R2]. split; auto. intros j J. specialize (R2 j J).
  rewrite !SV in R2 by (apply nth_In; lia). destruct R2 as [R2 R3]. split; [lra|]. intros E. apply R3. lra.
Qed.

Lemma centre_of_entry ls c j f : length ls = length X -> (f < nf)%nat ->
  length (centre_of arithR nf X ls c j) = nf /\
  nth f (centre_of arithR nf X ls c j) 0 = part j f (combine ls X) / (if (0 <? c)%Z then IZR c else 1).
Proof.
  intros L F. unfold centre_of.
  set (s := fold_left _ (combine ls X) _).
  assert (A : length s = nf /\ nth f s 0 = part j f (combine ls X)).
  { unfold s. assert (G : forall lx s0, (forall a, In a lx -> length (snd a) = nf) -> length s0 = nf ->
      length (fold_left (fun s (lx : nat * rw) => if Nat.eqb (fst lx) j then add_row arithR s (snd lx) else s) lx s0) = nf /\
      nth f (fold_left (fun s (lx : nat * rw) => if Nat.eqb (fst lx) j then add_row arithR s (snd lx) else s) lx s0) 0 = nth f s0 0 + part j f lx).
    { induction lx as [|a lx IH]; intros s0 H L0; cbn [fold_left].
      - rewrite part_nil. split; auto. lra.
      - assert (La : length (snd a) = nf) by (apply H; left; auto). rewrite part_cons.
        destruct (Nat.eqb (fst a) j).
        + destruct (IH (add_row arithR s0 (snd a))) as [I1 I2]; [intros; apply H; right; auto| |].
          * unfold add_row. rewrite zip_with_length; lia.
          * split; auto. rewrite I2, add_row_nth by lia. lra.
        + destruct (IH s0) as [I1 I2]; auto; [intros; apply H; right; auto|]. split; auto. rewrite I2. lra. }
    destruct (G (combine ls X) (repeat (zero arithR) nf)) as [G1 G2].
    - intros [l x] Ha. apply in_combine_r in Ha. apply TX. exact Ha.
    - apply repeat_length.
    - split; auto. rewrite G2. rewrite nth_repeat'. destruct (Nat.ltb f nf); change (zero arithR) with 0; lra. }
  destruct A as [A1 A2]. destruct (0 <? c)%Z.
  - rewrite map_length. split; auto. rewrite (nth_map_in _ s 0) by lia. rewrite A2. reflexivity.
  - split; auto. rewrite A2. lra.
Qed.
Lemma centre_of_length ls c j : length ls = length X -> length (centre_of arithR nf X ls c j) = nf.
Proof.
  intros L. destruct nf eqn:E; [|rewrite <- E in *; apply (centre_of_entry ls c j 0); lia].
  unfold centre_of. set (s := fold_left _ (combine ls X) _).
  assert (A : s = []).
  { unfold s. cbn [repeat]. clear -TX. induction (combine ls X) as [|a l IH]; cbn [fold_left]; auto.
    destruct (Nat.eqb (fst a) j); [unfold add_row, zip_with; cbn [combine map]|]; exact IH. }
  rewrite A. destruct (0 <? c)%Z; reflexivity.
Qed.
Lemma centre_of_mean ls j : valid ls -> (j < k)%nat -> centre_of arithR nf X ls (cnt ls j) j = nth j (means k nf ls X) [].
Proof.
  intros [L H] J. apply (list_ext _ _ 0).
  - rewrite centre_of_length by auto. symmetry. apply (shape_row k nf); auto. apply means_shape.
  - intros f F. rewrite centre_of_length in F by auto. destruct (centre_of_entry ls (cnt ls j) j f L F) as [_ E]. rewrite E.
    pose proof (means_part k nf ls X j f L J F) as M. unfold entry in M. rewrite M. f_equal. pose proof (cnt_nonneg ls j).
    destruct (Z.ltb_spec 0 (cnt ls j)); destruct (Z.eqb_spec (cnt ls j) 0); try lia; reflexivity.
Qed.

Record good (s : @mac_state R) : Prop := Good {
  g_ls : valid (m_ls s);
  g_C : m_C s = means k nf (m_ls s) X;
  g_cl : length (m_counts s) = k;
  g_c : forall j, (j < k)%nat -> nth j (m_counts s) 0%Z = cnt (m_ls s) j;
  g_nl : length (m_norms s) = k }.
Lemma good_centres s : good s -> centres k nf (m_C s).
Proof. intros G. rewrite (g_C s G). apply means_shape. Qed.

Lemma means_put ls i c : valid ls -> (i < length X)%nat -> (c < k)%nat ->
  let old := nth i ls O in let ls' := put ls i c in
  put (put (means k nf ls X) old (nth old (means k nf ls' X) [])) c (nth c (means k nf ls' X) []) = means k nf ls' X.
Proof.
  intros [L H] Hi Hc old ls'. destruct (means_shape k nf ls X) as [M1 M2]. destruct (means_shape k nf ls' X) as [M1' M2'].
  assert (Ho : (old < k)%nat) by (apply H, nth_In; lia).
  assert (L' : length ls' = length X) by (unfold ls'; rewrite put_length; auto).
  apply (list_ext _ _ []); [rewrite !put_length; congruence|]. intros j J. rewrite !put_length, M1 in J.
  rewrite put_nth by (rewrite put_length; lia). destruct (Nat.eqb_spec j c) as [->|]; auto.
  rewrite put_nth by lia. destruct (Nat.eqb_spec j old) as [->|]; auto.
  apply (list_ext _ _ 0).
  - rewrite (M2 (nth j (means k nf ls X) [])) by (apply nth_In; lia). symmetry. apply M2', nth_In. lia.
  - intros f F. rewrite (M2 (nth j (means k nf ls X) [])) in F by (apply nth_In; lia).
    pose proof (means_part k nf ls X j f L J F) as E. pose proof (means_part k nf ls' X j f L' J F) as E'. unfold entry in *. rewrite E, E'.
    assert (P : part j f (combine ls' X) = part j f (combine ls X)).
    { unfold ls'. rewrite (combine_put ls X i c []) by lia. rewrite part_put by (rewrite combine_length; lia).
      rewrite combine_nth by auto. cbn [fst snd]. fold old. destruct (Nat.eqb_spec old j); [congruence|]. destruct (Nat.eqb_spec c j); [congruence|]. lra. }
    assert (Q : cnt ls' j = cnt ls j).
    { unfold ls'. rewrite cnt_put by lia. fold old. destruct (Nat.eqb_spec old j); [congruence|]. destruct (Nat.eqb_spec c j); [congruence|]. lia. }
    rewrite P, Q. reflexivity.
Qed.
Lemma norm_of_centre ls j : valid ls -> (j < k)%nat ->
  mac_norm arithR (cnt ls j) (nth j (means k nf ls X) []) = square_norm arithR (nth j (means k nf ls X) []).
Proof.
  intros [L H] J. unfold mac_norm. destruct (Z.ltb_spec 0 (cnt ls j)); auto.
  rewrite square_norm_dot. unfold dot. rewrite rsum_map_zero; auto. intros [a b] Hab. cbn [fst snd].
  apply (In_nth _ _ (0, 0)) in Hab. destruct Hab as [f [F E]]. rewrite combine_length in F. rewrite combine_nth in E by auto. injection E as <- <-.
  assert (Lm : length (nth j (means k nf ls X) []) = nf) by (apply (shape_row k nf); auto; apply means_shape).
  pose proof (means_part k nf ls X j f L J ltac:(lia)) as E. unfold entry in E. rewrite E. pose proof (cnt_nonneg ls j).
  rewrite cnt_zero_part by (auto; lia). unfold Rdiv. ring.
Qed.

(** one sample *)
Lemma step_ok s i : good s -> (i < length X)%nat -> let s' := mac_step arithR prod isfin nf X true s i in
  good s' /\ (norms_ok (m_C s) (m_norms s) -> norms_ok (m_C s') (m_norms s') /\
    ((s' = s /\ closest arithR prod isfin (m_C s) (m_norms s) (nth i X []) = nth i (m_ls s) O) \/ low (m_ls s') (m_ls s))).
Proof.
  intros G Hi s'. pose proof (good_centres s G) as SC. destruct G as [[L H] GC Gcl Gc Gnl] eqn:EG. clear EG.
  unfold s', mac_step. set (c := closest arithR prod isfin (m_C s) (m_norms s) (nth i X [])). set (old := nth i (m_ls s) O).
  assert (Hc : (c < k)%nat) by (apply closest_range; auto; apply SC).
  assert (Ho : (old < k)%nat) by (apply H, nth_In; lia).
  destruct (Nat.eqb_spec old c) as [E|NE].
  - split; [exact (Good s (conj L H) GC Gcl Gc Gnl)|]. intros NO. split; auto.
  - cbv zeta. set (ls' := put (m_ls s) i c). set (c1 := put (m_counts s) c (nth c (m_counts s) 0 + 1)%Z).
    set (counts := put c1 old (nth old c1 0 - 1)%Z).
    assert (V' : valid ls').
    { split; [unfold ls'; rewrite put_length; auto|]. intros l Hl. apply in_put in Hl. destruct Hl as [->|]; auto. }
    assert (Lc : length counts = k) by (unfold counts, c1; rewrite !put_length; auto).
    assert (Ec : forall j, (j < k)%nat -> nth j counts 0%Z = cnt ls' j).
    { intros j J. unfold counts. rewrite put_nth by (unfold c1; rewrite put_length; lia). unfold ls'. rewrite cnt_put by lia. fold old.
      unfold c1. rewrite !put_nth by lia. destruct (Nat.eqb_spec j old) as [->|].
      - destruct (Nat.eqb_spec old c); [contradiction|]. destruct (Nat.eqb_spec c old); [congruence|]. rewrite Nat.eqb_refl, Gc by auto. lia.
      - destruct (Nat.eqb_spec old j); [congruence|]. destruct (Nat.eqb_spec j c) as [->|].
        + rewrite Nat.eqb_refl, Gc by auto. lia.
        + destruct (Nat.eqb_spec c j); [congruence|]. rewrite Gc by auto. lia. }
    rewrite (Ec old Ho), (Ec c Hc). rewrite !centre_of_mean by auto. rewrite !norm_of_centre by auto. rewrite GC.
    pose proof (means_put (m_ls s) i c (conj L H) Hi Hc) as MP. cbv zeta in MP. fold old ls' in MP. rewrite MP. clear MP.
    split.
    + constructor; cbn [m_C m_ls m_counts m_norms]; auto. rewrite !put_length. auto.
    + intros NO. rewrite <- GC in NO. unfold norms_ok in *. cbn [m_C m_ls m_norms]. split.
      * apply (list_ext _ _ 0); [rewrite !put_length, map_length, Gnl; symmetry; apply means_shape|].
        intros j J. rewrite !put_length, Gnl in J. destruct (means_shape k nf ls' X) as [M1 _].
        rewrite (nth_map_in _ (means k nf ls' X) []) by lia. rewrite put_nth by (rewrite put_length; lia).
        destruct (Nat.eqb_spec j c) as [->|]; auto. rewrite put_nth by lia. destruct (Nat.eqb_spec j old) as [->|]; auto.
        rewrite NO. rewrite (nth_map_in _ (m_C s) []) by (destruct SC; lia). rewrite GC.
        pose proof (means_put (m_ls s) i c (conj L H) Hi Hc) as MP. cbv zeta in MP. fold old ls' in MP. rewrite <- MP.
        destruct (means_shape k nf (m_ls s) X) as [M2 _]. rewrite put_nth by (rewrite put_length; lia).
        destruct (Nat.eqb_spec j c); [contradiction|]. rewrite put_nth by lia. destruct (Nat.eqb_spec j old); [contradiction|]. reflexivity.
      * right. assert (Lx : length (nth i X []) = nf) by (apply TX, nth_In; auto).
        destruct (closest_ok (m_C s) (nth i X []) SC Lx) as [_ Q]. rewrite <- NO in Q. fold c in Q. destruct (Q old Ho) as [Q1 Q2]. clear Q.
        set (C := means k nf (m_ls s) X) in *. rewrite GC in Q1, Q2. destruct V' as [L' H'].
        assert (D1 : cost X (means k nf ls' X) ls' <= cost X C ls').
        { apply (means_minimise k nf 1 X k_pos (Nat.neq_succ_0 0) TX); auto. rewrite GC in SC. exact SC. }
        assert (PW : forall j, In j (seq 0 (length X)) -> sqdist (nth j X []) (nth (nth j ls' O) C []) <= sqdist (nth j X []) (nth (nth j (m_ls s) O) C [])).
        { intros j Hj. unfold ls'. rewrite put_nth by lia. destruct (Nat.eqb_spec j i) as [->|]; [|lra]. exact Q1. }
        assert (D2 : cost X C ls' <= cost X C (m_ls s)).
        { rewrite !(cost_nth k 1 X k_pos (Nat.neq_succ_0 0)) by auto. apply rsum_map_le. exact PW. }
        unfold lower, potential. fold C. destruct (Rle_lt_dec (cost X C (m_ls s)) (cost X (means k nf ls' X) ls')) as [Z|Z]; [right|left; exact Z].
        split; [unfold KmCostProofs.potential; fold C; lra|].
        assert (Eq : sqdist (nth i X []) (nth c C []) = sqdist (nth i X []) (nth old C [])).
        { assert (E2 : cost X C (m_ls s) <= cost X C ls') by lra. rewrite !(cost_nth k 1 X k_pos (Nat.neq_succ_0 0)) in E2 by auto.
          pose proof (rsum_map_le_eq _ _ _ PW E2 i ltac:(apply in_seq; lia)) as E3. cbv beta in E3. unfold ls' in E3. rewrite put_nth in E3 by lia.
          rewrite Nat.eqb_refl in E3. exact E3. }
        specialize (Q2 Eq). unfold ranks. refine (proj2 (list_sum_le k 1 k_pos (Nat.neq_succ_0 0) (rank k 1) ls' (m_ls s) _ _) _); [congruence| |].
        -- intros j Hj. rewrite L' in Hj. unfold ls', rank. rewrite put_nth by lia. destruct (Nat.eqb_spec j i) as [->|]; [|lia].
           fold old. rewrite !Nat.mod_1_r. lia.
        -- exists i. split; [lia|]. unfold ls', rank. rewrite put_nth by lia. rewrite Nat.eqb_refl. fold old. rewrite !Nat.mod_1_r. lia.
Qed.

(** one pass *)
Lemma pass_ok s : good s -> let s' := mac_pass arithR prod isfin nf X true s in
  good s' /\ (norms_ok (m_C s) (m_norms s) -> norms_ok (m_C s') (m_norms s') /\
    ((s' = s /\ forall i, (i < length X)%nat -> closest arithR prod isfin (m_C s) (m_norms s) (nth i X []) = nth i (m_ls s) O) \/
     low (m_ls s') (m_ls s))).
Proof.
  intros G s'. unfold s', mac_pass.
  assert (A : forall is s, (forall i, In i is -> (i < length X)%nat) -> good s ->
    good (fold_left (mac_step arithR prod isfin nf X true) is s) /\
    (norms_ok (m_C s) (m_norms s) ->
     norms_ok (m_C (fold_left (mac_step arithR prod isfin nf X true) is s)) (m_norms (fold_left (mac_step arithR prod isfin nf X true) is s)) /\
     ((fold_left (mac_step arithR prod isfin nf X true) is s = s /\
       forall i, In i is -> closest arithR prod isfin (m_C s) (m_norms s) (nth i X []) = nth i (m_ls s) O) \/
      low (m_ls (fold_left (mac_step arithR prod isfin nf X true) is s)) (m_ls s)))).
  { clear s G s'. induction is as [|i is IH]; intros s H G; cbn [fold_left].
    - split; auto. intros NO. split; auto. left. split; auto. intros i [].
    - destruct (step_ok s i G (H i (or_introl eq_refl))) as [G1 N1]. cbv zeta in *.
      destruct (IH _ (fun i Hi => H i (or_intror Hi)) G1) as [G2 N2]. split; auto. intros NO.
      destruct (N1 NO) as [NO1 D1]. destruct (N2 NO1) as [NO2 D2]. split; auto.
      destruct D1 as [[E1 C1]|D1].
      + rewrite E1 in *. destruct D2 as [[E2 C2]|D2]; [left|right; exact D2]. split; auto. intros i' [<-|Hi']; auto.
      + right. destruct D2 as [[E2 C2]|D2]; [rewrite E2; exact D1|]. exact (lower_trans k nf 1%nat X k_pos (Nat.neq_succ_0 0) _ _ _ D2 D1). }
  destruct (A (seq 0 (length X)) s) as [G' N'].
  - intros i Hi. apply in_seq in Hi. lia.
  - exact G.
  - split; auto. intros NO. destruct (N' NO) as [N1 D]. split; auto. destruct D as [[E C]|D]; auto. left. split; auto.
    intros i Hi. apply C. apply in_seq. lia.
Qed.
Lemma relabel_pass s : valid (m_ls s) -> centres k nf (m_C s) ->
  let ls := m_ls (mac_pass arithR prod isfin nf X false s) in
  valid ls /\ forall i, (i < length X)%nat -> nth i ls O = closest arithR prod isfin (m_C s) (m_norms s) (nth i X []).
Proof.
  intros V SC ls. unfold ls, mac_pass.
  assert (A : forall is s0, NoDup is -> (forall i, In i is -> (i < length X)%nat) -> valid (m_ls s0) -> m_C s0 = m_C s -> m_norms s0 = m_norms s ->
    let s1 := fold_left (mac_step arithR prod isfin nf X false) is s0 in
    valid (m_ls s1) /\ (forall i, ~ In i is -> nth i (m_ls s1) O = nth i (m_ls s0) O) /\
    forall i, In i is -> nth i (m_ls s1) O = closest arithR prod isfin (m_C s) (m_norms s) (nth i X [])).
  { induction is as [|i is IH]; intros s0 ND H [L0 H0] EC EN; cbn [fold_left].
    - cbv zeta. split; [split; auto|]. split; auto. intros i [].
    - inversion ND; subst. assert (Hi : (i < length X)%nat) by (apply H; left; auto).
      set (s1 := mac_step arithR prod isfin nf X false s0 i).
      assert (Q : valid (m_ls s1) /\ m_C s1 = m_C s /\ m_norms s1 = m_norms s /\
        nth i (m_ls s1) O = closest arithR prod isfin (m_C s) (m_norms s) (nth i X []) /\ forall i', i' <> i -> nth i' (m_ls s1) O = nth i' (m_ls s0) O).
      { unfold s1, mac_step. rewrite EC, EN. set (c := closest arithR prod isfin (m_C s) (m_norms s) (nth i X [])).
        assert (c < k)%nat by (apply closest_range; auto; apply SC).
        destruct (Nat.eqb_spec (nth i (m_ls s0) O) c) as [E|E].
        - repeat split; auto.
        - cbn [m_C m_ls m_norms]. split; [split|].
          + rewrite put_length. auto.
          + intros l Hl. apply in_put in Hl. destruct Hl as [->|]; auto.
          + split; auto. split; auto. split; [rewrite put_nth by lia; rewrite Nat.eqb_refl; auto|].
            intros i' NE. rewrite put_nth by lia. destruct (Nat.eqb_spec i' i); [contradiction|auto]. }
      destruct Q as [V1 [EC1 [EN1 [Q1 Q2]]]].
      destruct (IH s1 H4 (fun i Hi => H i (or_intror Hi)) V1 EC1 EN1) as [I1 [I2 I3]]. cbv zeta. split; auto. split.
      + intros i' Hn. rewrite I2 by (intros Q; apply Hn; right; auto). apply Q2. intros ->. apply Hn. left; auto.
      + intros i' [<-|Hi']; auto. rewrite I2; auto. }
  destruct (A (seq 0 (length X)) s) as [V1 [_ A1]]; auto.
  - apply seq_NoDup.
  - intros i Hi. apply in_seq in Hi. lia.
  - split; auto. intros i Hi. apply A1. apply in_seq. lia.
Qed.
Lemma closest_nearest C ls : centres k nf C -> length ls = length X ->
  (forall i, (i < length X)%nat -> nth i ls O = closest arithR prod isfin C (map (square_norm arithR) C) (nth i X [])) -> nearest_labels X C ls.
Proof.
  intros SC L H. split; auto. intros i Hi. rewrite H by auto.
  destruct (closest_ok C (nth i X []) SC) as [R1 R2]; [apply TX, nth_In; auto|]. destruct SC as [LC TC]. rewrite LC. split; auto.
  intros j J. apply R2. auto.
Qed.

Definition pot' (ls : list nat) : R := cost X (means k nf ls X) ls.
Lemma low_pot a b : low a b -> pot' a <= pot' b.
Proof. unfold lower. intros [H|[H _]]; unfold KmCostProofs.potential in H; unfold pot'; lra. Qed.
Definition mac_end (s : @mac_state R) (r : run) : Prop :=
  match r with
  | EmptyCluster => mode = Error
  | Finished C ls it conv =>
      centres k nf C /\ valid ls /\ (exists ls0, valid ls0 /\ C = means k nf ls0 X) /\ (conv = 2%nat -> C = means k nf ls X) /\
      (norms_ok (m_C s) (m_norms s) -> nearest_labels X C ls /\ cost X C ls <= pot' (m_ls s))
  end.
Notation loop := (mac_loop arithR prod lange isfin k nf X mode tol).

Lemma relabel_end s : good s -> centres k nf (m_C s) /\ valid (m_ls (mac_pass arithR prod isfin nf X false s)) /\
  (norms_ok (m_C s) (m_norms s) -> nearest_labels X (m_C s) (m_ls (mac_pass arithR prod isfin nf X false s)) /\
     cost X (m_C s) (m_ls (mac_pass arithR prod isfin nf X false s)) <= pot' (m_ls s)).
Proof.
  intros G. pose proof (good_centres s G) as SC. destruct (relabel_pass s (g_ls s G) SC) as [V R]. split; auto. split; auto.
  intros NO. rewrite NO in R.
  assert (NL : nearest_labels X (m_C s) (m_ls (mac_pass arithR prod isfin nf X false s))) by (apply closest_nearest; auto; apply V).
  split; auto. unfold pot'. rewrite <- (g_C s G). destruct (g_ls s G) as [L H]. apply (nearest_cost k nf 1 X); auto.
Qed.
Lemma loop_ok fuel : forall iter s, good s -> mac_end s (loop fuel iter s).
Proof.
  induction fuel as [|fuel IH]; intros iter s G; cbn [mac_loop].
  - destruct (relabel_end s G) as [SC [V R]]. cbn [mac_end]. split; auto. split; auto. split; [exists (m_ls s); split; [apply G|apply G]|].
    split; [discriminate|]. exact R.
  - destruct (pass_ok s G) as [G' N']. set (s' := mac_pass arithR prod isfin nf X true s) in *.
    assert (Mono : norms_ok (m_C s) (m_norms s) -> pot' (m_ls s') <= pot' (m_ls s)).
    { intros NO. destruct (N' NO) as [_ [[E _]|D]]; [rewrite E; lra|apply low_pot; auto]. }
    assert (Test : mac_end s (match convergence_test arithR lange iter (m_ls s') (m_ls s) tol (m_C s) (m_C s') with
        | O => loop fuel (S iter) s'
        | 1%nat => Finished (m_C s') (m_ls (mac_pass arithR prod isfin nf X false s')) iter 1
        | c => Finished (m_C s') (m_ls s') iter c end)).
    { destruct (convergence_test arithR lange iter (m_ls s') (m_ls s) tol (m_C s) (m_C s')) as [|[|c]] eqn:CT.
      - specialize (IH (S iter) s' G'). destruct (loop fuel (S iter) s'); auto. cbn [mac_end] in *.
        destruct IH as [I1 [I2 [I3 [I4 I5]]]]. split; auto. split; auto. split; auto. split; auto. intros NO.
        destruct (N' NO) as [NO' _]. destruct (I5 NO') as [I6 I7]. split; auto. apply Rle_trans with (1 := I7). auto.
      - destruct (relabel_end s' G') as [SC [V R]]. cbn [mac_end]. split; auto. split; auto.
        split; [exists (m_ls s'); split; apply G'|]. split; [discriminate|]. intros NO. destruct (N' NO) as [NO' _]. destruct (R NO') as [R1 R2].
        split; auto. apply Rle_trans with (1 := R2). auto.
      - cbn [mac_end]. split; [apply good_centres; auto|]. split; [apply G'|]. split; [exists (m_ls s'); split; apply G'|].
        split; [intros _; apply G'|]. intros NO. destruct (N' NO) as [NO' D].
        assert (Same : m_ls s' = m_ls s).
        { unfold convergence_test in CT. destruct (Nat.ltb 1 iter && same_labels (m_ls s') (m_ls s)) eqn:B.
          - apply andb_true_iff in B. destruct B as [_ B]. apply same_labels_eq in B. exact B.
          - destruct (lt arithR (lange (shift arithR (m_C s) (m_C s'))) (mul arithR tol (frobenius arithR (m_C s)))); discriminate. }
        destruct D as [[E CL]|D]; [|exfalso; rewrite Same in D; exact (lower_irrefl k nf 1%nat X k_pos (Nat.neq_succ_0 0) _ D)].
        rewrite E. rewrite NO in CL. split.
        + apply closest_nearest; [apply good_centres; auto|apply (g_ls s G)|]. intros i Hi. rewrite CL; auto.
        + unfold pot'. rewrite <- (g_C s G). lra. }
    destruct mode eqn:M; auto.
    + destruct (any_empty k (m_ls s')); auto.
    + destruct (any_empty k (m_ls s')); auto.
      destruct (split_empty_ok k nf X isfin TX (m_ls s') (g_ls s' G')) as [V1 [V2 _]].
      pose proof (split_empty_cost k nf X isfin k_pos TX (m_ls s') (g_ls s' G')) as Q. rewrite <- (g_C s' G') in *.
      destruct (split_empty arithR isfin k X (m_C s') (m_ls s')) as [C'' ls'']. cbn [fst snd] in *.
      set (s'' := MacState C'' ls'' (count_labels k ls'') (map (square_norm arithR) C'')).
      assert (G'' : good s'').
      { destruct V1 as [L1 H1]. destruct (count_labels_ok k ls'' H1) as [Lc Ec]. constructor; cbn [s'' m_C m_ls m_counts m_norms]; auto; [split; auto|].
        rewrite map_length, V2. apply means_shape. }
      rewrite <- M in *. specialize (IH (S iter) s'' G''). destruct (loop fuel (S iter) s''); auto. cbn [mac_end] in *.
      destruct IH as [I1 [I2 [I3 [I4 I5]]]]. split; auto. split; auto. split; auto. split; auto. intros NO.
      destruct (I5 eq_refl) as [I6 I7]. split; auto. cbn [s'' m_ls] in I7. apply Rle_trans with (1 := I7). apply Rle_trans with (2 := Mono NO). exact Q.
Qed.
Lemma loop_conv fuel : mode <> Split -> forall iter s v, good s -> norms_ok (m_C s) (m_norms s) ->
  (forall l, In l v -> low (m_ls s) l) -> NoDup v -> (forall l, In l v -> valid l) -> (iter <= length v + 2)%nat ->
  (k ^ length X + 2 <= fuel + iter)%nat ->
  match loop fuel iter s with EmptyCluster => mode = Error | Finished _ _ _ conv => conv <> O end.
Proof.
  intros NS. induction fuel as [|fuel IH]; intros iter s v G NO HV ND VV Len F.
  - exfalso. assert (B : (length (m_ls s :: v) <= k ^ length X)%nat).
    { rewrite <- labellings_length. apply NoDup_incl_length.
      - constructor; auto. intros Q. exact (lower_irrefl k nf 1%nat X k_pos (Nat.neq_succ_0 0) _ (HV _ Q)).
      - intros l [<-|Hl]; [destruct (g_ls s G)|destruct (VV l Hl)]; apply (in_labellings k 1 k_pos (Nat.neq_succ_0 0)); auto. }
    cbn [length] in B. lia.
  - cbn [mac_loop]. destruct (pass_ok s G) as [G' N']. set (s' := mac_pass arithR prod isfin nf X true s) in *.
    destruct (N' NO) as [NO' D].
    assert (Test : match (match convergence_test arithR lange iter (m_ls s') (m_ls s) tol (m_C s) (m_C s') with
        | O => loop fuel (S iter) s'
        | 1%nat => Finished (m_C s') (m_ls (mac_pass arithR prod isfin nf X false s')) iter 1
        | c => Finished (m_C s') (m_ls s') iter c end) with EmptyCluster => mode = Error | Finished _ _ _ conv => conv <> O end).
    { unfold convergence_test. destruct (Nat.ltb 1 iter && same_labels (m_ls s') (m_ls s)) eqn:B; [discriminate|].
      destruct (lt arithR (lange (shift arithR (m_C s) (m_C s'))) (mul arithR tol (frobenius arithR (m_C s)))); [discriminate|].
      destruct D as [[E _]|D].
      - assert (iter <= 1)%nat.
        { destruct (Nat.ltb_spec 1 iter); auto. cbn [andb] in B. rewrite E in B. rewrite (proj2 (same_labels_eq (m_ls s) _) eq_refl) in B. discriminate. }
        rewrite E. apply (IH (S iter) s v); auto; lia.
      - apply (IH (S iter) s' (m_ls s :: v)); auto.
        + intros l [<-|Hl]; auto. exact (lower_trans k nf 1%nat X k_pos (Nat.neq_succ_0 0) _ _ _ D (HV l Hl)).
        + constructor; auto. intros Q. exact (lower_irrefl k nf 1%nat X k_pos (Nat.neq_succ_0 0) _ (HV _ Q)).
        + intros l [<-|Hl]; [apply G|auto].
        + cbn [length]. lia.
        + lia. }
    destruct mode eqn:M; auto; [|congruence]. destruct (any_empty k (m_ls s')); auto.
Qed.

Notation fit := (macqueen arithR prod lange isfin bs k nf X mode tol).
Notation l0 C := (start_labels arithR prod bs X C).
Lemma start_good C : length C = k -> good (mac_start arithR prod bs k nf X C).
Proof.
  intros LC. destruct (start_range arithR prod bs k X k_pos C bs_pos LC) as [L H]. destruct (count_labels_ok k (l0 C) H) as [Lc Ec].
  unfold mac_start. constructor; cbn [m_C m_ls m_counts m_norms]; auto.
  - split; auto.
  - apply (list_ext _ _ []); [rewrite map_length, seq_length; symmetry; apply means_shape|]. intros j J. rewrite map_length, seq_length in J.
    rewrite (nth_map_in _ (seq 0 k) O) by (rewrite seq_length; lia). rewrite seq_nth by lia. cbn [Nat.add]. rewrite Ec by auto.
    apply centre_of_mean; auto. split; auto.
  - rewrite map_length. auto.
Qed.
Theorem macqueen_ok max_iter C : centres k nf C -> mac_end (mac_start arithR prod bs k nf X C) (fit max_iter C).
Proof. intros SC. apply loop_ok. apply start_good. apply SC. Qed.
Theorem macqueen_converges max_iter C : mode <> Split -> centres k nf C ->
  map (square_norm arithR) (means k nf (l0 C) X) = map (square_norm arithR) C -> (k ^ length X + 2 <= max_iter)%nat ->
  match fit max_iter C with EmptyCluster => mode = Error | Finished _ _ _ conv => conv <> O end.
Proof.
  intros NS SC E M. pose proof (start_good C (proj1 SC)) as G. unfold macqueen. apply (loop_conv max_iter NS 0 _ []); auto.
  - unfold norms_ok. rewrite (g_C _ G). cbn [mac_start m_norms m_ls]. auto.
  - intros l [].
  - constructor.
  - intros l [].
  - lia.
  - lia.
Qed.
End Exact.
