(** The quantiles of all rows or columns. *)
From Coq Require Import ZArith Reals Lia Lra List Bool Permutation.
From Flocq Require Import Core IEEE754.BinarySingleNaN.
From Verif Require Import Base Par F64 SplitModel SplitSpec SplitProofs UtilModel QuantModel QuantSpec QuantFloatProofs
  QuantProofs QuantLoopProofs.
Import ListNotations.
Local Open Scope Z_scope.

(** ** The fractional indices *)

Lemma indices_ok {T} t (l : list T) len q : t <> QOther -> len = Z.of_nat (length l) -> 1 <= len <= 2 ^ 50 ->
  Forall unit_q q ->
  exists h, get_quantile_indices t len q = (st_success, h) /\ length h = length q /\
    forall j qj r, nth_error q j = Some qj -> is qj r -> exists y, is y (rounded_index t len r) /\
      index_of T t l y (nth j h (f64_of_Z 0)).
Proof.
  intros Ht El L. induction 1 as [|qi q (r & Hr & Br) _ (h & E & Lh & IH)].
  - exists []. split; auto. split; auto. intros [|j] qj ?; discriminate.
  - cbn [get_quantile_indices].
    assert (Z0 : is (f64_of_Z 0) 0) by (apply (f64_of_Z_is 0); lia).
    assert (Z1 : is (f64_of_Z 1) 1) by (apply (f64_of_Z_is 1); lia).
    assert (A : f64_lt qi (f64_of_Z 0) = false).
    { destruct (f64_lt qi (f64_of_Z 0)) eqn:A; auto. apply (f64_lt_is _ _ _ _ Hr Z0) in A. lra. }
    assert (B : f64_lt (f64_of_Z 1) qi = false).
    { destruct (f64_lt (f64_of_Z 1) qi) eqn:B; auto. apply (f64_lt_is _ _ _ _ Z1 Hr) in B. lra. }
    rewrite A, B. cbn [orb].
    destruct (quantile_h_is t len qi r Ht L Hr Br) as (y & Ey & Y & V). rewrite Ey, E.
    eexists. split; [reflexivity|]. split; [cbn; lia|].
    intros [|j] qj r' Hj Hr'; cbn in Hj.
    + injection Hj as <-. assert (r' = r) as -> by (destruct Hr, Hr'; congruence).
      exists y. split; auto. split; auto. exists (rounded_index t len r). subst len. auto.
    + destruct (IH j qj r' Hj Hr') as (y' & Ey' & I). exists y'. auto.
Qed.

(** ** Rows and columns *)
Lemma flat_map_cons_perm {A B} (f : A -> B) (g : A -> list B) l :
  Permutation (flat_map (fun a => f a :: g a) l) (map f l ++ flat_map g l).
Proof.
  induction l as [|a l IH]; cbn [flat_map map app]; auto. constructor.
  eapply Permutation_trans; [apply Permutation_app_head, IH|]. rewrite !app_assoc.
  apply Permutation_app_tail, Permutation_app_comm.
Qed.
Lemma flat_map_swap {A B C} (f : A -> B -> C) la lb :
  Permutation (flat_map (fun a => map (f a) lb) la) (flat_map (fun b => map (fun a => f a b) la) lb).
Proof.
  induction lb as [|b lb IH]; cbn [flat_map map].
  - induction la; cbn; auto.
  - eapply Permutation_trans; [apply flat_map_cons_perm|]. apply Permutation_app_head. auto.
Qed.
Lemma work_lane {T} o a n p (X : Z -> T) ldx len i : valid_matrix o n p ldx -> a <> axis_other ->
  len = lane_length a n p -> Permutation (lane o a n p X ldx i) (work_of T o a n p X ldx len i).
Proof.
  intros (_ & _ & V) Ha ->. destruct o; [| |contradiction]; destruct a; try congruence;
    cbn [lane work_of transposed lane_length is_column_major pos].
  - replace (map (fun j => X (i + j * ldx)) (zrange n)) with (map (fun r => X (r * ldx + i)) (zrange n)); auto.
    apply map_ext. intros r. f_equal. lia.
  - auto.
  - auto.
  - replace (map (fun j => X (i * ldx + j)) (zrange n)) with (map (fun r => X (i * ldx + r)) (zrange n)); auto.
  - replace (map (fun j => X (i + j * ldx)) (zrange p)) with (map (fun c => X (c * ldx + i)) (zrange p)); auto.
    apply map_ext. intros r. f_equal. lia.
  - apply (flat_map_swap (fun r c => X (c * ldx + r))).
Qed.
Lemma flat_map_const_length {A B} (f : A -> list B) n l : (forall a, length (f a) = n) ->
  length (flat_map f l) = (length l * n)%nat.
Proof. intros H. induction l as [|a l IH]; cbn; auto. rewrite app_length, H, IH. auto. Qed.
Lemma lane_len {T} o a n p (X : Z -> T) ldx i : 1 <= n -> 1 <= p -> a <> axis_other ->
  Z.of_nat (length (lane o a n p X ldx i)) = lane_length a n p.
Proof.
  intros Hn Hp Ha. destruct a; try congruence; cbn [lane lane_length]; rewrite ?map_length, ?zrange_len; try lia.
  rewrite flat_map_const_length with (n := Z.to_nat p) by (intros; rewrite map_length, zrange_len; auto).
  rewrite zrange_len. lia.
Qed.

(** ** All of them *)
Lemma each_stat_spec {T} (f : Z -> (Z -> T) -> outcome T) (idx : Z -> nat -> Z) (nq : nat) (Res : Z -> nat -> T -> Prop) :
  forall is out, NoDup is ->
  (forall i i' k k', In i is -> In i' is -> (k < nq)%nat -> (k' < nq)%nat -> idx i k = idx i' k' -> i = i') ->
  (forall i out, In i is -> exists out', f i out = QDone st_success out' /\
     (forall k, (k < nq)%nat -> Res i k (out' (idx i k))) /\
     (forall p, (forall k, (k < nq)%nat -> idx i k <> p) -> out' p = out p)) ->
  exists out', each_stat T f is out = QDone st_success out' /\
    (forall i k, In i is -> (k < nq)%nat -> Res i k (out' (idx i k))) /\
    (forall p, (forall i k, In i is -> (k < nq)%nat -> idx i k <> p) -> out' p = out p).
Proof.
  induction is as [|i is IH]; intros out D I F; cbn [each_stat].
  - eexists. split; [reflexivity|]. split; [intros ? ? []|auto].
  - inversion D as [|? ? D1 D2]; subst. destruct (F i out) as (o1 & -> & R1 & S1); [left; auto|].
    destruct (IH o1) as (o2 & E & R2 & S2); auto.
    + intros i1 i2 k k' H1 H2. apply I; right; auto.
    + intros i1 o Hi. apply F. right. auto.
    + exists o2. split; auto. split.
      * intros i1 k [<- |Hi] Hk; [|apply R2; auto]. rewrite S2; [apply R1; auto|].
        intros i2 k2 H2 Hk2 Eq. apply D1. rewrite <- (I i2 i k2 k); auto; [right|left]; auto.
      * intros p Hp. rewrite S2; [apply S1|]; intros.
        -- apply Hp; auto. left. auto.
        -- apply Hp; auto. right. auto.
Qed.
Lemma store_all {T} (g : nat -> Z) (v : T) js : forall out p,
  fold_left (fun out j => store_at out (g j) v) js out p
  = if existsb (fun j => g j =? p) js then v else out p.
Proof.
  induction js as [|j js IH]; intros out p; cbn [fold_left existsb]; auto. rewrite IH.
  unfold store_at. rewrite (Z.eqb_sym p (g j)). destruct (g j =? p), (existsb _ js); auto.
Qed.
Lemma fold_each {T} (h : Z -> (Z -> T) -> (Z -> T)) is : forall out,
  each_stat T (fun i o => QDone st_success (h i o)) is out
  = QDone st_success (fold_left (fun o i => h i o) is out).
Proof. induction is as [|i is IH]; intros out; cbn; auto. Qed.

Lemma nth_seq_ordered {A} (l : list A) (R : A -> A -> Prop) : (forall i j a b, (i < j)%nat -> nth_error l i = Some a -> nth_error l j = Some b -> R a b) ->
  ForallOrdPairs R l.
Proof.
  induction l as [|x l IH]; intros H; constructor.
  - apply Forall_forall. intros y Hy. apply In_nth_error in Hy. destruct Hy as (j & Hj).
    apply (H 0%nat (S j) x y); auto. lia.
  - apply IH. intros i j a b L Hi Hj. apply (H (S i) (S j)); auto. lia.
Qed.
Lemma ordered_map {A B} (f : A -> B) (R : B -> B -> Prop) l : ForallOrdPairs (fun a b => R (f a) (f b)) l -> ForallOrdPairs R (map f l).
Proof.
  induction 1 as [|x l H _ IH]; cbn; constructor; auto.
  apply Forall_forall. intros y Hy. apply in_map_iff in Hy. destruct Hy as (z & <- & Hz).
  rewrite Forall_forall in H. auto.
Qed.

Section Main.
Variable T : Type.
Variable leb : T -> T -> bool.
Variable nth_element : list T -> nat -> list T.
Variable sort : list f64 -> list nat.
Variable mean : T -> T -> T.
Variable interp : f64 -> Z -> T -> T -> T.

Lemma quantile_ok zero o a n p X ldx q t out :
  preorder leb -> selects leb nth_element -> sorts sort ->
  valid_matrix o n p ldx -> a <> axis_other -> t <> QOther -> q <> [] -> Forall unit_q q ->
  lane_length a n p <= 2 ^ 50 ->
  exists out', quantile T leb nth_element sort mean interp zero o a n p false X ldx q t out = QDone st_success out' /\
    (forall i j qj r, 0 <= i < lanes a n p -> nth_error q j = Some qj -> is qj r ->
       quantile_value leb mean interp t (rounded_index t (lane_length a n p) r) (lane o a n p X ldx i)
         (out' (pos o (ld_out o a n p (Z.of_nat (length q))) (Z.of_nat j) i))) /\
    (forall x, ~ inside o (ld_out o a n p (Z.of_nat (length q))) (Z.of_nat (length q)) (lanes a n p) x ->
       out' x = out x).
Proof.
  intros P N S V Ha Ht Hq Uq Hl. unfold quantile.
  assert (Vv : validate o n p false ldx (Z.of_nat (length q)) = st_success).
  { destruct V as (Vn & Vp & V). unfold validate.
    destruct (Z.ltb_spec n 1); [lia|]. destruct (Z.ltb_spec p 1); [lia|]. cbn [orb].
    destruct (Z.ltb_spec (Z.of_nat (length q)) 1) as [H5|]; [destruct q; [congruence|cbn [length] in H5; lia]|].
    destruct o; [destruct (Z.ltb_spec ldx p); auto; lia|destruct (Z.ltb_spec ldx n); auto; lia|auto]. }
  rewrite Vv.
  replace (match a with axis_col => Some (p, n) | axis_row => Some (n, p) | axis_all => Some (1, n * p) | axis_other => None end)
    with (Some (lanes a n p, lane_length a n p)) by (destruct a; auto; congruence).
  destruct V as (Vn & Vp & V). assert (Vm : valid_matrix o n p ldx) by (split; auto).
  set (len := lane_length a n p) in *. set (ns := lanes a n p).
  assert (Ln1 : 1 <= len) by (unfold len, lane_length; destruct a; lia).
  assert (Lns : 1 <= ns) by (unfold ns, lanes; destruct a; lia).
  assert (Ll : forall i, Z.of_nat (length (lane o a n p X ldx i)) = len) by (intros; apply lane_len; auto).
  destruct (indices_ok t (lane o a n p X ldx 0) len q Ht) as (h & Eh & Lh & Ih); auto.
  rewrite Eh.
  assert (Uis : forall j qj, nth_error q j = Some qj -> is qj (B2R qj)).
  { intros j qj Hj. apply nth_error_In in Hj. rewrite Forall_forall in Uq. destruct (Uq _ Hj) as (r & (F & _) & _).
    split; auto. }
  set (nq := Z.of_nat (length q)).
  assert (Nq : 1 <= nq) by (destruct q; [congruence|unfold nq; cbn [length]; lia]).
  set (idx := fun i k => if is_row_major o then Z.of_nat k * ns + i else i * nq + Z.of_nat k).
  change (fun i k => if is_row_major o then Z.of_nat k * ns + i else i * nq + Z.of_nat k) with idx.
  assert (Ei : forall i k, idx i k = pos o (ld_out o a n p nq) (Z.of_nat k) i).
  { intros i k. unfold idx, pos, ld_out, is_row_major. destruct o; auto. }
  assert (Inj : forall i i' k k', 0 <= i < ns -> 0 <= i' < ns -> (k < length q)%nat -> (k' < length q)%nat ->
            idx i k = idx i' k' -> i = i' /\ k = k').
  { intros i i' k k' Hi Hi' Hk Hk' E. unfold idx, is_row_major in E.
    assert (A : forall u v u' v' m, 0 <= v < m -> 0 <= v' < m -> u * m + v = u' * m + v' -> u = u' /\ v = v').
    { intros u v u' v' m B B' Eq. assert (u = u') by nia. subst. lia. }
    destruct o; [destruct (A _ _ _ _ _ Hi Hi' E); lia| |];
      (destruct (A i (Z.of_nat k) i' (Z.of_nat k') nq); unfold nq; lia). }
  assert (Res : forall i j qj r v, 0 <= i < ns -> nth_error q j = Some qj -> is qj r ->
     result T leb mean interp t (lane o a n p X ldx i) (nth j h (f64_of_Z 0)) v ->
     quantile_value leb mean interp t (rounded_index t len r) (lane o a n p X ldx i) v).
  { intros i j qj r v Hi Hj Hr R. destruct (Ih j qj r Hj Hr) as (y & Ey & I).
    eapply result_value; eauto.
    - rewrite Ll. auto.
    - destruct I as (E1 & v1 & I2 & I3). split; auto. exists v1. rewrite Ll in *. auto. }
  destruct (Z.eqb_spec len 1) as [E1|E1].
  - (* one element *)
    set (stride := if transposed o a then 1 else ldx).
    pose proof (fold_each (fun i o' => fold_left (fun out j => store_at out (idx i j) (X (i * stride))) (seq 0 (length q)) o')
                  (zrange ns) out) as Fe. cbv beta in Fe.
    destruct (each_stat_spec (fun i o' => QDone st_success (fold_left (fun out j => store_at out (idx i j) (X (i * stride))) (seq 0 (length q)) o'))
                idx (length q) (fun i k v => v = X (i * stride)) (zrange ns) out) as (out' & E & R1 & R2).
    + apply zrange_nodup.
    + intros i i' k k' Hi Hi' Hk Hk' Eq. apply in_zrange in Hi, Hi'. apply (Inj i i' k k'); auto.
    + intros i o' Hi. eexists. split; [reflexivity|]. split.
      * intros k Hk. rewrite store_all. replace (existsb _ _) with true; auto. symmetry. apply existsb_exists.
        exists k. split; [apply in_seq; lia|apply Z.eqb_refl].
      * intros x Hx. rewrite store_all. replace (existsb _ _) with false; auto. symmetry.
        apply not_true_iff_false. intros C. apply existsb_exists in C. destruct C as (k & Hk & C).
        apply in_seq in Hk. apply (Hx k); [lia|]. apply Z.eqb_eq. auto.
    + rewrite E in Fe. injection Fe as Fe. exists out'. split; [rewrite Fe; reflexivity|]. split.
      * intros i j qj r Hi Hj Hr. rewrite <- Ei. rewrite R1; [|apply in_zrange; auto|apply nth_error_Some; congruence].
        assert (El : lane o a n p X ldx i = [X (i * stride)]).
        { pose proof (work_lane o a n p X ldx len i Vm Ha eq_refl) as Pw.
          pose proof (Ll i) as Li. rewrite E1 in Li.
          destruct (lane o a n p X ldx i) as [|x [|? ?]] eqn:El; cbn [length] in Li; try lia.
          apply Permutation_length_1_inv in Pw.
          revert El. clear - Pw Ha E1 V Vn Vp Hi. unfold len, ns, stride, lane_length, lanes, lane, work_of in *.
          destruct o; [| |contradiction]; destruct a; try congruence; cbn [transposed is_column_major] in *;
            try (rewrite E1 in *); intros El.
          3, 6 : assert (i = 0) by lia; assert (n = 1) by nia; assert (p = 1) by nia; subst.
          all: change (zrange 1) with [0] in El; cbn [map flat_map app pos] in El; rewrite <- El; do 2 f_equal; lia. }
        rewrite El. destruct (documented_some t Ht (rounded_index t len r)) as (di & dj & D).
        assert (K : is_kth leb [X (i * stride)] 0 (X (i * stride))).
        { split; [left; auto|]. unfold count. cbn [filter].
          rewrite (ltb_false T leb), (leb_refl T leb) by (auto using (leb_refl T leb P)). cbn. lia. }
        exists di, dj, (X (i * stride)), (X (i * stride)). split; auto.
        cbn [length Z.of_nat]. unfold within.
        replace (Z.max 1 (Z.min (Z.pos (Pos.of_succ_nat 0)) di)) with 1 by lia.
        replace (Z.max 1 (Z.min (Z.pos (Pos.of_succ_nat 0)) dj)) with 1 by lia. split; [exact K|]. split; [exact K|]. destruct (Z.eq_dec 1 1); [reflexivity|congruence].
      * intros x Hx. apply R2. intros i k Hi Hk Eq. apply Hx. apply in_zrange in Hi.
        exists (Z.of_nat k), i. split; [lia|]. split; auto. rewrite <- Ei. auto.
  - (* the general case *)
    assert (Gn : Forall (fun x => is_finite x = true) h).
    { apply Forall_forall. intros x Hx. apply In_nth_error in Hx. destruct Hx as (j & Hj).
      assert (Lj : (j < length q)%nat) by (rewrite <- Lh; apply nth_error_Some; intros C; pose proof (eq_trans (eq_sym Hj) C); discriminate).
      destruct (nth_error q j) as [qj|] eqn:Eq; [|apply nth_error_None in Eq; lia].
      destruct (Ih j qj _ Eq (Uis j qj Eq)) as (y & _ & E2 & v & Y & B). rewrite (nth_error_nth h j (f64_of_Z 0) Hj) in E2. subst x.
      pose proof (minus1_is t len Ht (conj Ln1 Hl) y v Y) as M. rewrite Ll in B. destruct (M B) as (F & _). exact F. }
    destruct (S h Gn) as (Ps0 & Os).
    assert (Ps : Permutation (sort h) (seq 0 (length q))) by (rewrite <- Lh; exact Ps0).
    set (hs := map (fun k => (k, nth k h (f64_of_Z 0))) (sort h)).
    assert (Hin : forall k x, In (k, x) hs <-> (k < length q)%nat /\ x = nth k h (f64_of_Z 0)).
    { intros k x. unfold hs. rewrite in_map_iff. split.
      - intros (k' & Eq & Hk). injection Eq as <- <-. apply (Permutation_in _ Ps) in Hk. apply in_seq in Hk. split; auto. lia.
      - intros (Hk & ->). exists k. split; auto. apply (Permutation_in _ (Permutation_sym Ps)). apply in_seq. lia. }
    destruct (each_stat_spec (fun i out =>
                  quantile_loop T leb nth_element mean interp t len (idx i) hs true (work_of T o a n p X ldx len i) 0 0 zero zero out)
                idx (length q) (fun i k v => result T leb mean interp t (lane o a n p X ldx i) (nth k h (f64_of_Z 0)) v)
                (zrange ns) out) as (out' & E & R1 & R2).
    + apply zrange_nodup.
    + intros i i' k k' Hi Hi' Hk Hk' Eq. apply in_zrange in Hi, Hi'. apply (Inj i i' k k'); auto.
    + intros i o' Hi. apply in_zrange in Hi.
      destruct (loop_spec T leb P nth_element N mean interp t Ht (lane o a n p X ldx i)) with (idx := idx i) (hs := hs)
        (first := true) (work := work_of T o a n p X ldx len i) (lf := 0) (lc := 0) (tmp1 := zero) (tmp2 := zero) (out := o')
        as (o2 & E & Q1 & Q2); rewrite ?Ll; auto; try lia; try discriminate.
      * apply work_lane; auto.
      * intros u v [].
      * intros k x Hk. apply Hin in Hk. destruct Hk as (Hk & ->).
        destruct (nth_error q k) as [qk|] eqn:Eq; [|apply nth_error_None in Eq; lia].
        destruct (Ih k qk _ Eq (Uis k qk Eq)) as (y & _ & E2 & v & Y & B). exists y. split; auto. exists v. rewrite Ll in *. auto.
      * apply ordered_map. cbn [snd]. apply nth_seq_ordered. intros i1 j1 a1 b1 Lt H1 H2.
        apply (Os i1 j1); auto.
      * intros k k' x x' H1 H2 Eq. apply Hin in H1, H2. destruct H1, H2. apply (Inj i i k k'); auto.
      * unfold hs. rewrite map_map. cbn [fst]. rewrite map_id. apply (Permutation_NoDup (Permutation_sym Ps)), seq_NoDup.
      * rewrite Ll in E. exists o2. split; auto. split.
        -- intros k Hk. apply (Q1 k). apply Hin. auto.
        -- intros x Hx. apply Q2. intros k y Hk. apply Hin in Hk. apply Hx. apply Hk.
    + exists out'. split; auto. split.
      * intros i j qj r Hi Hj Hr. rewrite <- Ei. eapply Res; eauto. apply R1; [apply in_zrange; auto|].
        apply nth_error_Some. congruence.
      * intros x Hx. apply R2. intros i k Hi Hk Eq. apply Hx. apply in_zrange in Hi.
        exists (Z.of_nat k), i. split; [lia|]. split; auto. rewrite <- Ei. auto.
Qed.
Lemma quantile_invalid zero o a n p nul X ldx q t out :
  let run := quantile T leb nth_element sort mean interp zero o a n p nul X ldx q t out in
  (nul = true -> run = QDone st_invalid_pointer out) /\
  (nul = false -> n < 1 \/ p < 1 -> run = QDone st_invalid_array_dimension out) /\
  (nul = false -> 1 <= n -> 1 <= p -> q = [] -> run = QDone st_invalid_input out) /\
  (nul = false -> 1 <= n -> 1 <= p -> q <> [] ->
     (o = row_major /\ ldx < p) \/ (o = column_major /\ ldx < n) ->
     run = QDone st_invalid_leading_dimension out) /\
  (nul = false -> valid_matrix o n p ldx -> a <> axis_other -> t <> QOther ->
     (exists x r, In x q /\ is x r /\ (r < 0 \/ 1 < r)%R) -> run = QDone st_invalid_input out).
Proof.
  cbv zeta. unfold quantile, validate.
  split; [intros ->; auto|]. split; [|split; [|split]]; intros -> .
  - intros [H|H]; [destruct (Z.ltb_spec n 1); [auto|lia]|destruct (Z.ltb_spec p 1); [|lia]; destruct (n <? 1); auto].
  - intros Hn Hp ->. destruct (Z.ltb_spec n 1); [lia|]. destruct (Z.ltb_spec p 1); [lia|]. auto.
  - intros Hn Hp Hq C. destruct (Z.ltb_spec n 1); [lia|]. destruct (Z.ltb_spec p 1); [lia|]. cbn [orb].
    destruct (Z.ltb_spec (Z.of_nat (length q)) 1) as [H5|]; [destruct q; [congruence|cbn [length] in H5; lia]|].
    destruct C as [(-> & C)|(-> & C)]; destruct (Z.ltb_spec ldx p), (Z.ltb_spec ldx n); auto; lia.
  - intros (Vn & Vp & V) Ha Ht (x & r & Hx & Hr & B).
    destruct (Z.ltb_spec n 1); [lia|]. destruct (Z.ltb_spec p 1); [lia|]. cbn [orb].
    destruct (Z.ltb_spec (Z.of_nat (length q)) 1) as [H5|]; [destruct q; [contradiction|cbn [length] in H5; lia]|].
    replace (match o with column_major => _ | row_major => _ | other_order => _ end) with st_success
      by (destruct o; [destruct (Z.ltb_spec ldx p); auto; lia|destruct (Z.ltb_spec ldx n); auto; lia|auto]).
    assert (E : forall len, exists h, get_quantile_indices t len q = (st_invalid_input, h)).
    { intros len. clear - Ht Hx Hr B. induction q as [|x' q' IH]; [contradiction|].
      cbn [get_quantile_indices]. destruct (_ || _) eqn:E; [eauto|].
      destruct Hx as [-> |Hx].
      - exfalso. apply orb_false_elim in E. destruct E as (E1 & E2).
        assert (Z0 : is (f64_of_Z 0) 0) by (apply (f64_of_Z_is 0); lia).
        assert (Z1 : is (f64_of_Z 1) 1) by (apply (f64_of_Z_is 1); lia).
        destruct B as [B|B].
        + apply (f64_lt_is _ _ _ _ Hr Z0) in B. congruence.
        + apply (f64_lt_is _ _ _ _ Z1 Hr) in B. congruence.
      - destruct (IH Hx) as (h & ->). destruct t; try congruence; cbn [quantile_h]; eauto. }
    destruct a; try congruence.
    + destruct (E n) as (h & ->). auto.
    + destruct (E p) as (h & ->). auto.
    + destruct (E (n * p)) as (h & ->). auto.
Qed.

Lemma summary_index k len : 0 <= k <= 4 -> 1 <= len <= 2 ^ 50 ->
  rounded_index Q6 len (IZR k / 4) = (IZR ((len + 1) * k) / 4)%R.
Proof.
  intros K L. cbn [rounded_index]. rewrite mult_IZR.
  replace (IZR (len + 1) * (IZR k / 4))%R with (IZR (len + 1) * IZR k / 4)%R by lra.
  apply rnd_format. apply generic_format_FLT.
  apply (FLT_spec radix2 _ 53 _ (Float radix2 ((len + 1) * k) (-2))); cbn [Fnum Fexp].
  - unfold F2R. cbn [Fnum Fexp]. rewrite mult_IZR. cbn. lra.
  - change (Z.pow (radix_val radix2) 53) with (2 ^ 53)%Z. nia.
  - cbn. lia.
Qed.
Lemma summary_ends l v : 
  (quantile_value leb mean interp Q6 0 l v -> is_kth leb l 0 v) /\
  (quantile_value leb mean interp Q6 (IZR (Z.of_nat (length l) + 1)) l v -> l <> [] -> is_kth leb l (Z.of_nat (length l) - 1) v).
Proof.
  set (len := Z.of_nat (length l)). split.
  - intros (i & j & a & b & D & K1 & K2 & V). fold len in K1, K2, V. destruct D as (-> & ->).
    replace (Zfloor 0) with 0 in * by (symmetry; apply (Zfloor_IZR 0)).
    replace (Zceil 0) with 0 in * by (symmetry; apply (Zceil_IZR 0)).
    destruct (Z.eq_dec (within len 0) (within len 0)); [|congruence]. subst v.
    replace (within len 0 - 1) with 0 in K1 by (unfold within; lia). auto.
  - intros (i & j & a & b & D & K1 & K2 & V) Hl. fold len in K1, K2, V. destruct D as (-> & ->).
    rewrite Zfloor_IZR in *. rewrite Zceil_IZR in *.
    destruct (Z.eq_dec (within len (len + 1)) (within len (len + 1))); [|congruence]. subst v.
    assert (1 <= len) by (unfold len; destruct l; [congruence|cbn [length]; lia]).
    replace (within len (len + 1) - 1) with (len - 1) in K1 by (unfold within; lia). auto.
Qed.
Lemma summary_unit : Forall unit_q summary_q /\
  forall k : Z, 0 <= k <= 4 -> exists q, nth_error summary_q (Z.to_nat k) = Some q /\ is q (IZR k / 4).
Proof.
  assert (Z0 : is (f64_of_Z 0) 0) by (apply (f64_of_Z_is 0); lia).
  assert (Z1 : is (f64_of_Z 1) 1) by (apply (f64_of_Z_is 1); lia).
  split.
  - repeat constructor; eexists; (split; [first [exact Z0|exact quarter_is|exact half_is|exact three_quarters_is|exact Z1]|lra]).
  - intros k K. assert (C : k = 0 \/ k = 1 \/ k = 2 \/ k = 3 \/ k = 4) by lia.
    destruct C as [-> |[-> |[-> |[-> | ->]]]]; eexists; (split; [reflexivity|]).
    + replace (0 / 4)%R with 0%R by lra. auto.
    + replace (1 / 4)%R with (/ 4)%R by lra. apply quarter_is.
    + replace (2 / 4)%R with (/ 2)%R by lra. apply half_is.
    + apply three_quarters_is.
    + replace (4 / 4)%R with 1%R by lra. auto.
Qed.

Lemma five_point_ok zero o a n p X ldx :
  preorder leb -> selects leb nth_element -> sorts sort ->
  valid_matrix o n p ldx -> a <> axis_other -> lane_length a n p <= 2 ^ 50 ->
  exists f, five_point_summary T leb nth_element sort mean interp zero o a n p X ldx = Some (st_success, f) /\
    forall i, 0 <= i < lanes a n p ->
      let l := lane o a n p X ldx i in
      let len := Z.of_nat (length l) in
      let at_ k v := quantile_value leb mean interp Q6 (IZR ((len + 1) * k) / 4) l v in
      exists minimum lower median upper maximum, f i = [minimum; lower; median; upper; maximum] /\
        is_kth leb l 0 minimum /\ at_ 1 lower /\ at_ 2 median /\ at_ 3 upper /\ is_kth leb l (len - 1) maximum.
Proof.
  intros P N S V Ha Hl. unfold five_point_summary.
  pose proof V as (Vn & Vp & _).
  destruct (Z.ltb_spec n 1); [lia|]. destruct (Z.ltb_spec p 1); [lia|]. cbn [orb].
  destruct summary_unit as (U & Uk).
  destruct (quantile_ok zero o a n p X ldx summary_q Q6 (fun _ => zero) P N S V Ha) as (out & -> & R & _); auto; try discriminate.
  eexists. split; [reflexivity|]. intros i Hi. cbv zeta.
  assert (Ln1 : 1 <= lane_length a n p) by (unfold lane_length; destruct a; lia).
  pose proof (lane_len o a n p X ldx i Vn Vp Ha) as Ll.
  assert (A : forall k, 0 <= k <= 4 ->
    quantile_value leb mean interp Q6 (IZR ((lane_length a n p + 1) * k) / 4) (lane o a n p X ldx i)
      (out (if is_row_major o then k * match a with axis_col => p | axis_row => n | _ => 1 end + i else i * 5 + k))).
  { intros k K. destruct (Uk k K) as (q & Hq & Eq).
    specialize (R i (Z.to_nat k) q _ Hi Hq Eq). rewrite summary_index in R by lia.
    rewrite Z2Nat.id in R by lia. unfold pos, ld_out, lanes in R. unfold is_row_major. destruct o; exact R. }
  cbn [map]. do 5 eexists. split; [reflexivity|]. rewrite Ll.
  split; [|split; [|split; [|split]]]; try (apply A; lia).
  - apply (proj1 (summary_ends _ _)). pose proof (A 0) as A0. rewrite Z.mul_0_r in A0.
    replace (0 / 4)%R with 0%R in A0 by lra. apply A0. lia.
  - rewrite <- Ll. apply (proj2 (summary_ends _ _)).
    + pose proof (A 4) as A4. rewrite Ll.
      replace (IZR ((lane_length a n p + 1) * 4) / 4)%R with (IZR (lane_length a n p + 1)) in A4 by (rewrite mult_IZR; lra).
      apply A4. lia.
    + intros E. rewrite E in Ll. cbn in Ll. lia.
Qed.
End Main.

(** ** Sorting functions to run the model with *)
Section Insertion.
Variable A : Type.
Variable le : A -> A -> bool.
Lemma insert_perm x l : Permutation (x :: l) (insert le x l).
Proof.
  induction l as [|y l IH]; cbn; auto. destruct (le x y); auto.
  eapply Permutation_trans; [apply perm_swap|]. constructor. auto.
Qed.
Lemma isort_perm l : Permutation l (isort le l).
Proof.
  induction l as [|x l IH]; cbn; auto. eapply Permutation_trans; [|apply insert_perm]. constructor. auto.
Qed.
Variable ok : A -> Prop.
Hypothesis total : forall x y, ok x -> ok y -> le x y = true \/ le y x = true.
Hypothesis trans : forall x y z, ok x -> ok y -> ok z -> le x y = true -> le y z = true -> le x z = true.
Lemma insert_sorted x l : ok x -> Forall ok l -> ForallOrdPairs (fun a b => le a b = true) l ->
  ForallOrdPairs (fun a b => le a b = true) (insert le x l).
Proof.
  intros Ox. induction l as [|y l IH]; intros Ol S; cbn; [repeat constructor|].
  inversion Ol as [|? ? Oy Ol']; subst. inversion S as [|? ? S1 S2]; subst.
  destruct (le x y) eqn:E.
  - constructor; auto. constructor; auto. rewrite Forall_forall in *. intros z Hz. eapply (trans x y z); auto.
  - constructor; auto. apply (Permutation_Forall (insert_perm x l)). constructor; auto.
    destruct (total x y); auto. congruence.
Qed.
Lemma isort_sorted l : Forall ok l -> ForallOrdPairs (fun a b => le a b = true) (isort le l).
Proof.
  induction l as [|x l IH]; intros Ol; cbn; [constructor|]. inversion Ol; subst.
  apply insert_sorted; auto. apply (Permutation_Forall (isort_perm l)). auto.
Qed.
End Insertion.
Lemma ordered_nth {A} (R : A -> A -> Prop) l : ForallOrdPairs R l -> forall i j a b, (i < j)%nat ->
  nth_error l i = Some a -> nth_error l j = Some b -> R a b.
Proof.
  induction 1 as [|x l H _ IH]; intros i j a b L Hi Hj; [destruct i; discriminate|].
  destruct j as [|j]; [lia|]. cbn in Hj. destruct i as [|i].
  - injection Hi as ->. rewrite Forall_forall in H. apply H. eapply nth_error_In; eauto.
  - apply (IH i j); auto. lia.
Qed.
Lemma isort_selects {T} (leb : T -> T -> bool) : preorder leb -> selects leb (fun l _ => isort leb l).
Proof.
  intros (Tot & Tr) l k K. split; [apply isort_perm|]. intros i x v Hv Hx.
  assert (S : ForallOrdPairs (fun a b => leb a b = true) (isort leb l)).
  { apply isort_sorted with (ok := fun _ => True); auto.
    - intros x0 y z _ _ _. apply Tr.
    - apply Forall_forall. auto. }
  split; intros L; [apply (ordered_nth _ _ S i k x v)|apply (ordered_nth _ _ S k i v x)]; auto.
Qed.
Lemma sort_indices_sorts : sorts sort_indices.
Proof.
  intros h Hf. unfold sort_indices. set (le := fun i j => negb _).
  split; [apply Permutation_sym, isort_perm|].
  assert (Fin : forall i, (i < length h)%nat -> is (nth i h (f64_of_Z 0)) (B2R (nth i h (f64_of_Z 0)))).
  { intros i Hi. split; auto. rewrite Forall_forall in Hf. apply Hf. apply nth_In. auto. }
  assert (LE : forall i j, (i < length h)%nat -> (j < length h)%nat ->
     le i j = true <-> (B2R (nth i h (f64_of_Z 0)) <= B2R (nth j h (f64_of_Z 0)))%R).
  { intros i j Hi Hj. unfold le. rewrite negb_true_iff. pose proof (f64_lt_is _ _ _ _ (Fin j Hj) (Fin i Hi)) as Q.
    destruct (f64_lt _ _); split; intros; try discriminate; auto.
    - destruct Q as (Q & _). specialize (Q eq_refl). lra.
    - apply Rnot_lt_le. intros C. apply Q in C. discriminate. }
  assert (S : ForallOrdPairs (fun a b => le a b = true) (isort le (seq 0 (length h)))).
  { apply isort_sorted with (ok := fun i => (i < length h)%nat).
    - intros x y Hx Hy. rewrite !LE by auto. lra.
    - intros x y z Hx Hy Hz. rewrite !LE by auto. lra.
    - apply Forall_forall. intros x Hx. apply in_seq in Hx. lia. }
  intros i j a b L Ha Hb. pose proof (ordered_nth _ _ S i j a b L Ha Hb) as Q. unfold le in Q.
  apply negb_true_iff in Q. exact Q.
Qed.
Lemma leb_preorder : preorder Z.leb.
Proof. split; [intros x y; rewrite !Z.leb_le; lia|intros x y z; rewrite !Z.leb_le; lia]. Qed.

