From Coq Require Import ZArith List Bool Lia Permutation.
From Verif Require Import Par NnModel PairModel PairSpec.
Import ListNotations.
Local Open Scope Z_scope.

(** ** Writing into memory *)
Section Upd.
Context {T I : Type} (addr : I -> Z) (dom : I -> Prop).
Hypothesis inj : forall x y, dom x -> dom y -> addr x = addr y -> x = y.
Definition have (P : I -> Prop) (m : mem T) : Prop := forall x, P x -> exists v, m (addr x) = Some v.
Definition kept (m m' : mem T) : Prop := forall a v, m a = Some v -> exists v', m' a = Some v'.
Definition upd (P : I -> Prop) (G : I -> T -> T) (m m' : mem T) : Prop :=
  (forall x, P x -> exists v, m (addr x) = Some v /\ m' (addr x) = Some (G x v)) /\
  (forall a, (forall x, P x -> a <> addr x) -> m' a = m a) /\ kept m m'.

Lemma have_kept P m m' : kept m m' -> have P m -> have P m'.
Proof. intros K H x Hx. destruct (H x Hx) as [v Hv]. exact (K _ _ Hv). Qed.
Lemma upd_ext (P P' : I -> Prop) (G G' : I -> T -> T) m m' :
  (forall x, P x <-> P' x) -> (forall x v, P x -> m (addr x) = Some v -> G x v = G' x v) ->
  upd P G m m' -> upd P' G' m m'.
Proof.
  intros HP HG (H1 & H2 & H3). split; [|split; auto].
  - intros x Hx. apply HP in Hx. destruct (H1 x Hx) as [v [Hv Hv']]. exists v. split; auto. rewrite Hv'. f_equal. auto.
  - intros a Ha. apply H2. intros x Hx. apply Ha, HP, Hx.
Qed.
Lemma upd_comp (P : I -> Prop) (G1 G2 : I -> T -> T) m m1 m2 :
  upd P G1 m m1 -> upd P G2 m1 m2 -> upd P (fun x v => G2 x (G1 x v)) m m2.
Proof.
  intros (A1 & A2 & A3) (B1 & B2 & B3). split; [|split].
  - intros x Hx. destruct (A1 x Hx) as [v [Hv Hv1]]. destruct (B1 x Hx) as [w [Hw Hw2]]. rewrite Hv1 in Hw. inversion Hw; subst w.
    exists v. auto.
  - intros a Ha. rewrite B2, A2; auto.
  - intros a v Hv. destruct (A3 a v Hv) as [w Hw]. exact (B3 a w Hw).
Qed.
Lemma store_ok (m : mem T) a v : (exists w, m a = Some w) -> exists m', store m a v = Some m' /\ (forall b, m' b = if b =? a then Some v else m b).
Proof. intros [w Hw]. unfold store. rewrite Hw. eexists; split; [reflexivity|]. intro b. reflexivity. Qed.
Lemma upd_store m x v : (exists w, m (addr x) = Some w) -> exists m', store m (addr x) v = Some m' /\ upd (eq x) (fun _ _ => v) m m'.
Proof.
  intros H. destruct (store_ok m _ v H) as [m' [E Hm]]. exists m'. split; auto. destruct H as [w Hw]. split; [|split].
  - intros y <-. exists w. split; auto. rewrite Hm, Z.eqb_refl. reflexivity.
  - intros a Ha. rewrite Hm. destruct (Z.eqb_spec a (addr x)); auto. exfalso. exact (Ha x eq_refl e).
  - intros a u Hu. rewrite Hm. destruct (a =? addr x); eauto.
Qed.
Lemma upd_none (G : I -> T -> T) m (P : I -> Prop) : (forall x, ~ P x) -> upd P G m m.
Proof. intro H. split; [|split]; [intros x Hx; exfalso; exact (H x Hx)|auto|]. intros a v Hv. eauto. Qed.
Lemma upd_each (P : Z -> I -> Prop) G (body : Z -> mem T -> option (mem T)) l :
  NoDup l -> (forall q x, In q l -> P q x -> dom x) ->
  (forall q q' x, In q l -> In q' l -> P q x -> P q' x -> q = q') ->
  (forall q s, In q l -> have (P q) s -> exists s', body q s = Some s' /\ upd (P q) G s s') ->
  forall s, have (fun x => exists q, In q l /\ P q x) s ->
  exists s', each l body s = Some s' /\ upd (fun x => exists q, In q l /\ P q x) G s s'.
Proof.
  induction l as [|q l IH]; intros ND HD Hdis Hbody s Hs.
  - exists s. split; [reflexivity|]. apply upd_none. intros x [q [[] _]].
  - inversion ND as [|q0 l0 Hnin ND']; subst.
    destruct (Hbody q s) as [s1 [E1 U1]]; [left; reflexivity|intros x Hx; apply Hs; exists q; split; [left; reflexivity|exact Hx]|].
    destruct U1 as (A1 & A2 & A3).
    destruct (IH ND') with (s := s1) as [s2 [E2 U2]].
    + intros q' x Hq Hx. exact (HD q' x (or_intror Hq) Hx).
    + intros q1 q2 x H1 H2. apply Hdis; right; assumption.
    + intros q' s' Hq. apply Hbody. right; exact Hq.
    + apply (have_kept _ s); auto. intros x [q' [Hq' Hx]]. apply Hs. exists q'. split; [right|]; assumption.
    + exists s2. split; [cbn; rewrite E1; exact E2|]. destruct U2 as (B1 & B2 & B3). split; [|split].
      * intros x [q' [[<-|Hq'] Hx]].
        -- destruct (A1 x Hx) as [v [Hv Hv1]]. exists v. split; auto. rewrite B2; auto.
           intros y [q' [Hq' Hy]] Heq. assert (x = y) as <-.
           { apply inj; [apply (HD q); [left; reflexivity|exact Hx]|apply (HD q'); [right; exact Hq'|exact Hy]|exact Heq]. }
           assert (q = q') as <- by (apply (Hdis q q' x); [left; reflexivity|right; exact Hq'|exact Hx|exact Hy]). exact (Hnin Hq').
        -- destruct (B1 x) as [v [Hv Hv2]]; [exists q'; split; assumption|]. exists v. split; auto. rewrite <- Hv. symmetry. apply A2.
           intros y Hy Heq. assert (x = y) as <-.
           { apply inj; [apply (HD q'); [right; exact Hq'|exact Hx]|apply (HD q); [left; reflexivity|exact Hy]|exact Heq]. }
           assert (q = q') as <- by (apply (Hdis q q' x); [left; reflexivity|right; exact Hq'|exact Hy|exact Hx]). exact (Hnin Hq').
      * intros a Ha. rewrite B2, A2; auto.
        -- intros x Hx. apply Ha. exists q. split; [left; reflexivity|exact Hx].
        -- intros x [q' [Hq' Hx]]. apply Ha. exists q'. split; [right; exact Hq'|exact Hx].
      * intros a v Hv. destruct (A3 a v Hv) as [w Hw]. exact (B3 a w Hw).
Qed.
Lemma upd_fill m at_ n f (idx : Z -> I) (h : I -> T) :
  (forall r, 0 <= r < n -> addr (idx r) = at_ + r /\ dom (idx r) /\ f r = Some (h (idx r)) /\ exists v, m (at_ + r) = Some v) ->
  exists m', fill m at_ n f = Some m' /\ upd (fun x => exists r, 0 <= r < n /\ x = idx r) (fun x _ => h x) m m'.
Proof.
  intros H. unfold fill.
  destruct (upd_each (fun r x => x = idx r) (fun x _ => h x) (fun r m => bind (f r) (store m (at_ + r))) (zrange n)) with (s := m) as [m' [E U]].
  - apply zrange_nodup.
  - intros q x Hq ->. apply in_zrange in Hq. apply (H q Hq).
  - intros q q' x Hq Hq' -> Heq. apply in_zrange in Hq. apply in_zrange in Hq'.
    destruct (H q Hq) as (A1 & _). destruct (H q' Hq') as (B1 & _). rewrite <- Heq in B1. lia.
  - intros q s Hq Hs. apply in_zrange in Hq. destruct (H q Hq) as (A1 & A2 & A3 & _).
    rewrite A3. cbn [bind]. rewrite <- A1. destruct (upd_store s (idx q) (h (idx q))) as [s' [E U]].
    + apply Hs. reflexivity.
    + exists s'. split; auto. eapply upd_ext; [| |exact U]; [intro x; split; intro; subst; reflexivity|intros x v <- _; reflexivity].
  - intros x [q [Hq ->]]. apply in_zrange in Hq. destruct (H q Hq) as (A1 & _ & _ & A4). rewrite A1. exact A4.
  - exists m'. split; auto. eapply upd_ext; [| |exact U]; [|reflexivity]. intro x. split; intros [r [Hr Hx]]; exists r; rewrite in_zrange in *; auto.
Qed.
End Upd.

(** ** Counters *)
Lemma starts_in n step i : 0 < step -> In i (starts n step) <-> 0 <= i < n /\ (step | i).
Proof.
  intro Hs. unfold starts. rewrite in_map_iff. split.
  - intros [q [<- Hq]]. apply in_zrange in Hq. split; [|exists q; ring].
    assert (q + 1 <= (n + step - 1) / step) by lia. apply Z.div_le_lower_bound in H || idtac.
    assert (step * ((n + step - 1) / step) <= n + step - 1) by (apply Z.mul_div_le; lia). nia.
  - intros [Hi [q ->]]. exists q. split; [reflexivity|]. apply in_zrange. split; [nia|].
    apply Z.lt_le_trans with (q + 1); [lia|]. apply Z.div_le_lower_bound; nia.
Qed.
Lemma starts_nodup n step : 0 < step -> NoDup (starts n step).
Proof.
  intro Hs. unfold starts. apply FinFun.Injective_map_NoDup; [|apply zrange_nodup]. intros a b H. nia.
Qed.
Lemma block_of step x : 0 < step -> 0 <= x -> 0 <= x / step * step <= x /\ x < x / step * step + step /\ (step | x / step * step).
Proof.
  intros Hs Hx. pose proof (Z.div_mod x step ltac:(lia)). pose proof (Z.mod_pos_bound x step Hs).
  assert (0 <= x / step) by (apply Z.div_pos; lia). repeat split; try nia. exists (x / step). reflexivity.
Qed.
Lemma block_unique step i i' x : 0 < step -> (step | i) -> (step | i') -> i <= x < i + step -> i' <= x < i' + step -> i = i'.
Proof. intros Hs [q ->] [q' ->] H H'. assert (q = q') by nia. subst; reflexivity. Qed.
(** cutting [0, n) into blocks *)
Lemma blocks_cover n step x : 0 < step -> (exists i, In i (starts n step) /\ i <= x < i + Z.min step (n - i)) <-> 0 <= x < n.
Proof.
  intro Hs. split.
  - intros [i [Hi Hx]]. apply starts_in in Hi; auto. lia.
  - intro Hx. exists (x / step * step). destruct (block_of step x Hs) as (A & B & C); [lia|]. split; [apply starts_in; auto; split; [lia|exact C]|lia].
Qed.

(** ** Packing *)
Section Elements.
Context {T : Type} (zero : T).
Definition packed_at (block k i p : Z) : Z := i / block * (block * k) + p * block + i mod block.
Lemma packed_inj block k i p i' p' : 0 < block -> 0 <= i -> 0 <= i' -> 0 <= p < k -> 0 <= p' < k ->
  packed_at block k i p = packed_at block k i' p' -> i = i' /\ p = p'.
Proof.
  intros Hb Hi Hi' Hp Hp' H. unfold packed_at in H.
  pose proof (Z.mod_pos_bound i block Hb). pose proof (Z.mod_pos_bound i' block Hb).
  pose proof (Z.div_mod i block ltac:(lia)). pose proof (Z.div_mod i' block ltac:(lia)).
  remember (i / block) as a. remember (i' / block) as a'. remember (i mod block) as r. remember (i' mod block) as r'.
  assert (r = r') as Hr. { assert (block * (a * k + p) + r = block * (a' * k + p') + r') by lia. assert (a * k + p = a' * k + p') by nia. nia. }
  assert (a * k + p = a' * k + p') by nia. assert (a = a') by nia. subst. lia.
Qed.
Lemma packed_block block k i0 r p : 0 < block -> 0 <= i0 -> (block | i0) -> 0 <= r < block -> packed_at block k (i0 + r) p = i0 * k + p * block + r.
Proof.
  intros Hb Hi [q ->] Hr. unfold packed_at. replace (q * block + r) with (r + q * block) by ring. rewrite Z_div_plus, Z_mod_plus by lia. rewrite Z.div_small, Z.mod_small by lia. ring.
Qed.
Definition paddr (block k : Z) (x : Z * Z) : Z := packed_at block k (fst x) (snd x).
Definition pdom (k : Z) (x : Z * Z) : Prop := 0 <= fst x /\ 0 <= snd x < k.
Lemma pinj block k : 0 < block -> forall x y, pdom k x -> pdom k y -> paddr block k x = paddr block k y -> x = y.
Proof.
  intros Hb [i p] [i' p'] [A B] [C D] H. unfold paddr in H; cbn in *. apply packed_inj in H; auto. destruct H; subst; reflexivity.
Qed.

Lemma pack_panel_ok block m k X x0 ldx (buf : mem T) i0 (x : Z -> Z -> T) :
  0 < block -> 0 <= i0 -> (block | i0) -> 0 <= m ->
  (forall r p, 0 <= r < m -> 0 <= p < k -> X (x0 + p * ldx + r) = Some (x (i0 + r) p)) ->
  (forall i p, i0 <= i < i0 + block -> 0 <= p < k -> exists v, buf (packed_at block k i p) = Some v) ->
  exists buf', pack_panel zero block m k X x0 ldx buf (i0 * k) = Some buf' /\
    upd (paddr block k) (fun e => i0 <= fst e < i0 + block /\ 0 <= snd e < k) (fun e _ => if fst e <? i0 + m then x (fst e) (snd e) else zero) buf buf'.
Proof.
  intros Hb Hi Hd Hm HX Hbuf. unfold pack_panel.
  destruct (upd_each (paddr block k) (pdom k) (pinj block k Hb) (fun p e => i0 <= fst e < i0 + block /\ snd e = p)
    (fun e _ => if fst e <? i0 + m then x (fst e) (snd e) else zero)
    (fun p buf => fill buf (i0 * k + p * block) block (fun r => if r <? m then X (x0 + p * ldx + r) else Some zero)) (zrange k)) with (s := buf)
    as [buf' [E U]].
  - apply zrange_nodup.
  - intros p [i p'] Hp [A B]. apply in_zrange in Hp. cbn in *. split; cbn; lia.
  - intros q q' e _ _ [_ A] [_ B]. congruence.
  - intros p s Hp Hs. apply in_zrange in Hp.
    destruct (upd_fill (paddr block k) (pdom k) (pinj block k Hb) s (i0 * k + p * block) block
      (fun r => if r <? m then X (x0 + p * ldx + r) else Some zero) (fun r => (i0 + r, p))
      (fun e => if fst e <? i0 + m then x (fst e) (snd e) else zero)) as [s' [E U]].
    + intros r Hr. assert (Ha : paddr block k (i0 + r, p) = i0 * k + p * block + r) by (unfold paddr; cbn; apply packed_block; auto).
      split; [exact Ha|]. split; [split; cbn; lia|]. split.
      * cbn. destruct (Z.ltb_spec r m).
        -- rewrite HX by lia. destruct (Z.ltb_spec (i0 + r) (i0 + m)); [reflexivity|lia].
        -- destruct (Z.ltb_spec (i0 + r) (i0 + m)); [lia|reflexivity].
      * rewrite <- Ha. apply Hs. cbn. lia.
    + exists s'. split; auto. eapply upd_ext; [| |exact U]; [|reflexivity].
      intros [i p']. cbn. split.
      * intros [r [Hr Heq]]. inversion Heq. split; lia.
      * intros [A ->]. exists (i - i0). split; [lia|]. f_equal. lia.
  - intros [i p'] [p [Hp [A B]]]. apply in_zrange in Hp. cbn in *. subst p'. unfold paddr. cbn. apply Hbuf; lia.
  - exists buf'. split; auto. eapply upd_ext; [| |exact U]; [|reflexivity]. intros [i p']. cbn. split.
    + intros [p [Hp [A B]]]. apply in_zrange in Hp. lia.
    + intros [A B]. exists p'. rewrite in_zrange. lia.
Qed.

Definition packed (block rows k : Z) (buf : mem T) (x : Z -> Z -> T) : Prop :=
  forall i p, 0 <= i < rows -> 0 <= p < k -> buf (packed_at block k i p) = Some (x i p).
Definition roundup (block m : Z) : Z := (m + block - 1) / block * block.
Lemma roundup_spec block m i : 0 < block -> (exists i0, In i0 (starts m block) /\ i0 <= i < i0 + block) <-> 0 <= i < roundup block m.
Proof.
  intro Hb. unfold roundup. split.
  - intros [i0 [H1 H2]]. unfold starts in H1. apply in_map_iff in H1. destruct H1 as [q [<- Hq]]. apply in_zrange in Hq. nia.
  - intro Hi. exists (i / block * block). destruct (block_of block i Hb) as (A & B & C); [lia|]. split; [|lia].
    unfold starts. apply in_map_iff. exists (i / block). split; [reflexivity|]. apply in_zrange. split; [apply Z.div_pos; lia|].
    apply Z.div_lt_upper_bound; nia.
Qed.
Lemma roundup_le block m M : 0 < block -> m <= M -> (block | M) -> roundup block m <= M.
Proof.
  intros Hb Hm [q ->]. unfold roundup. assert ((m + block - 1) / block <= q); [|nia].
  apply Z.lt_succ_r. apply Z.div_lt_upper_bound; nia.
Qed.
Lemma roundup_ge block m : 0 < block -> m <= roundup block m.
Proof. intro Hb. unfold roundup. pose proof (Z.mod_pos_bound (m + block - 1) block Hb). pose proof (Z.div_mod (m + block - 1) block ltac:(lia)). nia. Qed.
Lemma packed_range block k i p M : 0 < block -> (block | M) -> 0 <= i < M -> 0 <= p < k -> 0 <= packed_at block k i p < M * k.
Proof.
  intros Hb [q ->] Hi Hp. unfold packed_at. pose proof (Z.mod_pos_bound i block Hb). pose proof (Z.div_mod i block ltac:(lia)).
  assert (0 <= i / block) by (apply Z.div_pos; lia). assert (i / block < q) by (apply Z.div_lt_upper_bound; lia).
  remember (i / block) as a. remember (i mod block) as r. clear Heqa Heqr H0.
  assert (0 <= block * k) by nia. assert (0 <= a * (block * k)) by (apply Z.mul_nonneg_nonneg; lia). assert (0 <= p * block) by nia.
  assert (p * block + r < block * k) by nia. assert ((a + 1) * (block * k) <= q * (block * k)) by (apply Z.mul_le_mono_nonneg_r; lia). lia.
Qed.
Lemma pack_ok block m k X x0 ldx size g (x : Z -> Z -> T) M :
  0 < block -> 0 <= k -> 0 <= m <= M -> (block | M) -> M * k <= size ->
  (forall i p, 0 <= i < m -> 0 <= p < k -> X (x0 + i + p * ldx) = Some (x i p)) ->
  exists buf, pack zero block m k X x0 ldx (alloc size g) = Some buf /\ packed block m k buf x /\ kept (alloc size g) buf.
Proof.
  intros Hb Hk Hm HM Hsz HX. unfold pack.
  destruct (upd_each (paddr block k) (pdom k) (pinj block k Hb) (fun i0 e => i0 <= fst e < i0 + block /\ 0 <= snd e < k)
    (fun e _ => if fst e <? m then x (fst e) (snd e) else zero)
    (fun i buf => pack_panel zero block (Z.min block (m - i)) k X (x0 + i) ldx buf (i / block * (block * k))) (starts m block)) with (s := alloc size g)
    as [buf' [E U]].
  - apply starts_nodup; auto.
  - intros q [i p] Hq [A B]. apply starts_in in Hq; auto. cbn in *. split; cbn; lia.
  - intros q q' e Hq Hq' [A _] [B _]. apply starts_in in Hq; auto. apply starts_in in Hq'; auto. apply (block_unique block q q' (fst e)); tauto.
  - intros i0 s Hq Hs. apply starts_in in Hq; auto. destruct Hq as [Hi0 Hdiv].
    assert (Hpos : i0 / block * (block * k) = i0 * k) by (destruct Hdiv as [q ->]; rewrite Z.div_mul by lia; ring).
    rewrite Hpos.
    destruct (pack_panel_ok block (Z.min block (m - i0)) k X (x0 + i0) ldx s i0 x) as [s' [E U]]; auto; try lia.
    + intros r p Hr Hp. rewrite <- HX by lia. f_equal. ring.
    + intros i p Hi Hp. apply (Hs (i, p)). cbn. lia.
    + exists s'. split; auto. eapply upd_ext; [| |exact U]; [reflexivity|]. intros [i p] v [A B] _. cbn in *.
      destruct (Z.ltb_spec i (i0 + Z.min block (m - i0))), (Z.ltb_spec i m); try reflexivity; lia.
  - intros [i p] [i0 [H1 [H2 H3]]]. cbn in *. unfold paddr, alloc. cbn.
    assert (0 <= i < roundup block m) by (apply roundup_spec; eauto).
    assert (roundup block m <= M) by (apply roundup_le; auto; lia).
    pose proof (packed_range block k i p M Hb HM ltac:(lia) H3).
    destruct (Z.leb_spec 0 (packed_at block k i p)), (Z.ltb_spec (packed_at block k i p) size); try lia. cbn. eauto.
  - exists buf'. split; auto. destruct U as (U1 & _ & U3). split; auto.
    intros i p Hi Hp. destruct (U1 (i, p)) as [v [_ Hv]].
    + pose proof (roundup_ge block m Hb). destruct (proj2 (roundup_spec block m i Hb)) as [i0 [A B]]; [lia|]. exists i0. cbn. auto.
    + unfold paddr in Hv. cbn in Hv. rewrite Hv. destruct (Z.ltb_spec i m); [reflexivity|lia].
Qed.
Lemma readable_alloc (buf : mem T) size g at_ n : kept (alloc size g) buf -> 0 <= at_ -> at_ + n <= size -> readable buf at_ n = true.
Proof.
  intros Hk H1 H2. unfold readable. apply forallb_forall. intros r Hr. apply in_zrange in Hr.
  destruct (Hk (at_ + r) (g (at_ + r))) as [v ->]; auto. unfold alloc.
  destruct (Z.leb_spec 0 (at_ + r)), (Z.ltb_spec (at_ + r) size); try lia. reflexivity.
Qed.

(** ** The loops *)
Lemma gather_ok l (A B : Z -> option T) a b : (forall p, In p l -> A p = Some (a p) /\ B p = Some (b p)) ->
  gather l A B = Some (map (fun p => (a p, b p)) l).
Proof.
  induction l as [|p l IH]; intro H; cbn; [reflexivity|]. destruct (H p (or_introl eq_refl)) as [-> ->]. cbn.
  rewrite IH; [reflexivity|]. intros q Hq. apply H. right; exact Hq.
Qed.
Definition caddr (ldc : Z) (e : Z * Z) : Z := fst e + snd e * ldc.
Definition cdom (ldc : Z) (e : Z * Z) : Prop := 0 <= fst e < ldc.
Lemma cinj ldc : forall x y, cdom ldc x -> cdom ldc y -> caddr ldc x = caddr ldc y -> x = y.
Proof. intros [i j] [i' j'] A B H. unfold caddr, cdom in *. cbn in *. assert (j = j') by nia. subst. f_equal. lia. Qed.
Definition rect (i0 i1 j0 j1 : Z) (e : Z * Z) : Prop := i0 <= fst e < i1 /\ j0 <= snd e < j1.

(** the new value of an entry when the columns [x i], [y j] are run through *)
Definition step_entry (kern : T -> list (T * T) -> T) (first : bool) (k : Z) (x y : Z -> Z -> T) (e : Z * Z) (old : T) : T :=
  kern (if first then zero else old) (map (fun p => (x (fst e) p, y (snd e) p)) (zrange k)).

Lemma run_kernel_ok kern mr nr first m n k A a0 B b0 (C : mem T) i0 j0 ldc x y :
  0 <= i0 -> i0 + m <= ldc ->
  readable A a0 (mr * k) = true -> readable B b0 (nr * k) = true ->
  (forall i p, i0 <= i < i0 + m -> 0 <= p < k -> A (a0 + p * mr + (i - i0)) = Some (x i p)) ->
  (forall j p, j0 <= j < j0 + n -> 0 <= p < k -> B (b0 + p * nr + (j - j0)) = Some (y j p)) ->
  have (caddr ldc) (rect i0 (i0 + m) j0 (j0 + n)) C ->
  exists C', run_kernel zero kern mr nr first m n k A a0 B b0 C (i0 + j0 * ldc) ldc = Some C' /\
    upd (caddr ldc) (rect i0 (i0 + m) j0 (j0 + n)) (step_entry kern first k x y) C C'.
Proof.
  intros Hi0 Hld RA RB HA HB HC. unfold run_kernel. rewrite RA, RB. cbn [negb andb].
  set (newv := fun e : Z * Z => match C (caddr ldc e) with Some v => step_entry kern first k x y e v | None => zero end).
  match goal with |- exists C', each _ ?b _ = _ /\ _ => set (body := b) end.
  destruct (upd_each (caddr ldc) (cdom ldc) (cinj ldc) (fun j e => rect i0 (i0 + m) (j0 + j) (j0 + j + 1) e) (fun e _ => newv e) body (zrange n)) with (s := C)
    as [C' [E U]].
  - apply zrange_nodup.
  - intros q [i j] Hq [P Q]. unfold cdom; cbn in *. lia.
  - intros q q' [i j] _ _ [_ P] [_ Q]. cbn in *. lia.
  - intros j s Hj Hs. apply in_zrange in Hj. unfold body.
    match goal with |- exists s', fill _ _ _ ?f = _ /\ _ => set (ff := f) end.
    destruct (upd_fill (caddr ldc) (cdom ldc) (cinj ldc) s (i0 + j0 * ldc + j * ldc) m ff (fun r => (i0 + r, j0 + j)) newv) as [s' [E U]].
    + intros r Hr. assert (Ha : caddr ldc (i0 + r, j0 + j) = i0 + j0 * ldc + j * ldc + r) by (unfold caddr; cbn; ring).
      split; [exact Ha|]. split; [unfold cdom; cbn; lia|]. split.
      * unfold ff, newv. rewrite Ha.
        destruct (HC (i0 + r, j0 + j)) as [v Hv]; [split; cbn; lia|]. rewrite Ha in Hv. rewrite Hv.
        rewrite (gather_ok _ _ _ (fun p => x (i0 + r) p) (fun p => y (j0 + j) p)).
        -- unfold step_entry. cbn. destruct first; reflexivity.
        -- intros p Hp. apply in_zrange in Hp. split; [rewrite <- HA by lia|rewrite <- HB by lia]; f_equal; ring.
      * rewrite <- Ha. apply Hs. split; cbn; lia.
    + exists s'. split; auto. eapply upd_ext; [| |exact U]; [|reflexivity].
      intros [i j']. unfold rect. cbn. split.
      * intros [r [Hr Heq]]. inversion Heq. lia.
      * intros [P Q]. exists (i - i0). split; [lia|]. f_equal; lia.
  - intros [i j] [q [Hq [P Q]]]. apply in_zrange in Hq. apply HC. unfold rect; cbn in *. lia.
  - exists C'. split; auto. eapply upd_ext; [| |exact U].
    + intros [i j]. unfold rect. cbn. split.
      * intros [q [Hq [P Q]]]. apply in_zrange in Hq. lia.
      * intros [P Q]. exists (j - j0). rewrite in_zrange. lia.
    + intros e v _ Hv. unfold newv. rewrite Hv. reflexivity.
Qed.

Lemma loop_one_ok kern mr nr first m n k A B b0 (C : mem T) i0 j0 ldc x y :
  0 < mr -> 0 <= k -> 0 <= i0 -> i0 + m <= ldc ->
  (forall q, In q (starts m mr) -> readable A (q * k) (mr * k) = true) -> readable B b0 (nr * k) = true ->
  packed mr m k A (fun i p => x (i0 + i) p) ->
  (forall j p, j0 <= j < j0 + n -> 0 <= p < k -> B (b0 + p * nr + (j - j0)) = Some (y j p)) ->
  have (caddr ldc) (rect i0 (i0 + m) j0 (j0 + n)) C ->
  exists C', loop_one zero kern mr nr first m n k A B b0 (i0 + j0 * ldc) ldc C = Some C' /\
    upd (caddr ldc) (rect i0 (i0 + m) j0 (j0 + n)) (step_entry kern first k x y) C C'.
Proof.
  intros Hmr Hk Hi0 Hld RA RB HA HB HC. unfold loop_one.
  match goal with |- exists C', each _ ?b _ = _ /\ _ => set (body := b) end.
  destruct (upd_each (caddr ldc) (cdom ldc) (cinj ldc) (fun i e => rect (i0 + i) (i0 + i + Z.min mr (m - i)) j0 (j0 + n) e) (step_entry kern first k x y) body (starts m mr))
    with (s := C) as [C' [E U]].
  - apply starts_nodup; auto.
  - intros q [i j] Hq [P Q]. apply starts_in in Hq; auto. unfold cdom; cbn in *. lia.
  - intros q q' [i j] Hq Hq' [P _] [Q _]. apply starts_in in Hq; auto. apply starts_in in Hq'; auto. cbn in *.
    apply (block_unique mr q q' (i - i0)); try tauto; lia.
  - intros i s Hi Hs. pose proof (RA i Hi) as RAi. apply starts_in in Hi; auto. destruct Hi as [Hi Hdiv]. unfold body.
    replace (i0 + j0 * ldc + i) with (i0 + i + j0 * ldc) by ring.
    apply run_kernel_ok; auto; try lia.
    intros i' p Hi' Hp. rewrite <- (packed_block mr k i (i' - (i0 + i)) p) by (auto; lia). rewrite HA by lia. f_equal. f_equal. lia.
  - intros [i j] [q [Hq [P Q]]]. apply starts_in in Hq; auto. apply HC. unfold rect; cbn in *. lia.
  - exists C'. split; auto. eapply upd_ext; [| |exact U]; [|reflexivity].
    intros [i j]. unfold rect. cbn. pose proof (blocks_cover m mr (i - i0) Hmr) as Hc. split.
    + intros [q [Hq [P Q]]]. assert (0 <= i - i0 < m) by (apply Hc; exists q; split; [exact Hq|lia]). lia.
    + intros [P Q]. destruct (proj2 Hc) as [q [Hq Hq2]]; [lia|]. exists q. split; [exact Hq|lia].
Qed.

Lemma loop_two_ok kern mr nr first m n k A B (C : mem T) i0 j0 ldc x y :
  0 < mr -> 0 < nr -> 0 <= k -> 0 <= i0 -> i0 + m <= ldc ->
  (forall q, In q (starts m mr) -> readable A (q * k) (mr * k) = true) ->
  (forall q, In q (starts n nr) -> readable B (q * k) (nr * k) = true) ->
  packed mr m k A (fun i p => x (i0 + i) p) -> packed nr n k B (fun j p => y (j0 + j) p) ->
  have (caddr ldc) (rect i0 (i0 + m) j0 (j0 + n)) C ->
  exists C', loop_two zero kern mr nr first m n k A B (i0 + j0 * ldc) ldc C = Some C' /\
    upd (caddr ldc) (rect i0 (i0 + m) j0 (j0 + n)) (step_entry kern first k x y) C C'.
Proof.
  intros Hmr Hnr Hk Hi0 Hld RA RB HA HB HC. unfold loop_two.
  match goal with |- exists C', each _ ?b _ = _ /\ _ => set (body := b) end.
  destruct (upd_each (caddr ldc) (cdom ldc) (cinj ldc) (fun j e => rect i0 (i0 + m) (j0 + j) (j0 + j + Z.min nr (n - j)) e) (step_entry kern first k x y) body (starts n nr))
    with (s := C) as [C' [E U]].
  - apply starts_nodup; auto.
  - intros q [i j] Hq [P Q]. unfold cdom; cbn in *. lia.
  - intros q q' [i j] Hq Hq' [_ P] [_ Q]. apply starts_in in Hq; auto. apply starts_in in Hq'; auto. cbn in *.
    apply (block_unique nr q q' (j - j0)); try tauto; lia.
  - intros j s Hj Hs. pose proof (RB j Hj) as RBj. apply starts_in in Hj; auto. destruct Hj as [Hj Hdiv]. unfold body.
    replace (i0 + j0 * ldc + j * ldc) with (i0 + (j0 + j) * ldc) by ring.
    apply loop_one_ok; auto; try lia.
    intros j' p Hj' Hp. rewrite <- (packed_block nr k j (j' - (j0 + j)) p) by (auto; lia). rewrite HB by lia. f_equal. f_equal. lia.
  - intros [i j] [q [Hq [P Q]]]. apply starts_in in Hq; auto. apply HC. unfold rect; cbn in *. lia.
  - exists C'. split; auto. eapply upd_ext; [| |exact U]; [|reflexivity].
    intros [i j]. unfold rect. cbn. pose proof (blocks_cover n nr (j - j0) Hnr) as Hc. split.
    + intros [q [Hq [P Q]]]. assert (0 <= j - j0 < n) by (apply Hc; exists q; split; [exact Hq|lia]). lia.
    + intros [P Q]. destruct (proj2 Hc) as [q [Hq Hq2]]; [lia|]. exists q. split; [exact Hq|lia].
Qed.

Lemma panel_fits mr mc kc k q ib : 0 < mr -> (mr | mc) -> 0 <= k <= kc -> ib <= mc -> In q (starts ib mr) -> 0 <= q * k /\ q * k + mr * k <= mc * kc.
Proof.
  intros Hmr [c ->] Hk Hib Hq. apply starts_in in Hq; auto. destruct Hq as [Hq [t ->]].
  assert (t < c) by nia. assert (0 <= t) by nia. split; [apply Z.mul_nonneg_nonneg; nia|].
  assert ((t + 1) * mr <= c * mr) by (apply Z.mul_le_mono_nonneg_r; lia).
  assert (((t + 1) * mr) * k <= (c * mr) * kc) by (apply Z.mul_le_mono_nonneg; nia). lia.
Qed.
Lemma loop_three_ok kern mr nr mc kc g order first m n k X x0 ldx B (C : mem T) j0 ldc x y :
  0 < mr -> 0 < nr -> 0 < mc -> (mr | mc) -> 0 <= k <= kc -> m <= ldc ->
  NoDup order -> (forall i, In i order <-> 0 <= i < m /\ (mc | i)) ->
  (forall i p, 0 <= i < m -> 0 <= p < k -> X (x0 + i + p * ldx) = Some (x i p)) ->
  (forall q, In q (starts n nr) -> readable B (q * k) (nr * k) = true) ->
  packed nr n k B (fun j p => y (j0 + j) p) ->
  have (caddr ldc) (rect 0 m j0 (j0 + n)) C ->
  exists C', loop_three zero kern mr nr mc kc g order first m n k X x0 ldx B (j0 * ldc) ldc C = Some C' /\
    upd (caddr ldc) (rect 0 m j0 (j0 + n)) (step_entry kern first k x y) C C'.
Proof.
  intros Hmr Hnr Hmc Hdiv Hk Hld HND Hord HX RB HB HC. unfold loop_three.
  match goal with |- exists C', each _ ?b _ = _ /\ _ => set (body := b) end.
  destruct (upd_each (caddr ldc) (cdom ldc) (cinj ldc) (fun i e => rect i (i + Z.min mc (m - i)) j0 (j0 + n) e) (step_entry kern first k x y) body order)
    with (s := C) as [C' [E U]].
  - exact HND.
  - intros q [i j] Hq [P Q]. apply Hord in Hq; auto. unfold cdom; cbn in *. lia.
  - intros q q' [i j] Hq Hq' [P _] [Q _]. apply Hord in Hq; auto. apply Hord in Hq'; auto. cbn in *.
    apply (block_unique mc q q' i); try tauto; lia.
  - intros i s Hi Hs. apply Hord in Hi; auto. destruct Hi as [Hi Hdi]. unfold body. cbv zeta.
    destruct (pack_ok mr (Z.min mc (m - i)) k X (x0 + i) ldx (mc * kc) g (fun r p => x (i + r) p) mc) as [A [EA [PA KA]]]; auto; try lia; try nia.
    { intros r p Hr Hp. rewrite <- HX by lia. f_equal. ring. }
    rewrite EA. cbn [bind]. replace (j0 * ldc + i) with (i + j0 * ldc) by ring.
    apply loop_two_ok; auto; try lia.
    intros q Hq. destruct (panel_fits mr mc kc k q (Z.min mc (m - i))) as [F1 F2]; auto; try lia.
    apply (readable_alloc A (mc * kc) g); auto.
  - intros [i j] [q [Hq [P Q]]]. apply Hord in Hq; auto. apply HC. unfold rect; cbn in *. lia.
  - exists C'. split; auto. eapply upd_ext; [| |exact U]; [|reflexivity].
    intros [i j]. unfold rect. cbn. pose proof (blocks_cover m mc i Hmc) as Hc. split.
    + intros [q [Hq [P Q]]]. apply Hord in Hq. lia.
    + intros [P Q]. destruct (proj2 Hc) as [q [Hq Hq2]]; [lia|]. exists q. apply starts_in in Hq; auto. rewrite Hord. split; [exact Hq|lia].
Qed.

Lemma upd_refl (P : Z * Z -> Prop) ldc (m : mem T) : have (caddr ldc) P m -> upd (caddr ldc) P (fun _ v => v) m m.
Proof. intro H. split; [|split]; [intros x Hx; destruct (H x Hx) as [v Hv]; exists v; auto|auto|]. intros a v Hv; eauto. Qed.
Lemma upd_slices (P : Z * Z -> Prop) ldc (body : Z -> mem T -> option (mem T)) (F : Z -> Z * Z -> T -> T) l :
  (forall p s, In p l -> have (caddr ldc) P s -> exists s', body p s = Some s' /\ upd (caddr ldc) P (F p) s s') ->
  forall s, have (caddr ldc) P s -> exists s', each l body s = Some s' /\ upd (caddr ldc) P (fun e v => fold_left (fun v p => F p e v) l v) s s'.
Proof.
  induction l as [|p l IH]; intros HB s Hs; cbn.
  - exists s. split; [reflexivity|]. apply upd_refl, Hs.
  - destruct (HB p s (or_introl eq_refl) Hs) as [s1 [E1 U1]]. rewrite E1. cbn [bind].
    destruct (IH) with (s := s1) as [s2 [E2 U2]].
    + intros q s' Hq. apply HB. right; exact Hq.
    + destruct U1 as (_ & _ & K). exact (have_kept (caddr ldc) P s s1 K Hs).
    + exists s2. split; auto. exact (upd_comp (caddr ldc) P _ _ _ _ _ U1 U2).
Qed.
Lemma starts_cons k kc : 0 < kc -> 1 <= k -> starts k kc = 0 :: map (fun p => p + kc) (starts (k - kc) kc).
Proof.
  intros Hkc Hk. unfold starts. replace (k + kc - 1) with (k - kc + kc - 1 + 1 * kc) by ring. rewrite Z_div_plus by lia.
  set (q := (k - kc + kc - 1) / kc). assert (0 <= q) by (apply Z.div_pos; lia).
  unfold zrange. replace (Z.to_nat (q + 1)) with (S (Z.to_nat q)) by lia. cbn [seq map]. f_equal.
  rewrite <- seq_shift, !map_map. apply map_ext. intro a. lia.
Qed.
Definition run_slices (kern : T -> list (T * T) -> T) (kc k : Z) (x y : Z -> T) (l : list Z) (v : T) : T :=
  fold_left (fun v p => kern v (pairs x y p (Z.min kc (k - p)))) l v.
Lemma value_slices kern kc k x y : value zero kern kc k x y = run_slices kern kc k x y (starts k kc) zero.
Proof.
  unfold value, run_slices, starts. generalize (zrange ((k + kc - 1) / kc)). intro l. generalize zero. induction l as [|q l IH]; intro v; cbn; [reflexivity|apply IH].
Qed.

Lemma loop_four_ok kern mr nr mc nc kc g order m n k X ldx Y ldy (C : mem T) j0 ldc x y :
  0 < mr -> 0 < nr -> 0 < mc -> 0 < nc -> 0 < kc -> (mr | mc) -> (nr | nc) -> 1 <= k -> 0 <= n <= nc -> m <= ldc -> 0 <= j0 ->
  (forall p, NoDup (order p) /\ forall i, In i (order p) <-> 0 <= i < m /\ (mc | i)) ->
  (forall i p, 0 <= i < m -> 0 <= p < k -> X (i + p * ldx) = Some (x i p)) ->
  (forall j p, j0 <= j < j0 + n -> 0 <= p < k -> Y (j + p * ldy) = Some (y j p)) ->
  have (caddr ldc) (rect 0 m j0 (j0 + n)) C ->
  exists C', loop_four zero kern mr nr mc nc kc g order m n k X ldx Y j0 ldy (j0 * ldc) ldc C = Some C' /\
    upd (caddr ldc) (rect 0 m j0 (j0 + n)) (fun e _ => value zero kern kc k (x (fst e)) (y (snd e))) C C'.
Proof.
  intros Hmr Hnr Hmc Hnc Hkc Hd1 Hd2 Hk Hn Hld Hj0 Hord HX HY HC. unfold loop_four.
  set (slice := fun p first C => slice_four zero kern mr nr mc nc kc g (order p) m n k X ldx Y j0 ldy (j0 * ldc) ldc p first C).
  assert (Hslice : forall p first s, 0 <= p < k -> have (caddr ldc) (rect 0 m j0 (j0 + n)) s ->
    exists s', slice p first s = Some s' /\
      upd (caddr ldc) (rect 0 m j0 (j0 + n)) (fun e v => kern (if first then zero else v) (pairs (x (fst e)) (y (snd e)) p (Z.min kc (k - p)))) s s').
  { intros p first s Hp Hs. unfold slice, slice_four. cbv zeta.
    destruct (pack_ok nr n (Z.min kc (k - p)) Y (j0 + p * ldy) ldy (nc * kc) g (fun j r => y (j0 + j) (p + r)) nc) as [B [EB [PB KB]]]; auto; try lia; try nia.
    { intros i r Hi Hr. rewrite <- HY by lia. f_equal. ring. }
    rewrite EB. cbn [bind]. destruct (Hord p) as [O1 O2].
    apply (loop_three_ok kern mr nr mc kc g (order p) first m n (Z.min kc (k - p)) X (p * ldx) ldx B s j0 ldc (fun i r => x i (p + r)) (fun j r => y j (p + r))); auto; try lia.
    - intros i r Hi Hr. rewrite <- HX by lia. f_equal. ring.
    - intros q Hq. destruct (panel_fits nr nc kc (Z.min kc (k - p)) q n) as [F1 F2]; auto; try lia.
      apply (readable_alloc B (nc * kc) g); auto. }
  destruct (Hslice 0 true C) as [C1 [E1 U1]]; [lia|exact HC|]. unfold slice in E1. rewrite E1. cbn [bind].
  destruct (upd_slices (rect 0 m j0 (j0 + n)) ldc (fun p C => slice p false C)
    (fun p e v => kern v (pairs (x (fst e)) (y (snd e)) p (Z.min kc (k - p)))) (map (fun p => p + kc) (starts (k - kc) kc))) with (s := C1) as [C2 [E2 U2]].
  - intros p s Hp Hs. apply in_map_iff in Hp. destruct Hp as [p' [<- Hp']]. apply starts_in in Hp'; auto.
    destruct (Hslice (p' + kc) false s) as [s' [E U]]; [lia|exact Hs|]. exists s'. auto.
  - destruct U1 as (_ & _ & K). exact (have_kept (caddr ldc) _ C C1 K HC).
  - exists C2. split; auto. eapply upd_ext; [| |exact (upd_comp (caddr ldc) _ _ _ _ _ _ U1 U2)]; [reflexivity|].
    intros e v _ _. cbn beta. rewrite value_slices, (starts_cons k kc) by lia. unfold run_slices. cbn [fold_left]. reflexivity.
Qed.

Lemma run_post_ok post m n (C : mem T) j0 ldc :
  m <= ldc -> have (caddr ldc) (rect 0 m j0 (j0 + n)) C ->
  exists C', run_post post m n (j0 * ldc) ldc C = Some C' /\
    upd (caddr ldc) (rect 0 m j0 (j0 + n)) (fun e v => post (fst e) (snd e - j0) v) C C'.
Proof.
  intros Hld HC. unfold run_post.
  match goal with |- exists C', each _ ?b _ = _ /\ _ => set (body := b) end.
  destruct (upd_each (caddr ldc) (cdom ldc) (cinj ldc) (fun j e => rect 0 m (j0 + j) (j0 + j + 1) e) (fun e v => post (fst e) (snd e - j0) v) body (zrange n)) with (s := C)
    as [C' [E U]].
  - apply zrange_nodup.
  - intros q [i j] Hq [P Q]. unfold cdom; cbn in *. lia.
  - intros q q' [i j] _ _ [_ P] [_ Q]. cbn in *. lia.
  - intros j s Hj Hs. apply in_zrange in Hj. unfold body.
    match goal with |- exists s', fill _ _ _ ?f = _ /\ _ => set (ff := f) end.
    set (newv := fun e : Z * Z => match s (caddr ldc e) with Some v => post (fst e) (snd e - j0) v | None => zero end).
    destruct (upd_fill (caddr ldc) (cdom ldc) (cinj ldc) s (j0 * ldc + j * ldc) m ff (fun r => (r, j0 + j)) newv) as [s' [E U]].
    + intros r Hr. assert (Ha : caddr ldc (r, j0 + j) = j0 * ldc + j * ldc + r) by (unfold caddr; cbn; ring).
      split; [exact Ha|]. split; [unfold cdom; cbn; lia|].
      destruct (Hs (r, j0 + j)) as [v Hv]; [split; cbn; lia|]. rewrite Ha in Hv. split.
      * unfold ff, newv. rewrite Ha, Hv. cbn. f_equal. f_equal. lia.
      * eauto.
    + exists s'. split; auto. eapply upd_ext; [| |exact U].
      * intros [i j']. unfold rect. cbn. split.
        -- intros [r [Hr Heq]]. inversion Heq. lia.
        -- intros [P Q]. exists i. split; [lia|]. f_equal; lia.
      * intros e v _ Hv. unfold newv. rewrite Hv. reflexivity.
  - intros [i j] [q [Hq [P Q]]]. apply in_zrange in Hq. apply HC. unfold rect; cbn in *. lia.
  - exists C'. split; auto. eapply upd_ext; [| |exact U]; [|reflexivity].
    intros [i j]. unfold rect. cbn. split.
    + intros [q [Hq [P Q]]]. apply in_zrange in Hq. lia.
    + intros [P Q]. exists (j - j0). rewrite in_zrange. lia.
Qed.

Definition after (post : option (post_op (T := T))) (i j : Z) (v : T) : T := match post with Some f => f i j v | None => v end.
Lemma loop_five_ok kern mr nr mc nc kc post g order m n k X ldx Y ldy (C : mem T) ldc x y :
  0 < mr -> 0 < nr -> 0 < mc -> 0 < nc -> 0 < kc -> (mr | mc) -> (nr | nc) -> 1 <= k -> m <= ldc ->
  schedule mc m order ->
  (forall i p, 0 <= i < m -> 0 <= p < k -> X (i + p * ldx) = Some (x i p)) ->
  (forall j p, 0 <= j < n -> 0 <= p < k -> Y (j + p * ldy) = Some (y j p)) ->
  have (caddr ldc) (rect 0 m 0 n) C ->
  exists C', loop_five zero kern mr nr mc nc kc post g order m n k X ldx Y ldy ldc C = Some C' /\
    upd (caddr ldc) (rect 0 m 0 n) (fun e _ => after post (fst e) (snd e mod nc) (value zero kern kc k (x (fst e)) (y (snd e)))) C C'.
Proof.
  intros Hmr Hnr Hmc Hnc Hkc Hd1 Hd2 Hk Hld Hord HX HY HC. unfold loop_five.
  match goal with |- exists C', each _ ?b _ = _ /\ _ => set (body := b) end.
  match goal with |- exists C', _ /\ upd _ _ ?g0 _ _ => set (G := g0) end.
  destruct (upd_each (caddr ldc) (cdom ldc) (cinj ldc) (fun j e => rect 0 m j (j + Z.min nc (n - j)) e) G body (starts n nc)) with (s := C)
    as [C' [E U]].
  - apply starts_nodup; auto.
  - intros q [i j] Hq [P Q]. unfold cdom; cbn in *. lia.
  - intros q q' [i j] Hq Hq' [_ P] [_ Q]. apply starts_in in Hq; auto. apply starts_in in Hq'; auto. cbn in *.
    apply (block_unique nc q q' j); try tauto; lia.
  - intros j s Hj Hs. apply starts_in in Hj; auto. destruct Hj as [Hj Hdj]. unfold body. cbv zeta.
    destruct (loop_four_ok kern mr nr mc nc kc g (order j) m (Z.min nc (n - j)) k X ldx Y ldy s j ldc x y) as [s1 [E1 U1]]; auto; try lia.
    { intros j' p Hj' Hp. apply HY; lia. }
    rewrite E1. cbn [bind].
    assert (Hmod : forall e, rect 0 m j (j + Z.min nc (n - j)) e -> snd e - j = snd e mod nc).
    { intros [i j'] [_ Q]. cbn in *. destruct Hdj as [q ->]. replace j' with (j' - q * nc + q * nc) at 2 by ring. rewrite Z_mod_plus, Z.mod_small by lia. reflexivity. }
    destruct post as [f|].
    + destruct (run_post_ok f m (Z.min nc (n - j)) s1 j ldc Hld) as [s2 [E2 U2]].
      { destruct U1 as (_ & _ & K). exact (have_kept (caddr ldc) _ s s1 K Hs). }
      exists s2. split; auto. eapply upd_ext; [| |exact (upd_comp (caddr ldc) _ _ _ _ _ _ U1 U2)]; [reflexivity|].
      intros e v He _. unfold G, after. rewrite <- Hmod by exact He. reflexivity.
    + exists s1. split; auto.
  - intros [i j] [q [Hq [P Q]]]. apply starts_in in Hq; auto. apply HC. unfold rect; cbn in *. lia.
  - exists C'. split; auto. eapply upd_ext; [| |exact U]; [|reflexivity].
    intros [i j]. unfold rect. cbn. pose proof (blocks_cover n nc j Hnc) as Hc. split.
    + intros [q [Hq [P Q]]]. assert (0 <= j < n) by (apply Hc; exists q; split; [exact Hq|lia]). lia.
    + intros [P Q]. destruct (proj2 Hc) as [q [Hq Hq2]]; [lia|]. exists q. split; [exact Hq|lia].
Qed.

(** ** Transposes *)
Lemma transpose_ok rows cols from to_ (A B : mem T) x :
  (forall i j i' j', 0 <= i < rows -> 0 <= j < cols -> 0 <= i' < rows -> 0 <= j' < cols -> to_ i j = to_ i' j' -> i = i' /\ j = j') ->
  (forall i j, 0 <= i < rows -> 0 <= j < cols -> A (from i j) = Some (x i j)) ->
  (forall i j, 0 <= i < rows -> 0 <= j < cols -> exists v, B (to_ i j) = Some v) ->
  exists B', transpose rows cols from to_ A B = Some B' /\
    (forall i j, 0 <= i < rows -> 0 <= j < cols -> B' (to_ i j) = Some (x i j)) /\
    (forall a, (forall i j, 0 <= i < rows -> 0 <= j < cols -> a <> to_ i j) -> B' a = B a).
Proof.
  intros Hinj HA HB. unfold transpose.
  set (addr := fun e : Z * Z => to_ (fst e) (snd e)). set (dom := fun e : Z * Z => 0 <= fst e < rows /\ 0 <= snd e < cols).
  assert (I : forall e e', dom e -> dom e' -> addr e = addr e' -> e = e').
  { intros [i j] [i' j'] [P Q] [P' Q'] H. unfold addr in H. cbn in *. destruct (Hinj i j i' j' P Q P' Q' H); subst; reflexivity. }
  match goal with |- exists C', each _ ?b _ = _ /\ _ => set (body := b) end.
  destruct (upd_each addr dom I (fun i e => fst e = i /\ 0 <= snd e < cols) (fun e _ => x (fst e) (snd e)) body (zrange rows)) with (s := B) as [B' [E U]].
  - apply zrange_nodup.
  - intros q e Hq [<- Q]. apply in_zrange in Hq. split; assumption.
  - intros q q' e _ _ [P _] [Q _]. congruence.
  - intros i s Hi Hs. apply in_zrange in Hi. unfold body.
    match goal with |- exists C', each _ ?b _ = _ /\ _ => set (body' := b) end.
    destruct (upd_each addr dom I (fun j e => (i, j) = e) (fun e _ => x (fst e) (snd e)) body' (zrange cols)) with (s := s) as [s' [E U]].
    + apply zrange_nodup.
    + intros q e Hq <-. apply in_zrange in Hq. split; assumption.
    + intros q q' e _ _ <- H. congruence.
    + intros j s1 Hj Hs1. apply in_zrange in Hj. unfold body'. rewrite HA by assumption. cbn [bind].
      destruct (upd_store addr s1 (i, j) (x i j)) as [s2 [E2 U2]]; [apply Hs1; reflexivity|].
      exists s2. split; auto. eapply upd_ext; [| |exact U2]; [reflexivity|]. intros e v <- _. reflexivity.
    + intros e [j [Hj <-]]. apply in_zrange in Hj. apply Hs. cbn. auto.
    + exists s'. split; auto. eapply upd_ext; [| |exact U]; [|reflexivity]. intros [i' j']. cbn. split.
      * intros [j [Hj Heq]]. inversion Heq; subst. apply in_zrange in Hj. auto.
      * intros [-> Q]. exists j'. rewrite in_zrange. auto.
  - intros [i j] [q [Hq [P Q]]]. apply in_zrange in Hq. cbn in *. subst q. apply HB; assumption.
  - exists B'. split; auto. destruct U as (U1 & U2 & _). split.
    + intros i j Hi Hj. destruct (U1 (i, j)) as [v [_ Hv]]; [|exact Hv]. exists i. rewrite in_zrange. cbn. auto.
    + intros a Ha. apply U2. intros [i j] [q [Hq [P Q]]]. apply in_zrange in Hq. cbn in *. subst q. apply Ha; assumption.
Qed.
Lemma alloc_some size g a : 0 <= a < size -> @alloc T size g a = Some (g a).
Proof. intro H. unfold alloc. destruct (Z.leb_spec 0 a), (Z.ltb_spec a size); try lia. reflexivity. Qed.

Lemma lin_inj m i j i' j' : 0 <= i < m -> 0 <= i' < m -> j * m + i = j' * m + i' -> i = i' /\ j = j'.
Proof. intros. assert (j = j') by nia. subst. lia. Qed.
Lemma lin_range m k i j : 0 <= i < m -> 0 <= j < k -> 0 <= j * m + i < m * k.
Proof. nia. Qed.
Lemma dispatch_ok b kern post g sched o m n k X ldx Y ldy (D : mem T) ldd x y :
  good_sizes b -> 1 <= k -> ld_ok o m n ldd -> schedule (MC b) m sched ->
  holds o m k ldx X x -> holds o n k ldy Y y -> room o m n ldd D ->
  exists D', dispatch zero b kern post g sched o m n k X ldx Y ldy D ldd = Some D' /\
    written o m n ldd D D' (fun i j => after post i (j mod NC b) (value zero kern (KC b) k (x i) (y j))).
Proof.
  intros (G1 & G2 & G3 & G4 & G5 & G6 & G7) Hk Hld Hs HX HY HD. unfold dispatch. destruct o.
  - destruct (loop_five_ok kern (MR b) (NR b) (MC b) (NC b) (KC b) post g sched m n k X ldx Y ldy D ldd x y) as [D' [E (U1 & U2 & _)]]; auto.
    + intros [i j] [P Q]. exact (HD i j P Q).
    + exists D'. split; auto. split.
      * intros i j Hi Hj. destruct (U1 (i, j)) as [v [_ Hv]]; [split; assumption|exact Hv].
      * intros a Ha. apply U2. intros [i j] [P Q]. exact (Ha i j P Q).
  - cbn in Hld.
    destruct (transpose_ok m k (fun i j => i * ldx + j) (fun i j => j * m + i) X (alloc (m * k) (fun _ => zero)) x) as [X' [EX [HX' _]]].
    { intros i j i' j' H1 H2 H3 H4 H. exact (lin_inj m i j i' j' H1 H3 H). }
    { exact HX. }
    { intros i j Hi Hj. rewrite alloc_some by (apply lin_range; assumption). eauto. }
    rewrite EX. cbn [bind].
    destruct (transpose_ok n k (fun i j => i * ldy + j) (fun i j => j * n + i) Y (alloc (n * k) (fun _ => zero)) y) as [Y' [EY [HY' _]]].
    { intros i j i' j' H1 H2 H3 H4 H. exact (lin_inj n i j i' j' H1 H3 H). }
    { exact HY. }
    { intros i j Hi Hj. rewrite alloc_some by (apply lin_range; assumption). eauto. }
    rewrite EY. cbn [bind].
    destruct (loop_five_ok kern (MR b) (NR b) (MC b) (NC b) (KC b) post g sched m n k X' m Y' n (alloc (m * n) (fun _ => zero)) m x y) as [D1 [E1 (U1 & _)]]; auto; try lia.
    { intros i p Hi Hp. rewrite <- HX' by assumption. f_equal. ring. }
    { intros i p Hi Hp. rewrite <- HY' by assumption. f_equal. ring. }
    { intros [i j] [P Q]. unfold caddr. cbn in *. rewrite alloc_some by (rewrite Z.add_comm; apply lin_range; assumption). eauto. }
    rewrite E1. cbn [bind].
    destruct (transpose_ok m n (fun i j => j * m + i) (fun i j => i * ldd + j) D1 D (fun i j => after post i (j mod NC b) (value zero kern (KC b) k (x i) (y j)))) as [D2 [E2 [H1 H2]]].
    { intros i j i' j' H1 H2 H3 H4 H. destruct (lin_inj ldd j i j' i') as [-> ->]; try lia; auto. }
    { intros i j Hi Hj. destruct (U1 (i, j)) as [v [_ Hv]]; [split; assumption|]. unfold caddr in Hv. cbn in Hv. rewrite <- Hv. f_equal. ring. }
    { exact HD. }
    exists D2. split; auto. split; assumption.
Qed.
End Elements.
