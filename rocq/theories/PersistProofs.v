From Coq Require Import ZArith List Bool Lia String.
From Verif Require Import Base PersistModel PersistSpec.
Import ListNotations.
Local Open Scope Z_scope.

(** * Bytes *)
Lemma le_bytes_length n z : List.length (le_bytes n z) = n.
Proof. revert z. induction n; simpl; auto. Qed.

Lemma of_le_bytes n : forall z, of_le (le_bytes n z) = z mod 256 ^ Z.of_nat n.
Proof.
  induction n as [|n IH]; intros z.
  - simpl. rewrite Z.mod_1_r. reflexivity.
  - cbn [of_le le_bytes]. rewrite IH. rewrite Nat2Z.inj_succ, Z.pow_succ_r by lia.
    assert (0 < 256 ^ Z.of_nat n) by (apply Z.pow_pos_nonneg; lia).
    symmetry. apply Z.rem_mul_r; lia.
Qed.

Lemma of_le_range l : bytes_ok l -> 0 <= of_le l < 256 ^ len l.
Proof.
  induction 1 as [|b l Hb Hl IH]; unfold len in *; cbn [of_le].
  - simpl. lia.
  - simpl List.length. rewrite Nat2Z.inj_succ, Z.pow_succ_r by lia. cbv beta in Hb. lia.
Qed.

Lemma le_bytes_ok n : forall z, bytes_ok (le_bytes n z).
Proof.
  induction n as [|n IH]; intros z; simpl; constructor; auto.
  - apply Z.mod_pos_bound. lia.
  - apply IH.
Qed.

Lemma to_signed_id b z : 0 < b -> - 2 ^ (b - 1) <= z < 2 ^ (b - 1) -> to_signed b z = z.
Proof.
  intros Hb Hz. unfold to_signed.
  assert (E : 2 ^ b = 2 * 2 ^ (b - 1)).
  { rewrite <- Z.pow_succ_r by lia. f_equal. lia. }
  destruct (Z_lt_ge_dec z 0).
  - replace (z mod 2 ^ b) with (z + 2 ^ b).
    + destruct (Z.ltb_spec (z + 2 ^ b) (2 ^ (b - 1))); lia.
    + rewrite <- (Z_mod_plus_full z 1 (2 ^ b)), Z.mod_small; lia.
  - rewrite Z.mod_small by lia. destruct (Z.ltb_spec z (2 ^ (b - 1))); lia.
Qed.

Lemma to_signed_mod b z : 0 < b -> to_signed b (z mod 2 ^ b) = to_signed b z.
Proof. intros. unfold to_signed. rewrite Zmod_mod. reflexivity. Qed.

Lemma to_signed_range b z : 0 < b -> - 2 ^ (b - 1) <= to_signed b z < 2 ^ (b - 1).
Proof.
  intros Hb. unfold to_signed.
  assert (E : 2 ^ b = 2 * 2 ^ (b - 1)).
  { rewrite <- Z.pow_succ_r by lia. f_equal. lia. }
  assert (0 < 2 ^ (b - 1)) by (apply Z.pow_pos_nonneg; lia).
  pose proof (Z.mod_pos_bound z (2 ^ b)).
  destruct (Z.ltb_spec (z mod 2 ^ b) (2 ^ (b - 1))); lia.
Qed.

Lemma from_saved_id iw iw' s z : iw_ok iw -> iw_ok iw' -> iw <= iw' -> scalar_ok iw s z ->
  from_saved iw' s (z mod 256 ^ Z.of_nat (saved_bytes s)) = z.
Proof.
  intros Hi Hi' Hle H. destruct s; simpl in *.
  - destruct H; subst; reflexivity.
  - change (Z.pow_pos 256 8) with (2 ^ 64). rewrite to_signed_mod by lia.
    rewrite (to_signed_id 64).
    + apply to_signed_id; destruct Hi, Hi'; subst; simpl in *; lia.
    + lia.
    + destruct Hi; subst; simpl in *; lia.
  - change (Z.pow_pos 256 8) with (2 ^ 64). rewrite to_signed_mod by lia.
    rewrite (to_signed_id 64) by lia. apply Z.mod_small. lia.
  - change (Z.pow_pos 256 1) with (2 ^ 8). rewrite to_signed_mod by lia.
    apply to_signed_id; lia.
  - apply Z.mod_small. simpl in *. lia.
  - apply Z.mod_small. simpl in *. lia.
Qed.

Lemma from_saved_ok iw s u : iw_ok iw -> 0 <= u < 256 ^ Z.of_nat (saved_bytes s) ->
  scalar_ok iw s (from_saved iw s u).
Proof.
  intros Hi Hu. destruct s; simpl in *.
  - destruct (u =? 0); auto.
  - apply to_signed_range. destruct Hi; subst; lia.
  - apply Z.mod_pos_bound. reflexivity.
  - pose proof (to_signed_range 8 u). simpl in *. lia.
  - lia.
  - lia.
Qed.

(** * Encoding *)
Section VInd.
  Variable P : val -> Prop.
  Hypothesis HS : forall s z, P (VS s z).
  Hypothesis HV : forall l, Forall P l -> P (VV l).
  Fixpoint val_ind' (v : val) : P v :=
    match v with
    | VS s z => HS s z
    | VV l => HV l ((fix go (l : list val) : Forall P l :=
                       match l with [] => Forall_nil P
                               | x :: r => Forall_cons x (val_ind' x) (go r) end) l)
    end.
End VInd.

Fixpoint enc (v : val) : list Z :=
  match v with
  | VS s z => le_bytes (saved_bytes s) z
  | VV l => le_bytes 8 (len l) ++ flat_map enc l
  end.

Lemma len_app {A} (a b : list A) : len (a ++ b) = len a + len b.
Proof. unfold len. rewrite app_length. lia. Qed.
Lemma len_nonneg {A} (a : list A) : 0 <= len a.
Proof. unfold len. lia. Qed.
Lemma len_le_bytes n z : len (le_bytes n z) = Z.of_nat n.
Proof. unfold len. rewrite le_bytes_length. reflexivity. Qed.

Lemma enc_len v : len (enc v) = type_size v.
Proof.
  induction v as [s z|l IH] using val_ind'; cbn [enc type_size].
  - apply len_le_bytes.
  - rewrite len_app, len_le_bytes. change (Z.of_nat 8) with 8. f_equal.
    induction IH as [|x r Hx Hr IHr]; auto. simpl. rewrite len_app, Hx, IHr. reflexivity.
Qed.

Lemma enc_list_len l : len (flat_map enc l) = fold_right (fun x a => type_size x + a) 0 l.
Proof.
  induction l as [|x r IH]; auto. simpl. rewrite len_app, enc_len, IH. reflexivity.
Qed.

Lemma type_size_pos v : 1 <= type_size v.
Proof.
  destruct v as [s z|l].
  - destruct s; simpl; lia.
  - cbn [type_size]. rewrite <- enc_list_len. pose proof (len_nonneg (flat_map enc l)). lia.
Qed.

Lemma insert_ok size w b : len w + len b <= size -> insert_bytes size w b = (st_success, w ++ b).
Proof.
  intros H. unfold insert_bytes. pose proof (len_nonneg b).
  destruct (Z.ltb_spec size (len w)); [lia|].
  destruct (Z.ltb_spec (size - len w) (len b)); [lia|]. reflexivity.
Qed.

Definition sitems (f : val -> list Z -> da_status * list Z) :=
  fix items (l : list val) (w : list Z) : da_status * list Z :=
    match l with
    | [] => (st_success, w)
    | x :: r => let '(st, w') := f x w in if is_success st then items r w' else (st, w')
    end.

Lemma serialize_vv size l w : serialize size (VV l) w =
  let '(st, w1) := insert_bytes size w (le_bytes 8 (len l)) in
  if negb (is_success st) then (st, w1) else sitems (serialize size) l w1.
Proof. reflexivity. Qed.

Lemma serialize_ok size v : forall w, len w + type_size v <= size ->
  serialize size v w = (st_success, w ++ enc v).
Proof.
  induction v as [s z|l IH] using val_ind'; intros w H.
  - cbn [serialize enc type_size] in *. apply insert_ok. rewrite len_le_bytes. lia.
  - rewrite serialize_vv. cbn [enc]. rewrite <- enc_len in H. cbn [enc] in H.
    rewrite len_app, len_le_bytes in H. change (Z.of_nat 8) with 8 in H.
    pose proof (len_nonneg (flat_map enc l)).
    rewrite insert_ok by (rewrite len_le_bytes; change (Z.of_nat 8) with 8; lia).
    cbn [is_success negb]. rewrite app_assoc.
    assert (H' : len (w ++ le_bytes 8 (len l)) + len (flat_map enc l) <= size)
      by (rewrite len_app, len_le_bytes; change (Z.of_nat 8) with 8; lia).
    clear H. revert H'. generalize (w ++ le_bytes 8 (len l)). clear H0.
    induction IH as [|x r Hx Hr IHr]; intros u H'; cbn [sitems flat_map] in *.
    + rewrite app_nil_r. reflexivity.
    + rewrite len_app in H'. pose proof (len_nonneg (flat_map enc r)).
      rewrite Hx by (rewrite <- enc_len; lia). cbn [is_success].
      fold (sitems (serialize size)). rewrite IHr by (rewrite len_app; lia).
      rewrite app_assoc. reflexivity.
Qed.

(** * Decoding *)
Lemma mem_read_mid pre b post n : List.length b = n ->
  mem_read (pre ++ b ++ post) (len pre) n = Some b.
Proof.
  intros H. unfold mem_read. rewrite !len_app.
  pose proof (len_nonneg pre). pose proof (len_nonneg post).
  assert (E : len b = Z.of_nat n) by (unfold len; lia).
  destruct (Z.leb_spec 0 (len pre)); [|lia].
  destruct (Z.leb_spec (len pre + Z.of_nat n) (len pre + (len b + len post))); [|lia].
  cbn [andb]. unfold len at 1. rewrite Nat2Z.id. rewrite skipn_app, skipn_all, Nat.sub_diag.
  cbn [skipn app]. rewrite firstn_app, H, Nat.sub_diag. cbn [firstn]. rewrite app_nil_r.
  rewrite firstn_all2 by lia. reflexivity.
Qed.

Definition ditems (iw : Z) (f : Z -> rd val) :=
  fix items (k : nat) (i : Z) (acc : list val) (off : Z) : rd val :=
    match k with
    | O => ROk (VV (rev acc)) off
    | S k' =>
        match f off with
        | ROk x off' => if i =? int_max iw then RUb else items k' (i + 1) (x :: acc) off'
        | RErr st => RErr st
        | RUb => RUb
        end
    end.

Lemma deserialize_tv iw data size t off : deserialize iw data size (TV t) off =
  if size <? off + 8 then RErr st_invalid_file_data
  else match mem_read data off 8 with
       | None => RUb
       | Some b =>
           let n := to_signed 64 (of_le b) in
           if (n <? 0) || (size - (off + 8) <? n) then RErr st_invalid_file_data
           else ditems iw (deserialize iw data size t) (Z.to_nat n) 0 [] (off + 8)
       end.
Proof. reflexivity. Qed.

Lemma int_max_mono iw iw' : iw_ok iw -> iw_ok iw' -> iw <= iw' -> int_max iw <= int_max iw'.
Proof. intros [->| ->] [->| ->] H; unfold int_max; simpl; lia. Qed.
Lemma int_max_64 iw : iw_ok iw -> int_max iw < 2 ^ 63.
Proof. intros [->| ->]; unfold int_max; simpl; lia. Qed.

Lemma fold_size_ge l : len l <= fold_right (fun x a => type_size x + a) 0 l.
Proof.
  induction l as [|x r IH]; unfold len in *; simpl List.length; simpl fold_right; [lia|].
  pose proof (type_size_pos x). lia.
Qed.

Lemma roundtrip_mid iw iw' t v : iw_ok iw -> iw_ok iw' -> iw <= iw' -> typed iw t v ->
  forall pre post, let data := pre ++ enc v ++ post in
    deserialize iw' data (len data) t (len pre) = ROk v (len pre + type_size v).
Proof.
  intros Hi Hi' Hle HT. induction HT as [s z Hs|t l Hl Hty IH]; intros pre post data.
  - cbn [deserialize]. unfold data. cbn [enc type_size].
    rewrite !len_app, len_le_bytes. pose proof (len_nonneg post).
    destruct (Z.ltb_spec (len pre + (Z.of_nat (saved_bytes s) + len post))
                         (len pre + Z.of_nat (saved_bytes s))); [lia|].
    rewrite mem_read_mid by apply le_bytes_length.
    rewrite of_le_bytes, (from_saved_id iw iw'); auto.
  - rewrite deserialize_tv. cbn [type_size].
    assert (Eb : of_le (le_bytes 8 (len l)) = len l).
    { rewrite of_le_bytes. apply Z.mod_small. pose proof (len_nonneg l).
      pose proof (int_max_64 iw Hi). change (256 ^ Z.of_nat 8) with (2 ^ 64). lia. }
    assert (En : to_signed 64 (len l) = len l).
    { apply to_signed_id; [lia|]. pose proof (len_nonneg l). pose proof (int_max_64 iw Hi).
      simpl in *. lia. }
    assert (Ed : data = pre ++ le_bytes 8 (len l) ++ (flat_map enc l ++ post)).
    { unfold data. cbn [enc]. rewrite <- app_assoc. reflexivity. }
    assert (El : len data = len pre + (8 + (len (flat_map enc l) + len post))).
    { rewrite Ed, !len_app, len_le_bytes. reflexivity. }
    pose proof (len_nonneg post). pose proof (len_nonneg (flat_map enc l)).
    destruct (Z.ltb_spec (len data) (len pre + 8)); [lia|].
    rewrite Ed at 1. rewrite mem_read_mid by apply le_bytes_length.
    rewrite Eb, En. cbn zeta.
    pose proof (len_nonneg l).
    destruct (Z.ltb_spec (len l) 0); [lia|]. cbn [orb].
    pose proof (fold_size_ge l) as Hge. rewrite <- enc_list_len in Hge.
    destruct (Z.ltb_spec (len data - (len pre + 8)) (len l)); [lia|].
    assert (Gen : forall l2 l1, l = l1 ++ l2 ->
      ditems iw' (deserialize iw' data (len data) t) (List.length l2) (len l1) (rev l1)
             (len pre + 8 + len (flat_map enc l1))
      = ROk (VV l) (len pre + 8 + len (flat_map enc l))).
    { induction l2 as [|x l2 IH2]; intros l1 E.
      - simpl. rewrite app_nil_r in E. subst l1. rewrite rev_involutive. reflexivity.
      - simpl List.length. cbn [ditems]. fold (ditems iw' (deserialize iw' data (len data) t)).
        assert (Ed2 : data = (pre ++ le_bytes 8 (len l) ++ flat_map enc l1) ++
                             enc x ++ (flat_map enc l2 ++ post)).
        { rewrite Ed. rewrite E at 2. rewrite flat_map_app. simpl flat_map.
          rewrite <- !app_assoc. reflexivity. }
        assert (Eo : len pre + 8 + len (flat_map enc l1)
                     = len (pre ++ le_bytes 8 (len l) ++ flat_map enc l1)).
        { rewrite !len_app, len_le_bytes. change (Z.of_nat 8) with 8. lia. }
        rewrite Eo. rewrite Ed2.
        rewrite IH by (subst l; apply in_or_app; right; left; reflexivity).
        rewrite <- Ed2.
        assert (len l1 <> int_max iw').
        { pose proof (int_max_mono iw iw' Hi Hi' Hle).
          assert (len l = len l1 + 1 + len l2) by (subst l; unfold len; rewrite app_length; simpl; lia).
          pose proof (len_nonneg l2). lia. }
        destruct (Z.eqb_spec (len l1) (int_max iw')); [contradiction|].
        specialize (IH2 (l1 ++ [x])). rewrite rev_app_distr in IH2. cbn [rev app] in IH2.
        rewrite len_app in IH2. change (len [x]) with 1 in IH2.
        rewrite flat_map_app, len_app in IH2. simpl flat_map in IH2. rewrite app_nil_r in IH2.
        rewrite enc_len in IH2. rewrite <- IH2 by (subst l; rewrite <- app_assoc; reflexivity).
        f_equal. lia. }
    specialize (Gen l [] eq_refl). simpl flat_map in Gen. change (len []) with 0 in Gen.
    simpl rev in Gen. rewrite Z.add_0_r in Gen.
    replace (Z.to_nat (len l)) with (List.length l) by (unfold len; rewrite Nat2Z.id; reflexivity).
    rewrite Gen. rewrite enc_list_len. f_equal. lia.
Qed.

(** C08 *)
Lemma save_load_value_lemma : forall iw iw' t v pre post size,
  iw_ok iw -> iw_ok iw' -> iw <= iw' -> typed iw t v -> len pre + type_size v <= size ->
  exists w, serialize size v pre = (st_success, pre ++ w) /\ len w = type_size v /\
    deserialize iw' (pre ++ w ++ post) (len (pre ++ w ++ post)) t (len pre)
      = ROk v (len pre + len w).
Proof.
  intros iw iw' t v pre post size Hi Hi' Hle HT Hs.
  exists (enc v). split; [apply serialize_ok; auto|]. rewrite enc_len. split; auto.
  apply (roundtrip_mid iw iw'); auto.
Qed.

Lemma serialize_too_small size v : forall w, len w <= size -> size < len w + type_size v ->
  fst (serialize size v w) = st_internal_error.
Proof.
  induction v as [s z|l IH] using val_ind'; intros w Hw H.
  - cbn [serialize type_size] in *. unfold insert_bytes. rewrite len_le_bytes.
    destruct (Z.ltb_spec size (len w)); [lia|].
    destruct (Z.ltb_spec (size - len w) (Z.of_nat (saved_bytes s))); [reflexivity|lia].
  - rewrite serialize_vv. cbn [type_size] in H.
    destruct (Z_lt_ge_dec (size - len w) 8).
    + unfold insert_bytes. rewrite len_le_bytes. change (Z.of_nat 8) with 8.
      destruct (Z.ltb_spec size (len w)); [lia|].
      destruct (Z.ltb_spec (size - len w) 8); [reflexivity|lia].
    + rewrite insert_ok by (rewrite len_le_bytes; change (Z.of_nat 8) with 8; lia).
      cbn [is_success negb].
      assert (Hw' : len (w ++ le_bytes 8 (len l)) = len w + 8) by
        (rewrite len_app, len_le_bytes; reflexivity).
      remember (w ++ le_bytes 8 (len l)) as u eqn:Eu.
      assert (Hu1 : len u <= size) by lia.
      assert (Hu2 : size < len u + fold_right (fun x a => type_size x + a) 0 l) by lia.
      clear - IH Hu1 Hu2. revert u Hu1 Hu2.
      induction IH as [|x r Hx Hr IHr]; intros u H1 H2; cbn [sitems fold_right] in *.
      * lia.
      * destruct (Z_le_gt_dec (len u + type_size x) size).
        -- rewrite serialize_ok by lia. cbn [is_success]. fold (sitems (serialize size)).
           apply IHr; rewrite len_app, enc_len; lia.
        -- specialize (Hx u H1 ltac:(lia)). destruct (serialize size x u) as [st u'].
           simpl in Hx. subst st. reflexivity.
Qed.

(** Several members *)
Lemma total_nonneg vs : 0 <= total_size vs.
Proof. unfold total_size. rewrite <- enc_list_len. apply len_nonneg. Qed.

Lemma serialize_all_ok size vs : forall w, len w + total_size vs <= size ->
  serialize_all size vs w = (st_success, w ++ flat_map enc vs).
Proof.
  induction vs as [|v r IH]; intros w H; cbn [serialize_all flat_map].
  - rewrite app_nil_r. reflexivity.
  - unfold total_size in *. simpl in H. pose proof (total_nonneg r). unfold total_size in *.
    rewrite serialize_ok by lia. cbn [is_success].
    rewrite IH by (rewrite len_app, enc_len; lia). rewrite app_assoc. reflexivity.
Qed.

Lemma roundtrip_all iw iw' : iw_ok iw -> iw_ok iw' -> iw <= iw' ->
  forall ts vs, Forall2 (typed iw) ts vs -> forall pre post,
    let data := pre ++ flat_map enc vs ++ post in
    deserialize_all iw' data (len data) ts (len pre) = ROk vs (len pre + total_size vs).
Proof.
  intros Hi Hi' Hle. induction 1 as [|t v ts vs Hv Hvs IH]; intros pre post data.
  - simpl. unfold total_size. simpl. f_equal. lia.
  - cbn [deserialize_all].
    assert (E : data = pre ++ enc v ++ (flat_map enc vs ++ post)).
    { unfold data. simpl. rewrite <- app_assoc. reflexivity. }
    rewrite E at 1. rewrite E at 1. rewrite (roundtrip_mid iw iw'); auto.
    assert (E2 : data = (pre ++ enc v) ++ flat_map enc vs ++ post).
    { rewrite E, <- app_assoc. reflexivity. }
    replace (len pre + type_size v) with (len (pre ++ enc v)) by (rewrite len_app, enc_len; lia).
    rewrite E2. rewrite IH. f_equal. rewrite len_app, enc_len.
    unfold total_size. simpl. lia.
Qed.

Lemma reserve_all_ok iw vs : forall size, size + total_size vs <= int_max iw ->
  reserve_all iw vs size = (st_success, size + total_size vs).
Proof.
  induction vs as [|v r IH]; intros size H; cbn [reserve_all].
  - unfold total_size; simpl; f_equal; lia.
  - unfold total_size in *. simpl in *. pose proof (total_nonneg r). unfold total_size in *.
    unfold add_size. destruct (Z.ltb_spec (int_max iw) (size + type_size v)); [lia|].
    cbn [is_success]. rewrite IH by lia. f_equal. lia.
Qed.

Lemma reserve_all_success iw vs : forall size size', reserve_all iw vs size = (st_success, size') ->
  size' = size + total_size vs.
Proof.
  induction vs as [|v r IH]; intros size size' H; cbn [reserve_all] in H.
  - inversion H. unfold total_size; simpl; lia.
  - unfold add_size in H. destruct (int_max iw <? size + type_size v).
    + simpl in H. discriminate.
    + simpl in H. apply IH in H. unfold total_size in *. simpl. lia.
Qed.

Lemma reserve_then_write_lemma : forall iw vs size w,
  reserve_all iw vs (len w) = (st_success, size) ->
  exists w', serialize_all size vs w = (st_success, w') /\ len w' = size.
Proof.
  intros iw vs size w H. apply reserve_all_success in H. subst size.
  exists (w ++ flat_map enc vs). split; [apply serialize_all_ok; lia|].
  rewrite len_app. f_equal. apply enc_list_len.
Qed.

(** * Arbitrary bytes *)
Lemma mem_read_in data off n : 0 <= off -> off + Z.of_nat n <= len data ->
  exists b, mem_read data off n = Some b /\ List.length b = n /\ (bytes_ok data -> bytes_ok b).
Proof.
  intros H0 H. unfold mem_read.
  destruct (Z.leb_spec 0 off); [|lia].
  destruct (Z.leb_spec (off + Z.of_nat n) (len data)); [|lia]. cbn [andb].
  eexists; split; [reflexivity|]. split.
  - rewrite firstn_length, skipn_length. unfold len in *. lia.
  - intros B. unfold bytes_ok in *.
    rewrite <- (firstn_skipn (Z.to_nat off) data) in B. apply Forall_app in B. destruct B as [_ B].
    rewrite <- (firstn_skipn n (skipn (Z.to_nat off) data)) in B. apply Forall_app in B. apply B.
Qed.

Definition read_fine (iw : Z) (data : list Z) (t : ty) (off : Z) (r : rd val) : Prop :=
  match r with
  | ROk v off' => off < off' <= len data /\ (bytes_ok data -> typed iw t v)
  | RErr st => st = st_invalid_file_data
  | RUb => False
  end.

Lemma deserialize_fine iw data t : iw_ok iw -> len data <= int_max iw ->
  forall off, 0 <= off <= len data ->
  read_fine iw data t off (deserialize iw data (len data) t off).
Proof.
  intros Hi Hd. induction t as [s|t IH]; intros off Hoff.
  - cbn [deserialize].
    destruct (Z.ltb_spec (len data) (off + Z.of_nat (saved_bytes s))); [reflexivity|].
    destruct (mem_read_in data off (saved_bytes s)) as (b & -> & Hb & Ho); [lia|lia|].
    simpl. split; [destruct s; simpl in *; lia|]. intros B. constructor.
    apply from_saved_ok; auto. rewrite <- Hb. apply of_le_range. auto.
  - rewrite deserialize_tv.
    destruct (Z.ltb_spec (len data) (off + 8)); [reflexivity|].
    destruct (mem_read_in data off 8) as (b & -> & Hb & Ho); [lia|simpl; lia|].
    cbn zeta. set (n := to_signed 64 (of_le b)).
    destruct (Z.ltb_spec n 0); [reflexivity|]. cbn [orb].
    destruct (Z.ltb_spec (len data - (off + 8)) n); [reflexivity|].
    assert (G : forall k i acc o, 0 <= i -> i = len acc -> i + Z.of_nat k = n ->
      off + 8 <= o <= len data -> (bytes_ok data -> forall v, In v acc -> typed iw t v) ->
      read_fine iw data (TV t) off
        (ditems iw (deserialize iw data (len data) t) k i acc o)).
    { induction k as [|k IHk]; intros i acc o H0' Hacc Hk Ho' Hty.
      - simpl. split; [lia|]. intros B. constructor.
        + unfold len. rewrite rev_length. fold (len acc). lia.
        + intros v Hv. apply Hty; auto. apply in_rev. auto.
      - cbn [ditems]. fold (ditems iw (deserialize iw data (len data) t)).
        specialize (IH o ltac:(lia)).
        destruct (deserialize iw data (len data) t o) as [x o'|st|]; simpl in IH; auto.
        destruct (Z.eqb_spec i (int_max iw)); [lia|].
        apply IHk; try lia.
        + unfold len in *. simpl. lia.
        + intros B v [<-|Hv]; [apply IH; auto|auto]. }
    apply (G (Z.to_nat n) 0 [] (off + 8)); try lia; try reflexivity. intros _ v [].
Qed.

Lemma deserialize_all_fine iw data : iw_ok iw -> len data <= int_max iw ->
  forall ts off, 0 <= off <= len data ->
  match deserialize_all iw data (len data) ts off with
  | ROk vs off' => off <= off' <= len data /\ (bytes_ok data -> Forall2 (typed iw) ts vs)
  | RErr st => st = st_invalid_file_data
  | RUb => False
  end.
Proof.
  intros Hi Hd. induction ts as [|t ts IH]; intros off Ho.
  - simpl. split; [lia|]. constructor.
  - cbn [deserialize_all]. pose proof (deserialize_fine iw data t Hi Hd off Ho) as F.
    destruct (deserialize iw data (len data) t off) as [v o|st|]; simpl in F; auto.
    specialize (IH o ltac:(lia)).
    destruct (deserialize_all iw data (len data) ts o) as [vs o'|st|]; auto.
    destruct IH as [A B]. destruct F as [C D]. split; [lia|]. intros Hb. constructor; auto.
Qed.

Lemma deserialize_all_length iw data size : forall ts off vs off',
  deserialize_all iw data size ts off = ROk vs off' -> List.length vs = List.length ts.
Proof.
  induction ts as [|t ts IH]; intros o vs o' E.
  - simpl in E. inversion E. reflexivity.
  - cbn [deserialize_all] in E. destruct (deserialize iw data size t o); try discriminate.
    destruct (deserialize_all iw data size ts off) eqn:E2; try discriminate.
    apply IH in E2. inversion E. simpl. congruence.
Qed.

Lemma metadata_fine iw data : iw_ok iw -> len data <= int_max iw ->
  match deserialize_metadata iw data (len data) with
  | ROk md off => 0 <= off <= len data /\ (md_prec md = 4 \/ md_prec md = 8)
                  /\ min_version <= md_version md
  | RErr st => st = st_invalid_file_data \/ st = st_version_mismatch
  | RUb => False
  end.
Proof.
  intros Hi Hd. unfold deserialize_metadata.
  pose proof (len_nonneg data) as Hn.
  pose proof (deserialize_fine iw data TString Hi Hd 0 ltac:(lia)) as F.
  destruct (deserialize iw data (len data) TString 0) as [kw o|st|]; simpl in F; auto.
  destruct (str_eqb header_keyword (string_of kw)); cbn [negb]; [|left; reflexivity].
  pose proof (deserialize_all_fine iw data Hi Hd
                [TS SInt; TS SInt; TS SEnum; TS SInt; TString] o ltac:(lia)) as G.
  destruct (deserialize_all iw data (len data) [TS SInt; TS SInt; TS SEnum; TS SInt; TString] o)
    as [vs o'|st|] eqn:E; auto.
  destruct G as [G _].
  assert (L : List.length vs = 5%nat).
  { apply deserialize_all_length in E. exact E. }
  destruct vs as [|v1 [|v2 [|v3 [|v4 [|v5 [|]]]]]]; simpl in L; try discriminate.
  cbn zeta.
  destruct (Z.ltb_spec (scalar_of v2) min_version); [simpl; auto|].
  destruct (negb (iw =? scalar_of v1) && negb (scalar_of v1 =? 4)); [simpl; auto|].
  destruct (negb (scalar_of v4 =? 4) && negb (scalar_of v4 =? 8)) eqn:P; [simpl; auto|].
  split; [lia|]. simpl. split; [|auto].
  apply andb_false_iff in P. destruct P as [P|P]; apply negb_false_iff, Z.eqb_eq in P; auto.
Qed.

(** * User data *)
Lemma mem_slice_nth x : forall n base r, mem_slice x base n = Some r ->
  List.length r = n /\
  forall k, (k < n)%nat -> nth_error r k = nth_error x (Z.to_nat (base + Z.of_nat k)).
Proof.
  induction n as [|n IH]; intros base r H; simpl in H.
  - inversion H. split; auto. intros k Hk. lia.
  - destruct (Z.ltb_spec base 0); [discriminate|].
    destruct (nth_error x (Z.to_nat base)) eqn:E; [|discriminate].
    destruct (mem_slice x (base + 1) n) eqn:E2; [|discriminate].
    inversion H; subst. destruct (IH _ _ E2) as [L N]. split; [simpl; lia|].
    intros [|k] Hk.
    + simpl. rewrite Z.add_0_r. auto.
    + simpl nth_error. rewrite N by lia. f_equal. lia.
Qed.

Lemma mem_slice_some x : forall n base, 0 <= base -> base + Z.of_nat n <= len x ->
  exists r, mem_slice x base n = Some r.
Proof.
  induction n as [|n IH]; intros base H0 H; simpl.
  - eauto.
  - destruct (Z.ltb_spec base 0); [lia|].
    destruct (nth_error x (Z.to_nat base)) eqn:E.
    + destruct (IH (base + 1)) as (r & ->); [lia|lia|]. eauto.
    + apply nth_error_None in E. unfold len in *. lia.
Qed.

Lemma user_chunks_spec x inner ldx : 0 <= inner -> forall outer i r, 0 <= i -> 0 <= ldx ->
  user_chunks x outer i inner ldx = Some r ->
  len r = Z.of_nat outer * inner /\
  forall o k, 0 <= o < Z.of_nat outer -> 0 <= k < inner ->
    nth_error r (Z.to_nat (o * inner + k)) = nth_error x (Z.to_nat ((i + o) * ldx + k)).
Proof.
  intros Hin. induction outer as [|outer IH]; intros i r Hi Hld H; simpl in H.
  - inversion H. split; [reflexivity|]. intros o k Ho. lia.
  - destruct (mem_slice x (i * ldx) (Z.to_nat inner)) as [a|] eqn:E1; [|discriminate].
    destruct (user_chunks x outer (i + 1) inner ldx) as [b|] eqn:E2; [|discriminate].
    inversion H; subst. destruct (mem_slice_nth _ _ _ _ E1) as [L1 N1].
    destruct (IH (i + 1) b ltac:(lia) Hld E2) as [L2 N2].
    assert (La : len a = inner) by (unfold len; lia).
    split; [rewrite len_app; nia|].
    intros o k Ho Hk. destruct (Z.eq_dec o 0) as [->|Hne].
    + rewrite nth_error_app1 by lia.
      rewrite N1 by lia. f_equal. lia.
    + rewrite nth_error_app2 by nia.
      replace (Z.to_nat (o * inner + k) - List.length a)%nat
        with (Z.to_nat ((o - 1) * inner + k)) by nia.
      rewrite N2 by lia. f_equal. f_equal. lia.
Qed.

Lemma user_chunks_some x inner ldx : 0 <= inner <= ldx -> forall outer i, 0 <= i ->
  (Z.of_nat outer = 0 \/ (i + Z.of_nat outer - 1) * ldx + inner <= len x) ->
  exists r, user_chunks x outer i inner ldx = Some r.
Proof.
  intros Hin. induction outer as [|outer IH]; intros i Hi H; simpl.
  - eauto.
  - destruct (mem_slice_some x (Z.to_nat inner) (i * ldx)) as (a & ->); [nia|nia|].
    destruct (IH (i + 1)) as (b & ->); [lia|nia|]. eauto.
Qed.

(** C46 *)
Lemma user_data_lemma : forall x ord m n ldx,
  0 < m -> 0 < n ->
  match ord with column_major => m <= ldx | row_major => n <= ldx end ->
  (forall i j, 0 <= i < m -> 0 <= j < n -> element_at ord ldx i j < len x) ->
  (n = 1 -> ord = row_major -> ldx = 1) ->
  exists els, user_elements x ord m n ldx = Some els /\ len els = m * n /\
    forall i j, 0 <= i < m -> 0 <= j < n ->
      nth_error els (Z.to_nat (packed_at ord m n i j))
      = nth_error x (Z.to_nat (element_at ord ldx i j)).
Proof.
  intros x ord m n ldx Hm Hn Hld Hx H1. unfold user_elements.
  assert (Hlast := Hx (m - 1) (n - 1) ltac:(lia) ltac:(lia)).
  destruct (Z.eqb_spec n 1) as [E|NE].
  - subst n. assert (Hch : exists r, user_chunks x (Z.to_nat 1) 0 m ldx = Some r).
    { change (Z.to_nat 1) with 1%nat. cbn [user_chunks].
      destruct (mem_slice_some x (Z.to_nat m) (0 * ldx)) as (a & ->).
      - lia.
      - destruct ord; simpl in *; [rewrite H1 in Hlast by auto|]; lia.
      - eauto. }
    destruct Hch as (r & Hr). exists r. split; auto.
    destruct (user_chunks_spec x m ldx ltac:(lia) _ 0 r ltac:(lia) ltac:(destruct ord; lia) Hr)
      as [L N]. split; [lia|].
    intros i j Hi Hj. specialize (N 0 i ltac:(lia) Hi).
    replace j with 0 by lia. destruct ord; simpl in *.
    + rewrite H1 by auto.
      replace (i * 1 + 0) with i by lia. exact N.
    + replace (i + 0) with i by lia. exact N.
  - destruct ord; simpl in *.
    + destruct (user_chunks_some x n ldx ltac:(lia) (Z.to_nat m) 0 ltac:(lia)) as (r & Hr);
        [right; nia|].
      exists r. split; auto.
      destruct (user_chunks_spec x n ldx ltac:(lia) _ 0 r ltac:(lia) ltac:(lia) Hr) as [L N].
      split; [lia|]. intros i j Hi Hj. rewrite N by lia. reflexivity.
    + destruct (user_chunks_some x m ldx ltac:(lia) (Z.to_nat n) 0 ltac:(lia)) as (r & Hr);
        [right; nia|].
      exists r. split; auto.
      destruct (user_chunks_spec x m ldx ltac:(lia) _ 0 r ltac:(lia) ltac:(lia) Hr) as [L N].
      split; [lia|]. intros i j Hi Hj.
      replace (i + j * m) with (j * m + i) by lia. rewrite N by lia. f_equal. lia.
Qed.
