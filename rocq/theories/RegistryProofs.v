From Coq Require Import ZArith List Bool Lia String.
From Flocq Require Import IEEE754.Binary IEEE754.Bits.
From Verif Require Import Base OptionsModel OptionsProofs PersistModel PersistSpec PersistProofs
  RegistryModel RegistrySpec.
Import ListNotations.
Local Open Scope Z_scope.

Lemma string_of_vstring s : string_of (vstring s) = s.
Proof. unfold vstring, string_of. rewrite map_map. simpl. apply map_id. Qed.

Lemma vstring_size s : type_size (vstring s) = 8 + len s.
Proof.
  unfold vstring. cbn [type_size]. f_equal. induction s as [|c s IH]; auto.
  cbn [map fold_right type_size]. rewrite IH. unfold len. simpl List.length. simpl saved_bytes. lia.
Qed.

Lemma typed_vstring iw s : text_ok iw s -> typed iw PersistModel.TString (vstring s).
Proof.
  intros [L F]. constructor.
  - unfold len in *. rewrite map_length. auto.
  - intros v Hv. apply in_map_iff in Hv. destruct Hv as (c & <- & Hc). constructor. simpl.
    rewrite Forall_forall in F. apply (F c Hc).
Qed.

Lemma typed_opt iw o : storable iw o -> typed iw (opt_ty o) (opt_val o).
Proof.
  destruct o; simpl; intros H; try (apply typed_vstring; auto); constructor; simpl; auto.
  - apply (bits_of_binary_float_range 23 8); reflexivity.
  - apply (bits_of_binary_float_range 52 11); reflexivity.
  - destruct b; auto.
Qed.

Lemma opt_ty_type o o' : type_of_opt o = type_of_opt o' -> opt_ty o = opt_ty o'.
Proof. destruct o, o'; simpl; intros; congruence. Qed.

Lemma opt_load_get o o' : type_of_opt o = type_of_opt o' -> opt_get (opt_load o (opt_val o')) = opt_get o'.
Proof.
  destruct o, o'; simpl; intros H; try discriminate; f_equal.
  - exact (binary_float_of_bits_of_binary_float 23 8 eq_refl eq_refl eq_refl _).
  - exact (binary_float_of_bits_of_binary_float 52 11 eq_refl eq_refl eq_refl _).
  - apply string_of_vstring.
  - destruct b0; reflexivity.
Qed.

Lemma opt_load_type o v : type_of_opt (opt_load o v) = type_of_opt o.
Proof. destruct o; reflexivity. Qed.

Lemma opt_load_domain o v : same_domain o (opt_load o v).
Proof. destruct o; simpl; auto. Qed.

Lemma same_domain_refl o : same_domain o o.
Proof. destruct o; simpl; auto. Qed.
Lemma same_domain_trans a b c : same_domain a b -> same_domain b c -> same_domain a c.
Proof. destruct a, b, c; simpl; try tauto; intuition congruence. Qed.

Lemma same_decl_refl r : same_declarations r r.
Proof.
  repeat split. intros k. destruct (assoc k (entries r)); auto. apply same_domain_refl.
Qed.

Lemma same_decl_update r0 r k o v : same_declarations r0 r -> assoc k (entries r) = Some o ->
  same_declarations r0 (mkReg (readonly r) (update k (opt_load o v) (entries r))).
Proof.
  intros (A & B & C) E. split; [auto|]. split.
  - simpl. rewrite update_keys. auto.
  - intros k2. specialize (C k2). simpl.
    destruct (list_eq_dec Z.eq_dec k2 k) as [->|N].
    + rewrite (assoc_update_same k (opt_load o v) (entries r) o E).
      rewrite E in C. destruct (assoc k (entries r0)); auto.
      eapply same_domain_trans; eauto. apply opt_load_domain.
    + rewrite assoc_update_other by auto. auto.
Qed.

(** * Loading what was saved *)
Lemma assoc_in_iff {A} (l : list (str * A)) k v : NoDup (map fst l) -> In (k, v) l -> assoc k l = Some v.
Proof.
  induction l as [|[k' v'] l IH]; simpl; [intros _ []|]. intros ND [H|H].
  - inversion H; subst. destruct (str_eqb k k) eqn:E; auto.
    exfalso. revert E. rewrite str_eqb_refl. discriminate.
  - inversion ND; subst. destruct (str_eqb k k') eqn:E.
    + apply str_eqb_eq in E. subst k'. exfalso. apply H2.
      apply in_map_iff. exists (k, v). auto.
    + auto.
Qed.

Lemma load_entries_ok iw iw' : iw_ok iw -> iw_ok iw' -> iw <= iw' ->
  forall l r pre post, NoDup (map fst l) ->
  (forall k o, In (k, o) l -> text_ok iw k /\ storable iw o /\
     exists o', assoc k (entries r) = Some o' /\ type_of_opt o' = type_of_opt o) ->
  let data := pre ++ flat_map enc (flat_map entry_vals l) ++ post in
  exists r', load_entries iw' data (len data) (List.length l) r (len pre)
             = LOk r' (len pre + total_size (flat_map entry_vals l)) /\
    same_declarations r r' /\
    (forall k o, In (k, o) l -> exists o', assoc k (entries r') = Some o' /\ opt_get o' = opt_get o) /\
    (forall k, ~ In k (map fst l) -> assoc k (entries r') = assoc k (entries r)).
Proof.
  intros Hi Hi' Hle. induction l as [|[k o] l IH]; intros r pre post ND H data.
  - exists r. simpl. split; [f_equal; unfold total_size; simpl; lia|].
    split; [apply same_decl_refl|]. split; [intros ? ? []|auto].
  - cbn [List.length load_entries].
    destruct (H k o (or_introl eq_refl)) as (Hk & Ho & o1 & A1 & T1).
    assert (E1 : data = pre ++ enc (vstring k) ++
                 (enc (opt_val o) ++ flat_map enc (flat_map entry_vals l) ++ post)).
    { unfold data. change (flat_map enc (flat_map entry_vals ((k, o) :: l))) with
        (enc (vstring k) ++ enc (opt_val o) ++ flat_map enc (flat_map entry_vals l)).
      rewrite <- !app_assoc. reflexivity. }
    assert (D1 : deserialize iw' data (len data) PersistModel.TString (len pre)
                 = ROk (vstring k) (len pre + type_size (vstring k)))
      by (rewrite E1; apply (roundtrip_mid iw iw'); auto using typed_vstring).
    rewrite D1.
    rewrite string_of_vstring, A1.
    assert (E2 : data = (pre ++ enc (vstring k)) ++ enc (opt_val o) ++
                 (flat_map enc (flat_map entry_vals l) ++ post)).
    { rewrite E1, <- !app_assoc. reflexivity. }
    replace (len pre + type_size (vstring k)) with (len (pre ++ enc (vstring k)))
      by (rewrite len_app, enc_len; lia).
    assert (D2 : deserialize iw' data (len data) (opt_ty o) (len (pre ++ enc (vstring k)))
                 = ROk (opt_val o) (len (pre ++ enc (vstring k)) + type_size (opt_val o)))
      by (rewrite E2; apply (roundtrip_mid iw iw'); auto using typed_opt).
    rewrite (opt_ty_type _ _ T1), D2.
    set (r1 := mkReg (readonly r) (update k (opt_load o1 (opt_val o)) (entries r))).
    assert (E3 : data = ((pre ++ enc (vstring k)) ++ enc (opt_val o)) ++
                 flat_map enc (flat_map entry_vals l) ++ post).
    { rewrite E2, <- !app_assoc. reflexivity. }
    replace (len (pre ++ enc (vstring k)) + type_size (opt_val o))
      with (len ((pre ++ enc (vstring k)) ++ enc (opt_val o)))
      by (rewrite (len_app (pre ++ enc (vstring k))), enc_len; lia).
    rewrite E3. inversion ND as [|? ? Hnin ND']; subst.
    destruct (IH r1 ((pre ++ enc (vstring k)) ++ enc (opt_val o)) post ND') as (r' & L & S & V & U).
    { intros k2 o2 Hin. destruct (H k2 o2 (or_intror Hin)) as (P1 & P2 & o2' & P3 & P4).
      split; auto. split; auto. unfold r1. simpl.
      assert (k2 <> k).
      { intros ->. apply Hnin. apply in_map_iff. exists (k, o2). auto. }
      rewrite assoc_update_other by auto. eauto. }
    exists r'. split; [|split; [|split]].
    + rewrite L. f_equal. rewrite !len_app, !enc_len. unfold total_size.
      change (flat_map entry_vals ((k, o) :: l))
        with (vstring k :: opt_val o :: flat_map entry_vals l). cbn [fold_right]. lia.
    + assert (S1 : same_declarations r r1)
        by (apply (same_decl_update r r k o1); auto; apply same_decl_refl).
      destruct S1 as (B1 & B2 & B3). destruct S as (C1 & C2 & C3).
      split; [congruence|]. split; [congruence|]. intros k2. specialize (B3 k2). specialize (C3 k2).
      destruct (assoc k2 (entries r)), (assoc k2 (entries r1)), (assoc k2 (entries r'));
        try tauto. eapply same_domain_trans; eauto.
    + intros k2 o2 [E|Hin].
      * inversion E; subst k2 o2. rewrite U by auto. unfold r1. simpl.
        rewrite (assoc_update_same k (opt_load o1 (opt_val o)) (entries r) o1 A1).
        eexists; split; [reflexivity|]. apply opt_load_get. auto.
      * apply V; auto.
    + intros k2 Hn. simpl in Hn. rewrite U by tauto. unfold r1. simpl.
      apply assoc_update_other. intros ->. tauto.
Qed.

Lemma registry_total r : total_size (registry_vals r) = registry_size r.
Proof.
  unfold total_size, registry_vals, registry_size. cbn [fold_right].
  change (type_size (VS SInt (len (entries r)))) with 8. f_equal.
  induction (entries r) as [|[k o] l IH]; auto.
  change (flat_map entry_vals ((k, o) :: l))
    with (vstring k :: opt_val o :: flat_map entry_vals l).
  cbn [fold_right fst snd]. rewrite IH. lia.
Qed.

Lemma len_incl {A} (l1 l2 : list (str * A)) : NoDup (map fst l1) ->
  (forall k, In k (map fst l1) -> In k (map fst l2)) -> len l1 <= len l2.
Proof.
  intros ND H. pose proof (NoDup_incl_length ND H) as L. rewrite !map_length in L.
  unfold len. lia.
Qed.

Lemma in_assoc {A} k (l : list (str * A)) : In k (map fst l) -> exists v, assoc k l = Some v.
Proof.
  intros H. destruct (assoc k l) eqn:E; eauto. apply assoc_none in E. contradiction.
Qed.

Lemma load_registry_ok iw iw' r r0 pre post : iw_ok iw -> iw_ok iw' -> iw <= iw' ->
  registry_ok iw r -> declares r0 r ->
  let data := pre ++ flat_map enc (registry_vals r) ++ post in
  exists r', load_registry iw' data (len data) r0 (len pre)
             = LOk r' (len pre + registry_size r) /\
    same_declarations r0 r' /\
    (forall k o, assoc k (entries r) = Some o ->
       exists o', assoc k (entries r') = Some o' /\ opt_get o' = opt_get o) /\
    (forall k, assoc k (entries r) = None -> assoc k (entries r') = assoc k (entries r0)).
Proof.
  intros Hi Hi' Hle [ND Sm Nm] D data. unfold load_registry.
  assert (Hscal : typed iw (TS SInt) (VS SInt (len (entries r)))).
  { constructor. unfold scalar_ok. unfold int_max in Sm. pose proof (len_nonneg (entries r)). 
    assert (0 <= 2 ^ (8 * iw - 1)) by (apply Z.pow_nonneg; lia). lia. }
  assert (E1 : data = pre ++ enc (VS SInt (len (entries r))) ++
                      (flat_map enc (flat_map entry_vals (entries r)) ++ post)).
  { unfold data, registry_vals. change (flat_map enc (VS SInt (len (entries r)) ::
      flat_map entry_vals (entries r))) with (enc (VS SInt (len (entries r))) ++
      flat_map enc (flat_map entry_vals (entries r))). rewrite <- !app_assoc. reflexivity. }
  assert (D1 : deserialize iw' data (len data) (TS SInt) (len pre)
               = ROk (VS SInt (len (entries r))) (len pre + 8))
    by (rewrite E1; apply (roundtrip_mid iw iw'); auto).
  rewrite D1.
  cbn [scalar_of]. cbn zeta.
  assert (Hlen : len (entries r) <= len (entries r0)).
  { apply len_incl; auto. intros k Hk. apply in_assoc in Hk. destruct Hk as (o & Ho).
    destruct (D k o Ho) as (o' & Ho' & _). apply assoc_in in Ho'. apply in_map_iff.
    exists (k, o'). auto. }
  pose proof (len_nonneg (entries r)).
  destruct (Z.ltb_spec (len (entries r0)) (len (entries r))); [lia|].
  destruct (Z.ltb_spec (len (entries r)) 0); [lia|]. cbn [orb].
  replace (Z.to_nat (len (entries r))) with (List.length (entries r))
    by (unfold len; rewrite Nat2Z.id; reflexivity).
  assert (E2 : data = (pre ++ enc (VS SInt (len (entries r)))) ++
                      flat_map enc (flat_map entry_vals (entries r)) ++ post).
  { rewrite E1, <- app_assoc. reflexivity. }
  replace (len pre + 8) with (len (pre ++ enc (VS SInt (len (entries r))))) by (rewrite len_app, enc_len; reflexivity).
  rewrite E2.
  destruct (load_entries_ok iw iw' Hi Hi' Hle (entries r) r0
              (pre ++ enc (VS SInt (len (entries r)))) post ND) as (r' & L & S & V & U).
  { intros k o Hin. destruct (Nm k o Hin) as [P1 P2]. split; auto. split; auto.
    apply D. apply assoc_in_iff; auto. }
  exists r'. rewrite L. split; [|split; [|split]]; auto.
  - f_equal. rewrite len_app, enc_len. rewrite <- registry_total.
    unfold registry_vals, total_size. cbn [fold_right]. lia.
  - intros k o Ho. apply V. apply assoc_in. auto.
  - intros k Hk. apply U. apply assoc_none. auto.
Qed.

Lemma registry_roundtrip_lemma : forall iw iw' r r0 pre post size, iw_ok iw -> iw_ok iw' -> iw <= iw' ->
  registry_ok iw r -> declares r0 r -> len pre + registry_size r <= size ->
  exists w r', save_registry size r pre = (st_success, pre ++ w) /\ len w = registry_size r /\
    load_registry iw' (pre ++ w ++ post) (len (pre ++ w ++ post)) r0 (len pre)
      = LOk r' (len pre + len w) /\
    same_declarations r0 r' /\
    (forall k o, assoc k (entries r) = Some o ->
       exists o', assoc k (entries r') = Some o' /\ opt_get o' = opt_get o) /\
    (forall k, assoc k (entries r) = None -> assoc k (entries r') = assoc k (entries r0)).
Proof.
  intros iw iw' r r0 pre post size Hi Hi' Hle R D Hs.
  destruct (load_registry_ok iw iw' r r0 pre post Hi Hi' Hle R D) as (r' & L & S & V & U).
  exists (flat_map enc (registry_vals r)), r'.
  assert (Hl : len (flat_map enc (registry_vals r)) = registry_size r).
  { rewrite enc_list_len. apply registry_total. }
  split; [|split; [|split; [|split; [|split]]]]; auto.
  - apply serialize_all_ok. rewrite registry_total. auto.
  - rewrite Hl. auto.
Qed.

(** * Arbitrary bytes *)
Lemma load_entries_fine iw data : iw_ok iw -> len data <= int_max iw ->
  forall k r off, 0 <= off <= len data ->
  match load_entries iw data (len data) k r off with
  | LOk r' off' => off <= off' <= len data /\ same_declarations r r'
  | LErr st r' => st = st_invalid_file_data /\ same_declarations r r'
  | LUb => False
  end.
Proof.
  intros Hi Hd. induction k as [|k IH]; intros r off Ho.
  - simpl. split; [lia|apply same_decl_refl].
  - cbn [load_entries].
    pose proof (deserialize_fine iw data PersistModel.TString Hi Hd off Ho) as F.
    destruct (deserialize iw data (len data) PersistModel.TString off) as [key o1|st|]; simpl in F.
    + destruct (assoc (string_of key) (entries r)) as [o|] eqn:A.
      * pose proof (deserialize_fine iw data (opt_ty o) Hi Hd o1 ltac:(lia)) as G.
        destruct (deserialize iw data (len data) (opt_ty o) o1) as [v o2|st|]; simpl in G.
        -- set (r1 := mkReg (readonly r) (update (string_of key) (opt_load o v) (entries r))).
           assert (S : same_declarations r r1)
             by (apply (same_decl_update r r (string_of key) o); auto; apply same_decl_refl).
           specialize (IH r1 o2 ltac:(lia)).
           assert (T : forall r', same_declarations r1 r' -> same_declarations r r').
           { intros r' (C1 & C2 & C3). destruct S as (B1 & B2 & B3).
             split; [congruence|]. split; [congruence|]. intros k2. specialize (B3 k2).
             specialize (C3 k2).
             destruct (assoc k2 (entries r)), (assoc k2 (entries r1)), (assoc k2 (entries r'));
               try tauto. eapply same_domain_trans; eauto. }
           destruct (load_entries iw data (len data) k r1 o2); auto.
           ++ destruct IH. split; [lia|auto].
           ++ destruct IH. auto.
        -- split; auto. apply same_decl_refl.
        -- auto.
      * split; auto. apply same_decl_refl.
    + split; auto. apply same_decl_refl.
    + auto.
Qed.

Lemma load_registry_fine iw data r off : iw_ok iw -> len data <= int_max iw ->
  0 <= off <= len data ->
  match load_registry iw data (len data) r off with
  | LOk r' off' => off <= off' <= len data /\ same_declarations r r'
  | LErr st r' => st = st_invalid_file_data /\ same_declarations r r'
  | LUb => False
  end.
Proof.
  intros Hi Hd Ho. unfold load_registry.
  pose proof (deserialize_fine iw data (TS SInt) Hi Hd off Ho) as F.
  destruct (deserialize iw data (len data) (TS SInt) off) as [n o1|st|]; simpl in F.
  - cbn zeta. destruct ((len (entries r) <? scalar_of n) || (scalar_of n <? 0)).
    + split; auto. apply same_decl_refl.
    + pose proof (load_entries_fine iw data Hi Hd (Z.to_nat (scalar_of n)) r o1 ltac:(lia)) as G.
      destruct (load_entries iw data (len data) (Z.to_nat (scalar_of n)) r o1); auto.
      destruct G. split; [lia|auto].
  - split; auto. apply same_decl_refl.
  - auto.
Qed.

Definition load_fine (r : loaded) : Prop :=
  match r with
  | HLoaded _ _ => True
  | HStatus st => st = st_invalid_file_data \/ st = st_version_mismatch \/ st = st_invalid_input
  | HNull | HUb => False
  end.

Lemma load_bytes_lemma : forall iw init data, iw_ok iw -> len data <= int_max iw ->
  match da_handle_load_model iw init data with
  | HNull => exists md off, deserialize_metadata iw data (len data) = ROk md off /\
                            init (md_htype md) (md_prec md) = None
  | r => load_fine r
  end.
Proof.
  intros iw init data Hi Hd. unfold da_handle_load_model.
  destruct (len data =? 0); [simpl; auto|]. unfold load_handle.
  pose proof (metadata_fine iw data Hi Hd) as M.
  destruct (deserialize_metadata iw data (len data)) as [md off|st|] eqn:E.
  - destruct M as (M1 & _). destruct (init (md_htype md) (md_prec md)) as [d|] eqn:I.
    + unfold load_model. destruct (negb (md_version md =? d_version d)); [simpl; auto|].
      pose proof (load_registry_fine iw data (d_opts d) off Hi Hd M1) as R.
      destruct (load_registry iw data (len data) (d_opts d) off) as [r' o'|st r'|]; simpl.
      * destruct R as [R _].
        pose proof (deserialize_all_fine iw data Hi Hd (d_types d) o' ltac:(lia)) as G.
        destruct (deserialize_all iw data (len data) (d_types d) o'); simpl; auto.
      * destruct R; auto.
      * auto.
    + eauto.
  - simpl. destruct M; auto.
  - auto.
Qed.

Lemma load_known_type_lemma : forall iw init data, iw_ok iw -> len data <= int_max iw ->
  (forall h p, p = 4 \/ p = 8 -> has_algorithm h = true -> exists d, init h p = Some d) ->
  (forall md off, deserialize_metadata iw data (len data) = ROk md off ->
     has_algorithm (md_htype md) = true) ->
  load_fine (da_handle_load_model iw init data).
Proof.
  intros iw init data Hi Hd Hin Hmd.
  pose proof (load_bytes_lemma iw init data Hi Hd) as L.
  destruct (da_handle_load_model iw init data); auto.
  destruct L as (md & off & E & N).
  pose proof (metadata_fine iw data Hi Hd) as M. rewrite E in M. destruct M as (_ & P & _).
  destruct (Hin (md_htype md) (md_prec md) P (Hmd md off E)) as (d & Hd'). congruence.
Qed.

(** * A whole model *)
Lemma metadata_total iw ver ht p lib : total_size (metadata_values iw ver ht p lib) = metadata_size lib.
Proof.
  unfold metadata_values, total_size, metadata_size. cbn [fold_right]. rewrite !vstring_size.
  cbn [type_size]. simpl saved_bytes. lia.
Qed.

Lemma header_text iw : iw_ok iw -> text_ok iw header_keyword.
Proof.
  intros H. split.
  - destruct H; subst; unfold int_max; vm_compute; discriminate.
  - repeat constructor; vm_compute; congruence.
Qed.

Local Opaque header_keyword.

Lemma metadata_ok iw iw' ver htype prec lib post : iw_ok iw -> iw_ok iw' -> iw <= iw' ->
  prec = 4 \/ prec = 8 -> 0 <= htype < 2 ^ 32 -> text_ok iw lib -> min_version <= ver < 2 ^ 31 ->
  let w := flat_map enc (metadata_values iw ver htype prec lib) ++ post in
  deserialize_metadata iw' w (len w) = ROk (mkMeta ver htype prec lib) (metadata_size lib).
Proof.
  intros Hi Hi' Hle Hp Hh Hlib Hv w.
  assert (Imax : 2 ^ 31 <= int_max iw + 1) by (destruct Hi; subst; unfold int_max; simpl; lia).
  assert (Irng : forall z, 0 <= z < 2 ^ 31 -> typed iw (TS SInt) (VS SInt z)).
  { intros z Hz. constructor. unfold scalar_ok. unfold int_max in Imax.
    assert (0 <= 2 ^ (8 * iw - 1)) by (apply Z.pow_nonneg; lia). lia. }
  set (rest := [VS SInt iw; VS SInt ver; VS SEnum htype; VS SInt prec; vstring lib]).
  assert (Hrest : Forall2 (typed iw) [TS SInt; TS SInt; TS SEnum; TS SInt; PersistModel.TString] rest).
  { constructor; [apply Irng; destruct Hi; subst; lia|].
    constructor; [apply Irng; unfold min_version in *; lia|].
    constructor; [constructor; exact Hh|].
    constructor; [apply Irng; destruct Hp; subst; lia|].
    constructor; [apply typed_vstring; auto|]. constructor. }
  assert (E2 : w = enc (vstring header_keyword) ++ flat_map enc rest ++ post)
    by (unfold w, metadata_values; cbn [flat_map]; rewrite <- app_assoc; reflexivity).
  assert (D1 : deserialize iw' w (len w) PersistModel.TString 0
               = ROk (vstring header_keyword) (type_size (vstring header_keyword))).
  { rewrite E2. apply (roundtrip_mid iw iw' PersistModel.TString (vstring header_keyword) Hi Hi' Hle
      (typed_vstring _ _ (header_text iw Hi)) [] (flat_map enc rest ++ post)). }
  assert (D2 : deserialize_all iw' w (len w) [TS SInt; TS SInt; TS SEnum; TS SInt; PersistModel.TString]
                 (type_size (vstring header_keyword))
               = ROk rest (type_size (vstring header_keyword) + total_size rest)).
  { rewrite <- (enc_len (vstring header_keyword)). rewrite E2.
    apply (roundtrip_all iw iw' Hi Hi' Hle _ rest Hrest). }
  assert (Hsize : type_size (vstring header_keyword) + total_size rest = metadata_size lib).
  { rewrite <- (metadata_total iw ver htype prec lib). reflexivity. }
  unfold deserialize_metadata. rewrite D1, string_of_vstring, str_eqb_refl. cbn [negb].
  rewrite D2, Hsize. unfold rest. cbn [scalar_of]. cbn zeta.
  destruct (Z.ltb_spec ver min_version); [lia|].
  assert (C1 : negb (iw' =? iw) && negb (iw =? 4) = false).
  { destruct Hi, Hi'; subst; try reflexivity; lia. }
  assert (C2 : negb (prec =? 4) && negb (prec =? 8) = false) by (destruct Hp; subst; reflexivity).
  rewrite C1, C2, string_of_vstring. reflexivity.
Qed.

Lemma model_roundtrip_lemma : forall iw iw' prec htype lib a d init,
  iw_ok iw -> iw_ok iw' -> iw <= iw' ->
  prec = 4 \/ prec = 8 -> 0 <= htype < 2 ^ 32 -> text_ok iw lib ->
  min_version <= a_version a < 2 ^ 31 -> d_version d = a_version a ->
  registry_ok iw (a_opts a) -> declares (d_opts d) (a_opts a) ->
  Forall2 (typed iw) (d_types d) (a_members a) ->
  metadata_size lib + total_size (a_members a) + registry_size (a_opts a) <= int_max iw ->
  init htype prec = Some d ->
  exists w a', save_model iw prec htype lib a = (st_success, w) /\
    len w = metadata_size lib + total_size (a_members a) + registry_size (a_opts a) /\
    da_handle_load_model iw' init w = HLoaded a' (len w) /\
    a_members a' = a_members a /\ same_declarations (d_opts d) (a_opts a') /\
    forall k o, assoc k (entries (a_opts a)) = Some o ->
      exists o', assoc k (entries (a_opts a')) = Some o' /\ opt_get o' = opt_get o.
Proof.
  intros iw iw' prec htype lib a d init Hi Hi' Hle Hp Hh Hlib Hv Hdv HR HD HM Hsz Hinit.
  pose proof (total_nonneg (a_members a)) as N1.
  assert (N2 : 0 <= registry_size (a_opts a)) by (rewrite <- registry_total; apply total_nonneg).
  assert (N3 : 0 <= metadata_size lib)
    by (rewrite <- (metadata_total 0 0 0 0); apply total_nonneg).
  set (md := metadata_values iw (a_version a) htype prec lib).
  set (rv := registry_vals (a_opts a)).
  set (w := flat_map enc md ++ flat_map enc rv ++ flat_map enc (a_members a)).
  assert (Hw1 : len (flat_map enc md) = metadata_size lib)
    by (rewrite enc_list_len; apply metadata_total).
  assert (Hw2 : len (flat_map enc rv) = registry_size (a_opts a))
    by (rewrite enc_list_len; apply registry_total).
  assert (Hw3 : len (flat_map enc (a_members a)) = total_size (a_members a))
    by apply enc_list_len.
  assert (Hw : len w = metadata_size lib + total_size (a_members a) + registry_size (a_opts a)).
  { unfold w. rewrite !len_app. lia. }
  assert (Hsave : save_model iw prec htype lib a = (st_success, w)).
  { unfold save_model. rewrite reserve_all_ok by lia. cbn [is_success negb].
    unfold add_size.
    destruct (Z.ltb_spec (int_max iw)
      (metadata_size lib + total_size (a_members a) + registry_size (a_opts a))); [lia|].
    rewrite serialize_all_ok by (rewrite metadata_total; change (len []) with 0; lia).
    cbn [is_success negb app]. fold md.
    unfold save_registry. fold rv.
    rewrite serialize_all_ok by (unfold rv; rewrite registry_total; lia).
    cbn [is_success negb].
    rewrite serialize_all_ok by (rewrite len_app; lia).
    unfold w. rewrite app_assoc. reflexivity. }
  assert (Hmeta : deserialize_metadata iw' w (len w)
                  = ROk (mkMeta (a_version a) htype prec lib) (metadata_size lib)).
  { unfold w, md. apply metadata_ok; auto. }
  assert (E3 : w = flat_map enc md ++ flat_map enc rv ++ flat_map enc (a_members a)) by reflexivity.
  destruct (load_registry_ok iw iw' (a_opts a) (d_opts d) (flat_map enc md)
              (flat_map enc (a_members a)) Hi Hi' Hle HR HD) as (r' & L & S & V & U).
  cbv zeta in L. fold rv in L. rewrite <- E3, Hw1 in L.
  exists w, (mkAlgo (d_version d) r' (a_members a)).
  split; [exact Hsave|]. split; [exact Hw|]. split; [|split; [|split]]; auto.
  unfold da_handle_load_model.
  assert (N4 : len w <> 0).
  { rewrite Hw. unfold metadata_size. pose proof (len_nonneg lib).
    pose proof (len_nonneg header_keyword). lia. }
  destruct (Z.eqb_spec (len w) 0); [contradiction|].
  unfold load_handle. rewrite Hmeta. cbn [md_htype md_prec]. rewrite Hinit.
  unfold load_model. cbn [md_version]. rewrite Hdv, Z.eqb_refl. cbn [negb].
  rewrite L.
  assert (E4 : w = (flat_map enc md ++ flat_map enc rv) ++ flat_map enc (a_members a) ++ []).
  { rewrite E3, app_nil_r, app_assoc. reflexivity. }
  replace (metadata_size lib + registry_size (a_opts a))
    with (len (flat_map enc md ++ flat_map enc rv)) by (rewrite len_app; lia).
  assert (D4 : deserialize_all iw' w (len w) (d_types d) (len (flat_map enc md ++ flat_map enc rv))
    = ROk (a_members a) (len (flat_map enc md ++ flat_map enc rv) + total_size (a_members a)))
    by (rewrite E4; apply (roundtrip_all iw iw' Hi Hi' Hle _ _ HM)).
  rewrite D4. rewrite len_app, Hw1, Hw2, Hw. f_equal. lia.
Qed.
