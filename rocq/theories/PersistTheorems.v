(** Properties C08, C09, C10, C44, C46: saving and loading models. *)
From Coq Require Import ZArith List Bool String.
From Verif Require Import Base OptionsModel PersistModel PersistSpec PersistProofs RegistryModel
  RegistrySpec RegistryProofs.
Import ListNotations.
Local Open Scope Z_scope.

(** C08: any supported value, of any nesting, written after any bytes, is read back unchanged, also
    by a build with wider integers; the announced size is the number of bytes written and read. *)
Theorem saved_value_reads_back :
  forall iw iw' t v pre post size,
    iw_ok iw -> iw_ok iw' -> iw <= iw' -> typed iw t v -> len pre + type_size v <= size ->
    exists w, serialize size v pre = (st_success, pre ++ w) /\ len w = type_size v /\
      deserialize iw' (pre ++ w ++ post) (len (pre ++ w ++ post)) t (len pre)
        = ROk v (len pre + len w).
Proof. exact save_load_value_lemma. Qed.
Print Assumptions saved_value_reads_back.

Definition ex_value : val :=
  VV [VV [VS SInt (-3); VS SInt 70000]; VV []; VV [VS SInt 0]].
Example saved_value_case :
  typed 4 (TV (TV (TS SInt))) ex_value /\ type_size ex_value = 56 /\
  match serialize 60 ex_value [7] with
  | (st_success, w) => deserialize 8 (w ++ [9]) 58 (TV (TV (TS SInt))) 1 = ROk ex_value 57
  | _ => False
  end.
Proof.
  split; [|split; vm_compute; reflexivity].
  constructor; [vm_compute; discriminate|]. intros v Hv. simpl in Hv.
  repeat destruct Hv as [<-|Hv]; try contradiction;
    (constructor; [vm_compute; discriminate|]); intros x Hx; simpl in Hx;
    repeat destruct Hx as [<-|Hx]; try contradiction; constructor; simpl; split;
    vm_compute; congruence.
Qed.

(** C08: when the size pass succeeds, the write pass succeeds and fills exactly that size. *)
Theorem size_pass_is_exact :
  forall iw vs size w, reserve_all iw vs (len w) = (st_success, size) ->
    exists w', serialize_all size vs w = (st_success, w') /\ len w' = size.
Proof. exact reserve_then_write_lemma. Qed.
Print Assumptions size_pass_is_exact.

(** C08: without enough reserved room a write is refused. *)
Theorem short_reservation_refused :
  forall size v w, len w <= size -> size < len w + type_size v ->
    fst (serialize size v w) = st_internal_error.
Proof. exact serialize_too_small. Qed.
Print Assumptions short_reservation_refused.

Example size_pass_case :
  reserve_all 8 [ex_value; VS SBool 1] 0 = (st_success, 57) /\
  fst (serialize 20 ex_value []) = st_internal_error.
Proof. vm_compute. auto. Qed.

(** C08: a whole model (members and options) saved by a handle is restored by loading the bytes. *)
Theorem saved_model_reads_back :
  forall iw iw' prec htype lib a d init,
    iw_ok iw -> iw_ok iw' -> iw <= iw' ->
    prec = 4 \/ prec = 8 -> 0 <= htype < 2 ^ 32 -> text_ok iw lib ->
    min_version <= a_version a < 2 ^ 31 -> d_version d = a_version a ->
    registry_ok iw (a_opts a) -> declares (d_opts d) (a_opts a) ->
    Forall2 (typed iw) (d_types d) (a_members a) ->
    metadata_size lib + total_size (a_members a) + registry_size (a_opts a) <= int_max iw ->
    init htype prec = Some d ->
    exists w a', save_model iw prec htype lib a = (st_success, w) /\
      len w = metadata_size lib + total_size (a_members a) + registry_size (a_opts a) /\
      da_handle_load_model iw' init w = HLoaded a' (len w) /\
      a_members a' = a_members a /\ same_declarations (d_opts d) (a_opts a') /\
      forall k o, assoc k (entries (a_opts a)) = Some o ->
        exists o', assoc k (entries (a_opts a')) = Some o' /\ opt_get o' = opt_get o.
Proof. exact model_roundtrip_lemma. Qed.
Print Assumptions saved_model_reads_back.

(** C09: for any bytes, reading a value of any type never leaves the buffer; the only error is
    invalid file data; an accepted value is a value of the type. *)
Theorem reading_any_bytes_is_safe :
  forall iw data t, iw_ok iw -> len data <= int_max iw ->
    forall off, 0 <= off <= len data ->
      match deserialize iw data (len data) t off with
      | ROk v off' => off < off' <= len data /\ (bytes_ok data -> typed iw t v)
      | RErr st => st = st_invalid_file_data
      | RUb => False
      end.
Proof. exact deserialize_fine. Qed.
Print Assumptions reading_any_bytes_is_safe.

(** C09: the same for the metadata and for the options. *)
Theorem reading_any_metadata_is_safe :
  forall iw data, iw_ok iw -> len data <= int_max iw ->
    match deserialize_metadata iw data (len data) with
    | ROk md off => 0 <= off <= len data /\ (md_prec md = 4 \/ md_prec md = 8)
                    /\ min_version <= md_version md
    | RErr st => st = st_invalid_file_data \/ st = st_version_mismatch
    | RUb => False
    end.
Proof. exact metadata_fine. Qed.
Print Assumptions reading_any_metadata_is_safe.

Theorem reading_any_options_is_safe :
  forall iw data r off, iw_ok iw -> len data <= int_max iw -> 0 <= off <= len data ->
    match load_registry iw data (len data) r off with
    | LOk r' off' => off <= off' <= len data /\ same_declarations r r'
    | LErr st r' => st = st_invalid_file_data /\ same_declarations r r'
    | LUb => False
    end.
Proof. exact load_registry_fine. Qed.
Print Assumptions reading_any_options_is_safe.

(** A count larger than the remaining bytes; a negative count; a truncated element. *)
Example any_bytes_case :
  deserialize 8 [3; 0; 0; 0; 0; 0; 0; 0; 1; 2] 10 PersistModel.TString 0 = RErr st_invalid_file_data /\
  deserialize 8 (repeat 255 16) 16 PersistModel.TString 0 = RErr st_invalid_file_data /\
  deserialize 8 [1; 0; 0; 0; 0; 0; 0; 0; 1; 2] 10 (TV (TS SInt)) 0 = RErr st_invalid_file_data /\
  deserialize 8 [2; 0; 0; 0; 0; 0; 0; 0; 65; 200] 10 PersistModel.TString 0
    = ROk (VV [VS SChar 65; VS SChar (-56)]) 10.
Proof. vm_compute. auto. Qed.

(** C10, first part: saving the options and loading them into a registry which declares them
    restores every value, whatever the two iteration orders are. *)
Theorem options_survive_save_and_load :
  forall iw iw' r r0 pre post size, iw_ok iw -> iw_ok iw' -> iw <= iw' ->
    registry_ok iw r -> declares r0 r -> len pre + registry_size r <= size ->
    exists w r', save_registry size r pre = (st_success, pre ++ w) /\ len w = registry_size r /\
      load_registry iw' (pre ++ w ++ post) (len (pre ++ w ++ post)) r0 (len pre)
        = LOk r' (len pre + len w) /\
      same_declarations r0 r' /\
      (forall k o, assoc k (entries r) = Some o ->
         exists o', assoc k (entries r') = Some o' /\ opt_get o' = opt_get o) /\
      (forall k, assoc k (entries r) = None -> assoc k (entries r') = assoc k (entries r0)).
Proof. exact registry_roundtrip_lemma. Qed.
Print Assumptions options_survive_save_and_load.

Definition ex_int (v : Z) : opt := OInt (mkNum v 0 greaterequal 10 lessequal).
Definition ex_label (s : string) : opt :=
  OStr (mkStr (codes s) [(codes "auto", 0); (codes "brute", 1)] true).
Definition ex_reg (v : Z) (s : string) : registry :=
  mkReg false [(codes "leaf", ex_int v); (codes "algo", ex_label s)].

Example options_case :
  registry_ok 8 (ex_reg 7 "brute") /\ declares (ex_reg 1 "auto") (ex_reg 7 "brute") /\
  match save_registry 100 (ex_reg 7 "brute") [] with
  | (st_success, w) =>
      load_registry 8 w (len w) (mkReg false (rev (entries (ex_reg 1 "auto")))) 0
      = LOk (mkReg false (rev (entries (ex_reg 7 "brute")))) (len w)
  | _ => False
  end.
Proof.
  split; [|split].
  - split.
    + repeat constructor; simpl; intuition discriminate.
    + vm_compute. discriminate.
    + intros k o [E|[E|[]]]; inversion E; subst; (split; [split;
        [vm_compute; discriminate|repeat constructor; vm_compute; congruence]|]).
      * simpl. split; vm_compute; congruence.
      * split; [vm_compute; discriminate|repeat constructor; vm_compute; congruence].
  - intros k o H. simpl in H. unfold ex_reg, entries, assoc.
    destruct (str_eqb k (codes "leaf")); [inversion H; subst; eexists; split; reflexivity|].
    destruct (str_eqb k (codes "algo")); [inversion H; subst; eexists; split; reflexivity|].
    discriminate.
  - vm_compute. reflexivity.
Qed.

(** C10, second part, is false: the values read are not validated.  A file can put a bounded option
    outside its bounds and a categorical option on a label that does not exist; reading the label
    id later throws. *)
Theorem loaded_options_in_domain_refuted :
  exists data r', bytes_ok data /\
    load_registry 8 data (len data) (ex_reg 1 "auto") 0 = LOk r' (len data) /\
    reg_get r' (codes "leaf") TInt = (st_success, Some (VInt 99)) /\
    fst (reg_set r' (codes "leaf") (VInt 99)) = st_option_invalid_value /\
    reg_get_id r' (codes "algo") = GThrow.
Proof.
  exists (snd (save_registry 100 (ex_reg 99 "nope") [])), (ex_reg 99 "nope").
  split; [|vm_compute; auto].
  vm_compute. repeat constructor; discriminate.
Qed.
Print Assumptions loaded_options_in_domain_refuted.

(** C44 (partial): for any bytes whose metadata names a handle type with an algorithm, loading
    ends with a complete model or an error status.  Missing: the other handle types. *)
Theorem loading_any_bytes_partial :
  forall iw init data, iw_ok iw -> len data <= int_max iw ->
    (forall h p, p = 4 \/ p = 8 -> has_algorithm h = true -> exists d, init h p = Some d) ->
    (forall md off, deserialize_metadata iw data (len data) = ROk md off ->
       has_algorithm (md_htype md) = true) ->
    match da_handle_load_model iw init data with
    | HLoaded _ _ => True
    | HStatus st => st = st_invalid_file_data \/ st = st_version_mismatch \/ st = st_invalid_input
    | HNull | HUb => False
    end.
Proof. exact load_known_type_lemma. Qed.
Print Assumptions loading_any_bytes_partial.

Definition ex_decl : decl := mkDecl 50301 (ex_reg 1 "auto") [TS SBool; TV (TS SF64)].
Definition ex_init (h p : Z) : option decl := if has_algorithm h then Some ex_decl else None.
Definition ex_algo : algo :=
  mkAlgo 50301 (ex_reg 7 "brute") [VS SBool 1; VV [VS SF64 4607182418800017408; VS SF64 0]].

Example loading_case :
  let w := snd (save_model 8 8 9 (codes "5.3") ex_algo) in
  da_handle_load_model 8 ex_init w = HLoaded ex_algo (len w) /\
  da_handle_load_model 8 ex_init (firstn 100 w) = HStatus st_invalid_file_data.
Proof. vm_compute. auto. Qed.

(** C44 is false: a well formed file whose handle type is 0 makes the loader call a member function
    through a null pointer. *)
Theorem loading_without_algorithm_refuted :
  exists data, bytes_ok data /\ da_handle_load_model 8 ex_init data = HNull.
Proof.
  exists (snd (save_model 8 8 0 (codes "5.3") ex_algo)). split; [|vm_compute; reflexivity].
  vm_compute. repeat constructor; discriminate.
Qed.
Print Assumptions loading_without_algorithm_refuted.

(** C46 (partial): the copy of the user's matrix in the file holds every element at its packed
    position, except for a row major matrix of one column with padding. *)
Theorem user_data_saved_partial :
  forall x ord m n ldx,
    0 < m -> 0 < n ->
    match ord with column_major => m <= ldx | row_major => n <= ldx end ->
    (forall i j, 0 <= i < m -> 0 <= j < n -> element_at ord ldx i j < len x) ->
    (n = 1 -> ord = row_major -> ldx = 1) ->
    exists els, user_elements x ord m n ldx = Some els /\ len els = m * n /\
      forall i j, 0 <= i < m -> 0 <= j < n ->
        nth_error els (Z.to_nat (packed_at ord m n i j))
        = nth_error x (Z.to_nat (element_at ord ldx i j)).
Proof. exact user_data_lemma. Qed.
Print Assumptions user_data_saved_partial.

Example user_data_case :
  user_elements [1; 2; 0; 3; 4; 0] column_major 2 2 3 = Some [1; 2; 3; 4] /\
  user_elements [1; 2; 0; 3; 4; 0] row_major 2 2 3 = Some [1; 2; 3; 4] /\
  serialize_user_data SInt 100 (Some [1; 2; 0; 3; 4; 0]) row_major 2 2 3 []
  = Some (serialize 100 (VV [VS SInt 1; VS SInt 2; VS SInt 3; VS SInt 4]) []).
Proof. vm_compute. auto. Qed.

(** C46 is false: the 2 x 1 row major matrix (1, 2) with leading dimension 2 is saved as (1, 9),
    9 being padding. *)
Theorem one_column_row_major_saved_refuted :
  exists x els, element_at row_major 2 1 0 < len x /\
    nth_error x (Z.to_nat (element_at row_major 2 1 0)) = Some 2 /\
    user_elements x row_major 2 1 2 = Some els /\
    nth_error els (Z.to_nat (packed_at row_major 2 1 1 0)) = Some 9.
Proof. exists [1; 9; 2; 9], [1; 9]. vm_compute. auto. Qed.
Print Assumptions one_column_row_major_saved_refuted.
