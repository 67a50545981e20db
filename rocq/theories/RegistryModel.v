(** Model of saving and loading a whole handle: options.hpp (save_registry, load_registry),
    basic_handle.cpp (save_model, load_model), da_handle.cpp (save_handle, load_handle).

    Simplification: the members an algorithm saves are a list of values whose types are fixed by
    the algorithm (algorithms which save trees choose some types from values read before). *)
From Coq Require Import ZArith List Bool.
From Flocq Require Import IEEE754.Binary IEEE754.Bits.
From Verif Require Import Base OptionsModel PersistModel.
Import ListNotations.
Local Open Scope Z_scope.

(** options.hpp:516-518 and 760-762 ([serialize_option]): the value only *)
Definition opt_val (o : opt) : val :=
  match o with
  | OInt n => VS SInt (n_value n)
  | OFloat n => VS SF32 (bits_of_b32 (n_value n))
  | ODouble n => VS SF64 (bits_of_b64 (n_value n))
  | OStr n => vstring (s_value n)
  | OBool b => VS SBool (if b then 1 else 0)
  end.

Definition opt_ty (o : opt) : ty :=
  match o with
  | OInt _ => TS SInt | OFloat _ => TS SF32 | ODouble _ => TS SF64
  | OStr _ => PersistModel.TString | OBool _ => TS SBool
  end.

(** options.hpp:519-521 and 763-765 ([deserialize_option]): no validation *)
Definition opt_load (o : opt) (v : val) : opt :=
  match o with
  | OInt n => OInt (mkNum (scalar_of v) (n_lower n) (n_lbound n) (n_upper n) (n_ubound n))
  | OFloat n => OFloat (mkNum (b32_of_bits (scalar_of v)) (n_lower n) (n_lbound n) (n_upper n)
                              (n_ubound n))
  | ODouble n => ODouble (mkNum (b64_of_bits (scalar_of v)) (n_lower n) (n_lbound n) (n_upper n)
                                (n_ubound n))
  | OStr n => OStr (mkStr (string_of v) (s_labels n) (s_strict n))
  | OBool _ => OBool (negb (scalar_of v =? 0))
  end.

(** options.hpp:956-975 ([save_registry]); the order of the list stands for the iteration order
    of the unordered map *)
Definition entry_vals (e : str * opt) : list val := [vstring (fst e); opt_val (snd e)].
Definition registry_vals (r : registry) : list val :=
  VS SInt (len (entries r)) :: flat_map entry_vals (entries r).
Definition save_registry (size : Z) (r : registry) (w : list Z) : da_status * list Z :=
  serialize_all size (registry_vals r) w.

(** options.hpp:1012-1023 ([compute_serialized_size]) *)
Definition registry_size (r : registry) : Z :=
  8 + fold_right (fun e a => type_size (vstring (fst e)) + type_size (opt_val (snd e)) + a) 0
        (entries r).

(** options.hpp:977-1009 ([load_registry]); on error the registry keeps what was loaded so far *)
Inductive lreg := LOk (r : registry) (off : Z) | LErr (st : da_status) (r : registry) | LUb.

Fixpoint load_entries (iw : Z) (data : list Z) (size : Z) (k : nat) (r : registry) (off : Z)
  : lreg :=
  match k with
  | O => LOk r off
  | S k' =>
      match deserialize iw data size PersistModel.TString off with
      | RUb => LUb
      | RErr st => LErr st r
      | ROk key off1 =>
          match assoc (string_of key) (entries r) with
          | None => LErr st_invalid_file_data r
          | Some o =>
              match deserialize iw data size (opt_ty o) off1 with
              | RUb => LUb
              | RErr st => LErr st r
              | ROk v off2 =>
                  load_entries iw data size k'
                    (mkReg (readonly r) (update (string_of key) (opt_load o v) (entries r))) off2
              end
          end
      end
  end.

Definition load_registry (iw : Z) (data : list Z) (size : Z) (r : registry) (off : Z) : lreg :=
  match deserialize iw data size (TS SInt) off with
  | RUb => LUb
  | RErr st => LErr st r
  | ROk n off1 =>
      let n := scalar_of n in
      if (len (entries r) <? n) || (n <? 0) then LErr st_invalid_file_data r
      else load_entries iw data size (Z.to_nat n) r off1
  end.

(** An algorithm object: serialization version (basic_handle.hpp:51), options, members *)
Record algo := mkAlgo { a_version : Z; a_opts : registry; a_members : list val }.

(** basic_handle.cpp:253-302 ([preallocate_buffer], [save_model]) after
    [set_buffer_data] (model_persistence.cpp:65-72).  The status of adding the registry size is
    overwritten (basic_handle.cpp:263-268). *)
Definition save_model (iw prec htype : Z) (lib : str) (a : algo) : da_status * list Z :=
  let '(st, size1) := reserve_all iw (a_members a) (metadata_size lib) in
  if negb (is_success st) then (st, [])
  else
    let '(_, size2) := add_size iw size1 (registry_size (a_opts a)) in
    let '(st, w) := serialize_all size2 (metadata_values iw (a_version a) htype prec lib) [] in
    if negb (is_success st) then (st, w)
    else
      let '(st, w) := save_registry size2 (a_opts a) w in
      if negb (is_success st) then (st, w)
      else serialize_all size2 (a_members a) w.

(** What [da_handle_init] builds for a handle type: version, declared options, member types *)
Record decl := mkDecl { d_version : Z; d_opts : registry; d_types : list ty }.

Inductive loaded :=
| HLoaded (a : algo) (off : Z)      (* complete model, next offset *)
| HStatus (st : da_status)          (* error status *)
| HNull                             (* member function called through a null pointer *)
| HUb.                              (* read outside the buffer *)

(** basic_handle.cpp:304-326 ([load_model]) *)
Definition load_model (iw : Z) (data : list Z) (size : Z) (d : decl) (md : metadata) (off : Z)
  : loaded :=
  if negb (md_version md =? d_version d) then HStatus st_version_mismatch
  else
    match load_registry iw data size (d_opts d) off with
    | LUb => HUb
    | LErr st _ => HStatus st
    | LOk r off1 =>
        match deserialize_all iw data size (d_types d) off1 with
        | RUb => HUb
        | RErr st => HStatus st
        | ROk vs off2 => HLoaded (mkAlgo (d_version d) r vs) off2
        end
    end.

(** da_handle.cpp:103-137 ([load_handle]); [init] is [da_handle_init] (da_handle_public.cpp:35-196),
    which succeeds without an algorithm ([None]) for a handle type outside the switch. *)
Definition load_handle (iw : Z) (init : Z -> Z -> option decl) (data : list Z) (size : Z) : loaded :=
  match deserialize_metadata iw data size with
  | RUb => HUb
  | RErr st => HStatus st
  | ROk md off =>
      match init (md_htype md) (md_prec md) with
      | None => HNull
      | Some d => load_model iw data size d md off
      end
  end.

(** da_handle_public.cpp:318-332 ([da_handle_load_model], buffer version) with valid pointers *)
Definition da_handle_load_model (iw : Z) (init : Z -> Z -> option decl) (data : list Z) : loaded :=
  if len data =? 0 then HStatus st_invalid_input else load_handle iw init data (len data).

(** aoclda_handle.h:45-85: the handle types with a case in the switch *)
Definition has_algorithm (htype : Z) : bool := (1 <=? htype) && (htype <=? 13).
