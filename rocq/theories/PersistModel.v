(** Model of the save/load buffer (source/core/utilities/model_persistence.hpp, .cpp).

    Bytes are numbers 0..255.  A scalar is a mathematical integer: the value for [bool], [da_int],
    enumerations and [char]; the bit pattern for [float] and [double] (they are copied by memcpy).
    [iw] is [sizeof(da_int)], 4 or 8.  Not modelled: [_Float16] members, allocation failure,
    files.  The host is little endian. *)
From Coq Require Import ZArith List Bool String.
From Verif Require Import Base.
Import ListNotations.
Local Open Scope Z_scope.

(** model_persistence.hpp:66-70 *)
Inductive sty := SBool | SInt | SEnum | SChar | SF32 | SF64.
(** Container types, nested; [std::string] is [TV (TS SChar)] *)
Inductive ty := TS (s : sty) | TV (t : ty).
Inductive val := VS (s : sty) (z : Z) | VV (l : list val).

Definition TString := TV (TS SChar).
Definition len {A} (l : list A) : Z := Z.of_nat (List.length l).

(** model_persistence.hpp:54-63: [sizeof(save_type_t<T>)] *)
Definition saved_bytes (s : sty) : nat :=
  match s with SBool => 1 | SInt => 8 | SEnum => 8 | SChar => 1 | SF32 => 4 | SF64 => 8 end.

(** Object representation of an integer on [n] bytes, low byte first *)
Fixpoint le_bytes (n : nat) (z : Z) : list Z :=
  match n with
  | O => []
  | S n' => z mod 256 :: le_bytes n' (z / 256)
  end.
Fixpoint of_le (l : list Z) : Z :=
  match l with [] => 0 | b :: r => b + 256 * of_le r end.

Definition to_signed (bits : Z) (u : Z) : Z :=
  let m := u mod 2 ^ bits in if m <? 2 ^ (bits - 1) then m else m - 2 ^ bits.

(** [static_cast<T>(val)] of model_persistence.cpp:349 from the stored representation [u].
    An enumeration has an unsigned 32 bit underlying type (gcc, non negative enumerators). *)
Definition from_saved (iw : Z) (s : sty) (u : Z) : Z :=
  match s with
  | SBool => if u =? 0 then 0 else 1
  | SInt => to_signed (8 * iw) (to_signed 64 u)
  | SEnum => to_signed 64 u mod 2 ^ 32
  | SChar => to_signed 8 u
  | SF32 | SF64 => u
  end.

(** model_persistence.hpp:85-113 ([get_container_size], [get_type_size]) *)
Fixpoint type_size (v : val) : Z :=
  match v with
  | VS s _ => Z.of_nat (saved_bytes s)
  | VV l => 8 + fold_right (fun x a => type_size x + a) 0 l
  end.

(** model_persistence.cpp:246-259 ([insert_data_in_buffer]); [size] is the reserved size *)
Definition insert_bytes (size : Z) (w : list Z) (b : list Z) : da_status * list Z :=
  if (size <? len w) || (size - len w <? len b) then (st_internal_error, w)
  else (st_success, w ++ b).

(** model_persistence.cpp:262-298 ([serialize_container_impl], [serialize_data]) *)
Fixpoint serialize (size : Z) (v : val) (w : list Z) : da_status * list Z :=
  match v with
  | VS s z => insert_bytes size w (le_bytes (saved_bytes s) z)
  | VV l =>
      let '(st, w1) := insert_bytes size w (le_bytes 8 (len l)) in
      if negb (is_success st) then (st, w1)
      else
        (fix items (l : list val) (w : list Z) : da_status * list Z :=
           match l with
           | [] => (st_success, w)
           | x :: r =>
               let '(st, w') := serialize size x w in
               if is_success st then items r w' else (st, w')
           end) l w1
  end.

(** Outcome of a read: a value and the next offset, a status, or undefined behaviour (a read
    outside the buffer, or overflow of the loop index). *)
Inductive rd (A : Type) := ROk (a : A) (off : Z) | RErr (st : da_status) | RUb.
Arguments ROk {A}. Arguments RErr {A}. Arguments RUb {A}.

(** [std::memcpy(&val, read_ptr + offset, n)] *)
Definition mem_read (data : list Z) (off : Z) (n : nat) : option (list Z) :=
  if (0 <=? off) && (off + Z.of_nat n <=? len data)
  then Some (firstn n (skipn (Z.to_nat off) data)) else None.

(** [std::numeric_limits<da_int>::max()] *)
Definition int_max (iw : Z) : Z := 2 ^ (8 * iw - 1) - 1.

(** model_persistence.cpp:302-357 ([deserialize_container_impl], [deserialize_data]) *)
Fixpoint deserialize (iw : Z) (data : list Z) (size : Z) (t : ty) (off : Z) : rd val :=
  match t with
  | TS s =>
      if size <? off + Z.of_nat (saved_bytes s) then RErr st_invalid_file_data
      else match mem_read data off (saved_bytes s) with
           | None => RUb
           | Some b => ROk (VS s (from_saved iw s (of_le b))) (off + Z.of_nat (saved_bytes s))
           end
  | TV t' =>
      if size <? off + 8 then RErr st_invalid_file_data
      else match mem_read data off 8 with
           | None => RUb
           | Some b =>
               let n := to_signed 64 (of_le b) in
               let off := off + 8 in
               if (n <? 0) || (size - off <? n) then RErr st_invalid_file_data
               else
                 (fix items (k : nat) (i : Z) (acc : list val) (off : Z) : rd val :=
                    match k with
                    | O => ROk (VV (rev acc)) off
                    | S k' =>
                        match deserialize iw data size t' off with
                        | ROk x off' =>
                            if i =? int_max iw then RUb
                            else items k' (i + 1) (x :: acc) off'
                        | RErr st => RErr st
                        | RUb => RUb
                        end
                    end) (Z.to_nat n) 0 [] off
           end
  end.

(** A sequence of members, as the [io_dispatch] lambdas of each algorithm do (for example
    kernel_pca.cpp:1039-1088): reserve, write and read modes of [dispatch_buffer_io]
    (model_persistence.cpp:361-371). *)

(** model_persistence.cpp:74-82 ([add_size]) *)
Definition add_size (iw : Z) (size value : Z) : da_status * Z :=
  if int_max iw <? size + value then (st_invalid_input, size) else (st_success, size + value).

Fixpoint reserve_all (iw : Z) (vs : list val) (size : Z) : da_status * Z :=
  match vs with
  | [] => (st_success, size)
  | v :: r =>
      let '(st, size') := add_size iw size (type_size v) in
      if is_success st then reserve_all iw r size' else (st, size')
  end.

Fixpoint serialize_all (size : Z) (vs : list val) (w : list Z) : da_status * list Z :=
  match vs with
  | [] => (st_success, w)
  | v :: r =>
      let '(st, w') := serialize size v w in
      if is_success st then serialize_all size r w' else (st, w')
  end.

Fixpoint deserialize_all (iw : Z) (data : list Z) (size : Z) (ts : list ty) (off : Z)
  : rd (list val) :=
  match ts with
  | [] => ROk [] off
  | t :: r =>
      match deserialize iw data size t off with
      | ROk v off' =>
          match deserialize_all iw data size r off' with
          | ROk vs off'' => ROk (v :: vs) off''
          | RErr st => RErr st
          | RUb => RUb
          end
      | RErr st => RErr st
      | RUb => RUb
      end
  end.

(** Metadata: model_persistence.hpp:50-52, 166-181 and .cpp:107-170 *)
Definition header_keyword : str := codes "AOCLDA_STORED_MODEL"%string.
Definition min_version : Z := 50301.

Definition vstring (s : str) : val := VV (map (VS SChar) s).
Definition metadata_values (iw version htype prec : Z) (libversion : str) : list val :=
  [vstring header_keyword; VS SInt iw; VS SInt version; VS SEnum htype; VS SInt prec;
   vstring libversion].
Definition metadata_size (libversion : str) : Z :=
  8 + len header_keyword + 8 + 8 + 8 + 8 + 8 + len libversion.

Record metadata := mkMeta { md_version : Z; md_htype : Z; md_prec : Z; md_lib : str }.

Definition scalar_of (v : val) : Z := match v with VS _ z => z | VV _ => 0 end.
Definition string_of (v : val) : str := match v with VV l => map scalar_of l | VS _ _ => [] end.

Definition deserialize_metadata (iw : Z) (data : list Z) (size : Z) : rd metadata :=
  match deserialize iw data size TString 0 with
  | RUb => RUb
  | RErr _ => RErr st_invalid_file_data       (* the string stays empty and differs *)
  | ROk kw off =>
      if negb (str_eqb header_keyword (string_of kw)) then RErr st_invalid_file_data
      else
        match deserialize_all iw data size [TS SInt; TS SInt; TS SEnum; TS SInt; TString] off with
        | RUb => RUb
        | RErr st => RErr st
        | ROk [isz; ver; ht; prec; lib] off =>
            let isz := scalar_of isz in let ver := scalar_of ver in
            let ht := scalar_of ht in let prec := scalar_of prec in
            if ver <? min_version then RErr st_version_mismatch
            else if negb (iw =? isz) && negb (isz =? 4) then RErr st_invalid_file_data
            else if negb (prec =? 4) && negb (prec =? 8) then RErr st_invalid_file_data
            else ROk (mkMeta ver ht prec (string_of lib)) off
        | ROk _ _ => RUb   (* not reachable: five items are read *)
        end
  end.

(** model_persistence.cpp:402-443 ([serialize_user_data]) for a matrix of scalars.
    [x] is the memory of the caller; reading outside it is undefined ([None]). *)
Inductive order := row_major | column_major.

Fixpoint mem_slice (x : list Z) (base : Z) (n : nat) : option (list Z) :=
  match n with
  | O => Some []
  | S n' =>
      if base <? 0 then None
      else match nth_error x (Z.to_nat base) with
           | Some a => match mem_slice x (base + 1) n' with
                       | Some r => Some (a :: r)
                       | None => None
                       end
           | None => None
           end
  end.

(** The elements written, in writing order (lines 423-439 with [serialize_user_data_impl]) *)
Fixpoint user_chunks (x : list Z) (outer : nat) (i inner ldx : Z) : option (list Z) :=
  match outer with
  | O => Some []
  | S o =>
      match mem_slice x (i * ldx) (Z.to_nat inner), user_chunks x o (i + 1) inner ldx with
      | Some a, Some b => Some (a ++ b)
      | _, _ => None
      end
  end.

Definition user_elements (x : list Z) (ord : order) (m n ldx : Z) : option (list Z) :=
  let ord := if n =? 1 then column_major else ord in
  match ord with
  | column_major => user_chunks x (Z.to_nat n) 0 m ldx
  | row_major => user_chunks x (Z.to_nat m) 0 n ldx
  end.

(** What ends up in the file: the element count, then the elements, i.e. a container.
    [None] as memory is the null pointer, saved as an empty container. *)
Definition serialize_user_data (s : sty) (size : Z) (x : option (list Z)) (ord : order)
           (m n ldx : Z) (w : list Z) : option (da_status * list Z) :=
  match x with
  | None => Some (serialize size (VS SInt 0) w)
  | Some x =>
      match user_elements x ord m n ldx with
      | None => None
      | Some els => Some (serialize_all size (VS SInt (m * n) :: map (VS s) els) w)
      end
  end.
