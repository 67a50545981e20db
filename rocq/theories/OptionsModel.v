(** Model of the option registry (source/core/utilities/options.hpp, options_public.cpp).

    Simplifications: error message texts, the "set by" flag, option descriptions and printing are
    not modelled.  The unordered map of the registry is an association list with unique names (its
    order matters only when saving, see RegistryModel.v).  Floating point values are Flocq
    [binary32]/[binary64] data compared with the IEEE comparison. *)
From Coq Require Import ZArith List Bool.
From Flocq Require Import IEEE754.Binary IEEE754.Bits.
From Verif Require Import Base.
Import ListNotations.
Local Open Scope Z_scope.

(** options.hpp:192-202 ([OptionUtils::prep_str]).  The three passes: remove leading and trailing
    blanks, replace each run of blanks by one space, lower the case. *)
Fixpoint drop_spaces (s : str) : str :=
  match s with
  | c :: r => if is_space c then drop_spaces r else s
  | [] => []
  end.
Definition trim (s : str) : str := rev (drop_spaces (rev (drop_spaces s))).
(** [in_run] tells that the previous character was a blank. *)
Fixpoint squeeze (in_run : bool) (s : str) : str :=
  match s with
  | [] => []
  | c :: r => if is_space c then (if in_run then squeeze true r else 32 :: squeeze true r)
              else c :: squeeze false r
  end.
Definition prep_str (s : str) : str := map to_lower (squeeze false (trim s)).

(** options.hpp:167-168 *)
Inductive lbound_t := m_inf | greaterthan | greaterequal.
Inductive ubound_t := p_inf | lessthan | lessequal.

(** Comparison operators of the C++ types, from a three-way comparison ([None] = unordered). *)
Section Cmp.
  Context {T : Type} (cmp : T -> T -> option comparison).
  Definition ltb (a b : T) : bool := match cmp a b with Some Lt => true | _ => false end.
  Definition leb (a b : T) : bool := match cmp a b with Some Lt | Some Eq => true | _ => false end.
  Definition eqb (a b : T) : bool := match cmp a b with Some Eq => true | _ => false end.
  Definition gtb (a b : T) : bool := match cmp a b with Some Gt => true | _ => false end.
  Definition geb (a b : T) : bool := match cmp a b with Some Gt | Some Eq => true | _ => false end.

  (** options.hpp:312-329, the data members that matter *)
  Record numopt := mkNum {
    n_value : T; n_lower : T; n_lbound : lbound_t; n_upper : T; n_ubound : ubound_t }.

  (** options.hpp:264-283, the part executed for every call of [validate] *)
  Definition quick_check (lower : T) (lb : lbound_t) (upper : T) (ub : ubound_t) (value : T)
    : da_status :=
    let f1 := match lb with
              | greaterthan => leb value lower
              | greaterequal => ltb value lower
              | m_inf => false end in
    let f2 := match ub with
              | lessthan => geb value upper
              | lessequal => gtb value upper
              | p_inf => false end in
    if f1 || f2 then st_option_invalid_value else st_success.

  (** options.hpp:231-284 with [checkall = true]; [isnan] is constantly false for integers *)
  Definition validate_all (isnan : T -> bool) (lower : T) (lb : lbound_t) (upper : T)
             (ub : ubound_t) (value : T) : da_status :=
    if isnan upper || isnan lower then st_option_invalid_bounds
    else if ltb upper lower && negb (match ub with p_inf => true | _ => false end)
    then st_option_invalid_bounds
    else if eqb lower upper && negb (match lb with m_inf => true | _ => false end)
            && negb (match ub with p_inf => true | _ => false end)
            && negb (match lb, ub with greaterequal, lessequal => true | _, _ => false end)
    then st_option_invalid_bounds
    else if isnan value then st_option_invalid_value
    else quick_check lower lb upper ub value.

  (** options.hpp:331-353: the constructor throws ([None]) when validation fails *)
  Definition mk_numopt (isnan : T -> bool) (lower : T) (lb : lbound_t) (upper : T)
             (ub : ubound_t) (vdefault : T) : option numopt :=
    if is_success (validate_all isnan lower lb upper ub vdefault)
    then Some (mkNum vdefault lower lb upper ub) else None.

  (** options.hpp:504-514 ([OptionNumeric::set], non boolean): validation with
      [checkall = false] *)
  Definition num_set (o : numopt) (v : T) : da_status * numopt :=
    let st := quick_check (n_lower o) (n_lbound o) (n_upper o) (n_ubound o) v in
    if is_success st
    then (st_success, mkNum v (n_lower o) (n_lbound o) (n_upper o) (n_ubound o))
    else (st, o).
End Cmp.
Arguments numopt T : clear implicits.

Definition zcmp (a b : Z) : option comparison := Some (a ?= b).
Definition fcmp : binary32 -> binary32 -> option comparison := b32_compare.
Definition dcmp : binary64 -> binary64 -> option comparison := b64_compare.

(** options.hpp:526-533 *)
Record stropt := mkStr { s_value : str; s_labels : list (str * Z); s_strict : bool }.

Fixpoint assoc {A} (k : str) (l : list (str * A)) : option A :=
  match l with
  | [] => None
  | (k', v) :: r => if str_eqb k k' then Some v else assoc k r
  end.

(** options.hpp:535-594 ([OptionString] constructor); [None] = exception.
    The default is only checked against the labels in strict mode. *)
Definition mk_stropt (labels : list (str * Z)) (vdefault : str) (strict : bool) : option stropt :=
  if strict then
    if negb (str_eqb (prep_str vdefault) vdefault) then None
    else match labels with
         | [] => Some (mkStr vdefault labels strict)
         | _ =>
             if str_eqb vdefault [] then None
             else if forallb (fun e => negb (str_eqb (prep_str (fst e)) [])
                                       && str_eqb (prep_str (fst e)) (fst e)) labels
                     && existsb (fun e => str_eqb (fst e) vdefault) labels
             then Some (mkStr vdefault labels strict) else None
         end
  else Some (mkStr vdefault labels strict).

(** options.hpp:726-758 ([OptionString::set]) *)
Definition str_set (o : stropt) (v : str) : da_status * stropt :=
  match s_labels o with
  | [] => (st_success, mkStr (if s_strict o then prep_str v else v) (s_labels o) (s_strict o))
  | labels =>
      match assoc v labels with
      | Some _ => (st_success, mkStr v (s_labels o) (s_strict o))
      | None =>
          match assoc (prep_str v) labels with
          | Some _ => (st_success, mkStr (prep_str v) (s_labels o) (s_strict o))
          | None => (st_option_invalid_value, o)
          end
      end
  end.

(** options.hpp:691-701 ([OptionString::get(value, id)]); [labels.at] throws [std::out_of_range]
    when the value is not a label: outcome [None]. *)
Definition str_get_id (o : stropt) : option Z :=
  match s_labels o with
  | [] => Some (-1)
  | labels => assoc (s_value o) labels
  end.

(** options.hpp:178-190 and the option classes *)
Inductive otype := TInt | TFloat | TDouble | TString | TBool.
Inductive oval := VInt (z : Z) | VFloat (f : binary32) | VDouble (d : binary64)
                | VStr (s : str) | VBool (b : bool).
Inductive opt :=
| OInt (o : numopt Z) | OFloat (o : numopt binary32) | ODouble (o : numopt binary64)
| OStr (o : stropt) | OBool (b : bool).

Definition type_of_val (v : oval) : otype :=
  match v with VInt _ => TInt | VFloat _ => TFloat | VDouble _ => TDouble
          | VStr _ => TString | VBool _ => TBool end.
Definition type_of_opt (o : opt) : otype :=
  match o with OInt _ => TInt | OFloat _ => TFloat | ODouble _ => TDouble
          | OStr _ => TString | OBool _ => TBool end.
Definition otype_eqb (a b : otype) : bool :=
  match a, b with
  | TInt, TInt | TFloat, TFloat | TDouble, TDouble | TString, TString | TBool, TBool => true
  | _, _ => false
  end.

(** The typed [set] call of options.hpp:844-849; [None] = mismatched cast, which the type test
    before it excludes. *)
Definition opt_set (o : opt) (v : oval) : option (da_status * opt) :=
  match o, v with
  | OInt n, VInt z => let '(st, n') := num_set zcmp n z in Some (st, OInt n')
  | OFloat n, VFloat z => let '(st, n') := num_set fcmp n z in Some (st, OFloat n')
  | ODouble n, VDouble z => let '(st, n') := num_set dcmp n z in Some (st, ODouble n')
  | OStr n, VStr z => let '(st, n') := str_set n z in Some (st, OStr n')
  | OBool _, VBool b => Some (st_success, OBool b)
  | _, _ => None
  end.

Definition opt_get (o : opt) : oval :=
  match o with
  | OInt n => VInt (n_value n) | OFloat n => VFloat (n_value n) | ODouble n => VDouble (n_value n)
  | OStr n => VStr (s_value n) | OBool b => VBool b
  end.

(** options.hpp:773-786 *)
Record registry := mkReg { readonly : bool; entries : list (str * opt) }.

Definition lock (r : registry) : registry := mkReg true (entries r).
Definition unlock (r : registry) : registry := mkReg false (entries r).

Fixpoint remove_key {A} (k : str) (l : list (str * A)) : list (str * A) :=
  match l with
  | [] => []
  | (k', v) :: r => if str_eqb k k' then remove_key k r else (k', v) :: remove_key k r
  end.

(** options.hpp:788-807 ([register_opt]).  Erasing the end iterator (overwrite of an unknown
    option) is undefined: [None]. *)
Definition register_opt (r : registry) (name : str) (o : opt) (overwrite : bool)
  : option (da_status * registry) :=
  if readonly r then Some (st_option_locked, r)
  else
    let after_erase :=
      if overwrite then
        match assoc name (entries r) with
        | Some _ => Some (remove_key name (entries r))
        | None => None
        end
      else Some (entries r) in
    match after_erase with
    | None => None
    | Some l =>
        match assoc name l with
        | Some _ => Some (st_invalid_input, mkReg (readonly r) l)
        | None => Some (st_success, mkReg (readonly r) ((name, o) :: l))
        end
    end.

(** options.hpp:821-831 and the same code in the getters: exact name first, tidy name next *)
Definition resolve (r : registry) (name : str) : option (str * opt) :=
  match assoc name (entries r) with
  | Some o => Some (name, o)
  | None =>
      match assoc (prep_str name) (entries r) with
      | Some o => Some (prep_str name, o)
      | None => None
      end
  end.

Fixpoint update {A} (k : str) (v : A) (l : list (str * A)) : list (str * A) :=
  match l with
  | [] => []
  | (k', v') :: r => if str_eqb k k' then (k', v) :: r else (k', v') :: update k v r
  end.

(** options.hpp:815-855 ([OptionRegistry::set]).  The option is a shared object, modified in
    place. *)
Definition reg_set (r : registry) (name : str) (v : oval) : da_status * registry :=
  if readonly r then (st_option_locked, r)
  else
    match resolve r name with
    | None => (st_option_not_found, r)
    | Some (k, o) =>
        if negb (otype_eqb (type_of_opt o) (type_of_val v)) then (st_option_wrong_type, r)
        else match opt_set o v with
             | Some (st, o') => (st, mkReg (readonly r) (update k o' (entries r)))
             | None => (st_internal_error, r)  (* excluded by the type test, see [reg_set_typed] *)
             end
    end.

(** options.hpp:866-905, 917-938 ([OptionRegistry::get]) *)
Definition reg_get (r : registry) (name : str) (t : otype) : da_status * option oval :=
  match resolve r name with
  | None => (st_option_not_found, None)
  | Some (_, o) =>
      if negb (otype_eqb (type_of_opt o) t) then (st_option_wrong_type, None)
      else (st_success, Some (opt_get o))
  end.

(** options.hpp:940-954 (string value and label id).  [None] in the id = exception. *)
Inductive get_id_result := GStatus (st : da_status) | GValue (s : str) (id : Z) | GThrow.
Definition reg_get_id (r : registry) (name : str) : get_id_result :=
  match resolve r name with
  | None => GStatus st_option_not_found
  | Some (_, OStr o) =>
      match str_get_id o with Some id => GValue (s_value o) id | None => GThrow end
  | Some (_, _) => GStatus st_option_wrong_type
  end.

(** Histories of a registry. *)
Inductive rop :=
| RRegister (name : str) (o : opt) (overwrite : bool)
| RSet (name : str) (v : oval)
| RLock | RUnlock.

Definition rstep (r : registry) (o : rop) : option (da_status * registry) :=
  match o with
  | RRegister n o w => register_opt r n o w
  | RSet n v => Some (reg_set r n v)
  | RLock => Some (st_success, lock r)
  | RUnlock => Some (st_success, unlock r)
  end.

Fixpoint rrun (r : registry) (ops : list rop) : option registry :=
  match ops with
  | [] => Some r
  | o :: rest => match rstep r o with Some (_, r') => rrun r' rest | None => None end
  end.

Definition empty_registry : registry := mkReg false [].

(** options_public.cpp:59-97 and 162-195: copying a string value to the caller's buffer.
    [lvalue] is the length the caller passed; [(size_t)lvalue] wraps negative values.
    [BufWrite n bytes] lists what is written to [value[0..]]; [BufTooSmall n] updates [*lvalue]. *)
Inductive buf_result := BufStatus (st : da_status) | BufTooSmall (needed : Z) | BufWrite (bytes : str).

Definition to_size_t (z : Z) : Z := z mod 2 ^ 64.

Definition options_get_string (r : registry) (name : str) (lvalue : Z) : buf_result :=
  match reg_get r name TString with
  | (st_success, Some (VStr s)) =>
      let n := Z.of_nat (length s) in
      if to_size_t lvalue <=? n then BufTooSmall (n + 1) else BufWrite (s ++ [0])
  | (st, _) => BufStatus st
  end.
