(** Independent specification of option names and option domains. *)
From Coq Require Import ZArith List Bool.
From Flocq Require Import IEEE754.Binary IEEE754.Bits.
From Verif Require Import Base OptionsModel.
Import ListNotations.
Local Open Scope Z_scope.

(** The words of a name: maximal runs of non-blank characters. *)
Fixpoint words_from (cur : str) (s : str) : list str :=
  match s with
  | [] => match cur with [] => [] | _ => [cur] end
  | c :: r =>
      if is_space c
      then match cur with [] => words_from [] r | _ => cur :: words_from [] r end
      else words_from (cur ++ [c]) r
  end.
Definition words (s : str) : list str := words_from [] s.

(** Two spellings of the same name: same words up to letter case. *)
Definition same_name (a b : str) : Prop :=
  map (map to_lower) (words a) = map (map to_lower) (words b).

(** A registry whose registered names are all in tidy form (as the library registers them). *)
Definition tidy (s : str) : Prop := prep_str s = s.
Definition tidy_registry (r : registry) : Prop :=
  Forall (fun e => tidy (fst e)) (entries r).

(** Domain of a numeric option, in terms of the comparison of the value with the bounds. *)
Definition within {T} (cmp : T -> T -> option comparison)
           (lower : T) (lb : lbound_t) (upper : T) (ub : ubound_t) (v : T) : Prop :=
  match lb with
  | m_inf => True
  | greaterthan => cmp v lower = Some Gt
  | greaterequal => cmp v lower = Some Gt \/ cmp v lower = Some Eq
  end /\
  match ub with
  | p_inf => True
  | lessthan => cmp v upper = Some Lt
  | lessequal => cmp v upper = Some Lt \/ cmp v upper = Some Eq
  end.

(** The value an option holds belongs to its declared domain. *)
Definition in_domain (o : opt) : Prop :=
  match o with
  | OInt n => within zcmp (n_lower n) (n_lbound n) (n_upper n) (n_ubound n) (n_value n)
  | OFloat n => within fcmp (n_lower n) (n_lbound n) (n_upper n) (n_ubound n) (n_value n)
  | ODouble n => within dcmp (n_lower n) (n_lbound n) (n_upper n) (n_ubound n) (n_value n)
  | OStr s => s_labels s = [] \/ In (s_value s) (map fst (s_labels s))
  | OBool _ => True
  end.

(** Bounds are not NaN. *)
Definition bounds_ok (o : opt) : Prop :=
  match o with
  | OFloat n => is_nan _ _ (n_lower n) = false /\ is_nan _ _ (n_upper n) = false
  | ODouble n => is_nan _ _ (n_lower n) = false /\ is_nan _ _ (n_upper n) = false
  | _ => True
  end.

Definition not_nan (v : oval) : Prop :=
  match v with
  | VFloat f => is_nan _ _ f = false
  | VDouble d => is_nan _ _ d = false
  | _ => True
  end.

(** An option as the constructors build it. *)
Definition constructed (o : opt) : Prop :=
  match o with
  | OInt n => mk_numopt zcmp (fun _ => false) (n_lower n) (n_lbound n) (n_upper n) (n_ubound n)
                        (n_value n) = Some n
  | OFloat n => mk_numopt fcmp (is_nan _ _) (n_lower n) (n_lbound n) (n_upper n) (n_ubound n)
                        (n_value n) = Some n
  | ODouble n => mk_numopt dcmp (is_nan _ _) (n_lower n) (n_lbound n) (n_upper n) (n_ubound n)
                        (n_value n) = Some n
  | OStr s => mk_stropt (s_labels s) (s_value s) true = Some s
  | OBool _ => True
  end.

(** What a setter call stores: numbers and flags as given; a string as given or in tidy form. *)
Definition stored_as (v v' : oval) : Prop :=
  match v with
  | VStr s => v' = VStr s \/ v' = VStr (prep_str s)
  | _ => v' = v
  end.

(** Operations which are not supposed to affect the option called [n]. *)
Definition unrelated (n : str) (o : rop) : Prop :=
  match o with
  | RRegister n' _ w => w = false /\ tidy n'
  | RSet n' _ => ~ same_name n' n
  | RLock | RUnlock => True
  end.

Definition wf_op (o : rop) : Prop :=
  match o with
  | RRegister n o _ => tidy n /\ constructed o
  | RSet _ v => not_nan v
  | RLock | RUnlock => True
  end.
