(** What may be stored, and what "the same declared options" means. *)
From Coq Require Import ZArith List Bool.
From Verif Require Import Base OptionsModel PersistModel PersistSpec RegistryModel.
Import ListNotations.
Local Open Scope Z_scope.

(** A string a C++ program can hold: characters are signed chars. *)
Definition text_ok (iw : Z) (s : str) : Prop :=
  len s <= int_max iw /\ Forall (fun c => -128 <= c < 128) s.

Definition storable (iw : Z) (o : opt) : Prop :=
  match o with
  | OInt n => - 2 ^ (8 * iw - 1) <= n_value n < 2 ^ (8 * iw - 1)
  | OStr n => text_ok iw (s_value n)
  | _ => True
  end.

Record registry_ok (iw : Z) (r : registry) : Prop := {
  ro_unique : NoDup (map fst (entries r));
  ro_small : len (entries r) <= int_max iw;
  ro_names : forall k o, In (k, o) (entries r) -> text_ok iw k /\ storable iw o }.

(** [r'] declares every option of [r], with the same type. *)
Definition declares (r' r : registry) : Prop :=
  forall k o, assoc k (entries r) = Some o ->
    exists o', assoc k (entries r') = Some o' /\ type_of_opt o' = type_of_opt o.

(** The declared domain of an option: everything but its value. *)
Definition same_domain (o o' : opt) : Prop :=
  match o, o' with
  | OInt a, OInt b => n_lower a = n_lower b /\ n_lbound a = n_lbound b /\ n_upper a = n_upper b
                      /\ n_ubound a = n_ubound b
  | OFloat a, OFloat b => n_lower a = n_lower b /\ n_lbound a = n_lbound b /\ n_upper a = n_upper b
                      /\ n_ubound a = n_ubound b
  | ODouble a, ODouble b => n_lower a = n_lower b /\ n_lbound a = n_lbound b /\ n_upper a = n_upper b
                      /\ n_ubound a = n_ubound b
  | OStr a, OStr b => s_labels a = s_labels b /\ s_strict a = s_strict b
  | OBool _, OBool _ => True
  | _, _ => False
  end.

(** [r2] has the options of [r1], possibly with other values. *)
Definition same_declarations (r1 r2 : registry) : Prop :=
  readonly r1 = readonly r2 /\ map fst (entries r1) = map fst (entries r2) /\
  forall k, match assoc k (entries r1), assoc k (entries r2) with
            | Some o1, Some o2 => same_domain o1 o2
            | None, None => True
            | _, _ => False
            end.
