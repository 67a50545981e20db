(** Independent reading of the handle contract. *)
From Coq Require Import ZArith List Bool.
From Verif Require Import Base OptionsModel RegistryModel HandleModel.
Import ListNotations.
Local Open Scope Z_scope.

(** Handles a program can hold: created by da_handle_init, then used by any calls. *)
Definition reachable {S} (fresh : precision -> Z -> alg S) (p : precision) (ht : Z) (h : handle S)
  : Prop := exists cs, h = crun S (da_handle_init S fresh p ht) cs.

(** The type of results a handle of a given precision answers. *)
Definition answers (p : precision) (t : rtype) : Prop :=
  match t with RInt => True | RFloat => p = da_single | RDouble => p = da_double end.

(** The algorithm a handle owns, whatever the slot. *)
Definition owned {S} (h : handle S) : option (alg S) :=
  match h_d h with Some a => Some a | None => h_s h end.

(** Reaction to a query: the documented status and nothing written, or the algorithm's answer. *)
Definition rejected {S} (st : da_status) (o : outcome S) : Prop :=
  exists h', o = Ret st h' None.
Definition answered {S} (r : answer) (o : outcome S) : Prop :=
  exists h', o = Ret (ans_status r) h' (Some r).

(** A returned error status. *)
Definition is_error {S} (o : outcome S) : Prop :=
  exists st h a, o = Ret st h a /\ st <> st_success.

(** Two handles give the same answer to every query. *)
Definition same_answers {S} (h1 h2 : handle S) : Prop :=
  forall t q d res, exists st h1' h2' a,
    da_handle_get_result S t (Some h1) q d res = Ret st h1' a /\
    da_handle_get_result S t (Some h2) q d res = Ret st h2' a.
