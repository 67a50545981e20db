(** Model of the public handle calls (source/core/utilities/da_handle_public.cpp, da_handle.cpp,
    options_public.cpp): which algorithm object a call reaches, and with which status it returns.

    Simplifications: an algorithm object is its option registry, a state of an abstract type [S]
    and a behaviour (result queries and [refresh]) given as a parameter; messages of the error
    trace are not modelled, only the status recorded last.  Allocation does not fail.  A member
    function called through a null pointer is the distinct outcome [Null]. *)
From Coq Require Import ZArith List Bool.
From Verif Require Import Base OptionsModel RegistryModel.
Import ListNotations.
Local Open Scope Z_scope.

Inductive precision := da_single | da_double.
Definition prec_eqb (a b : precision) : bool :=
  match a, b with da_single, da_single | da_double, da_double => true | _, _ => false end.

(** Type of a result array: da_int, float, double. *)
Inductive rtype := RInt | RFloat | RDouble.

(** What a query leaves behind: status, new [*dim], values written to [result] (from index 0). *)
Record answer := mkAns { ans_status : da_status; ans_dim : Z; ans_written : list Z }.

Section Handle.
  Variable S : Type.
  (** The virtual functions of basic_handle.hpp: [get_result] for the type of the handle and for
      da_int, and [refresh]. *)
  Record behaviour := mkBeh {
    b_query : rtype -> S -> Z -> Z -> answer;
    b_refresh : S -> S }.

  Record alg := mkAlg { al_opts : registry; al_state : S; al_beh : behaviour }.

  (** da_handle.hpp:46-57 *)
  Record handle := mkHandle {
    h_prec : precision; h_type : Z; h_d : option alg; h_s : option alg;
    h_status : da_status (* of the error trace, [st_success] after [clear] *) }.

  Definition set_status (st : da_status) (h : handle) : handle :=
    mkHandle (h_prec h) (h_type h) (h_d h) (h_s h) st.
  (** da_handle.hpp:61-64 *)
  Definition clear (h : handle) : handle := set_status st_success h.

  (** da_handle_public.cpp:34-194; [fresh] is the constructor called for a handle type. *)
  Definition da_handle_init (fresh : precision -> Z -> alg) (p : precision) (htype : Z) : handle :=
    let a := if has_algorithm htype then Some (fresh p htype) else None in
    match p with
    | da_double => mkHandle p htype a None st_success
    | da_single => mkHandle p htype None a st_success
    end.

  (** da_handle.cpp:187-197 *)
  Definition check_precision (t : precision) (h : handle) : da_status :=
    if prec_eqb (h_prec h) t then st_success else st_wrong_type.

  (** da_handle.cpp:202-207 *)
  Definition get_alg_handle (t : precision) (h : handle) : option alg :=
    match t with da_double => h_d h | da_single => h_s h end.

  Definition put_alg (t : precision) (a : alg) (h : handle) : handle :=
    match t with
    | da_double => mkHandle (h_prec h) (h_type h) (Some a) (h_s h) (h_status h)
    | da_single => mkHandle (h_prec h) (h_type h) (h_d h) (Some a) (h_status h)
    end.

  (** Outcome of a call: status returned, handle afterwards, answer to a query. *)
  Inductive outcome :=
  | Ret (st : da_status) (h : option handle) (a : option answer)
  | Null.

  (** [da_error]: record and return the status *)
  Definition fail (st : da_status) (h : handle) : outcome := Ret st (Some (set_status st h)) None.

  Definition ask (t : rtype) (a : alg) (query dim : Z) (h : handle) : outcome :=
    let r := b_query (al_beh a) t (al_state a) query dim in
    Ret (ans_status r) (Some (set_status (ans_status r) h)) (Some r).

  (** da_handle_public.cpp:233-266.  [dim] is [None] for a null pointer, [res] false for a null
      result array. *)
  Definition da_handle_get_result (t : rtype) (h : option handle) (query : Z) (dim : option Z)
             (res : bool) : outcome :=
    match h with
    | None => Ret st_handle_not_initialized None None
    | Some h =>
        let h := clear h in
        match dim with
        | None => fail st_invalid_input h
        | Some d =>
            if negb res then fail st_invalid_input h
            else
              match t with
              | RInt =>
                  match h_d h with
                  | Some a => ask t a query d h
                  | None => match h_s h with
                            | Some a => ask t a query d h
                            | None => fail st_handle_not_initialized h
                            end
                  end
              | _ =>
                  let p := match t with RDouble => da_double | _ => da_single end in
                  if negb (is_success (check_precision p h)) then fail (check_precision p h) h
                  else match get_alg_handle p h with
                       | Some a => ask t a query d h
                       | None => fail st_handle_not_initialized h
                       end
              end
        end
    end.

  (** da_handle.cpp:37-61 ([get_current_opts] with [refresh = true]): the registry, and the handle
      whose algorithm has been refreshed. *)
  Definition get_current_opts (refresh : bool) (h : handle) : da_status * option registry * handle :=
    match get_alg_handle (h_prec h) h with
    | None => (st_invalid_pointer, None, set_status st_invalid_pointer h)
    | Some a =>
        let st := if refresh then b_refresh (al_beh a) (al_state a) else al_state a in
        (st_success, Some (al_opts a),
         put_alg (h_prec h) (mkAlg (al_opts a) st (al_beh a)) h)
    end.

  Definition with_opts (r : registry) (h : handle) : handle :=
    match get_alg_handle (h_prec h) h with
    | None => h
    | Some a => put_alg (h_prec h) (mkAlg r (al_state a) (al_beh a)) h
    end.

  (** options_public.cpp:32-57 (the string version has no precision test) *)
  Definition da_options_set (h : option handle) (name : str) (v : oval) : outcome :=
    match h with
    | None => Ret st_handle_not_initialized None None
    | Some h =>
        let h := clear h in
        let pc := match v with
                  | VFloat _ => check_precision da_single h
                  | VDouble _ => check_precision da_double h
                  | _ => st_success
                  end in
        if negb (is_success pc) then fail pc h
        else
          let '(st, r, h) := get_current_opts true h in
          match r with
          | None => Ret st (Some h) None
          | Some r =>
              let '(st, r') := reg_set r name v in
              let h := with_opts r' h in
              if is_success st then Ret st_success (Some h) None else fail st h
          end
    end.

  (** options_public.cpp:99-125 (numeric types); the value read is left out *)
  Definition da_options_get (h : option handle) (name : str) (t : otype) : outcome :=
    match h with
    | None => Ret st_handle_not_initialized None None
    | Some h =>
        let h := clear h in
        let pc := match t with
                  | TFloat => check_precision da_single h
                  | TDouble => check_precision da_double h
                  | _ => st_success
                  end in
        if negb (is_success pc) then fail pc h
        else
          let '(st, r, h) := get_current_opts false h in
          match r with
          | None => Ret st (Some h) None
          | Some r =>
              let '(st, _) := reg_get r name t in
              if is_success st then Ret st_success (Some h) None else fail st h
          end
    end.

  Definition refresh_alg (a : option alg) : option alg :=
    match a with
    | None => None
    | Some a => Some (mkAlg (al_opts a) (b_refresh (al_beh a) (al_state a)) (al_beh a))
    end.

  (** da_handle_public.cpp:284-291 (no status) *)
  Definition da_handle_refresh (h : option handle) : option handle :=
    match h with
    | None => None
    | Some h => Some (mkHandle (h_prec h) (h_type h) (refresh_alg (h_d h)) (refresh_alg (h_s h))
                               (h_status h))
    end.

  (** da_handle_public.cpp:346-350 and da_handle.cpp:171-185 *)
  Definition da_handle_print_model_versions (h : option handle) : outcome :=
    match h with
    | None => Ret st_invalid_pointer None None
    | Some h =>
        match get_alg_handle (h_prec h) h with
        | None => Ret st_handle_not_initialized (Some h) None
        | Some _ => Ret st_success (Some h) None
        end
    end.

  (** da_handle_public.cpp:308-315 and da_handle.cpp:63-79: the algorithm pointer is not tested.
      [save] stands for [save_model] (RegistryModel.v). *)
  Definition da_handle_save_model (save : alg -> da_status) (h : option handle) : outcome :=
    match h with
    | None => Ret st_invalid_pointer None None
    | Some h =>
        let h := clear h in
        match get_alg_handle (h_prec h) h with
        | None => Null
        | Some a => let st := save a in
                    if is_success st then Ret st_success (Some h) None else fail st h
        end
    end.

  (** Histories of one handle.  [CCompute f] is a call of the algorithm interface (set data,
      compute, train ...): it changes the algorithm state only. *)
  Inductive call :=
  | CQuery (t : rtype) (query : Z) (dim : option Z) (res : bool)
  | CSet (name : str) (v : oval)
  | CGet (name : str) (t : otype)
  | CRefresh
  | CPrint
  | CCompute (f : S -> S).

  Definition compute_alg (f : S -> S) (a : option alg) : option alg :=
    match a with
    | None => None
    | Some a => Some (mkAlg (al_opts a) (f (al_state a)) (al_beh a))
    end.

  Definition after (o : outcome) (h : handle) : handle :=
    match o with Ret _ (Some h') _ => h' | _ => h end.

  Definition cstep (h : handle) (c : call) : handle :=
    match c with
    | CQuery t q d r => after (da_handle_get_result t (Some h) q d r) h
    | CSet n v => after (da_options_set (Some h) n v) h
    | CGet n t => after (da_options_get (Some h) n t) h
    | CRefresh => match da_handle_refresh (Some h) with Some h' => h' | None => h end
    | CPrint => after (da_handle_print_model_versions (Some h)) h
    | CCompute f => mkHandle (h_prec h) (h_type h) (compute_alg f (h_d h)) (compute_alg f (h_s h))
                             (h_status h)
    end.

  Definition crun (h : handle) (cs : list call) : handle := fold_left cstep cs h.
End Handle.
Arguments mkBeh {S}. Arguments b_query {S}. Arguments b_refresh {S}.
Arguments mkAlg {S}. Arguments al_opts {S}. Arguments al_state {S}. Arguments al_beh {S}.
Arguments mkHandle {S}. Arguments h_prec {S}. Arguments h_type {S}. Arguments h_d {S}.
Arguments h_s {S}. Arguments h_status {S}.
Arguments Ret {S}. Arguments Null {S}.
Arguments CQuery {S}. Arguments CSet {S}. Arguments CGet {S}. Arguments CRefresh {S}.
Arguments CPrint {S}. Arguments CCompute {S}.

(** A concrete algorithm object: DBSCAN (clustering/dbscan/dbscan.cpp:71-163, 165-174), whose state
    is the labels of the last clustering, [None] when [model_trained] is false.  Only the query
    da_dbscan_labels (number 1 here) is kept. *)
Definition dbscan_query (t : rtype) (s : option (list Z)) (query dim : Z) : answer :=
  match s with
  | None => mkAns st_no_data dim []
  | Some labels =>
      match t with
      | RInt =>
          if query =? 1 then
            if dim <? Z.of_nat (length labels)
            then mkAns st_invalid_array_dimension (Z.of_nat (length labels)) []
            else mkAns st_success dim labels
          else mkAns st_unknown_query dim []
      | _ => mkAns st_unknown_query dim []
      end
  end.
Definition dbscan_behaviour : behaviour (option (list Z)) :=
  mkBeh dbscan_query (fun _ => None).
