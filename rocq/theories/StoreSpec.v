(** What a data store must be: a matrix with typed columns, built by putting blocks side by side or
    on top of each other.  Nothing here knows about nodes or chains. *)
From Coq Require Import ZArith List Bool.
From Verif Require Import Base IntervalModel StoreModel.
Import ListNotations.
Local Open Scope Z_scope.

(** Columns come in blocks of one width and type.  [closed] marks the column blocks whose last rows
    came in a row block shared with another column block. *)
Record colblock := mkCol { width : Z; ctype : btype; closed : bool }.
Definition widths (l : list colblock) : Z := fold_right (fun c a => width c + a) 0 l.

Section Spec.
  Variable V : Type.

  (** [filling = Some (k, h)]: h rows are being added, the first k column blocks have theirs. *)
  Record mat := mkMat { rows : Z; cols : list colblock; cell : Z -> Z -> V;
                        filling : option (nat * Z) }.
  Definition n_cols (a : mat) : Z := widths (cols a).

  (** The type of column j. *)
  Fixpoint type_in (l : list colblock) (j : Z) : option btype :=
    match l with
    | [] => None
    | c :: r => if (0 <=? j) && (j <? width c) then Some (ctype c) else type_in r (j - width c)
    end.
  Definition type_of (a : mat) (j : Z) : option btype := type_in (cols a) j.

  (** Value at row r, column c of a caller's array. *)
  Definition in_array (rm : bool) (mc nc : Z) (dat : Z -> V) (r c : Z) : V :=
    dat (if rm then r * nc + c else mc * c + r).

  (** [Irregular]: a call whose effect on the store is not that of a matrix (see the refutations). *)
  Inductive verdict := Accept (a : mat) | Refuse (s : da_status) | Irregular.

  Definition add_columns (mc nc : Z) (ty : btype) (rm : bool) (dat : Z -> V) (a : mat) : verdict :=
    match filling a with
    | Some _ => Refuse st_missing_block
    | None =>
        if (mc <=? 0) || (nc <=? 0) || ((0 <? rows a) && negb (rows a =? mc))
        then Refuse st_invalid_input
        else Accept (mkMat mc (cols a ++ [mkCol nc ty false])
                           (fun i j => if j <? n_cols a then cell a i j
                                       else in_array rm mc nc dat i (j - n_cols a)) None)
    end.

  (** The number of column blocks exactly covered by nr columns of type ty. *)
  Fixpoint covers (l : list colblock) (nr : Z) (ty : btype) : option nat :=
    if nr <=? 0 then Some O
    else match l with
         | [] => None
         | c :: r => if btype_eqb ty (ctype c) && (width c <=? nr)
                     then option_map S (covers r (nr - width c) ty) else None
         end.
  Definition close (b : bool) (c : colblock) : colblock := mkCol (width c) (ctype c) (b || closed c).

  Definition add_rows (mr nr : Z) (ty : btype) (rm : bool) (dat : Z -> V) (a : mat) : verdict :=
    match cols a with
    | [] => add_columns mr nr ty rm dat a
    | _ =>
        let k := match filling a with Some (k, _) => k | None => O end in
        let done := firstn k (cols a) in
        let todo := skipn k (cols a) in
        let st := widths done in
        if (mr <=? 0) || (nr <=? 0) || (n_cols a <? st + nr) then Refuse st_invalid_input
        else if existsb closed todo then Irregular
        else
          match covers todo nr ty with
          | None => match filling a with None => Refuse st_invalid_input | Some _ => Irregular end
          | Some c =>
              if match filling a with Some (_, h) => negb (mr =? h) | None => false end
              then Irregular
              else
                let rows' := match filling a with None => rows a + mr | Some _ => rows a end in
                let base := rows' - mr in
                Accept (mkMat rows'
                  (done ++ map (close (1 <? Z.of_nat c)) (firstn c todo) ++ skipn c todo)
                  (fun i j => if (base <=? i) && (st <=? j) && (j <? st + nr)
                              then in_array rm mr nr dat (i - base) (j - st) else cell a i j)
                  (if (k + c <? length (cols a))%nat then Some ((k + c)%nat, mr) else None))
          end
    end.

  Definition set_cell (ty : btype) (i j : Z) (v : V) (a : mat) : verdict :=
    match filling a with
    | Some _ => Irregular
    | None =>
        if (0 <=? i) && (i <? rows a) then
          match type_of a j with
          | Some t => if btype_eqb t ty
                      then Accept (mkMat (rows a) (cols a)
                             (fun i' j' => if (i' =? i) && (j' =? j) then v else cell a i' j') None)
                      else Refuse st_invalid_input
          | None => Refuse st_invalid_input
          end
        else Refuse st_invalid_input
    end.

  (** Histories of calls on one store. *)
  Inductive call :=
  | LoadCol (mc nc : Z) (ty : btype) (rm : bool) (dat : Z -> V)
  | LoadRow (mr nr : Z) (ty : btype) (rm : bool) (dat : Z -> V)
  | SetElem (ty : btype) (i j : Z) (v : V).

  Definition spec_call (c : call) (a : mat) : verdict :=
    match c with
    | LoadCol mc nc ty rm dat => add_columns mc nc ty rm dat a
    | LoadRow mr nr ty rm dat => add_rows mr nr ty rm dat a
    | SetElem ty i j v => set_cell ty i j v a
    end.
  Definition call_store (c : call) (s : store V) : option (da_status * store V) :=
    match c with
    | LoadCol mc nc ty rm dat => Some (concat_columns mc nc ty rm dat s)
    | LoadRow mr nr ty rm dat => concat_rows mr nr ty rm dat s
    | SetElem ty i j v => set_element ty i j v s
    end.

  (** The statuses and the matrix a history must give; [None] if some call is irregular. *)
  Fixpoint spec_run (h : list call) (a : mat) : option (list da_status * mat) :=
    match h with
    | [] => Some ([], a)
    | c :: r =>
        match spec_call c a with
        | Irregular => None
        | Refuse st => match spec_run r a with Some (l, b) => Some (st :: l, b) | None => None end
        | Accept a' =>
            match spec_run r a' with Some (l, b) => Some (st_success :: l, b) | None => None end
        end
    end.
  Fixpoint run_store (h : list call) (s : store V) : option (list da_status * store V) :=
    match h with
    | [] => Some ([], s)
    | c :: r =>
        match call_store c s with
        | None => None
        | Some (st, s') =>
            match run_store r s' with Some (l, t) => Some (st :: l, t) | None => None end
        end
    end.

  (** Nothing a later call can see has changed; [heap] may have grown by freed blocks. *)
  Definition same_store (s s' : store V) : Prop :=
    m s' = m s /\ n s' = n s /\ cmap s' = cmap s /\ pend s' = pend s /\ pidx s' = pidx s
    /\ sels s' = sels s /\ names s' = names s /\ labels s' = labels s
    /\ exists freed, heap s' = heap s ++ freed.

  (** What reading an element must give. *)
  Definition spec_get (a : mat) (ty : btype) (i j : Z) : da_status * option V :=
    if (0 <=? i) && (i <? rows a) then
      match type_of a j with
      | Some t => if btype_eqb t ty then (st_success, Some (cell a i j)) else (st_invalid_input, None)
      | None => (st_invalid_input, None)
      end
    else (st_invalid_input, None).

  (** What extracting a column must give: status and what is written where. *)
  Definition spec_column (a : mat) (ty : btype) (idx sz : Z) : da_status * list (Z * V) :=
    match filling a with
    | Some _ => (st_missing_block, [])
    | None =>
        if negb (sz =? rows a) then (st_invalid_input, [])
        else match type_of a idx with
             | Some t => if btype_eqb t ty
                         then (st_success, map (fun i => (i, cell a i idx)) (irange 0 (Z.to_nat (rows a))))
                         else (st_invalid_input, [])
             | None => (st_invalid_input, [])
             end
    end.
  (** Columns lo..hi all have type ty. *)
  Definition all_type (a : mat) (ty : btype) (lo hi : Z) : Prop :=
    forall j, lo <= j <= hi -> type_of a j = Some ty.
  (** The matrix of a new store; nothing depends on c0. *)
  Definition start (c0 : Z -> Z -> V) : mat := mkMat 0 [] c0 None.
End Spec.
Arguments start {V}.
Arguments spec_column {V}. Arguments all_type {V}.
Arguments mkMat {V}. Arguments rows {V}. Arguments cols {V}. Arguments cell {V}.
Arguments filling {V}. Arguments n_cols {V}. Arguments type_of {V}. Arguments in_array {V}.
Arguments Accept {V}. Arguments Refuse {V}. Arguments Irregular {V}.
Arguments add_columns {V}. Arguments add_rows {V}. Arguments set_cell {V}.
Arguments LoadCol {V}. Arguments LoadRow {V}. Arguments SetElem {V}. Arguments spec_call {V}.
Arguments call_store {V}. Arguments spec_run {V}. Arguments run_store {V}. Arguments spec_get {V}. Arguments same_store {V}.
