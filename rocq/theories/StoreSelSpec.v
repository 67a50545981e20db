(** What selections of a data store must be: named sets of rows and columns. *)
From Coq Require Import ZArith List Bool.
From Verif Require Import Base IntervalModel StoreModel StoreSpec.
Import ListNotations.
Local Open Scope Z_scope.

Definition bset := Z -> bool.
Definition none_chosen : bset := fun _ => false.
Definition within (i : interval) (x : Z) : bool := (lower i <=? x) && (x <=? upper i).
Definition ok_range (i : interval) (size : Z) : bool :=
  (0 <=? lower i) && (lower i <=? upper i) && (upper i <? size).

(** 0, 1, ..., size - 1 *)
Definition upto (size : Z) : list Z := map Z.of_nat (seq 0 (Z.to_nat size)).

(** Named selections. *)
Definition table := list (key * (bset * bset)).
Fixpoint lookup (k : key) (t : table) : option (bset * bset) :=
  match t with
  | [] => None
  | (k', x) :: r => if key_eqb k k' then Some x else lookup k r
  end.
Fixpoint assign (k : key) (x : bset * bset) (t : table) : table :=
  match t with
  | [] => [(k, x)]
  | (k', y) :: r => if key_eqb k k' then (k', x) :: r else (k', y) :: assign k x r
  end.
Definition chosen_or_none (k : key) (t : table) : bset * bset :=
  match lookup k t with Some x => x | None => (none_chosen, none_chosen) end.

(** The indices selected; none chosen means all. *)
Definition picked (f : bset) (size : Z) : list Z :=
  match filter f (upto size) with [] => upto size | l => l end.

(** Removing a range that extends beyond a non-empty selection on both sides (see C18). *)
Definition encloses (i : interval) (f : bset) (size : Z) : bool :=
  existsb f (upto size)
  && forallb (fun x => negb (f x) || ((lower i <? x) && (x <? upper i))) (upto size).

Section Sel.
  Variable V : Type.
  Variable is_missing : V -> bool.

  Record view := mkView { dat : mat V; chosen : table }.

  Definition has_missing (a : mat V) (cs : list Z) (r : Z) : bool :=
    existsb (fun c => match type_of a c with
                      | Some t => negb (lossless t) && is_missing (cell a r c)
                      | None => false
                      end) cs.

  Inductive scall :=
  | Data (c : call V)
  | SelSlice (k : key) (r c : interval)
  | SelCols (k : key) (c : interval)
  | SelRows (k : key) (r : interval)
  | DelCols (k : key) (c : interval)
  | DelRows (k : key) (r : interval)
  | NonMissing (k : key) (full_rows : bool).

  Inductive sverdict := SAccept (v : view) | SRefuse (s : da_status) | SIrregular.

  Definition add (i : interval) (f : bset) : bset := fun x => f x || within i x.
  Definition del (i : interval) (f : bset) : bset := fun x => f x && negb (within i x).

  Definition spec_scall (c : scall) (v : view) : sverdict :=
    let a := dat v in
    let t := chosen v in
    match c with
    | Data c => match spec_call c a with
                | Accept a' => SAccept (mkView a' t)
                | Refuse s => SRefuse s
                | Irregular => SIrregular
                end
    | _ =>
      match filling a with
      | Some _ => SRefuse st_missing_block
      | None =>
        match c with
        | Data _ => SIrregular
        | SelSlice k r c =>
            let '(fr, fc) := chosen_or_none k t in
            if ok_range c (n_cols a) && ok_range r (rows a)
            then SAccept (mkView a (assign k (add r fr, add c fc) t)) else SRefuse st_invalid_input
        | SelCols k c =>
            let '(fr, fc) := chosen_or_none k t in
            if ok_range c (n_cols a) then SAccept (mkView a (assign k (fr, add c fc) t))
            else SRefuse st_invalid_input
        | SelRows k r =>
            let '(fr, fc) := chosen_or_none k t in
            if ok_range r (rows a) then SAccept (mkView a (assign k (add r fr, fc) t))
            else SRefuse st_invalid_input
        | DelCols k c =>
            if ok_range c (n_cols a) then
              match lookup k t with
              | None => SRefuse st_invalid_input
              | Some (fr, fc) => if encloses c fc (n_cols a) then SIrregular
                                 else SAccept (mkView a (assign k (fr, del c fc) t))
              end
            else SRefuse st_invalid_input
        | DelRows k r =>
            if ok_range r (rows a) then
              match lookup k t with
              | None => SRefuse st_invalid_input
              | Some (fr, fc) => if encloses r fr (rows a) then SIrregular
                                 else SAccept (mkView a (assign k (del r fr, fc) t))
              end
            else SRefuse st_invalid_input
        | NonMissing k full =>
            (* rows of an empty store cannot be examined *)
            if (rows a <=? 0) || (n_cols a <=? 0) then SIrregular
            else
              let new := match lookup k t with None => true | Some _ => false end in
              let '(fr, fc) := chosen_or_none k t in
              let cs := if full then upto (n_cols a) else picked fc (n_cols a) in
              let keep := filter (fun r => negb (has_missing a cs r)) (picked fr (rows a)) in
              (* no row left: the selection must be empty, but no row chosen means all *)
              match keep with
              | [] => SIrregular
              | _ => SAccept (mkView a (assign k (fun x => existsb (Z.eqb x) keep,
                                                  if new then none_chosen else fc) t))
              end
        end
      end
    end.

  Definition scall_store (c : scall) (s : store V) : option (da_status * store V) :=
    match c with
    | Data c => call_store c s
    | SelSlice k r c => Some (select_slice k r c s)
    | SelCols k c => Some (select_columns k c s)
    | SelRows k r => Some (select_rows k r s)
    | DelCols k c => Some (remove_columns k c s)
    | DelRows k r => Some (remove_rows k r s)
    | NonMissing k full => option_map fst (select_non_missing is_missing k full s)
    end.

  Fixpoint spec_srun (h : list scall) (v : view) : option (list da_status * view) :=
    match h with
    | [] => Some ([], v)
    | c :: r =>
        match spec_scall c v with
        | SIrregular => None
        | SRefuse st => match spec_srun r v with Some (l, b) => Some (st :: l, b) | None => None end
        | SAccept v' =>
            match spec_srun r v' with Some (l, b) => Some (st_success :: l, b) | None => None end
        end
    end.
  Fixpoint srun_store (h : list scall) (s : store V) : option (list da_status * store V) :=
    match h with
    | [] => Some ([], s)
    | c :: r =>
        match scall_store c s with
        | None => None
        | Some (st, s') =>
            match srun_store r s' with Some (l, t) => Some (st :: l, t) | None => None end
        end
    end.

  (** The value extraction puts at position p of the caller's array. *)
  Definition placed (a : mat V) (rm : bool) (ld : Z) (rs cs : list Z) (p : Z) : option V :=
    if p <? 0 then None
    else match nth_error rs (Z.to_nat (if rm then p / ld else p mod ld)),
               nth_error cs (Z.to_nat (if rm then p mod ld else p / ld)) with
         | Some r, Some c => Some (cell a r c)
         | _, _ => None
         end.
  Definition consecutive (l : list Z) : Prop :=
    forall i x y, nth_error l i = Some x -> nth_error l (S i) = Some y -> y = x + 1.
  (** The rows, columns and status an extraction must use; [None] if it is refused outright. *)
  Definition extraction_of (v : view) (k : key) : option (list Z * list Z * da_status) :=
    match chosen v with
    | [] => Some (upto (rows (dat v)), upto (n_cols (dat v)), st_full_extraction)
    | t => match lookup k t with
           | Some (fr, fc) => Some (picked fr (rows (dat v)), picked fc (n_cols (dat v)), st_success)
           | None => None
           end
    end.
  Definition all_cols (a : mat V) (ty : btype) (cs : list Z) : Prop :=
    forall j, In j cs -> type_of a j = Some ty.
  (** [fits]: the leading dimension covers one column (or one row) of the extracted array *)
  Definition fits (rm : bool) (ld : Z) (rs cs : list Z) : Prop :=
    if rm then consecutive cs /\ Z.of_nat (length cs) <= ld else Z.of_nat (length rs) <= ld.
End Sel.
Arguments all_cols {V}.
Arguments mkView {V}. Arguments dat {V}. Arguments chosen {V}. Arguments has_missing {V}.
Arguments Data {V}. Arguments SelSlice {V}. Arguments SelCols {V}. Arguments SelRows {V}.
Arguments DelCols {V}. Arguments DelRows {V}. Arguments NonMissing {V}. Arguments SAccept {V}.
Arguments SRefuse {V}. Arguments SIrregular {V}. Arguments spec_scall {V}. Arguments scall_store {V}.
Arguments spec_srun {V}. Arguments srun_store {V}. Arguments placed {V}. Arguments extraction_of {V}.
