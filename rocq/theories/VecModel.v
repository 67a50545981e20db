(** Model of the growable array (source/core/utilities/da_vector.hpp).

    A buffer obtained from [malloc] is a list of cells, one per element; a cell is [None] while
    its value is indeterminate.  [_data == nullptr] is [buf = None].  Every access goes through the
    allocated length, so an access outside the allocation is the outcome [Oob]; a loop that does
    not end is [Hang]; reading an element through a reference to freed memory is [Uaf].
    [malloc] may fail ([ok = false]): the [std::bad_alloc] it turns into is [Throws], with the
    object as it is left.  Sizes are unbounded naturals: [_capacity <<= 1] does not wrap before
    [malloc] fails. *)
From Coq Require Import List Arith Bool.
Import ListNotations.

(** da_vector.hpp:36 *)
Definition init_capacity : nat := 64.

Section Vec.
  Variable T : Type.
  Notation cell := (option T).

  (** da_vector.hpp:241-244 *)
  Record vec := mkVec { buf : option (list cell); vsize : nat; vcap : nat }.

  Inductive outcome :=
  | Done (v : vec)
  | Throws (v : vec)
  | Oob | Hang | Uaf.

  Definition malloc (n : nat) : option (list cell) := Some (repeat None n).

  (** [while (_capacity < n) _capacity <<= 1;].  The capacity at least doubles unless it is 0, so
      [n] rounds are enough; running out of rounds means the loop never ends
      ([grow_diverges] in VecProofs). *)
  Fixpoint grow (rounds cap n : nat) : option nat :=
    if n <=? cap then Some cap
    else match rounds with O => None | S r => grow r (2 * cap) n end.

  (** [memcpy(dst + off, src, n)] on cells. *)
  Definition memcpy (dst : list cell) (off : nat) (src : option (list cell)) (n : nat)
    : option (list cell) :=
    if n =? 0 then Some dst
    else match src with
         | None => None
         | Some s => if (n <=? length s) && (off + n <=? length dst)
                     then Some (firstn off dst ++ firstn n s ++ skipn (off + n) dst)
                     else None
         end.

  Definition bufcells (v : vec) : list cell := match buf v with Some b => b | None => [] end.

  (** da_vector.hpp:70-75; [None]: the constructor throws and there is no object. *)
  Definition vnew (ok : bool) : option vec :=
    if ok then Some (mkVec (malloc init_capacity) 0 init_capacity) else None.

  (** da_vector.hpp:77-84 *)
  Definition vnew_sized (ok : bool) (n : nat) : option vec :=
    match grow n init_capacity n with
    | None => None
    | Some c => if ok then Some (mkVec (malloc c) n c) else None
    end.

  (** da_vector.hpp:87-92: the new object and what is left of [other]. *)
  Definition moved_from : vec := mkVec None 0 0.
  Definition move_ctor (other : vec) : vec * vec := (other, moved_from).

  (** da_vector.hpp:95-106, for two distinct objects *)
  Definition move_assign (this other : vec) : vec * vec := (other, moved_from).

  (** da_vector.hpp:109-131, for two distinct objects *)
  Definition copy_assign (ok : bool) (this other : vec) : outcome :=
    if 0 <? vcap other then
      if ok then
        match memcpy (repeat None (vcap other)) 0 (buf other) (vsize other) with
        | Some b => Done (mkVec (Some b) (vsize other) (vcap other))
        | None => Oob
        end
      else Throws (mkVec None (vsize other) (vcap other))
    else Done (mkVec None (vsize other) (vcap other)).

  (** da_vector.hpp:139-150 *)
  Definition clear (ok : bool) (v : vec) : outcome :=
    if ok then Done (mkVec (malloc init_capacity) 0 init_capacity)
    else Throws (mkVec None 0 init_capacity).

  (** The reallocation written four times (152-161, 168-178, 200-214, 223-237): a new buffer of
      [c] cells holding the first [_size] cells of the old one. *)
  Definition reallocate (ok : bool) (v : vec) (c : nat) : outcome :=
    if ok then
      match memcpy (repeat None c) 0 (buf v) (vsize v) with
      | Some b => Done (mkVec (Some b) (vsize v) c)
      | None => Oob
      end
    else Throws (mkVec (buf v) (vsize v) c).

  Definition store (v : vec) (i : nat) (x : cell) : option vec :=
    if i <? length (bufcells v)
    then Some (mkVec (Some (firstn i (bufcells v) ++ x :: skipn (S i) (bufcells v)))
                     (vsize v) (vcap v))
    else None.

  (** da_vector.hpp:163: [_data[_size++] = val] *)
  Definition push_end (v : vec) (x : cell) : outcome :=
    match store v (vsize v) x with
    | Some w => Done (mkVec (buf w) (S (vsize w)) (vcap w))
    | None => Oob
    end.

  (** da_vector.hpp:152-164, the value not being an element of the array itself *)
  Definition push_back (ok : bool) (v : vec) (x : cell) : outcome :=
    if vsize v =? vcap v then
      match reallocate ok v (2 * vcap v) with
      | Done w => push_end w x
      | o => o
      end
    else push_end v x.

  (** da_vector.hpp:60-63: element access *)
  Definition at_ (v : vec) (i : nat) : option cell := nth_error (bufcells v) i.

  (** [v.push_back(v[i])]: [val] is a reference into the array; growing frees what it refers to. *)
  Definition push_own (ok : bool) (v : vec) (i : nat) : outcome :=
    if vsize v =? vcap v then
      match reallocate ok v (2 * vcap v) with
      | Done _ => Uaf
      | o => o
      end
    else match at_ v i with Some x => push_end v x | None => Oob end.

  (** da_vector.hpp:167-181 and 183-197: the same code for a da_vector and a std::vector argument,
      given here by its buffer and size. *)
  Definition append (ok : bool) (v : vec) (src : option (list cell)) (n : nat) : outcome :=
    let finish w :=
      match buf w with
      | None => if n =? 0 then Done w else Oob
      | Some b =>
          match memcpy b (vsize w) src n with
          | Some b' => Done (mkVec (Some b') (vsize w + n) (vcap w))
          | None => Oob
          end
      end in
    if vcap v <? vsize v + n then
      match grow (vsize v + n) (vcap v) (vsize v + n) with
      | None => Hang
      | Some c => match reallocate ok v c with Done w => finish w | o => o end
      end
    else finish v.

  (** [v.append(v)]: [vec.data()] and [vec.size()] are read after the reallocation. *)
  Definition append_self (ok : bool) (v : vec) : outcome :=
    let n := vsize v in
    let finish w :=
      match buf w with
      | None => if n =? 0 then Done w else Oob
      | Some b =>
          match memcpy b (vsize w) (buf w) n with
          | Some b' => Done (mkVec (Some b') (vsize w + n) (vcap w))
          | None => Oob
          end
      end in
    if vcap v <? vsize v + n then
      match grow (vsize v + n) (vcap v) (vsize v + n) with
      | None => Hang
      | Some c => match reallocate ok v c with Done w => finish w | o => o end
      end
    else finish v.

  (** da_vector.hpp:222-239 *)
  Definition reserve (ok : bool) (v : vec) (c : nat) : outcome :=
    if vcap v <? c then
      match grow c (vcap v) c with
      | None => Hang
      | Some c' => reallocate ok v c'
      end
    else Done v.

  (** da_vector.hpp:199-219 *)
  Definition resize (ok : bool) (v : vec) (n : nat) : outcome :=
    match reserve ok v n with
    | Done w => Done (mkVec (buf w) n (vcap w))
    | o => o
    end.

  (** A program working on arrays named by naturals.  Every operation carries whether [malloc]
      succeeds during it.  [OpRead] and [OpWrite] are [v[k]] on either side of an assignment. *)
  Inductive op :=
  | OpNew (i : nat)                    (* a fresh array replaces i *)
  | OpNewSized (i n : nat)
  | OpMove (i j : nat)                 (* i = std::move(j) *)
  | OpCopy (i j : nat)                 (* i = j *)
  | OpClear (i : nat)
  | OpPush (i : nat) (x : T)
  | OpPushElem (i j k : nat)           (* i.push_back(j[k]) *)
  | OpAppend (i j : nat)
  | OpAppendStd (i : nat) (l : list T)
  | OpResize (i n : nat)
  | OpReserve (i n : nat)
  | OpWrite (i k : nat) (x : T)
  | OpRead (i k : nat).

  Definition env := nat -> vec.
  Definition upd (e : env) (i : nat) (v : vec) : env :=
    fun j => if j =? i then v else e j.

  (** [Running e out]: the operation completed; [Thrown e]: it threw [std::bad_alloc]. *)
  Inductive result :=
  | Running (e : env) (out : option cell)
  | Thrown (e : env)
  | Undefined            (* access outside an allocation, or through a dangling reference *)
  | Looping.

  Definition lift (e : env) (i : nat) (o : outcome) : result :=
    match o with
    | Done v => Running (upd e i v) None
    | Throws v => Thrown (upd e i v)
    | Oob | Uaf => Undefined
    | Hang => Looping
    end.

  Definition step (ok : bool) (o : op) (e : env) : result :=
    match o with
    | OpNew i => match vnew ok with Some v => Running (upd e i v) None | None => Thrown e end
    | OpNewSized i n =>
        match vnew_sized ok n with Some v => Running (upd e i v) None | None => Thrown e end
    | OpMove i j =>
        if i =? j then Running e None
        else let '(a, b) := move_assign (e i) (e j) in Running (upd (upd e i a) j b) None
    | OpCopy i j => if i =? j then Running e None else lift e i (copy_assign ok (e i) (e j))
    | OpClear i => lift e i (clear ok (e i))
    | OpPush i x => lift e i (push_back ok (e i) (Some x))
    | OpPushElem i j k =>
        if i =? j then lift e i (push_own ok (e i) k)
        else match at_ (e j) k with
             | Some x => lift e i (push_back ok (e i) x)
             | None => Undefined
             end
    | OpAppend i j =>
        if i =? j then lift e i (append_self ok (e i))
        else lift e i (append ok (e i) (buf (e j)) (vsize (e j)))
    | OpAppendStd i l => lift e i (append ok (e i) (Some (map Some l)) (length l))
    | OpResize i n => lift e i (resize ok (e i) n)
    | OpReserve i n => lift e i (reserve ok (e i) n)
    | OpWrite i k x =>
        match store (e i) k (Some x) with
        | Some v => Running (upd e i v) None
        | None => Undefined
        end
    | OpRead i k =>
        match at_ (e i) k with
        | Some x => Running e (Some x)
        | None => Undefined
        end
    end.

  (** All arrays start default-constructed. *)
  Definition start : env := fun _ => mkVec (malloc init_capacity) 0 init_capacity.

  (** A history: operations paired with whether malloc succeeds; [bad_alloc] is caught by the
      caller, who goes on. The outputs are those of the reads, in order. *)
  Fixpoint run (h : list (bool * op)) (e : env) : result * list cell :=
    match h with
    | [] => (Running e None, [])
    | (ok, o) :: r =>
        match step ok o e with
        | Running e' out =>
            let '(res, outs) := run r e' in
            (res, match out with Some c => c :: outs | None => outs end)
        | Thrown e' => run r e'
        | res => (res, [])
        end
    end.
End Vec.

Arguments mkVec {T}. Arguments buf {T}. Arguments vsize {T}. Arguments vcap {T}.
Arguments Done {T}. Arguments Throws {T}. Arguments Oob {T}. Arguments Hang {T}. Arguments Uaf {T}.
Arguments Running {T}. Arguments Thrown {T}. Arguments Undefined {T}. Arguments Looping {T}.
Arguments OpNew {T}. Arguments OpNewSized {T}. Arguments OpMove {T}. Arguments OpCopy {T}.
Arguments OpClear {T}. Arguments OpPush {T}. Arguments OpPushElem {T}. Arguments OpAppend {T}.
Arguments OpAppendStd {T}. Arguments OpResize {T}. Arguments OpReserve {T}. Arguments OpWrite {T}.
Arguments OpRead {T}. Arguments moved_from {T}.
Arguments step {T}. Arguments run {T}. Arguments upd {T}. Arguments start {T}.
Arguments store {T}. Arguments memcpy {T}. Arguments bufcells {T}. Arguments at_ {T}.
Arguments push_end {T}. Arguments push_back {T}. Arguments push_own {T}. Arguments append {T}.
Arguments append_self {T}. Arguments resize {T}. Arguments reserve {T}. Arguments reallocate {T}.
Arguments clear {T}. Arguments copy_assign {T}. Arguments lift {T}.
