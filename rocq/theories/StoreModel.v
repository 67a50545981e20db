(** Model of the data store (source/core/data_management/data_store.hpp:129-1400).

    A [block_id] is a node of a heap, designated by its position; [b] is never null.  The element
    type of a block is a tag; values of all types form one type [V].  A block owns its cells: with
    [copy_data = false] the code shares the caller's array instead, the caller is assumed not to
    touch it.  [None] is an undefined outcome: a null pointer followed, an access outside a buffer
    or a walk that never ends.  Indices are unbounded integers, memory suffices, da_int products
    do not overflow.

    [cmap] (interval_map.hpp:117-168): the intervals are inserted in increasing order, adjacent and
    starting at 0, so [find] is the search for the interval containing the key. *)
From Coq Require Import ZArith List Bool.
From Verif Require Import Base IntervalModel.
Import ListNotations.
Local Open Scope Z_scope.

(** data_store.hpp:58-66, 104-125 *)
Inductive btype := b_int | b_single | b_double | b_str | b_bool.
Definition btype_eqb (a b : btype) : bool :=
  match a, b with
  | b_int, b_int | b_single, b_single | b_double, b_double | b_str, b_str | b_bool, b_bool => true
  | _, _ => false
  end.
Definition lossless (t : btype) : bool := match t with b_str => true | _ => false end.

Inductive key := KUser (s : str) | KAll | KAllCols.
Definition key_eqb (a b : key) : bool :=
  match a, b with
  | KUser s, KUser t => str_eqb s t
  | KAll, KAll | KAllCols, KAllCols => true
  | _, _ => false
  end.

Section Store.
  Variable V : Type.
  (** data_store.hpp:110-125: NaN, or the largest integer *)
  Variable is_missing : V -> bool.

  (** data_store.hpp:169-203 *)
  Record blk := mkBlk { bm : Z; bn : Z; bty : btype; brow : bool; bdat : Z -> V }.
  Record node := mkNode { nb : blk; noff : Z; nnext : option nat; nleft : option nat }.

  (** data_store.hpp:398-423 *)
  Record store := mkStore {
    m : Z; n : Z;
    cmap : list (interval * nat);
    heap : list node;
    pend : bool;                             (* missing_block *)
    pidx : Z;                                (* idx_start_missing *)
    sels : list (key * (iset * iset));       (* rows, columns *)
    names : list (str * Z);                  (* name_to_index *)
    labels : list (option str) }.            (* index_to_name *)
  Definition empty_store : store := mkStore 0 0 [] [] false 0 [] [] [].

  Definition at_node (h : list node) (i : nat) : option node := nth_error h i.
  Fixpoint set_node (h : list node) (i : nat) (x : node) : list node :=
    match h, i with
    | [], _ => []
    | _ :: r, O => x :: r
    | y :: r, S i' => y :: set_node r i' x
    end.
  Fixpoint find_col (k : Z) (c : list (interval * nat)) : option (interval * nat) :=
    match c with
    | [] => None
    | (i, b) :: r => if contains i k then Some (i, b) else find_col k r
    end.

  (** ** Blocks *)

  (** data_store.hpp:207-226: first position and stride of a column *)
  Definition get_col (b : blk) (idx : Z) : option (Z * Z) :=
    if (idx <? 0) || (bn b <=? idx) then None
    else if brow b then Some (idx, bn b) else Some (bm b * idx, 1).

  Definition read_at (b : blk) (p : Z) : option V :=
    if (0 <=? p) && (p <? bm b * bn b) then Some (bdat b p) else None.

  (** data_store.hpp:247-283: the assignments [data[d] = bl[s]] as pairs (d, s) *)
  Fixpoint copy_rows (k : nat) (idx step idx_d : Z) : list (Z * Z) :=
    match k with
    | O => []
    | S k' => (idx_d, idx) :: copy_rows k' (idx + step) step (idx_d + 1)
    end.
  Fixpoint copy_cols_cm (k : nat) (bm0 rl nrows start ld idx idx_d : Z) : list (Z * Z) :=
    match k with
    | O => []
    | S k' =>
        let idx := idx + rl in
        let idx_d := idx_d + start in
        copy_rows (Z.to_nat nrows) idx 1 idx_d
        ++ copy_cols_cm k' bm0 rl nrows start ld
             (idx + nrows + (bm0 - nrows - rl)) (idx_d + nrows + (ld - nrows - start))
    end.
  Fixpoint copy_cols_rm (k : nat) (bn0 first nrows start ld j idx_d : Z) : list (Z * Z) :=
    match k with
    | O => []
    | S k' =>
        let idx := first + j in
        let idx_d := idx_d + start in
        copy_rows (Z.to_nat nrows) idx bn0 idx_d
        ++ copy_cols_rm k' bn0 first nrows start ld (j + 1) (idx_d + nrows + (ld - nrows - start))
    end.
  (** [None]: an interval is not valid (error status) *)
  Definition copy_slice (b : blk) (cols rows : interval) (start ld : Z) : option (list (Z * Z)) :=
    if negb (is_valid_idx cols (bn b)) || negb (is_valid_idx rows (bm b)) then None
    else
      let ncols := upper cols - lower cols + 1 in
      let nrows := upper rows - lower rows + 1 in
      Some (if brow b
            then copy_cols_rm (Z.to_nat ncols) (bn b) (lower rows * bn b + lower cols) nrows start ld
                              0 0
            else copy_cols_cm (Z.to_nat ncols) (bm b) (lower rows) nrows start ld
                              (lower cols * bm b) 0).

  (** data_store.hpp:286-354: rows of the block (given by their index in [valid]) with a missing
      value; [None] for an error or an access outside.  The loops test a cell only while its row
      is still valid, which changes nothing. *)
  Definition cell_pos (b : blk) (i j : Z) : Z := if brow b then i * bn b + j else bm b * j + i.
  Fixpoint irange (lo : Z) (k : nat) : list Z :=
    match k with O => [] | S k' => lo :: irange (lo + 1) k' end.
  Definition span (i : interval) : list Z := irange (lower i) (Z.to_nat (upper i - lower i + 1)).
  Definition missing_rows (b : blk) (valid : Z -> bool) (size idx_valid : Z) (rows cols : interval)
    : option (Z -> bool) :=
    if negb (is_valid_idx cols (bn b)) || negb (is_valid_idx rows (bm b)) then None
    else if (size <? idx_valid + (upper rows - lower rows + 1)) || (idx_valid <? 0) then None
    else if lossless (bty b) then Some valid
    else Some (fun r =>
      let i := r - idx_valid in
      if (0 <=? i) && (i <=? upper rows - lower rows)
         && existsb (fun j => is_missing (bdat b (cell_pos b (lower rows + i) j))) (span cols)
      then false else valid r).

  (** ** Concatenation *)

  (** data_store.hpp:461-510 *)
  Definition set_size (s : store) (m' n' : Z) (c : list (interval * nat)) (h : list node)
             (l : list (option str)) : store :=
    mkStore m' n' c h (pend s) (pidx s) (sels s) (names s) l.
  Definition concat_columns (mc nc : Z) (ty : btype) (rm : bool) (dat : Z -> V) (s : store)
    : da_status * store :=
    if pend s then (st_missing_block, s)
    else if mc <=? 0 then (st_invalid_input, s)
    else if nc <=? 0 then (st_invalid_input, s)
    else if (0 <? m s) && negb (m s =? mc) then (st_invalid_input, s)
    else
      (st_success,
       set_size s (if m s =? 0 then mc else m s) (n s + nc)
         (cmap s ++ [(mkI (n s) (n s + nc - 1), length (heap s))])
         (heap s ++ [mkNode (mkBlk mc nc ty rm dat) (n s) None None])
         (firstn (Z.to_nat (n s + nc)) (labels s)
          ++ repeat None (Z.to_nat (n s + nc) - length (labels s)))).

  (** [while (current->next != nullptr) current = current->next] *)
  Fixpoint last_of (fuel : nat) (h : list node) (i : nat) : option nat :=
    match fuel with
    | O => None
    | S f =>
        match at_node h i with
        | None => None
        | Some x => match nnext x with None => Some i | Some j => last_of f h j end
        end
    end.
  Definition with_next (x : node) (nx : option nat) : node := mkNode (nb x) (noff x) nx (nleft x).
  Definition with_left (x : node) (l : option nat) : node := mkNode (nb x) (noff x) (nnext x) l.

  (** data_store.hpp:557-573: [LinkErr] is [cleanup = true] *)
  Inductive link_result := Linked (h : list node) | LinkErr (h : list node) | LinkUB.
  Fixpoint link (fuel : nat) (c : list (interval * nat)) (ty : btype) (nw : nat) (last ub : Z)
           (h : list node) : link_result :=
    if ub <? last then
      match fuel with
      | O => LinkUB
      | S f =>
          match find_col (ub + 1) c with
          | None => Linked h
          | Some (i, b) =>
              match at_node h b with
              | None => LinkUB
              | Some x =>
                  if negb (btype_eqb ty (bty (nb x))) || (last <? upper i) then LinkErr h
                  else
                    match last_of (S (length h)) h b with
                    | None => LinkUB
                    | Some l =>
                        match at_node h l with
                        | None => LinkUB
                        | Some y =>
                            let h := set_node h l (with_next y (Some nw)) in
                            match at_node h nw with
                            | None => LinkUB
                            | Some z =>
                                let h := match nleft z with
                                         | None => set_node h nw (with_left z (Some l))
                                         | Some _ => h
                                         end in
                                link f c ty nw last (upper i) h
                            end
                        end
                    end
              end
          end
      end
    else Linked h.

  (** data_store.hpp:586-600 *)
  Fixpoint unlink_walk (fuel : nat) (nw : nat) (h : list node) (i : nat) : option (list node) :=
    match fuel with
    | O => None
    | S f =>
        match at_node h i with
        | None => None
        | Some x =>
            match nnext x with
            | None => Some h
            | Some j => if Nat.eqb j nw then Some (set_node h i (with_next x None))
                        else unlink_walk f nw h j
            end
        end
    end.
  Fixpoint unlink (fuel : nat) (c : list (interval * nat)) (nw : nat) (last ub : Z) (h : list node)
    : option (list node) :=
    if ub <? last then
      match fuel with
      | O => None
      | S f =>
          match find_col (ub + 1) c with
          | None => Some h
          | Some (i, b) =>
              match unlink_walk (S (length h)) nw h b with
              | None => None
              | Some h' => unlink f c nw last (upper i) h'
              end
          end
      end
    else Some h.

  (** data_store.hpp:512-607.  The new node stays in the heap after an error; nothing points to it
      any more (the shared pointer frees it). *)
  Definition concat_rows (mr nr : Z) (ty : btype) (rm : bool) (dat : Z -> V) (s : store)
    : option (da_status * store) :=
    if n s <=? 0 then Some (concat_columns mr nr ty rm dat s)
    else
      let idx_start := if pend s then pidx s else 0 in
      if mr <=? 0 then Some (st_invalid_input, s)
      else if nr <=? 0 then Some (st_invalid_input, s)
      else if (0 <? n s) && (n s <? nr + idx_start) then Some (st_invalid_input, s)
      else
        let nw := length (heap s) in
        let h := heap s ++ [mkNode (mkBlk mr nr ty rm dat) idx_start None None] in
        let m1 := if pend s then m s else m s + mr in
        let last := idx_start + nr - 1 in
        let fuel := S (length (cmap s)) in
        match link fuel (cmap s) ty nw last (idx_start - 1) h with
        | LinkUB => None
        | Linked h' =>
            let more := idx_start + nr <? n s in
            Some (st_success,
                  mkStore m1 (n s) (cmap s) h' more (if more then idx_start + nr else 0)
                          (sels s) (names s) (labels s))
        | LinkErr h' =>
            match unlink fuel (cmap s) nw last (idx_start - 1) h' with
            | None => None
            | Some h2 =>
                Some (st_invalid_input,
                      mkStore (m1 - mr) (n s) (cmap s) h2 (pend s) (pidx s)
                              (sels s) (names s) (labels s))
            end
        end.

  (** ** Reading *)

  (** data_store.hpp:1256-1333: the node holding row i and the row inside its block *)
  Fixpoint row_walk (fuel : nat) (h : list node) (b : nat) (i off : Z) : option (nat * Z) :=
    match fuel with
    | O => None
    | S f =>
        match at_node h b with
        | None => None
        | Some x =>
            if bm (nb x) + off <=? i
            then match nnext x with None => None | Some j => row_walk f h j i (off + bm (nb x)) end
            else Some (b, i - off)
        end
    end.
  Definition elem_pos (b : blk) (r c : Z) : option Z :=
    match get_col b c with
    | None => None                            (* [col] stays null *)
    | Some (p, stride) => Some (p + r * stride)
    end.
  Definition locate (ty : btype) (i j : Z) (s : store) : option (da_status + (nat * Z)) :=
    if (i <? 0) || (m s <=? i) then Some (inl st_invalid_input)
    else if (j <? 0) || (n s <=? j) then Some (inl st_invalid_input)
    else
      match find_col j (cmap s) with
      | None => Some (inl st_internal_error)
      | Some (_, b) =>
          match at_node (heap s) b with
          | None => None
          | Some x =>
              if negb (btype_eqb (bty (nb x)) ty) then Some (inl st_invalid_input)
              else
                match row_walk (S (length (heap s)) + Z.to_nat i) (heap s) b i 0 with
                | None => None
                | Some (b', r) =>
                    match at_node (heap s) b' with
                    | None => None
                    | Some y => match elem_pos (nb y) r (j - noff y) with
                                | None => None
                                | Some p => Some (inr (b', p))
                                end
                    end
                end
          end
      end.
  Definition get_element (ty : btype) (i j : Z) (s : store) : option (da_status * option V) :=
    match locate ty i j s with
    | None => None
    | Some (inl st) => Some (st, None)
    | Some (inr (b, p)) =>
        match at_node (heap s) b with
        | None => None
        | Some y => match read_at (nb y) p with Some v => Some (st_success, Some v) | None => None end
        end
    end.
  Definition upd_blk (b : blk) (p : Z) (v : V) : blk :=
    mkBlk (bm b) (bn b) (bty b) (brow b) (fun q => if q =? p then v else bdat b q).
  Definition with_heap (s : store) (h : list node) : store :=
    mkStore (m s) (n s) (cmap s) h (pend s) (pidx s) (sels s) (names s) (labels s).
  Definition set_element (ty : btype) (i j : Z) (v : V) (s : store) : option (da_status * store) :=
    match locate ty i j s with
    | None => None
    | Some (inl st) => Some (st, s)
    | Some (inr (b, p)) =>
        match at_node (heap s) b with
        | None => None
        | Some y =>
            match read_at (nb y) p with
            | None => None
            | Some _ =>
                Some (st_success,
                      with_heap s (set_node (heap s) b
                        (mkNode (upd_blk (nb y) p v) (noff y) (nnext y) (nleft y))))
            end
        end
    end.

  (** The memory of a caller: [Z -> V]; writing pairs (position, value). *)
  Definition write (mem : Z -> V) (w : Z * V) : Z -> V :=
    fun p => if p =? fst w then snd w else mem p.
  Definition writes (mem : Z -> V) (l : list (Z * V)) : Z -> V := fold_left write l mem.

  Fixpoint fetch (b : blk) (l : list (Z * Z)) : option (list (Z * V)) :=
    match l with
    | [] => Some []
    | (d, p) :: r => match read_at b p, fetch b r with
                     | Some v, Some w => Some ((d, v) :: w)
                     | _, _ => None
                     end
    end.

  (** data_store.hpp:654-701; the status, and the assignments to [col].  [sz] is the size given by
      the caller. *)
  Fixpoint column_walk (fuel : nat) (h : list node) (b : option nat) (idx row : Z)
    : option (list (Z * V)) :=
    match b with
    | None => Some []
    | Some b =>
        match fuel with
        | O => None
        | S f =>
            match at_node h b with
            | None => None
            | Some x =>
                match get_col (nb x) (idx - noff x) with
                | None => None                    (* internal error reported *)
                | Some (p, stride) =>
                    match fetch (nb x) (copy_rows (Z.to_nat (bm (nb x))) p stride row),
                          column_walk f h (nnext x) idx (row + bm (nb x)) with
                    | Some w, Some w' => Some (w ++ w')
                    | _, _ => None
                    end
                end
            end
        end
    end.
  Definition extract_column (ty : btype) (idx sz : Z) (s : store)
    : option (da_status * list (Z * V)) :=
    if pend s then Some (st_missing_block, [])
    else if negb (sz =? m s) then Some (st_invalid_input, [])
    else if (idx <? 0) || (n s <=? idx) then Some (st_invalid_input, [])
    else
      match find_col idx (cmap s) with
      | None => None
      | Some (_, b) =>
          match at_node (heap s) b with
          | None => None
          | Some x =>
              if negb (btype_eqb (bty (nb x)) ty) then Some (st_invalid_input, [])
              else match column_walk (S (length (heap s))) (heap s) (Some b) idx 0 with
                   | None => None
                   | Some w => Some (st_success, w)
                   end
          end
      end.

  (** data_store.hpp:735-767: the rows of one column interval *)
  Fixpoint slice_rows (fuel : nat) (h : list node) (b : option nat) (lcol uc lrow urow lr first ld idxr : Z)
    : option (list (Z * V)) :=
    if urow - lr >=? 0 then
      match fuel, b with
      | S f, Some b =>
          match at_node h b with
          | None => None
          | Some x =>
              let ur := Z.min urow (first + bm (nb x) - 1) in
              let rows := mkI (lr - first) (ur - first) in
              let here :=
                if lower rows <=? upper rows then
                  match copy_slice (nb x) (mkI (lcol - noff x) (uc - noff x)) rows idxr ld with
                  | None => None                 (* internal error reported *)
                  | Some l => fetch (nb x) l
                  end
                else Some [] in
              match here,
                    slice_rows f h (nnext x) lcol uc lrow urow (Z.max (ur + 1) lrow) (ur + 1) ld
                               (if lower rows <=? upper rows then idxr + (ur - lr + 1) else idxr) with
              | Some w, Some w' => Some (w ++ w')
              | _, _ => None
              end
          end
      | _, _ => None
      end
    else Some [].
  (** data_store.hpp:708-773.  On a type mismatch the columns to its left have been written. *)
  Fixpoint slice_cols (fuel : nat) (ty : btype) (s : store) (rows : interval) (lcol ucol ld idx : Z)
    : option (da_status * list (Z * V)) :=
    if ucol - lcol >=? 0 then
      match fuel with
      | O => None
      | S f =>
          match find_col lcol (cmap s) with
          | None => None
          | Some (i, b) =>
              match at_node (heap s) b with
              | None => None
              | Some x =>
                  if negb (btype_eqb (bty (nb x)) ty) then Some (st_invalid_input, [])
                  else
                    let uc := Z.min ucol (upper i) in
                    match slice_rows (S (length (heap s))) (heap s) (Some b) lcol uc
                            (lower rows) (upper rows) (lower rows) 0 ld idx,
                          slice_cols f ty s rows (uc + 1) ucol ld (idx + ld * (uc - lcol + 1)) with
                    | Some w, Some (st, w') => Some (st, w ++ w')
                    | _, _ => None
                    end
              end
          end
      end
    else Some (st_success, []).
  Definition extract_slice (ty : btype) (rows cols : interval) (ld first : Z) (s : store)
    : option (da_status * list (Z * V)) :=
    if negb (is_valid_idx cols (n s)) then Some (st_invalid_input, [])
    else if negb (is_valid_idx rows (m s)) then Some (st_invalid_input, [])
    else if ld <? upper rows - lower rows + 1 then Some (st_invalid_input, [])
    else slice_cols (S (length (cmap s))) ty s rows (lower cols) (upper cols) ld first.

  (** ** Selections *)
  Fixpoint sel_find (k : key) (l : list (key * (iset * iset))) : option (iset * iset) :=
    match l with
    | [] => None
    | (k', x) :: r => if key_eqb k k' then Some x else sel_find k r
    end.
  Fixpoint sel_put (k : key) (x : iset * iset) (l : list (key * (iset * iset))) :=
    match l with
    | [] => [(k, x)]
    | (k', y) :: r => if key_eqb k k' then (k', x) :: r else (k', y) :: sel_put k x r
    end.
  Fixpoint sel_erase (k : key) (l : list (key * (iset * iset))) :=
    match l with
    | [] => []
    | (k', y) :: r => if key_eqb k k' then r else (k', y) :: sel_erase k r
    end.
  Definition with_sels (s : store) (l : list (key * (iset * iset))) : store :=
    mkStore (m s) (n s) (cmap s) (heap s) (pend s) (pidx s) l (names s) (labels s).
  Definition sel_of (k : key) (s : store) : iset * iset :=
    match sel_find k (sels s) with Some x => x | None => ([], []) end.

  (** data_store.hpp:784-831, 833-860, 861-893 *)
  Definition select_slice (k : key) (rows cols : interval) (s : store) : da_status * store :=
    if pend s then (st_missing_block, s)
    else if negb (is_valid_idx cols (n s)) || negb (is_valid_idx rows (m s)) then (st_invalid_input, s)
    else let '(r, c) := sel_of k s in
         (st_success,
          with_sels s (sel_put k (snd (IntervalModel.insert rows r), snd (IntervalModel.insert cols c))
                               (sels s))).
  Definition select_columns (k : key) (cols : interval) (s : store) : da_status * store :=
    if pend s then (st_missing_block, s)
    else if negb (is_valid_idx cols (n s)) then (st_invalid_input, s)
    else let '(r, c) := sel_of k s in
         (st_success, with_sels s (sel_put k (r, snd (IntervalModel.insert cols c)) (sels s))).
  Definition select_rows (k : key) (rows : interval) (s : store) : da_status * store :=
    if pend s then (st_missing_block, s)
    else if negb (is_valid_idx rows (m s)) then (st_invalid_input, s)
    else let '(r, c) := sel_of k s in
         (st_success, with_sels s (sel_put k (snd (IntervalModel.insert rows r), c) (sels s))).
  (** data_store.hpp:895-946 *)
  Definition remove_columns (k : key) (cols : interval) (s : store) : da_status * store :=
    if pend s then (st_missing_block, s)
    else if negb (is_valid_idx cols (n s)) then (st_invalid_input, s)
    else match sel_find k (sels s) with
         | None => (st_invalid_input, s)
         | Some (r, c) =>
             (st_success, with_sels s (sel_put k (r, snd (IntervalModel.erase cols c)) (sels s)))
         end.
  Definition remove_rows (k : key) (rows : interval) (s : store) : da_status * store :=
    if pend s then (st_missing_block, s)
    else if negb (is_valid_idx rows (m s)) then (st_invalid_input, s)
    else match sel_find k (sels s) with
         | None => (st_invalid_input, s)
         | Some (r, c) =>
             (st_success, with_sels s (sel_put k (snd (IntervalModel.erase rows r), c) (sels s)))
         end.

  (** data_store.hpp:1008-1026, 1047-1061: all column intervals, for each all row intervals *)
  Definition isize (i : interval) : Z := upper i - lower i + 1.
  Definition total (l : iset) : Z := fold_right (fun i a => isize i + a) 0 l.
  Fixpoint sel_rows (ty : btype) (s : store) (rows : iset) (c : interval) (ld idx : Z)
    : option (da_status * list (Z * V)) :=
    match rows with
    | [] => Some (st_success, [])
    | r :: rs =>
        match extract_slice ty r c ld idx s with
        | None => None
        | Some (st_success, w) =>
            match sel_rows ty s rs c ld (idx + isize r) with
            | None => None
            | Some (st, w') => Some (st, w ++ w')
            end
        | Some (st, w) => Some (st, w)
        end
    end.
  (** [ldi] is the stride in [idx = ncols * ld], [ld] the one given to extract_slice *)
  Fixpoint sel_cols (ty : btype) (s : store) (rows cols : iset) (ldi ld ncols : Z)
    : option (da_status * list (Z * V)) :=
    match cols with
    | [] => Some (st_success, [])
    | c :: cs =>
        match sel_rows ty s rows c ld (ncols * ldi) with
        | None => None
        | Some (st_success, w) =>
            match sel_cols ty s rows cs ldi ld (ncols + isize c) with
            | None => None
            | Some (st, w') => Some (st, w ++ w')
            end
        | Some (st, w) => Some (st, w)
        end
    end.
  (** data_store.hpp:1063-1068: the conversion to row-major; [None]: outside tmp_data *)
  Definition transpose_out (n_rows n_cols ldd ld : Z) (dflt : V) (w : list (Z * V))
    : option (list (Z * V)) :=
    let size := n_cols * n_rows in
    if forallb (fun x => (0 <=? fst x) && (fst x <? size)) w then
      let tmp := writes (fun _ => dflt) w in
      Some (flat_map (fun i => map (fun j => (j + i * ld, tmp (i + j * ldd)))
                                   (irange 0 (Z.to_nat n_cols)))
                     (irange 0 (Z.to_nat n_rows)))
    else None.
  (** data_store.hpp:1030-1061: n_rows as the code computes it, once per column interval *)
  Definition n_rows_rm (rows cols : iset) : Z := Z.of_nat (length cols) * total rows.

  (** data_store.hpp:948-1081.  [dflt] is the value of a fresh element of tmp_data. *)
  Definition extract_selection (k : key) (rm : bool) (ty : btype) (ld : Z) (dflt : V) (s : store)
    : option (da_status * list (Z * V)) :=
    if pend s then Some (st_missing_block, [])
    else
      let full := mkI 0 (m s - 1) in
      let fullc := mkI 0 (n s - 1) in
      let go st0 rows cols :=
        let rows := match rows with [] => [full] | _ => rows end in
        let cols := match cols with [] => [fullc] | _ => cols end in
        if rm then
          let n_cols := total cols in
          let n_rows := n_rows_rm rows cols in
          match sel_cols ty s rows cols ld n_rows 0 with
          | None => None
          | Some (st_success, w) =>
              match transpose_out n_rows n_cols n_rows ld dflt w with
              | None => None
              | Some w' => Some (st0, w')
              end
          | Some (st, w) => Some (st, [])
          end
        else
          match sel_cols ty s rows cols ld ld 0 with
          | None => None
          | Some (st_success, w) => Some (st0, w)
          | Some (st, w) => Some (st, w)
          end in
      match sels s with
      | [] => if negb (is_valid_idx fullc (n s)) || negb (is_valid_idx full (m s))
              then Some (st_internal_error, [])
              else go st_full_extraction [full] [fullc]
      | _ => match sel_find k (sels s) with
             | None => Some (st_invalid_input, [])
             | Some (rows, cols) => go st_success rows cols
             end
      end.

  (** data_store.hpp:1197-1249 *)
  Fixpoint mark_rows (fuel : nat) (h : list node) (b : option nat) (lcol uc urow lr first size : Z)
           (valid : Z -> bool) : option (Z -> bool) :=
    if urow - lr >=? 0 then
      match fuel, b with
      | S f, Some b =>
          match at_node h b with
          | None => None
          | Some x =>
              let ur := Z.min urow (first + bm (nb x) - 1) in
              let rows := mkI (lr - first) (ur - first) in
              let valid' :=
                if lower rows <=? upper rows
                then missing_rows (nb x) valid size lr rows (mkI (lcol - noff x) (uc - noff x))
                else Some valid in
              match valid' with
              | None => None
              | Some v => mark_rows f h (nnext x) lcol uc urow (ur + 1) (ur + 1) size v
              end
          end
      | _, _ => None
      end
    else Some valid.
  Fixpoint mark_cols (fuel : nat) (s : store) (rows : interval) (lcol ucol : Z) (valid : Z -> bool)
    : option (Z -> bool) :=
    if ucol - lcol >=? 0 then
      match fuel with
      | O => None
      | S f =>
          match find_col lcol (cmap s) with
          | None => None
          | Some (i, b) =>
              let uc := Z.min ucol (upper i) in
              match mark_rows (S (length (heap s))) (heap s) (Some b) lcol uc (upper rows)
                              (lower rows) 0 (m s) valid with
              | None => None
              | Some v => mark_cols f s rows (uc + 1) ucol v
              end
          end
      end
    else Some valid.
  Definition mark_missing (s : store) (rows cols : interval) (valid : Z -> bool)
    : option (Z -> bool) :=
    if negb (is_valid_idx cols (n s)) || negb (is_valid_idx rows (m s)) then None
    else mark_cols (S (length (cmap s))) s rows (lower cols) (upper cols) valid.
  Fixpoint mark_all (s : store) (rs : iset) (c : interval) (valid : Z -> bool) :=
    match rs with
    | [] => Some valid
    | r :: rest => match mark_missing s r c valid with
                   | None => None
                   | Some v => mark_all s rest c v
                   end
    end.
  Fixpoint mark_sel (s : store) (rs cs : iset) (valid : Z -> bool) :=
    match cs with
    | [] => Some valid
    | c :: rest => match mark_all s rs c valid with
                   | None => None
                   | Some v => mark_sel s rs rest v
                   end
    end.

  (** data_store.hpp:1167-1188: runs of invalid rows are erased.  [idx_stop] reads the cell before
      the bound is tested: the run ending at the last row reads [valid_rows[m]]; the flag records
      such a read.  [run_end valid m i fuel] is the final [idx_stop]. *)
  Fixpoint run_end (valid : Z -> bool) (m0 i : Z) (fuel : nat) : Z :=
    match fuel with
    | O => i
    | S f => if i <? m0 then (if valid i then i else run_end valid m0 (i + 1) f) else i
    end.
  Fixpoint erase_runs (valid : Z -> bool) (m0 : Z) (fuel : nat) (i : Z) (rows : iset) (oob : bool)
    : iset * bool :=
    match fuel with
    | O => (rows, oob)
    | S f =>
        if i <? m0 then
          if valid i then erase_runs valid m0 f (i + 1) rows oob
          else
            let stop := run_end valid m0 i (Z.to_nat m0) in
            erase_runs valid m0 f stop (snd (IntervalModel.erase (mkI i (stop - 1)) rows))
                       (oob || (m0 <=? stop))
        else (rows, oob)
    end.

  (** data_store.hpp:1089-1195: status, store, and whether [valid_rows] was read past its end *)
  Definition select_non_missing (k : key) (full_rows : bool) (s : store)
    : option (da_status * store * bool) :=
    if pend s then Some (st_missing_block, s, false)
    else
      let full := mkI 0 (m s - 1) in
      let fullc := mkI 0 (n s - 1) in
      let created := match sel_find k (sels s) with None => true | Some _ => false end in
      let s1 := if created then snd (select_slice k full fullc s) else s in
      match sel_find k (sels s1) with
      | None => None                          (* [it] is end() and dereferenced *)
      | Some (r0, c0) =>
          let rows := match r0 with [] => snd (IntervalModel.insert full r0) | _ => r0 end in
          let cols := if full_rows then [fullc]
                      else match c0 with [] => [fullc] | _ => c0 end in
          let clear_cols := created || (negb full_rows && match c0 with [] => true | _ => false end) in
          match mark_sel s1 rows cols (fun _ => true) with
          | None => None
          | Some valid =>
              let '(rows', oob) := erase_runs valid (m s) (S (Z.to_nat (m s))) 0 rows false in
              Some (st_success,
                    with_sels s1 (sel_put k (rows', if clear_cols then [] else c0) (sels s1)), oob)
          end
      end.

  (** ** Labels (data_store.hpp:1336-1400) *)
  Fixpoint name_find (l : str) (t : list (str * Z)) : option Z :=
    match t with
    | [] => None
    | (l', i) :: r => if str_eqb l l' then Some i else name_find l r
    end.
  Fixpoint set_label (l : list (option str)) (i : nat) (x : option str) : list (option str) :=
    match l, i with
    | [], _ => []
    | _ :: r, O => x :: r
    | y :: r, S i' => y :: set_label r i' x
    end.
  (** [insert] does nothing when the label is already there *)
  Definition label_column (l : str) (idx : Z) (s : store) : da_status * store :=
    if (idx <? 0) || (n s <=? idx) then (st_invalid_input, s)
    else if negb (Z.of_nat (length (labels s)) =? n s) then (st_internal_error, s)
    else
      (st_success,
       mkStore (m s) (n s) (cmap s) (heap s) (pend s) (pidx s) (sels s)
               (match name_find l (names s) with Some _ => names s | None => (l, idx) :: names s end)
               (set_label (labels s) (Z.to_nat idx) (Some l))).
  Definition get_col_idx (l : str) (s : store) : da_status * option Z :=
    match name_find l (names s) with
    | None => (st_invalid_input, None)
    | Some i => (st_success, Some i)
    end.
  Definition get_col_label (idx : Z) (s : store) : option (da_status * str) :=
    if (idx <? 0) || (n s <=? idx) then Some (st_invalid_input, [])
    else match nth_error (labels s) (Z.to_nat idx) with
         | None => None
         | Some (Some l) => Some (st_success, l)
         | Some None => Some (st_success, [])
         end.

  (** data_store.hpp:612-648.  The nodes of the second store follow those of the first. *)
  Definition shift_node (k : nat) (x : node) : node :=
    mkNode (nb x) (noff x) (option_map (fun i => (i + k)%nat) (nnext x))
           (option_map (fun i => (i + k)%nat) (nleft x)).
  Definition with_off (x : node) (o : Z) : node := mkNode (nb x) o (nnext x) (nleft x).
  Fixpoint fix_offsets (fuel : nat) (h : list node) (cur : nat) : option (list node) :=
    match fuel with
    | O => None
    | S f =>
        match at_node h cur with
        | None => None
        | Some x =>
            match nnext x with
            | None => Some h
            | Some j =>
                match at_node h j with
                | None => None
                | Some y =>
                    let h := match nleft y with
                             | Some l => if Nat.eqb l cur
                                         then set_node h j (with_off y (noff x)) else h
                             | None => h
                             end in
                    fix_offsets f h j
                end
            end
        end
    end.
  Fixpoint move_blocks (k : nat) (n_orig n0 : Z) (c2 c : list (interval * nat)) (h : list node)
    : option (Z * list (interval * nat) * list node) :=
    match c2 with
    | [] => Some (n0, c, h)
    | (i, b) :: r =>
        let nc := isize i in
        let b := (b + k)%nat in
        match at_node h b with
        | None => None
        | Some x =>
            let h := set_node h b (with_off x (noff x + n_orig)) in
            match fix_offsets (S (length h)) h b with
            | None => None
            | Some h => move_blocks k n_orig (n0 + nc) r (c ++ [(mkI n0 (n0 + nc - 1), b)]) h
            end
        end
    end.
  Definition horizontal_concat (s s2 : store) : option (da_status * store) :=
    if negb (m s =? m s2) then Some (st_invalid_input, s)
    else if pend s || pend s2 then Some (st_invalid_input, s)
    else
      let k := length (heap s) in
      match move_blocks k (n s) (n s) (cmap s2) (cmap s) (heap s ++ map (shift_node k) (heap s2)) with
      | None => None
      | Some (n', c, h) =>
          Some (st_success,
                mkStore (m s) n' c h (pend s) (pidx s) (sels s) (names s) (labels s))
      end.
End Store.
Arguments mkBlk {V}. Arguments bm {V}. Arguments bn {V}. Arguments bty {V}. Arguments brow {V}.
Arguments bdat {V}. Arguments mkNode {V}. Arguments nb {V}. Arguments noff {V}.
Arguments nnext {V}. Arguments nleft {V}. Arguments mkStore {V}. Arguments m {V}. Arguments n {V}.
Arguments cmap {V}. Arguments heap {V}. Arguments pend {V}. Arguments pidx {V}. Arguments sels {V}.
Arguments names {V}. Arguments labels {V}. Arguments empty_store {V}. Arguments at_node {V}.
Arguments set_node {V}. Arguments get_col {V}. Arguments read_at {V}.
Arguments copy_slice {V}. Arguments cell_pos {V}. Arguments missing_rows {V}.
Arguments set_size {V}. Arguments concat_columns {V}. Arguments last_of {V}.
Arguments with_next {V}. Arguments with_left {V}. Arguments Linked {V}. Arguments LinkErr {V}.
Arguments LinkUB {V}. Arguments link {V}. Arguments unlink_walk {V}. Arguments unlink {V}.
Arguments concat_rows {V}. Arguments row_walk {V}. Arguments elem_pos {V}. Arguments locate {V}.
Arguments get_element {V}. Arguments upd_blk {V}. Arguments with_heap {V}. Arguments set_element {V}.
Arguments write {V}. Arguments writes {V}. Arguments fetch {V}. Arguments column_walk {V}.
Arguments extract_column {V}. Arguments slice_rows {V}. Arguments slice_cols {V}.
Arguments extract_slice {V}. Arguments with_sels {V}. Arguments sel_of {V}.
Arguments select_slice {V}. Arguments select_columns {V}. Arguments select_rows {V}.
Arguments remove_columns {V}. Arguments remove_rows {V}. Arguments sel_rows {V}. Arguments sel_cols {V}.
Arguments transpose_out {V}. Arguments extract_selection {V}.
Arguments mark_rows {V}. Arguments mark_cols {V}. Arguments mark_missing {V}. Arguments mark_all {V}.
Arguments mark_sel {V}. Arguments select_non_missing {V}.
Arguments label_column {V}. Arguments get_col_idx {V}. Arguments get_col_label {V}.
Arguments shift_node {V}. Arguments with_off {V}. Arguments fix_offsets {V}. Arguments move_blocks {V}.
Arguments horizontal_concat {V}.
